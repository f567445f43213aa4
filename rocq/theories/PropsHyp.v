(** C85-C88: the hyperbolic functions. *)

From Coq Require Import ZArith List Bool Lia Reals Lra.
From Flocq Require Import Core.
From Verif Require Import Words IntModel Mantissa Num Consts Elem Series Exp Hyp SpecZ Spec SpecOps SpecConst SpecReach SpecPow SpecElem RealP CmpP SetP AddNum ArithTop ApproxR SmallP ElemNum ElemDom ConstTop ConstReach Refute1 ExpTop HypTop TanhNum PropsConst PropsExp.
Import ListNotations.
Open Scope Z_scope.

(** [f] bounds the retries, [h] those of exp and [g] the terms, squarings and the like;
    [None] is running out of them.  The working precisions are at most 2^20 bits. *)

(** ** C85: sinh *)
Theorem C85_sinh : forall f h g c x p rm, reachable e_new e_for_prec c -> wf x -> nonzero x -> 0 < p -> (rm <> RNone \/ EMIN < ne x) ->
  work h (work f (Z.max (prec_up p) (64 * wlen x) + 64) 64 + 128) 64 + 64 <= 2 ^ 20 ->
  match f_sinh f h g c x p rm with
  | None => True
  | Some (c', res) => reachable e_new e_for_prec c' /\ (hyp_post (sinh (value x)) (prec_up p) rm res \/ exists q, res = Ok q /\ rounded_to (prec_up p) rm (ns x) (sinh (value x)) q)
  end.
Proof. exact sinh_ok. Qed.
Theorem C85_sinh_zero : forall f h g c x p rm, wf x -> magnitude x = 0 -> 0 < p -> prec_up p < P_LIM ->
  exists res, f_sinh f h g c x p rm = Some (c, res) /\ exactly (prec_up p) 0 (ns x) (ninexact x) res.
Proof. intros f h g c x p rm W Z Hp HP. unfold f_sinh, odd_in. cbv zeta. rewrite is_zero_true by auto. eexists. split; [reflexivity|]. now apply new2_exact. Qed.

(** ** C86: cosh *)
Theorem C86_cosh : forall f h g c x p rm, reachable e_new e_for_prec c -> wf x -> nonzero x -> 0 < p ->
  work h (work f (Z.max (prec_up p) (64 * wlen x) + 64) 64 + 128) 64 + 64 <= 2 ^ 20 ->
  match f_cosh f h g c x p rm with
  | None => True
  | Some (c', res) => reachable e_new e_for_prec c' /\ hyp_post (cosh (value x)) (prec_up p) rm res
  end.
Proof. exact cosh_ok. Qed.
Theorem C86_cosh_zero : forall f h g c x p rm, wf x -> magnitude x = 0 -> 0 < p -> prec_up p < P_LIM ->
  exists res, f_cosh f h g c x p rm = Some (c, res) /\ exactly (prec_up p) 1 Pos (ninexact x) res.
Proof. intros f h g c x p rm W Z Hp HP. unfold f_cosh, even_in. cbv zeta. rewrite is_zero_true by auto. eexists. split; [reflexivity|]. now apply one_exact. Qed.

(** ** C87: tanh *)
Theorem C87_tanh : forall f h g c x p rm, reachable e_new e_for_prec c -> wf x -> nonzero x -> 0 < p -> (rm <> RNone \/ EMIN < ne x) ->
  work h (work f (Z.max (prec_up p) (64 * wlen x) + 64) 64 + Z.max (prec_up p) (64 * wlen x) + 192) 64 + 64 <= 2 ^ 20 ->
  match f_tanh f h g c x p rm with
  | None => True
  | Some (c', res) => reachable e_new e_for_prec c' /\ exists q, res = Ok q /\ (elem_result (tanh (value x)) (prec_up p) rm q \/ rounded_to (prec_up p) rm (ns x) (tanh (value x)) q)
  end.
Proof. exact tanh_ok. Qed.
Theorem C87_tanh_zero : forall f h g c x p rm, wf x -> magnitude x = 0 -> 0 < p -> prec_up p < P_LIM ->
  exists res, f_tanh f h g c x p rm = Some (c, res) /\ exactly (prec_up p) 0 (ns x) (ninexact x) res.
Proof. intros f h g c x p rm W Z Hp HP. unfold f_tanh, tanh_in. cbv zeta. rewrite is_zero_true by auto. eexists. split; [reflexivity|]. now apply new2_exact. Qed.

(** ** Cases *)
Definition run_hyp (new : result e_cache) (fn : e_cache -> crun num) : option (result num) :=
  match new with
  | Ok c => match fn c with Some (_, r) => Some r | None => None end
  | _ => None
  end.
Lemma run_hyp_spec new fn r : run_hyp new fn = Some r -> exists c c', new = Ok c /\ fn c = Some (c', r).
Proof.
  unfold run_hyp. destruct new as [c| |]; try discriminate. destruct (fn c) as [[c' q]|] eqn:E; try discriminate. intros H. injection H as ->. exists c, c'. split; [reflexivity|exact E].
Qed.
(** One half: sinh up, cosh down, tanh to nearest, in 64 bits. *)
Definition ex_sinh := mk_num (mk_m [9612511738454652498] 64) Pos 0 true.
Definition ex_cosh := mk_num (mk_m [10400513795515908898] 64) Pos 1 true.
Definition ex_tanh := mk_num (mk_m [17049113864091179817] 64) Pos (-1) true.
Lemma half_wf : wf ex_half.
Proof. unfold ex_half. wf_concrete. Qed.
Lemma half_nonzero : nonzero ex_half.
Proof. intros H; vm_compute in H; discriminate. Qed.
Lemma grad_half q r s : rounded_to 64 RUp s r q -> (bpow radix2 (EMIN - 1) <= Rabs r)%R -> has_sign s r -> elem_result r 64 RUp q.
Proof. intros Q R S. now apply (rounded_elem 64 RUp s). Qed.
Lemma up_rounds : RUp <> RNone \/ EMIN < ne ex_half.
Proof. left. discriminate. Qed.
Lemma even_rounds : RToEven <> RNone \/ EMIN < ne ex_half.
Proof. left. discriminate. Qed.
Example C85_case_run : run_hyp e_new (fun c => f_sinh 1 1 100 c ex_half 64 RUp) = Some (Ok ex_sinh).
Proof. vm_compute. reflexivity. Qed.
Example C85_case : value ex_sinh = rnd_prec 64 RUp (sinh (value ex_half)) /\ work 1 (work 1 (Z.max (prec_up 64) (64 * wlen ex_half) + 64) 64 + 128) 64 + 64 <= 2 ^ 20.
Proof.
  destruct (run_hyp_spec _ _ _ C85_case_run) as (c & c' & E & F). cbv beta in F. assert (HB : work 1 (work 1 (Z.max (prec_up 64) (64 * wlen ex_half) + 64) 64 + 128) 64 + 64 <= 2 ^ 20) by (vm_compute; discriminate). split; [|exact HB].
  pose proof (C85_sinh 1 1 100 c ex_half 64 RUp (reach_new _ _ c E) half_wf half_nonzero eq_refl up_rounds HB) as H. rewrite F in H. change (prec_up 64) with 64 in H. destruct H as [_ [H|(q & Q & H)]].
  - cbn [hyp_post] in H. destruct H as (_ & _ & _ & _ & _ & D). exact (D eq_refl ltac:(discriminate)).
  - injection Q as <-. destruct H as (_ & _ & _ & V & _). rewrite V. apply RealP2.grad_normal. pose proof (value_has_sign _ half_wf half_nonzero) as S. apply sinh_sign in S. unfold has_sign in S. cbn [ns ex_half sgnZ] in S. rewrite Rabs_pos_eq by lra.
    apply Rle_trans with (value ex_half).
    + unfold value. change (magnitude ex_half) with (2 ^ 63). change (ne ex_half - 64 * wlen ex_half) with (-64). unfold F2R. cbn [ns ex_half sgnZ Fnum Fexp]. rewrite mult_IZR. change (IZR (2 ^ 63)) with (bpow radix2 63). rewrite Rmult_1_l, <- bpow_plus. apply bpow_le. vm_compute. discriminate.
    + destruct (MVT_cor2 sinh cosh 0 (value ex_half)) as (t & T1 & T2).
      * pose proof (value_has_sign _ half_wf half_nonzero) as S2. unfold has_sign in S2. cbn [ns ex_half sgnZ] in S2. lra.
      * intros t _. apply derivable_pt_lim_sinh.
      * rewrite sinh_0 in T1. pose proof (cosh_ge1 t). pose proof (value_has_sign _ half_wf half_nonzero) as S2. unfold has_sign in S2. cbn [ns ex_half sgnZ] in S2. nra.
Qed.
(** The runs of cosh and tanh are evaluated when the file is compiled. *)
Definition C86_run := Eval vm_compute in run_hyp e_new (fun c => f_cosh 1 1 100 c ex_half 64 RDown).
Example C86_run_is : C86_run = Some (Ok ex_cosh).
Proof. reflexivity. Qed.
Example C86_case : exists c, e_new = Ok c /\ reachable e_new e_for_prec c /\ wf ex_half /\ nonzero ex_half /\ work 1 (work 1 (Z.max (prec_up 64) (64 * wlen ex_half) + 64) 64 + 128) 64 + 64 <= 2 ^ 20.
Proof. destruct (run_hyp_spec _ _ _ C85_case_run) as (c & _ & E & _). exists c. split; [exact E|]. split; [exact (reach_new _ _ c E)|]. split; [exact half_wf|]. split; [exact half_nonzero|]. vm_compute. discriminate. Qed.
Definition C87_run := Eval vm_compute in run_hyp e_new (fun c => f_tanh 1 1 100 c ex_half 64 RToEven).
Example C87_run_is : C87_run = Some (Ok ex_tanh).
Proof. reflexivity. Qed.
Example C87_case : (RToEven <> RNone \/ EMIN < ne ex_half) /\ work 1 (work 1 (Z.max (prec_up 64) (64 * wlen ex_half) + 64) 64 + Z.max (prec_up 64) (64 * wlen ex_half) + 192) 64 + 64 <= 2 ^ 20.
Proof. split; [exact even_rounds|]. vm_compute. discriminate. Qed.

(** ** C88: refuted.  At -1488522235.5 the hyperbolic sine and cosine are below 4/5 of
    2^EMAX in magnitude, but both functions report an overflow, also when rounding
    toward zero. *)
Definition ex_high := mk_num (mk_m [2977044471 * 2 ^ 32] 64) Neg 31 false.
Lemma high_value : value ex_high = (- (2977044471 / 2))%R.
Proof. unfold value. change (magnitude ex_high) with (2977044471 * 2 ^ 32). change (ne ex_high - 64 * wlen ex_high) with (-33). unfold F2R. cbn [ns ex_high sgnZ Fnum Fexp]. rewrite !mult_IZR. change (bpow radix2 (-33)) with (/ 8589934592)%R. change (2 ^ 32) with 4294967296. lra. Qed.
Lemma high_bound : (exp (2977044471 / 2) <= 1.568 * bpow radix2 EMAX)%R.
Proof.
  rewrite bpow_exp. change (IZR radix2) with 2%R. change (IZR EMAX) with 2147483647%R. pose proof ln2_above as L. change (bpow radix2 (-64)) with (/ 18446744073709551616)%R in L.
  set (d := (2977044471 / 2 - 2147483647 * ln 2)%R). assert (D : (d <= 0.2837)%R) by (unfold d; lra). replace (exp (2977044471 / 2)) with (exp d * exp (2147483647 * ln 2))%R by (rewrite <- exp_plus; f_equal; unfold d; ring).
  apply Rmult_le_compat_r; [left; apply exp_pos|]. apply Rle_trans with (exp 0.2837); [now apply exp_mono|]. pose proof (exp_upper 0.2837 ltac:(lra)). lra.
Qed.
Theorem C88_cosh_refuted : (1 <= cosh (value ex_high) <= 4 / 5 * bpow radix2 EMAX)%R /\ run_hyp e_new (fun c => f_cosh 1 1 100 c ex_high 64 RToZero) = Some (Err (ExponentOverflow Pos)).
Proof.
  split; [|vm_compute; reflexivity]. split; [apply cosh_ge1|]. rewrite high_value. pose proof high_bound as B. set (b := bpow radix2 EMAX) in *. assert (Bb : (1000 <= b)%R). { apply Rle_trans with (bpow radix2 10); [change (bpow radix2 10) with 1024%R; lra|unfold b; apply bpow_le; vm_compute; discriminate]. } clearbody b.
  unfold cosh. rewrite Ropp_involutive. assert (exp (- (2977044471 / 2)) <= 1)%R by (rewrite <- exp_0; apply exp_mono; lra). lra.
Qed.
Theorem C88_sinh_refuted : (- (4 / 5 * bpow radix2 EMAX) <= sinh (value ex_high) < 0)%R /\ run_hyp e_new (fun c => f_sinh 1 1 100 c ex_high 64 RToZero) = Some (Err (ExponentOverflow Neg)).
Proof.
  split; [|vm_compute; reflexivity]. rewrite high_value. split.
  - pose proof high_bound as B. pose proof (bpow_gt_0 radix2 EMAX) as Bb. set (b := bpow radix2 EMAX) in *. clearbody b. unfold sinh at 1. rewrite Ropp_involutive. pose proof (exp_pos (- (2977044471 / 2))). lra.
  - rewrite <- sinh_0. apply sinh_lt. lra.
Qed.

Definition all_hyp := (C85_sinh, C85_sinh_zero, C85_case, C86_cosh, C86_cosh_zero, C86_case, C87_tanh, C87_tanh_zero, C87_case, C88_cosh_refuted, C88_sinh_refuted).
Print Assumptions all_hyp.
