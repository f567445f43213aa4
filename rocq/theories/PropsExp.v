(** C83, C84: the exponential function. *)

From Coq Require Import ZArith List Bool Lia Reals Lra.
From Flocq Require Import Core.
From Verif Require Import Words IntModel Mantissa Num Consts Elem Series Exp SpecZ Spec SpecOps SpecConst SpecReach SpecPow SpecElem RealP CmpP SetP AddNum ArithTop ApproxR SmallP ElemNum ElemDom ConstTop ConstReach Refute1 ExpTop PropsConst.
Import ListNotations.
Open Scope Z_scope.

(** ** C84.  [f] bounds the retries and [g] the terms and squarings; [None] is running out
    of them.  The last working precision is at most 2^20 bits. *)
Theorem C84_exp : forall f g c x p rm, reachable e_new e_for_prec c -> wf x -> nonzero x -> 0 < p -> work f (Z.max (prec_up p) (64 * wlen x) + 64) 64 + 64 <= 2 ^ 20 ->
  match n_exp f g c x p rm with
  | None => True
  | Some (c', res) => reachable e_new e_for_prec c' /\ exp_post (value x) (prec_up p) rm res
  end.
Proof. exact exp_ok. Qed.
Theorem C84_exp_zero : forall f g c x p rm, wf x -> magnitude x = 0 -> 0 < p -> prec_up p < P_LIM ->
  exists res, n_exp f g c x p rm = Some (c, res) /\ exactly (prec_up p) 1 Pos (ninexact x) res.
Proof. intros f g c x p rm W Z Hp HP. unfold n_exp. match goal with |- context [@exp_top ?A ?ok ?rest x p rm] => exact (@exp_zero A ok rest x p rm W Z Hp HP) end. Qed.

Definition run_exp (new : result e_cache) (f g : nat) (x : num) (p : Z) (rm : rmode) : option num :=
  match new with
  | Ok c => match n_exp f g c x p rm with Some (_, Ok q) => Some q | _ => None end
  | _ => None
  end.
Lemma run_exp_spec new f g x p rm q : run_exp new f g x p rm = Some q -> exists c c', new = Ok c /\ n_exp f g c x p rm = Some (c', Ok q).
Proof.
  unfold run_exp. destruct new as [c| |]; try discriminate. destruct (n_exp f g c x p rm) as [[c' [r| |]]|] eqn:E; try discriminate. intros H. injection H as ->. exists c, c'. split; [reflexivity|exact E].
Qed.
(** Square root of e, rounded up to 64 bits. *)
Definition ex_half := mk_num (mk_m [2 ^ 63] 64) Pos 0 false.
Definition ex_half_up := mk_num (mk_m [15206769664743235148] 64) Pos 1 true.
Example C84_case_run : run_exp e_new 1 100 ex_half 64 RUp = Some ex_half_up.
Proof. vm_compute. reflexivity. Qed.
Example C84_case : exists c c', e_new = Ok c /\ n_exp 1 100 c ex_half 64 RUp = Some (c', Ok ex_half_up) /\ elem_result (exp (value ex_half)) 64 RUp ex_half_up /\ work 1 (Z.max (prec_up 64) (64 * wlen ex_half) + 64) 64 + 64 <= 2 ^ 20.
Proof.
  destruct (run_exp_spec _ _ _ _ _ _ _ C84_case_run) as (c & c' & E & F). exists c, c'. split; [exact E|]. split; [exact F|].
  assert (HB : work 1 (Z.max (prec_up 64) (64 * wlen ex_half) + 64) 64 + 64 <= 2 ^ 20) by (vm_compute; discriminate). split; [|exact HB].
  assert (W : wf ex_half) by (unfold ex_half; wf_concrete). assert (N : nonzero ex_half) by (intros H; vm_compute in H; discriminate).
  pose proof (C84_exp 1 100 c ex_half 64 RUp (reach_new _ _ c E) W N ltac:(lia) HB) as H. rewrite F in H. change (prec_up 64) with 64 in H. destruct H as [_ [H|[H _]]]; [exact H|].
  exfalso. pose proof (value_has_sign ex_half W N) as S. unfold has_sign in S. cbn [ns ex_half sgnZ] in S. lra.
Qed.

(** ** C83: refuted in three ways.

    A negative argument with an exponent above 64 gives minus zero in every rounding
    mode, and the zero is not marked inexact. *)
Theorem C83_minus_zero_refuted : forall f g c x p rm, wf x -> nonzero x -> ns x = Neg -> 64 < ne x -> 0 < p -> prec_up p < P_LIM ->
  exists q, n_exp (S f) g c x p rm = Some (c, Ok q) /\ wf q /\ 64 * wlen q = prec_up p /\ ns q = Neg /\ value q = 0%R /\ ninexact q = ninexact x.
Proof.
  intros f g c x p rm W N S E Hp HP. destruct (new2_exact p Neg (ninexact x) Hp HP) as (q & Eq & Wq & Lq & Sq & Vq & Iq). exists q. split; [|repeat (split; [assumption|]); assumption].
  unfold n_exp, exp_top, small_exp. cbv zeta. rewrite (is_zero_false x W N). replace (Z.max (round_p p) (mantissa_max_bit_len x) + 1 <? - ne x) with false.
  - cbn [exp_loop]. cbv zeta. unfold exp_positive_arg. replace (64 <? ne x) with true by (symmetry; apply Z.ltb_lt; exact E). unfold is_negative. rewrite S. rewrite Eq. reflexivity.
  - symmetry. apply Z.ltb_ge. rewrite round_p_eq by lia. fold (prec_up p). assert (0 <= prec_up p) by (unfold prec_up; Z.div_mod_to_equations; lia). lia.
Qed.
(** e^-1488522236 is a normal number; exp returns zero, not marked inexact, also when
    rounding up. *)
Definition ex_low := mk_num (mk_m [1488522236 * 2 ^ 33] 64) Neg 31 false.
Definition zero64 := mk_num (mk_m [0] 0) Pos 0 false.
Definition run_const {T} (new : result (cache T)) (fp : nat -> cache T -> Z -> rmode -> option (cache T * result num)) (p : Z) (rm : rmode) : option num :=
  match new with
  | Ok c => match const_num fp 31 c p rm with Some (_, Ok y) => Some y | _ => None end
  | _ => None
  end.
Lemma run_const_spec {T} (new : result (cache T)) fp p rm q : run_const new fp p rm = Some q -> exists c c', new = Ok c /\ const_num fp 31 c p rm = Some (c', Ok q).
Proof.
  unfold run_const. destruct new as [c| |]; try discriminate. destruct (const_num fp 31 c p rm) as [[c' [r| |]]|] eqn:E; try discriminate. intros H. injection H as ->. exists c, c'. split; [reflexivity|exact E].
Qed.
Definition ln2_down := mk_num (mk_m [12786308645202655659] 64) Pos 0 true.
Lemma ln2_down_run : run_const ln2_new ln2_for_prec 64 RDown = Some ln2_down.
Proof. vm_compute. reflexivity. Qed.
Lemma ln2_above : (12786308645202655659 * bpow radix2 (-64) <= ln 2)%R.
Proof.
  destruct (run_const_spec _ _ _ _ _ ln2_down_run) as (c & c' & E & F). destruct (C70_ln2 c 64 RDown (reach_new _ _ c E) ltac:(split; [lia|vm_compute; discriminate])) as (c2 & r & F2 & D).
  rewrite F in F2. injection F2 as <- <-. destruct D as (_ & _ & _ & _ & _ & D). destruct (D ltac:(discriminate) eq_refl) as [D1 _].
  change (prec_up 64) with 64 in D1. replace (12786308645202655659 * bpow radix2 (-64))%R with (value ln2_down).
  - rewrite D1. unfold rnd_prec. cbn [rnd]. assert (V : Valid_exp (FLX_exp 64)) by (apply flx_valid; lia). exact (proj1 (proj2 (round_DN_pt radix2 (FLX_exp 64) (ln 2)))).
  - unfold value. change (magnitude ln2_down) with 12786308645202655659. change (ne ln2_down - 64 * wlen ln2_down) with (-64). unfold F2R. cbn [ns ln2_down sgnZ Fnum Fexp]. rewrite mult_IZR. lra.
Qed.
Theorem C83_flushed_refuted : (bpow radix2 (EMIN - 1) <= exp (value ex_low))%R /\ run_exp e_new 1 100 ex_low 64 RUp = Some zero64.
Proof.
  split; [|vm_compute; reflexivity]. assert (V : value ex_low = (-1488522236)%R). { unfold value. change (magnitude ex_low) with (1488522236 * 2 ^ 33). change (ne ex_low - 64 * wlen ex_low) with (-33). unfold F2R. cbn [ns ex_low sgnZ Fnum Fexp]. rewrite !mult_IZR. change (bpow radix2 (-33)) with (/ 8589934592)%R. change (2 ^ 33) with 8589934592. lra. }
  rewrite V, bpow_exp. apply exp_mono. change (IZR radix2) with 2%R. change (IZR (EMIN - 1)) with (-2147483649)%R. pose proof ln2_above as L. change (bpow radix2 (-64)) with (/ 18446744073709551616)%R in L. lra.
Qed.

Definition all_exp := (C84_exp, C84_exp_zero, C84_case, C83_minus_zero_refuted, C83_flushed_refuted).
Print Assumptions all_exp.
