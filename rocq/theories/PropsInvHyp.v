(** C92 - C94: the inverse hyperbolic functions. *)

From Coq Require Import ZArith List Bool Lia Reals Lra.
From Flocq Require Import Core.
From Verif Require Import ElemR Words IntModel Mantissa Num Consts Elem Series Ln InvHyp SpecZ Spec SpecOps SpecConst SpecReach SpecPow SpecElem SpecInvHyp RealP CmpP SetP AddNum ArithTop ElemNum ElemDom ConstTop ConstReach Refute1 LnTop AtanhTop AsinhTop PropsConst PropsLn.
Import ListNotations.
Open Scope Z_scope.

(** [f] bounds the retries, [h] those of ln and [g] the loops of its series; [None] is
    running out of them.  The last working precision of ln is at most 2^14 bits. *)

(** ** C92: atanh *)
Theorem C92_atanh : forall f h g c x p rm, reachable ln2_new ln2_for_prec c -> wf x -> nonzero x -> (Rabs (value x) < 1)%R -> 0 < p -> (rm <> RNone \/ EMIN < ne x) ->
  work h (4 * work f (Z.max (prec_up p) (64 * wlen x) + 64) 64 + 64) 64 <= 2 ^ 14 ->
  match f_atanh f h g c x p rm with
  | None => True
  | Some (c', res) => reachable ln2_new ln2_for_prec c' /\ exists q, res = Ok q /\ (elem_result (artanh (value x)) (prec_up p) rm q \/ rounded_to (prec_up p) rm (ns x) (artanh (value x)) q)
  end.
Proof. exact atanh_ok. Qed.
Theorem C92_atanh_zero : forall f h g c x p rm, wf x -> magnitude x = 0 -> 0 < p -> prec_up p < P_LIM ->
  exists res, f_atanh f h g c x p rm = Some (c, res) /\ exactly (prec_up p) 0 (ns x) (ninexact x) res.
Proof.
  intros f h g c x p rm W Z Hp HP. pose proof (atanh_zero (fun _ _ _ => Panic) x p rm W Z Hp HP) as H. unfold n_atanh in H. unfold f_atanh, lpure. cbv zeta in *. rewrite is_zero_true in * by auto. eexists. split; [reflexivity|exact H].
Qed.
Theorem C92_atanh_domain : forall f h g c x p rm, wf x -> (1 <= Rabs (value x))%R ->
  f_atanh f h g c x p rm = Some (c, Err (if Req_EM_T (Rabs (value x)) 1 then ExponentOverflow (ns x) else InvalidArgument)).
Proof.
  intros f h g c x p rm W V. assert (N : nonzero x) by (intros Z; rewrite (value_zero x Z), Rabs_R0 in V; lra). assert (G : 0 < ne x) by (destruct (exp_one x W N) as [[E _] _]; destruct (Z.lt_ge_cases 0 (ne x)) as [|L]; [auto|]; specialize (E L); lra).
  assert (S : n_atanh (fun _ _ _ => Panic) x p rm = Err (if Req_EM_T (Rabs (value x)) 1 then ExponentOverflow (ns x) else InvalidArgument)). { destruct (Req_EM_T (Rabs (value x)) 1) as [E|E]; [now apply atanh_one|apply atanh_outside; [exact W|lra]]. }
  rewrite <- S. unfold f_atanh, n_atanh, lpure. cbv zeta. rewrite (is_zero_false x W N). destruct (Z.eqb_spec (ne x) 1); [now destruct (n_abs_cmp x ONE =? 0)|]. replace (1 <? ne x) with true by (symmetry; apply Z.ltb_lt; lia). reflexivity.
Qed.

(** ** C93: acosh; [arcosh_spec] and [arcosh_unique] characterise its value. *)
Theorem C93_acosh : forall f h g c x p rm, reachable ln2_new ln2_for_prec c -> wf x -> (1 < value x)%R -> 0 < p ->
  work h (4 * work f (Z.max (prec_up p) (64 * wlen x) + 64) 64 + 64) 64 <= 2 ^ 14 ->
  match f_acosh f h g c x p rm with
  | None => True
  | Some (c', res) => reachable ln2_new ln2_for_prec c' /\ exists q, res = Ok q /\ elem_result (arcosh (value x)) (prec_up p) rm q
  end.
Proof. exact acosh_ok. Qed.
Theorem C93_acosh_value : forall v r, (1 <= v)%R -> (r = arcosh v <-> (0 <= r)%R /\ cosh r = v).
Proof. intros v r H. split; [intros ->; now apply arcosh_spec|intros [R C]; now apply arcosh_unique]. Qed.
Theorem C93_acosh_one : forall f h g c x p rm, wf x -> value x = 1%R -> 0 < p -> prec_up p < P_LIM ->
  exists res, f_acosh f h g c x p rm = Some (c, res) /\ exactly (prec_up p) 0 Pos (ninexact x) res.
Proof.
  intros f h g c x p rm W V Hp HP. pose proof (cmp_one x W) as C. rewrite V, Rcompare_Eq in C by lra. cbn [sgn_of] in C. unfold f_acosh, lpure. cbv zeta.
  replace (n_cmp x ONE =? 0) with true by lia. eexists. split; [reflexivity|]. now apply new2_exact.
Qed.
Theorem C93_acosh_domain : forall f h g c x p rm, wf x -> (value x < 1)%R -> f_acosh f h g c x p rm = Some (c, Err InvalidArgument).
Proof.
  intros f h g c x p rm W V. pose proof (cmp_one x W) as C. rewrite Rcompare_Lt in C by lra. cbn [sgn_of] in C. unfold f_acosh, lpure. cbv zeta.
  replace (n_cmp x ONE =? 0) with false by lia. replace (n_cmp x ONE <? 0) with true by lia. reflexivity.
Qed.

(** ** C94: asinh *)
Theorem C94_asinh : forall f h g c x p rm, reachable ln2_new ln2_for_prec c -> wf x -> nonzero x -> 0 < p -> (rm <> RNone \/ EMIN < ne x) ->
  work h (4 * work f (Z.max (prec_up p) (64 * wlen x) + 64) 64 + 64) 64 <= 2 ^ 14 ->
  match f_asinh f h g c x p rm with
  | None => True
  | Some (c', res) => reachable ln2_new ln2_for_prec c' /\ exists q, res = Ok q /\ (elem_result (arcsinh (value x)) (prec_up p) rm q \/ rounded_to (prec_up p) rm (ns x) (arcsinh (value x)) q)
  end.
Proof. exact asinh_ok. Qed.
Theorem C94_asinh_zero : forall f h g c x p rm, wf x -> magnitude x = 0 -> 0 < p -> prec_up p < P_LIM ->
  exists res, f_asinh f h g c x p rm = Some (c, res) /\ exactly (prec_up p) 0 (ns x) (ninexact x) res.
Proof. intros f h g c x p rm W Z Hp HP. unfold f_asinh, odd_in. cbv zeta. rewrite is_zero_true by auto. eexists. split; [reflexivity|]. now apply new2_exact. Qed.

(** ** Cases.  The runs are evaluated when the file is compiled: atanh(-3/4) down, acosh of
    3, of the number after 1, of a large number and with the largest exponent, and
    asinh(-3) up. *)
Definition run_inv (op : ln2_cache -> lrun num) : option num :=
  match ln2_new with
  | Ok c => match op c with Some (_, Ok q) => Some q | _ => None end
  | _ => None
  end.
Definition ex_m34 := mk_num (mk_m [3 * 2 ^ 62] 64) Neg 0 false.
Definition ex_m3 := mk_num (mk_m [3 * 2 ^ 62] 64) Neg 2 false.
Definition ex_big := mk_num (mk_m [3 * 2 ^ 62] 64) Pos 1000 false.
Definition ex_top := mk_num (mk_m [3 * 2 ^ 62] 64) Pos EMAX false.
Definition C92_run := Eval vm_compute in run_inv (fun c => f_atanh 1 1 100 c ex_m34 64 RDown).
Example C92_run_is : C92_run = Some (mk_num (mk_m [17947853255028685476] 64) Neg 0 true).
Proof. reflexivity. Qed.
Definition C93_run := Eval vm_compute in map (fun x => run_inv (fun c => f_acosh 1 1 100 c x 64 RDown)) [ex_three; ex_near; ex_big; ex_top].
Example C93_run_is : C93_run = map (fun '(m, e) => Some (mk_num (mk_m [m] 64) Pos e true)) [(16258472993076885088, 1); (18446744073709551615, -31); (12493933746369869085, 10); (12786308642731485474, 31)].
Proof. reflexivity. Qed.
Definition C94_run := Eval vm_compute in run_inv (fun c => f_asinh 1 1 100 c ex_m3 64 RUp).
Example C94_run_is : C94_run = Some (mk_num (mk_m [16772208222598623215] 64) Neg 1 true).
Proof. reflexivity. Qed.

Lemma one_word_neg w e : value (mk_num (mk_m [w] 64) Neg e false) = (- (IZR w * bpow radix2 (e - 64)))%R.
Proof. unfold value, magnitude, wlen, Words.zlen. cbn [ns nm mm ne sgnZ length]. change (64 * Z.of_nat 1) with 64. cbn [val]. unfold F2R. cbn [Fnum Fexp]. rewrite Z.mul_0_r, Z.add_0_r, mult_IZR. change (IZR (-1)) with (-1)%R. ring. Qed.
Lemma ex_m34_value : value ex_m34 = (- (3 / 4))%R.
Proof. unfold ex_m34. rewrite one_word_neg. change (0 - 64) with (-64). rewrite mult_IZR. change (bpow radix2 (-64)) with (/ 18446744073709551616)%R. change (2 ^ 62) with 4611686018427387904. field. Qed.
Example C92_case : exists c, reachable ln2_new ln2_for_prec c /\ wf ex_m34 /\ nonzero ex_m34 /\ (Rabs (value ex_m34) < 1)%R /\ work 1 (4 * work 1 (Z.max (prec_up 64) (64 * wlen ex_m34) + 64) 64 + 64) 64 <= 2 ^ 14.
Proof.
  destruct C70_case as (c & _ & R). exists c. split; [exact R|]. split; [unfold ex_m34; wf_concrete|]. split; [intros H; vm_compute in H; discriminate|]. rewrite ex_m34_value. split; [apply Rabs_def1; lra|]. vm_compute. discriminate.
Qed.
Example C93_case : exists c, reachable ln2_new ln2_for_prec c /\ wf ex_near /\ (1 < value ex_near)%R /\ work 1 (4 * work 1 (Z.max (prec_up 64) (64 * wlen ex_near) + 64) 64 + 64) 64 <= 2 ^ 14.
Proof. destruct C70_case as (c & _ & R). exists c. split; [exact R|]. split; [unfold ex_near; wf_concrete|]. rewrite ex_near_value. split; [lra|]. vm_compute. discriminate. Qed.
Example C94_case : exists c, reachable ln2_new ln2_for_prec c /\ wf ex_m3 /\ nonzero ex_m3 /\ EMIN < ne ex_m3 /\ work 1 (4 * work 1 (Z.max (prec_up 64) (64 * wlen ex_m3) + 64) 64 + 64) 64 <= 2 ^ 14.
Proof. destruct C70_case as (c & _ & R). exists c. split; [exact R|]. split; [unfold ex_m3; wf_concrete|]. split; [intros H; vm_compute in H; discriminate|]. split; [reflexivity|]. vm_compute. discriminate. Qed.

Definition all_inv_hyp := (C92_atanh, C92_atanh_zero, C92_atanh_domain, C92_case, C93_acosh, C93_acosh_value, C93_acosh_one, C93_acosh_domain, C93_case, C94_asinh, C94_asinh_zero, C94_case).
Print Assumptions all_inv_hyp.
