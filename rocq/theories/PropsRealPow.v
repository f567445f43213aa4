(** C95, C96: pow. *)

From Coq Require Import ZArith List Bool Lia Reals Lra.
From Flocq Require Import Core.
From Verif Require Import Words IntModel Mantissa Num Pow Consts Elem Series Exp Ln RealPow SpecZ Spec SpecOps SpecConst SpecReach SpecPow SpecElem SpecRealPow RealP CmpP SetP AddNum ArithTop PowExt IntNum ElemNum ConstTop ConstReach Refute1 ElemDom RealPowTop PropsConst PropsLn PropsInvHyp.
Import ListNotations.
Open Scope Z_scope.

(** [f] bounds the retries, [h] those of ln and exp and [g] the loops of their series;
    [None] is running out of them.  The last working precision is at most 2^14 bits. *)
Definition caches_ok (c : pcache) : Prop := reachable ln2_new ln2_for_prec (fst c) /\ reachable e_new e_for_prec (snd c).

(** ** C95: pow is correctly rounded *)
Theorem C95_pow : forall f h g c x n p rm r, caches_ok c -> wf x -> wf n -> nonzero x -> nonzero n -> Rabs (value x) <> 1%R -> Rabs (value n) <> 1%R ->
  real_power (value x) (value n) r -> (bpow radix2 (EMIN + 2 ^ 15) <= Rabs (value n))%R -> 0 < p ->
  work h (work f (Z.max (prec_up p) (Z.max (64 * wlen x) (64 * wlen n)) + 64) 64 + 128) 64 <= 2 ^ 14 ->
  match f_pow f h g c x n p rm with
  | None => True
  | Some (c', res) => caches_ok c' /\ pow_post r (prec_up p) rm res
  end.
Proof. exact f_pow_ok. Qed.
(** The other operands need no evaluation: the results are those of C48. *)
Theorem C95_special : forall general f h g c x n p rm, wf x -> wf n ->
  value x = 0%R \/ value n = 0%R \/ Rabs (value x) = 1%R \/ Rabs (value n) = 1%R \/ ((value x < 0)%R /\ ~ exists k, value n = IZR k) ->
  f_pow f h g c x n p rm = Some (c, n_pow general x n p rm).
Proof.
  intros general f h g c x n p rm W Wn H. assert (S : pow_special x n = true).
  { unfold pow_special. destruct H as [H|[H|[H|[H|[H1 H2]]]]].
    - rewrite (is_zero_true x) by (try exact W; try exact Wn; apply value_zero_iff; exact H). now destruct (is_zero n).
    - rewrite (is_zero_true n) by (try exact W; try exact Wn; apply value_zero_iff; exact H). reflexivity.
    - rewrite (proj2 (unit_iff x W) H). rewrite !orb_true_r. reflexivity.
    - rewrite (proj2 (unit_iff n Wn) H). rewrite !orb_true_r. reflexivity.
    - assert (Nx : nonzero x) by (intros Z; rewrite (value_zero x Z) in H1; lra). rewrite neg_pos. pose proof (sign_pos x W Nx) as SP. pose proof (is_int_spec n Wn) as IS. destruct (is_positive x); [destruct SP as [SP _]; specialize (SP eq_refl); lra|]. destruct (n_is_int n); [exfalso; apply H2, IS; reflexivity|]. cbn [negb andb]. rewrite !orb_true_r. reflexivity. }
  unfold f_pow. rewrite S. unfold pure. rewrite (special_general general x n p rm S). reflexivity.
Qed.

(** ** C96: exact powers.  pow does not test for them: rounding towards a side it never
    returns, whatever the number of retries, and in the other modes an exact power is
    marked inexact. *)
Theorem C96_exact_hangs_refuted : forall f h g c x n p rm r, caches_ok c -> wf x -> wf n -> nonzero x -> nonzero n -> Rabs (value x) <> 1%R -> Rabs (value n) <> 1%R ->
  real_power (value x) (value n) r -> (bpow radix2 (EMIN + 2 ^ 15) <= Rabs (value n))%R -> 0 < p ->
  work h (work f (Z.max (prec_up p) (Z.max (64 * wlen x) (64 * wlen n)) + 64) 64 + 128) 64 <= 2 ^ 14 ->
  generic_format radix2 (FLX_exp (prec_up p)) r -> (bpow radix2 (EMIN + 8) <= Rabs r <= bpow radix2 (EMAX - 2))%R ->
  nearest rm = false -> rm <> RNone -> f_pow f h g c x n p rm = None.
Proof. exact f_pow_exact. Qed.

Definition ex_two := mk_num (mk_m [2 ^ 63] 64) Pos 2 false.
Lemma ex_two_value : value ex_two = 2%R.
Proof. unfold ex_two. rewrite one_word. change (2 - 64) with (-62). change (bpow radix2 (-62)) with (/ 4611686018427387904)%R. change (2 ^ 63) with 9223372036854775808. field. Qed.
Lemma ex_two_wf : wf ex_two.
Proof. unfold ex_two. wf_concrete. Qed.
Lemma ex_three_wf : wf ex_three.
Proof. unfold ex_three. wf_concrete. Qed.
Lemma two_cubed : real_power 2 3 8.
Proof. right. split; [lra|]. exists 3. split; [reflexivity|]. change 3 with (Z.of_nat 3). rewrite <- pow_powerRZ. ring. Qed.
(** 2^3 rounded up to 64 bits. *)
Theorem C96_two_cubed_refuted : forall f h g c, caches_ok c -> work h (work f 128 64 + 128) 64 <= 2 ^ 14 -> f_pow f h g c ex_two ex_three 64 RUp = None.
Proof.
  intros f h g c Hc HB. apply (C96_exact_hangs_refuted f h g c ex_two ex_three 64 RUp 8); try exact ex_two_wf; try exact ex_three_wf; try exact Hc; rewrite ?ex_two_value, ?ex_three_value; try (rewrite Rabs_pos_eq by lra; lra).
  - intros H. vm_compute in H. discriminate.
  - intros H. vm_compute in H. discriminate.
  - exact two_cubed.
  - rewrite Rabs_pos_eq by lra. apply Rle_trans with (bpow radix2 1); [apply bpow_le; vm_compute; discriminate|]. change (bpow radix2 1) with 2%R. lra.
  - lia.
  - exact HB.
  - change 8%R with (bpow radix2 3). apply generic_format_bpow. vm_compute. discriminate.
  - rewrite Rabs_pos_eq by lra. change 8%R with (bpow radix2 3). split; apply bpow_le; vm_compute; discriminate.
  - reflexivity.
  - discriminate.
Qed.

(** ** Cases.  The runs are evaluated when the file is compiled: 3^(-3/2) up and 2^3 to
    nearest, which is 8 and marked inexact. *)
Definition run_pow (l : result ln2_cache) (e : result e_cache) (x n : num) (p : Z) (rm : rmode) : option num :=
  match l, e with
  | Ok l, Ok e => match f_pow 1 1 100 (l, e) x n p rm with Some (_, Ok q) => Some q | _ => None end
  | _, _ => None
  end.
Definition ex_m32 := mk_num (mk_m [3 * 2 ^ 62] 64) Neg 1 false.
Definition C95_run := Eval vm_compute in run_pow ln2_new e_new ex_three ex_m32 64 RUp.
Example C95_run_is : C95_run = Some (mk_num (mk_m [14200310208837791202] 64) Pos (-2) true).
Proof. reflexivity. Qed.
Definition C96_run := Eval vm_compute in run_pow ln2_new e_new ex_two ex_three 64 RToEven.
Theorem C96_flag_refuted : C96_run = Some (mk_num (mk_m [2 ^ 63] 64) Pos 4 true).
Proof. reflexivity. Qed.
Lemma caches_new : exists c, caches_ok c.
Proof. destruct C70_case as (l & _ & L). destruct (is_ok_spec e_new) as (e & E); [vm_compute; reflexivity|]. apply (reach_new e_new e_for_prec) in E. exists (l, e). split; assumption. Qed.
Lemma ex_m32_value : value ex_m32 = (- (3 / 2))%R.
Proof. unfold ex_m32. rewrite one_word_neg. change (1 - 64) with (-63). rewrite mult_IZR. change (bpow radix2 (-63)) with (/ 9223372036854775808)%R. change (2 ^ 62) with 4611686018427387904. field. Qed.
Example C95_case : exists c, caches_ok c /\ wf ex_three /\ wf ex_m32 /\ nonzero ex_three /\ nonzero ex_m32 /\ Rabs (value ex_three) <> 1%R /\ Rabs (value ex_m32) <> 1%R /\
  real_power (value ex_three) (value ex_m32) (Rpower 3 (- (3 / 2))) /\ (bpow radix2 (EMIN + 2 ^ 15) <= Rabs (value ex_m32))%R /\
  work 1 (work 1 (Z.max (prec_up 64) (Z.max (64 * wlen ex_three) (64 * wlen ex_m32)) + 64) 64 + 128) 64 <= 2 ^ 14.
Proof.
  destruct caches_new as (c & C). exists c. split; [exact C|]. split; [exact ex_three_wf|]. split; [unfold ex_m32; wf_concrete|]. split; [intros H; vm_compute in H; discriminate|]. split; [intros H; vm_compute in H; discriminate|].
  rewrite ex_three_value, ex_m32_value. split; [rewrite Rabs_pos_eq by lra; lra|]. split; [rewrite Rabs_left by lra; lra|]. split; [left; split; [lra|reflexivity]|]. split; [rewrite Rabs_left by lra; apply Rle_trans with (bpow radix2 0); [apply bpow_le; vm_compute; discriminate|change (bpow radix2 0) with 1%R; lra]|]. vm_compute. discriminate.
Qed.
Example C96_case : exists c, caches_ok c /\ work 5 (work 5 128 64 + 128) 64 <= 2 ^ 14 /\ f_pow 5 5 100 c ex_two ex_three 64 RUp = None.
Proof.
  destruct caches_new as (c & C). exists c. split; [exact C|]. assert (B : work 5 (work 5 128 64 + 128) 64 <= 2 ^ 14) by (vm_compute; discriminate). split; [exact B|]. apply C96_two_cubed_refuted; [exact C|exact B].
Qed.

Definition all_real_pow := (C95_pow, C95_special, C95_case, C96_exact_hangs_refuted, C96_two_cubed_refuted, C96_flag_refuted, C96_case).
Print Assumptions all_real_pow.
