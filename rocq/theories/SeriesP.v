(** Bounds for the series of e, ln 2 and ln 10. *)

From Coq Require Import ZArith Reals List Bool Lia Lra Psatz.
From Coquelicot Require Import Coquelicot.
From Verif Require Import Words SpecZ SpecConst ConstP.
Open Scope R_scope.

(** ** The logarithm *)
(** sum of x^(2k+1)/(2k+1) for 0 <= k < n *)
Fixpoint atanh_sum (x : R) (n : nat) : R :=
  match n with O => 0 | S n => atanh_sum x n + x ^ (2 * n + 1) / INR (2 * n + 1) end.
Fixpoint geo_sum (x : R) (n : nat) : R :=
  match n with O => 0 | S n => geo_sum x n + x ^ (2 * n) end.

Lemma geo_closed x n : x ^ 2 <> 1 -> geo_sum x n = (1 - x ^ (2 * n)) / (1 - x ^ 2).
Proof.
  intros H. induction n as [|n IH]; [cbn; field; cbn in H; lra|]. cbn [geo_sum]. rewrite IH. replace (2 * S n)%nat with (2 + 2 * n)%nat by lia. rewrite (pow_add x 2). field. lra.
Qed.
Lemma atanh_derive x n : is_derive (fun t => atanh_sum t n) x (geo_sum x n).
Proof.
  induction n as [|n IH]; [apply (is_derive_const 0 x)|]. cbn [atanh_sum geo_sum].
  apply (is_derive_plus (fun t => atanh_sum t n) (fun t => t ^ (2 * n + 1) / INR (2 * n + 1)) x _ _ IH).
  assert (HN : 0 < INR (2 * n + 1)) by (apply lt_0_INR; lia).
  auto_derive; [trivial|]. replace (Init.Nat.pred (n + (n + 0) + 1)) with (2 * n)%nat by lia. replace (n + (n + 0) + 1)%nat with (2 * n + 1)%nat by lia. field. lra.
Qed.
Lemma log_derive x : -1 < x < 1 -> is_derive (fun t => ln (1 + t) - ln (1 - t)) x (2 / (1 - x ^ 2)).
Proof. intros H. auto_derive; [split; [lra|split; [lra|trivial]]|]. field. repeat split; nra. Qed.

Lemma mono_pos (f df : R -> R) X : 0 < X -> (forall x, 0 <= x <= X -> is_derive f x (df x)) -> (forall x, 0 <= x <= X -> 0 <= df x) -> f 0 <= f X.
Proof.
  intros HX Hd Hp. destruct (MVT_gen f 0 X df) as (c & Hc & E).
  - intros x Hx. rewrite Rmin_left, Rmax_right in Hx by lra. apply Hd. lra.
  - intros x Hx. rewrite Rmin_left, Rmax_right in Hx by lra. apply (@ex_derive_continuous R_AbsRing R_NormedModule f x) || apply continuity_pt_filterlim, (ex_derive_continuous f x).
    exists (df x). apply Hd. lra.
  - rewrite Rmin_left, Rmax_right in Hc by lra. pose proof (Hp c Hc). nra.
Qed.

Lemma atanh_sum_0 n : atanh_sum 0 n = 0.
Proof. induction n as [|n IH]; [reflexivity|]. cbn [atanh_sum]. rewrite IH. replace (2 * n + 1)%nat with (S (2 * n)) by lia. cbn [pow]. unfold Rdiv. ring. Qed.

Theorem atanh_bounds X n : 0 < X < 1 ->
  2 * atanh_sum X n <= ln ((1 + X) / (1 - X)) <= 2 * atanh_sum X n + 2 * X ^ (2 * n + 1) / (INR (2 * n + 1) * (1 - X ^ 2)).
Proof.
  intros HX. rewrite ln_div by lra. assert (HN : 0 < INR (2 * n + 1)) by (apply lt_0_INR; lia). assert (HX2 : 0 < 1 - X ^ 2) by nra.
  assert (L0 : forall t, 0 <= t <= X -> 0 < 1 - t ^ 2) by (intros; nra). split.
  - pose proof (mono_pos (fun t => ln (1 + t) - ln (1 - t) - 2 * atanh_sum t n) (fun t => 2 / (1 - t ^ 2) - 2 * geo_sum t n) X ltac:(lra)) as M.
    cbv beta in M. rewrite atanh_sum_0, Rplus_0_r, Rminus_0_r, ln_1 in M. cut (0 - 0 - 2 * 0 <= ln (1 + X) - ln (1 - X) - 2 * atanh_sum X n); [lra|]. apply M.
    + intros t Ht. apply (is_derive_minus (fun t => ln (1 + t) - ln (1 - t)) (fun t => 2 * atanh_sum t n)); [apply log_derive; lra|].
      apply (is_derive_scal (fun t => atanh_sum t n) t 2), atanh_derive.
    + intros t Ht. pose proof (L0 t Ht) as P. rewrite geo_closed by lra. replace (2 / (1 - t ^ 2) - 2 * ((1 - t ^ (2 * n)) / (1 - t ^ 2))) with (2 * t ^ (2 * n) / (1 - t ^ 2)) by (field; lra).
      apply Rmult_le_pos; [|left; now apply Rinv_0_lt_compat]. pose proof (pow_le t (2 * n) ltac:(lra)). lra.
  - set (K := 2 / (INR (2 * n + 1) * (1 - X ^ 2))).
    pose proof (mono_pos (fun t => K * t ^ (2 * n + 1) - (ln (1 + t) - ln (1 - t) - 2 * atanh_sum t n)) (fun t => K * (INR (2 * n + 1) * t ^ (2 * n)) - (2 / (1 - t ^ 2) - 2 * geo_sum t n)) X ltac:(lra)) as M.
    cbv beta in M. rewrite atanh_sum_0, Rplus_0_r, Rminus_0_r, ln_1 in M. replace (0 ^ (2 * n + 1)) with 0 in M by (replace (2 * n + 1)%nat with (S (2 * n)) by lia; cbn [pow]; ring).
    replace (2 * X ^ (2 * n + 1) / (INR (2 * n + 1) * (1 - X ^ 2))) with (K * X ^ (2 * n + 1)) by (unfold K; field; lra).
    cut (K * 0 - (0 - 0 - 2 * 0) <= K * X ^ (2 * n + 1) - (ln (1 + X) - ln (1 - X) - 2 * atanh_sum X n)); [lra|]. apply M.
    + intros t Ht. apply (is_derive_minus (fun t => K * t ^ (2 * n + 1)) (fun t => ln (1 + t) - ln (1 - t) - 2 * atanh_sum t n)).
      * apply (is_derive_scal (fun t => t ^ (2 * n + 1)) t K). auto_derive; [trivial|]. replace (Init.Nat.pred (n + (n + 0) + 1)) with (2 * n)%nat by lia. replace (n + (n + 0) + 1)%nat with (2 * n + 1)%nat by lia. ring.
      * apply (is_derive_minus (fun t => ln (1 + t) - ln (1 - t)) (fun t => 2 * atanh_sum t n)); [apply log_derive; lra|]. apply (is_derive_scal (fun t => atanh_sum t n) t 2), atanh_derive.
    + intros t Ht. pose proof (L0 t Ht) as P. rewrite geo_closed by lra.
      replace (2 / (1 - t ^ 2) - 2 * ((1 - t ^ (2 * n)) / (1 - t ^ 2))) with (2 * t ^ (2 * n) * / (1 - t ^ 2)) by (field; lra).
      replace (K * (INR (2 * n + 1) * t ^ (2 * n))) with (2 * t ^ (2 * n) * / (1 - X ^ 2)) by (unfold K; field; lra).
      assert (/ (1 - t ^ 2) <= / (1 - X ^ 2)). { apply Rinv_le_contravar; [exact HX2|]. assert (t ^ 2 <= X ^ 2) by (apply pow_incr; lra). lra. }
      pose proof (pow_le t (2 * n) ltac:(lra)). nra.
Qed.

Lemma atanh_rsum x n : atanh_sum x (S n) = x * (1 + rsum (fun k => powR (x ^ 2) k / IZR (2 * k + 1)) 0 (Z.of_nat n)).
Proof.
  induction n as [|n IH].
  - cbn [atanh_sum]. change (Z.of_nat 0) with 0%Z. rewrite rsum_nil. cbn. field.
  - remember (S n) as m. cbn [atanh_sum]. rewrite IH. subst m. rewrite (rsum_split _ 0 (Z.of_nat n) (Z.of_nat (S n))) by lia. rewrite (rsum_last _ (Z.of_nat n) (Z.of_nat (S n))) by lia.
    replace (Z.of_nat (S n) - 1)%Z with (Z.of_nat n) by lia. rewrite rsum_nil. unfold powR. rewrite Nat2Z.id, <- pow_mult.
    replace (IZR (2 * Z.of_nat (S n) + 1)) with (INR (2 * S n + 1)) by (rewrite INR_IZR_INZ; f_equal; lia). rewrite (pow_add x (2 * S n) 1), pow_1. assert (0 < INR (2 * S n + 1)) by (apply lt_0_INR; lia). field. lra.
Qed.

Theorem ln2_bounds b : (0 <= b)%Z -> 2 / 3 * (1 + rsum ln2_term 0 b) <= ln 2 <= 2 / 3 * (1 + rsum ln2_term 0 b) + powR (/ 9) b / 12 / IZR (2 * b + 3).
Proof.
  intros Hb. rewrite <- (Z2Nat.id b Hb). set (n := Z.to_nat b). pose proof (atanh_bounds (1 / 3) (S n) ltac:(lra)) as B. rewrite atanh_rsum in B.
  replace ((1 / 3) ^ 2) with (/ 9) in B by field. replace ((1 + 1 / 3) / (1 - 1 / 3)) with 2 in B by field. change (fun k => powR (/ 9) k / IZR (2 * k + 1)) with ln2_term in B.
  replace (IZR (2 * Z.of_nat n + 3)) with (INR (2 * S n + 1)) by (rewrite INR_IZR_INZ; f_equal; lia). assert (HN : 0 < INR (2 * S n + 1)) by (apply lt_0_INR; lia).
  replace (2 * (1 / 3) ^ (2 * S n + 1) / (INR (2 * S n + 1) * (1 - / 9))) with (powR (/ 9) (Z.of_nat n) / 12 / INR (2 * S n + 1)) in B; [lra|].
  unfold powR. rewrite Nat2Z.id. replace (2 * S n + 1)%nat with (2 * n + 3)%nat by lia. rewrite (pow_add (1 / 3)), pow_mult. replace ((1 / 3) ^ 2) with (/ 9) by field.
  replace (2 * S n + 1)%nat with (2 * n + 3)%nat in HN by lia. field. lra.
Qed.
Theorem ln10_bounds b : (0 <= b)%Z -> 18 / 11 * (1 + rsum ln10_term 0 b) <= ln 10 <= 18 / 11 * (1 + rsum ln10_term 0 b) + powR (81 / 121) b * (729 / 220) / IZR (2 * b + 3).
Proof.
  intros Hb. rewrite <- (Z2Nat.id b Hb). set (n := Z.to_nat b). pose proof (atanh_bounds (9 / 11) (S n) ltac:(lra)) as B. rewrite atanh_rsum in B.
  replace ((9 / 11) ^ 2) with (81 / 121) in B by field. replace ((1 + 9 / 11) / (1 - 9 / 11)) with 10 in B by field. change (fun k => powR (81 / 121) k / IZR (2 * k + 1)) with ln10_term in B.
  replace (IZR (2 * Z.of_nat n + 3)) with (INR (2 * S n + 1)) by (rewrite INR_IZR_INZ; f_equal; lia). assert (HN : 0 < INR (2 * S n + 1)) by (apply lt_0_INR; lia).
  replace (2 * (9 / 11) ^ (2 * S n + 1) / (INR (2 * S n + 1) * (1 - 81 / 121))) with (powR (81 / 121) (Z.of_nat n) * (729 / 220) / INR (2 * S n + 1)) in B; [lra|].
  unfold powR. rewrite Nat2Z.id. replace (2 * S n + 1)%nat with (2 * n + 3)%nat by lia. rewrite (pow_add (9 / 11)), pow_mult. replace ((9 / 11) ^ 2) with (81 / 121) by field.
  replace (2 * S n + 1)%nat with (2 * n + 3)%nat in HN by lia. field. lra.
Qed.

(** ** e *)
Lemma e_psum n : sum_f_R0 (fun i => / INR (fact i) * 1 ^ i) n = 1 + rsum e_term 0 (Z.of_nat n).
Proof.
  induction n as [|n IH]; [rewrite rsum_nil; cbn; field|]. rewrite tech5, IH, (rsum_last e_term 0 (Z.of_nat (S n))) by lia. replace (Z.of_nat (S n) - 1)%Z with (Z.of_nat n) by lia.
  unfold e_term, factR. rewrite Nat2Z.id, pow1. ring.
Qed.
Lemma sum_limit (u : nat -> R) l N A B : infinite_sum u l -> (forall n, (N <= n)%nat -> A <= sum_f_R0 u n <= B) -> A <= l <= B.
Proof.
  intros H Hb. split.
  - destruct (Rle_or_lt A l) as [|C]; [assumption|]. exfalso. destruct (H (A - l) ltac:(lra)) as (n0 & Hn). specialize (Hn (Nat.max n0 N) ltac:(lia)). specialize (Hb (Nat.max n0 N) ltac:(lia)).
    unfold R_dist in Hn. apply Rabs_def2 in Hn. lra.
  - destruct (Rle_or_lt l B) as [|C]; [assumption|]. exfalso. destruct (H (l - B) ltac:(lra)) as (n0 & Hn). specialize (Hn (Nat.max n0 N) ltac:(lia)). specialize (Hb (Nat.max n0 N) ltac:(lia)).
    unfold R_dist in Hn. apply Rabs_def2 in Hn. lra.
Qed.
Theorem e_bounds b : (0 < b)%Z -> 1 + rsum e_term 0 b <= exp 1 <= 1 + rsum e_term 0 b + / (factR b * IZR b).
Proof.
  intros Hb. assert (E : infinite_sum (fun i => / INR (fact i) * 1 ^ i) (exp 1)) by (unfold exp; destruct (exist_exp 1) as [l Hl]; exact Hl).
  apply (sum_limit _ _ (Z.to_nat b) _ _ E). intros n Hn. rewrite e_psum. replace n with (Z.to_nat b + (n - Z.to_nat b))%nat by lia. set (m := (n - Z.to_nat b)%nat). clearbody m. clear n Hn E.
  assert (P : forall j, rsum e_term 0 b <= rsum e_term 0 (b + Z.of_nat j) /\ rsum e_term 0 (b + Z.of_nat j) + / (factR (b + Z.of_nat j) * IZR (b + Z.of_nat j)) <= rsum e_term 0 b + / (factR b * IZR b)).
  { induction j as [|j [IH1 IH2]]; [replace (b + Z.of_nat 0)%Z with b by lia; lra|]. rewrite (rsum_last e_term 0 (b + Z.of_nat (S j))) by lia. replace (b + Z.of_nat (S j) - 1)%Z with (b + Z.of_nat j)%Z by lia.
    set (k := (b + Z.of_nat j)%Z) in *. replace (b + Z.of_nat (S j))%Z with (k + 1)%Z by lia. assert (Hk : (0 < k)%Z) by lia. change (e_term (k + 1)) with (/ factR (k + 1)). pose proof (factR_pos k) as F.
    rewrite (factR_succ (k + 1)) by lia. replace (k + 1 - 1)%Z with k by ring. rewrite plus_IZR. assert (K : 1 <= IZR k) by (apply IZR_le; lia). set (f := factR k) in *. set (x := IZR k) in *.
    assert (Q1 : 0 < / ((x + 1) * f)) by (apply Rinv_0_lt_compat; nra). split; [lra|].
    assert (Q : / ((x + 1) * f) + / ((x + 1) * f * (x + 1)) <= / (f * x)).
    { replace (/ ((x + 1) * f) + / ((x + 1) * f * (x + 1))) with ((x + 2) * / (f * (x + 1) ^ 2)) by (field; split; lra). replace (/ (f * x)) with (((x + 1) ^ 2 / x) * / (f * (x + 1) ^ 2)) by (field; repeat split; lra).
      apply Rmult_le_compat_r; [left; apply Rinv_0_lt_compat; apply Rmult_lt_0_compat; [exact F|apply pow_lt; lra]|]. apply Rmult_le_reg_r with x; [lra|]. replace ((x + 1) ^ 2 / x * x) with ((x + 1) ^ 2) by (field; lra). nra. }
    lra. }
  destruct (P m) as [P1 P2]. replace (Z.of_nat (Z.to_nat b + m)) with (b + Z.of_nat m)%Z by lia. split; [lra|].
  assert (0 < / (factR (b + Z.of_nat m) * IZR (b + Z.of_nat m))). { apply Rinv_0_lt_compat, Rmult_lt_0_compat; [apply factR_pos|apply IZR_lt; lia]. }
  lra.
Qed.
