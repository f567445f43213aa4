(** The Chudnovsky series and [for_prec] for pi. *)

From Coq Require Import ZArith Znumtheory Zpow_facts Reals List Bool Lia Lra Psatz.
From Flocq Require Import Core Relative.
From Verif Require Import Words Mantissa Num Ext Consts SpecZ WordsP WordsP2 RoundP Spec SpecConst RealP RealP2 NumP CmpP SetP AddNum MulNum DivNum RootP RootNum ArithTop RootTop Conv2Num RoundableNum PowNum ConstP SeriesP LoopP ConstNum ConstTop.
Import ListNotations.
Open Scope Z_scope.
Ltac Zify.zify_post_hook ::= idtac.
Arguments Z.mul : simpl never.
Arguments Z.add : simpl never.
Arguments Z.pow : simpl never.
Arguments Z.sub : simpl never.
Arguments Z.of_nat : simpl never.
Ltac dlia := Z.div_mod_to_equations; lia.

(** ** The series *)
Lemma chud_ratio b : 0 < b -> 0 < (6 * b - 5) * (2 * b - 1) * (6 * b - 1) /\ 2 ^ 47 * ((6 * b - 5) * (2 * b - 1) * (6 * b - 1)) <= 10939058860032000 * b ^ 3.
Proof.
  intros H. replace (b ^ 3) with (b * b * b) by ring. change (2 ^ 47) with 140737488355328.
  assert (A : 0 < 6 * b - 5 <= 6 * b) by lia. assert (B : 0 < 2 * b - 1 <= 2 * b) by lia. assert (C : 0 < 6 * b - 1 <= 6 * b) by lia.
  assert (D : 0 < (6 * b - 5) * (2 * b - 1) <= 12 * (b * b)) by nia. assert (E : 0 < (6 * b - 5) * (2 * b - 1) * (6 * b - 1) <= 72 * (b * b * b)) by nia. lia.
Qed.
Lemma chud_weight_0 : chud_weight 0 = 1%R.
Proof. unfold chud_weight, factR, powR. change (Z.to_nat (6 * 0)) with 0%nat. change (Z.to_nat (3 * 0)) with 0%nat. change (Z.to_nat 0) with 0%nat. change (fact 0) with 1%nat. cbn [INR pow]. field. Qed.
Lemma chud_weight_step b : 0 < b -> (chud_weight b <= chud_weight (b - 1) * bpow radix2 (-47))%R.
Proof.
  intros H. pose proof (chud_weight_succ b H) as E. destruct (chud_ratio b H) as [R1 R2]. set (r := (6 * b - 5) * (2 * b - 1) * (6 * b - 1)) in *. set (q := 10939058860032000 * b ^ 3) in *. clearbody r q.
  apply IZR_le in R2. apply IZR_lt in R1. rewrite mult_IZR, <- bpow_IZR in R2 by lia. pose proof (chud_weight_pos (b - 1)) as W. replace (-47) with (- (47)) by reflexivity. rewrite bpow_opp. pose proof (bpow_gt_0 radix2 47) as G. set (c := bpow radix2 47) in *.
  assert (Q : (0 < IZR q)%R) by nra. apply Rmult_le_reg_r with (IZR q); [exact Q|]. rewrite E, Rmult_assoc. apply Rmult_le_compat_l; [lra|]. apply Rmult_le_reg_l with c; [exact G|]. rewrite <- Rmult_assoc, Rinv_r, Rmult_1_l by lra. exact R2.
Qed.
Lemma chud_weight_small k : 0 <= k -> (chud_weight k <= bpow radix2 (- (47 * k)))%R.
Proof.
  intros H. rewrite <- (Z2Nat.id k H). induction (Z.to_nat k) as [|n IH]; [change (Z.of_nat 0) with 0; rewrite chud_weight_0; change (- (47 * 0)) with 0; cbn [bpow]; lra|]. eapply Rle_trans; [apply chud_weight_step; lia|]. replace (Z.of_nat (S n) - 1) with (Z.of_nat n) by lia.
  replace (- (47 * Z.of_nat (S n))) with (- (47 * Z.of_nat n) + -47) by lia. rewrite bpow_plus. apply Rmult_le_compat_r; [apply bpow_ge_0|exact IH].
Qed.
(** The first term left out, for less than 2^31 terms and in general. *)
Lemma chud_abs_small k : 1 <= k <= 2 ^ 31 -> (chud_abs k <= 13591409 * bpow radix2 (- (47 * k) + 37))%R.
Proof.
  intros [H1 H2]. unfold chud_abs. pose proof (chud_weight_small k ltac:(lia)) as W. pose proof (chud_weight_pos k) as P. rewrite (Z.add_comm _ 37), bpow_plus. pose proof (bpow_gt_0 radix2 (- (47 * k))). 
  assert (E : (IZR (13591409 + 545140134 * k) <= 13591409 * bpow radix2 37)%R). { rewrite bpow_IZR, <- mult_IZR by lia. apply IZR_le. change (2 ^ 31) with 2147483648 in H2. change (2 ^ 37) with 137438953472. lia. }
  assert (0 <= IZR (13591409 + 545140134 * k))%R by (apply IZR_le; lia). rewrite <- Rmult_assoc. apply Rmult_le_compat; lra.
Qed.
Lemma lin_pow2 n : 0 <= n -> n < 2 ^ n.
Proof. intros H. apply Z.pow_gt_lin_r; lia. Qed.
Lemma chud_abs_lim k : 1 <= k -> (chud_abs k <= / IZR k)%R.
Proof.
  intros H1. unfold chud_abs. pose proof (chud_weight_small k ltac:(lia)) as W. pose proof (chud_weight_pos k) as P. assert (K : (0 < IZR k)%R) by (apply IZR_lt; lia).
  assert (E : (IZR (13591409 + 545140134 * k) * IZR k <= bpow radix2 (47 * k))%R).
  { rewrite <- mult_IZR, bpow_IZR by lia. apply IZR_le. pose proof (lin_pow2 k ltac:(lia)) as L. set (m := 2 ^ k) in *. assert (M : 2 ^ (47 * k) = m ^ 47) by (unfold m; rewrite <- Z.pow_mul_r by lia; f_equal; ring). rewrite M. clearbody m.
    assert (B : 2 ^ 45 <= m ^ 45) by (apply Z.pow_le_mono_l; lia). replace (m ^ 47) with (m ^ 45 * (m * m)) by (replace 47 with (45 + 2) by reflexivity; rewrite Z.pow_add_r by lia; ring). change (2 ^ 45) with 35184372088832 in B. set (t := m ^ 45) in *. clearbody t.
    assert (k * k <= m * m) by nia. assert (k <= k * k) by nia. apply Z.le_trans with (35184372088832 * (m * m)); [lia|]. apply Z.mul_le_mono_nonneg_r; nia. }
  apply Rmult_le_reg_r with (IZR k); [exact K|]. rewrite Rinv_l by lra. assert (0 <= IZR (13591409 + 545140134 * k))%R by (apply IZR_le; lia).
  replace (IZR (13591409 + 545140134 * k) * chud_weight k * IZR k)%R with (IZR (13591409 + 545140134 * k) * IZR k * chud_weight k)%R by ring.
  apply Rle_trans with (bpow radix2 (47 * k) * bpow radix2 (- (47 * k)))%R; [apply Rmult_le_compat; try lra; apply Rmult_le_pos; lra|]. rewrite <- bpow_plus. replace (47 * k + - (47 * k)) with 0 by ring. cbn. lra.
Qed.

Lemma sign_abs n : Rabs (powR (-1) n) = 1%R.
Proof. unfold powR. induction (Z.to_nat n) as [|m IH]; cbn [pow]; [apply Rabs_R1|]. rewrite Rabs_mult, IH, (Rabs_left (-1)) by lra. ring. Qed.
Lemma chud_part a b : 0 <= a <= b -> (Rabs (rsum chud_term 0 b - rsum chud_term 0 a) <= chud_abs (a + 1))%R.
Proof.
  intros H. pose proof (chud_abs_pos (a + 1) ltac:(lia)) as P. destruct (Z.eq_dec a b) as [->|]; [unfold Rminus; rewrite Rplus_opp_r, Rabs_R0; lra|]. rewrite (rsum_split chud_term 0 a b) by lia. replace (rsum chud_term 0 a + rsum chud_term a b - rsum chud_term 0 a)%R with (rsum chud_term a b) by ring.
  pose proof (chud_sum_alt a b ltac:(lia)) as [A B]. rewrite <- (Rmult_1_l (Rabs _)), <- (sign_abs (a + 1)), <- Rabs_mult, Rabs_pos_eq by lra. exact B.
Qed.

Theorem chud_limit_ex : exists S, chud_limit S.
Proof.
  assert (C : Cauchy_crit (fun n => rsum chud_term 0 (Z.of_nat n))).
  { intros eps He. set (N := up (2 / eps)). pose proof (archimed (2 / eps)) as [AR _]. fold N in AR. assert (0 < 2 / eps)%R by (apply Rdiv_lt_0_compat; lra). assert (HN : (0 < N)) by (apply lt_IZR; lra).
    exists (Z.to_nat N). intros n m Hn Hm. pose proof (chud_part N (Z.of_nat n) ltac:(lia)) as A. pose proof (chud_part N (Z.of_nat m) ltac:(lia)) as B. pose proof (chud_abs_lim (N + 1) ltac:(lia)) as L.
    assert (I : (/ IZR (N + 1) < eps / 2)%R). { rewrite plus_IZR. apply Rmult_lt_reg_r with (IZR N + 1)%R; [lra|]. rewrite Rinv_l by lra. apply Rmult_lt_compat_r with (r := (eps / 2)%R) in AR; [|lra]. replace (2 / eps * (eps / 2))%R with 1%R in AR by (field; lra). lra. }
    unfold R_dist. apply Rabs_def1; apply Rabs_le_inv in A, B; lra. }
  destruct (R_complete _ C) as [S HS]. exists S. exact HS.
Qed.
Theorem chud_tail S b : chud_limit S -> 0 <= b -> (Rabs (S - rsum chud_term 0 b) <= chud_abs (b + 1))%R.
Proof.
  intros H Hb. set (A := chud_abs (b + 1)). destruct (Rle_or_lt (Rabs (S - rsum chud_term 0 b)) A) as [|C]; [assumption|]. exfalso. destruct (H (Rabs (S - rsum chud_term 0 b) - A)%R ltac:(lra)) as (n0 & Hn). set (n := Nat.max n0 (Z.to_nat b)).
  specialize (Hn n ltac:(unfold n; lia)). unfold R_dist in Hn. pose proof (chud_part b (Z.of_nat n) ltac:(unfold n; lia)) as P. fold A in P. set (x := rsum chud_term 0 (Z.of_nat n)) in *. set (y := rsum chud_term 0 b) in *.
  pose proof (Rabs_triang (- (x - S)) (x - y)) as T. rewrite Rabs_Ropp in T. replace (- (x - S) + (x - y))%R with (S - y)%R in T by ring. lra.
Qed.
Lemma chud_abs_1 : (chud_abs 1 <= / 1000)%R.
Proof.
  unfold chud_abs. pose proof (chud_weight_small 1 ltac:(lia)) as A. change (- (47 * 1)) with (-47) in A. change (bpow radix2 (-47)) with (/ 140737488355328)%R in A. change (13591409 + 545140134 * 1) with 558731543. lra.
Qed.
Lemma chud_small b : 0 <= b -> (Rabs (rsum chud_term 0 b) <= / 1000)%R.
Proof.
  intros H. pose proof (chud_part 0 b ltac:(lia)) as P. rewrite (rsum_nil chud_term 0), Rminus_0_r in P. change (0 + 1) with 1 in P. pose proof chud_abs_1. lra.
Qed.
Lemma chud_limit_small S : chud_limit S -> (Rabs S <= / 1000)%R.
Proof. intros H. pose proof (chud_tail S 0 H ltac:(lia)) as P. rewrite (rsum_nil chud_term 0), Rminus_0_r in P. change (0 + 1) with 1 in P. pose proof chud_abs_1. lra. Qed.

Lemma sqrt_range : (100 < sqrt 10005 < 101)%R.
Proof. split; [rewrite <- (sqrt_square 100) by lra|rewrite <- (sqrt_square 101) by lra]; apply sqrt_lt_1_alt; lra. Qed.
Lemma dyadic_form x : exists m j, 0 <= j /\ (value x * IZR (2 ^ j) = IZR m)%R.
Proof.
  unfold value, F2R. cbn [Fnum Fexp]. set (m := sgnZ (ns x) * magnitude x). set (d := ne x - 64 * wlen x). destruct (Z.lt_ge_cases 0 d) as [H|H].
  - exists (m * 2 ^ d), 0. split; [lia|]. rewrite mult_IZR, <- (bpow_IZR d) by lia. change (2 ^ 0) with 1. ring.
  - exists m, (- d). split; [lia|]. rewrite <- bpow_IZR, Rmult_assoc, <- bpow_plus by lia. replace (d + - d) with 0 by ring. cbn [bpow]. ring.
Qed.
Lemma square_3 m j : 0 <= j -> m * m = 10005 * 2 ^ j -> False.
Proof.
  intros Hj E. assert (D : (3 | m)). { assert (D : (3 | m * m)) by (rewrite E; exists (3335 * 2 ^ j); ring). destruct (prime_mult 3 prime_3 m m D); assumption. }
  destruct D as (t & ->). assert (E2 : 3335 * 2 ^ j = 3 * (t * t)) by lia. assert (D : (3 | 3335 * 2 ^ j)) by (exists (t * t); lia). apply Gauss in D; [|apply Zgcd_1_rel_prime; reflexivity].
  apply (prime_power_prime 3 2 j) in D; [|lia|exact prime_3|exact prime_2]. discriminate D.
Qed.
Lemma sqrt_not_dyadic x : value x <> sqrt 10005.
Proof.
  intros E. assert (E2 : (value x * value x = 10005)%R) by (rewrite E; apply sqrt_sqrt; lra). destruct (dyadic_form x) as (m & j & Hj & F). apply (square_3 m (2 * j)); [lia|]. apply eq_IZR. rewrite !mult_IZR, <- F. replace (2 * j) with (j + j) by ring.
  rewrite Z.pow_add_r, mult_IZR by lia. transitivity (value x * value x * (IZR (2 ^ j) * IZR (2 ^ j)))%R; [ring|]. rewrite E2. ring.
Qed.

(** ** One evaluation *)
Lemma cut_far p r s ix res : correctly_rounded p RNone r s ix res -> 0 < p -> (bpow radix2 (-100) <= Rabs r)%R ->
  outcome res (fun q => wf q /\ normal q /\ 64 * wlen q = p /\ (Rabs (value q - r) <= bpow radix2 (1 - p) * Rabs r)%R /\ (ninexact q = true <-> ix = true \/ value q <> r)) True.
Proof.
  intros C Hp R1. unfold correctly_rounded in C. cbv zeta in C. destruct C as [C1 C].
  assert (Z1 : (bpow radix2 (-100) <= Rabs (rnd_prec p RNone r))%R). { unfold rnd_prec. apply abs_round_ge_generic; [apply FLX_exp_valid; exact Hp|apply rnd_valid| |exact R1]. apply generic_format_bpow. unfold FLX_exp. lia. }
  pose proof (bpow_le radix2 (EMIN - 1) (-100) ltac:(vm_compute; discriminate)) as L2. destruct (Rle_or_lt (bpow radix2 EMAX) (Rabs (rnd_prec p RNone r))) as [O|O]; [rewrite (C1 O); exact I|].
  destruct (C O) as (q & E & W & L & _ & N & _ & _ & _ & I). destruct N as [V N]; [eapply Rle_trans; [exact L2|exact Z1]|]. rewrite E. cbn [outcome].
  split; [exact W|]. split; [exact N|]. split; [exact L|]. split; [|exact I]. rewrite V.
  pose proof (bpow_gt_0 radix2 (-100)) as G. assert (NZ : r <> 0%R). { intros ->. rewrite Rabs_R0 in R1. apply (Rlt_irrefl 0). eapply Rlt_le_trans; [exact G|exact R1]. }
  left. replace (1 - p) with (- p + 1) by ring. unfold rnd_prec. apply (relative_error_FLX radix2 p Hp (rnd RNone) r NZ).
Qed.
Lemma pi_err (s p0 q0 f4 f5 v d : R) : (0 < d <= / 1000)%R -> (0 < s)%R -> (0 < p0)%R -> (0 < q0)%R -> (Rabs (f4 - s) <= d * s)%R -> (Rabs (f5 - p0 * f4) <= d * Rabs (p0 * f4))%R -> (Rabs (v - q0 / f5) <= d * Rabs (q0 / f5))%R ->
  (0 < f5)%R /\ (Rabs (v - q0 / (p0 * s)) <= 4 * d * (q0 / (p0 * s)))%R.
Proof.
  intros Hd Hs Hp Hq H4 H5 Hv. assert (PS : (0 < p0 * s)%R) by nra. set (g := (f4 / s)%R). set (a := (f5 / (p0 * s))%R). assert (E4 : f4 = (g * s)%R) by (unfold g; field; lra). assert (E5 : f5 = (a * (p0 * s))%R) by (unfold a; field; lra).
  assert (G : (1 - d <= g <= 1 + d)%R). { apply Rabs_le_inv in H4. rewrite E4 in H4. split; apply Rmult_le_reg_r with s; nra. }
  assert (A : (g - d * g <= a <= g + d * g)%R). { rewrite E4, E5 in H5. replace (p0 * (g * s))%R with (g * (p0 * s))%R in H5 by ring. rewrite (Rabs_pos_eq (g * _)) in H5 by nra. apply Rabs_le_inv in H5. split; apply Rmult_le_reg_r with (p0 * s)%R; nra. }
  assert (A2 : (1 - 21 / 10 * d <= a <= 1 + 21 / 10 * d)%R) by nra. assert (A0 : (9 / 10 < a)%R) by lra. split; [rewrite E5; nra|]. set (i := (/ a)%R). assert (I1 : (i * a = 1)%R) by (unfold i; apply Rinv_l; lra).
  assert (I0 : (0 < i)%R) by (unfold i; apply Rinv_0_lt_compat; lra). assert (I2 : (i <= 101 / 100)%R) by nra. set (T := (q0 / (p0 * s))%R) in *. assert (T0 : (0 < T)%R) by (unfold T; apply Rdiv_lt_0_compat; lra).
  assert (ET : (q0 / f5 = T * i)%R) by (rewrite E5; unfold T, i; field; lra). rewrite ET in Hv. rewrite (Rabs_pos_eq (T * i)) in Hv by nra. apply Rabs_le_inv in Hv.
  assert (I3 : (1 - 22 / 10 * d <= i <= 1 + 22 / 10 * d)%R) by nra. assert (DT : (0 < d * T)%R) by nra. assert (D1 : (T * i - T <= 22 / 10 * (d * T))%R) by nra. assert (D2 : (- (22 / 10) * (d * T) <= T * i - T)%R) by nra. assert (D3 : (d * (T * i) <= 101 / 100 * (d * T))%R) by nra.
  apply Rabs_le. split; lra.
Qed.

Definition pi_val (b : Z) (v : num) : Prop :=
  b <= 2 ^ 30 /\ wf v /\ normal v /\ ninexact v = true /\ ne v = 2 /\ 47 * b <= 64 * wlen v /\ (0 < value v)%R /\ forall S, chud_limit S -> (Rabs (chud_value S - value v) <= 30 * bpow radix2 (- (47 * b)))%R.

(** The effect of stopping after b terms. *)
Lemma chud_cut S b : chud_limit S -> 0 < b <= 2 ^ 30 -> (Rabs (chud_value S - chud_value (rsum chud_term 0 b)) <= bpow radix2 (- (47 * b)))%R.
Proof.
  intros H Hb. pose proof (chud_tail S b H ltac:(lia)) as T. pose proof (chud_limit_small S H) as L. pose proof (chud_small b ltac:(lia)) as L2. pose proof (chud_abs_small (b + 1) ltac:(lia)) as A. replace (- (47 * (b + 1)) + 37) with (- (47 * b) + -10) in A by ring.
  rewrite bpow_plus in A. change (bpow radix2 (-10)) with (/ 1024)%R in A. set (B := bpow radix2 (- (47 * b))) in *. pose proof (bpow_gt_0 radix2 (- (47 * b))) as B0. fold B in B0. set (S' := rsum chud_term 0 b) in *. unfold chud_value. pose proof sqrt_range as Q. set (s := sqrt 10005) in *.
  apply Rabs_le_inv in L, L2. replace (426880 * s / (13591409 + S) - 426880 * s / (13591409 + S'))%R with (426880 * s / ((13591409 + S) * (13591409 + S')) * - (S - S'))%R by (field; lra). rewrite Rabs_mult, Rabs_Ropp.
  assert (D : (13591408 * 13591408 <= (13591409 + S) * (13591409 + S'))%R) by (apply Rmult_le_compat; lra). assert (C : (0 <= 426880 * s / ((13591409 + S) * (13591409 + S')) <= 43114880 / (13591408 * 13591408))%R).
  { split; [apply Rmult_le_pos; [lra|left; apply Rinv_0_lt_compat; lra]|]. apply Rmult_le_compat; [lra|left; apply Rinv_0_lt_compat; lra|lra|apply Rinv_le_contravar; lra]. }
  rewrite (Rabs_pos_eq (426880 * _ / _)) by lra. apply Rle_trans with (43114880 / (13591408 * 13591408) * (13591409 * (B * / 1024)))%R; [apply Rmult_le_compat; try lra; apply Rabs_pos|]. lra.
Qed.

Lemma n_sqrt_10005 f3 k : whole f3 10005 -> 0 < k <= 2 ^ 40 ->
  exists q, n_sqrt f3 k RNone = Ok q /\ wf q /\ normal q /\ 64 * wlen q = prec_up k /\ (Rabs (value q - sqrt 10005) <= bpow radix2 (1 - k) * sqrt 10005)%R /\ ninexact q = true.
Proof.
  intros W3 Hk. pose proof (whole_nonzero f3 10005 W3 ltac:(lia)) as N3. destruct W3 as (W & I & V). assert (HP : prec_up k < P_LIM) by (unfold prec_up; clear - Hk; dlia). assert (HK : k <= prec_up k) by (unfold prec_up; clear; dlia).
  assert (S3 : ns f3 = Pos) by (apply value_pos_sign; [exact W|rewrite V; lra]). pose proof (sqrt_nonzero f3 k RNone W N3 S3 ltac:(lia) HP) as C. rewrite V in C. pose proof sqrt_range as SR. destruct (cut_near _ _ _ _ _ C ltac:(lia)) as (q & E & Wq & Nq & Lq & Aq & Iq).
  - rewrite Rabs_pos_eq by lra. split; [apply Rle_trans with (bpow radix2 0); [apply bpow_le; lia|cbn; lra]|apply Rle_trans with (bpow radix2 10); [change (bpow radix2 10) with 1024%R; lra|apply bpow_le; lia]].
  - exists q. split; [exact E|]. split; [exact Wq|]. split; [exact Nq|]. split; [exact Lq|]. rewrite (Rabs_pos_eq (sqrt 10005)) in Aq by lra. split.
    + eapply Rle_trans; [exact Aq|]. apply Rmult_le_compat_r; [lra|]. apply bpow_le. lia.
    + apply Iq. right. apply sqrt_not_dyadic.
Qed.

Lemma outcome_step {A B} (r : result A) (k : A -> result B) (g : A -> Prop) (h : B -> Prop) (bad : Prop) :
  outcome r g bad -> (forall t, g t -> outcome (k t) h True) -> outcome (bind r k) h True.
Proof. intros H Hk. apply (outcome_bind r k g h bad True H); auto. Qed.

Lemma calc_pi_ok b t : 0 < b <= 2 ^ 30 -> tri_good chud_weight chud_term 170 0 b t -> outcome (calc_pi t (b * 47)) (pi_val b) True.
Proof.
  intros Hb G. destruct t as [[p q] r]. destruct G as (P & Q & R & WP & WQ & WR & NP & _ & [HQ _] & _ & HS & _). rewrite chud_weight_0, Rmult_1_r in HS. pose proof (chud_small b ltac:(lia)) as SS. rewrite <- HS in SS. apply Rabs_le_inv in SS.
  assert (Q0 : (1 <= IZR Q)%R) by (apply IZR_le; lia). assert (EP : (IZR P = IZR P / IZR Q * IZR Q)%R) by (field; lra). assert (HP0 : 0 < P + Q * 13591409) by (apply lt_IZR; rewrite plus_IZR, mult_IZR, EP; nra).
  unfold calc_pi. destruct (whole_word 4270934400 ltac:(lia)) as (n0 & F0 & K0). destruct (whole_word 13591409 ltac:(lia)) as (n1 & F1 & K1). destruct (whole_word 10005 ltac:(lia)) as (f3 & F3 & K3). rewrite F0, F1, F3. cbn [bind].
  eapply outcome_step; [exact (whole_mul q n0 _ _ WQ K0 ltac:(lia) ltac:(lia))|]. intros q0 Wq0. eapply outcome_step; [exact (whole_mul q n1 _ _ WQ K1 ltac:(lia) ltac:(lia))|]. intros q1 Wq1.
  eapply outcome_step; [exact (whole_add p q1 _ _ WP Wq1 NP ltac:(lia) ltac:(lia))|]. intros p0 Wp0. destruct (n_sqrt_10005 f3 (b * 47) K3 ltac:(lia)) as (f4 & -> & W4 & N4 & L4 & A4 & I4). cbn [bind]. rewrite max_len.
  assert (HK : 47 * b <= 64 * wlen f4) by (rewrite L4; unfold prec_up; clear; dlia). pose proof sqrt_range as SR. set (s := sqrt 10005) in *. assert (BS : (0 < bpow radix2 (1 - 47 * b) <= / 1000000)%R).
  { split; [apply bpow_gt_0|]. apply Rle_trans with (bpow radix2 (-46)); [apply bpow_le; lia|]. change (bpow radix2 (-46)) with (/ 70368744177664)%R. lra. }
  replace (1 - b * 47) with (1 - 47 * b) in A4 by ring. set (d := bpow radix2 (1 - 47 * b)) in *. assert (V4 : (99 < value f4 < 102)%R) by (apply Rabs_le_inv in A4; nra).
  pose proof (whole_nonzero p0 _ Wp0 ltac:(lia)) as Np0. pose proof (whole_nonzero q0 _ Wq0 ltac:(lia)) as Nq0. pose proof (wlen_pos p0 ltac:(apply Wp0) Np0) as Lp0. set (w5 := Z.max (wlen p0) (wlen f4)).
  assert (VP : value p0 = (IZR P + IZR Q * 13591409)%R) by (destruct Wp0 as (_ & _ & ->); rewrite plus_IZR, mult_IZR; reflexivity). assert (VQ : value q0 = (IZR Q * 4270934400)%R) by (destruct Wq0 as (_ & _ & ->); rewrite mult_IZR; reflexivity).
  assert (VP1 : (13591408 * IZR Q <= value p0 <= 13591410 * IZR Q)%R) by (rewrite VP, EP; split; nra). assert (C5 : 64 * w5 < P_LIM) by (apply max_lim; [apply Wp0|exact W4]).
  pose proof (mul_nonzero p0 f4 (64 * w5) RNone ltac:(apply Wp0) W4 Np0 ltac:(apply N4) ltac:(lia)) as C. rewrite prec_whole in C. specialize (C C5). assert (M5 : (1 <= value p0 * value f4)%R) by nra.
  eapply outcome_step. { apply (cut_far _ _ _ _ _ C); [lia|]. rewrite Rabs_pos_eq by lra. apply Rle_trans with (bpow radix2 0); [apply bpow_le; lia|exact M5]. } clear C.
  intros f5 (W5 & N5 & L5 & A5 & I5). rewrite max_len. set (w6 := Z.max (wlen q0) (wlen f5)). assert (C6 : 64 * w6 < P_LIM) by (apply max_lim; [apply Wq0|exact W5]).
  assert (D5 : (Rabs (value f5 - value p0 * value f4) <= d * Rabs (value p0 * value f4))%R). { eapply Rle_trans; [exact A5|]. apply Rmult_le_compat_r; [apply Rabs_pos|]. apply bpow_le. lia. }
  assert (M1 : (1345000000 * IZR Q <= value p0 * value f4)%R) by (apply Rle_trans with (13591408 * IZR Q * 99)%R; [lra|apply Rmult_le_compat; lra]).
  assert (M2 : (value p0 * value f4 <= 1387000000 * IZR Q)%R) by (apply Rle_trans with (13591410 * IZR Q * 102)%R; [apply Rmult_le_compat; lra|lra]).
  assert (VF : (1300000000 * IZR Q <= value f5 <= 1400000000 * IZR Q)%R). { pose proof D5 as D. rewrite (Rabs_pos_eq (_ * _)) in D by lra. apply Rabs_le_inv in D. assert (d * (value p0 * value f4) <= / 1000000 * (1387000000 * IZR Q))%R by (apply Rmult_le_compat; lra). lra. }
  assert (RQ : (3 <= value q0 / value f5 <= 4)%R).
  { assert (0 < value f5)%R by lra. rewrite VQ. split; apply Rmult_le_reg_r with (value f5); try lra; unfold Rdiv; rewrite Rmult_assoc, Rinv_l, Rmult_1_r by lra; lra. }
  assert (I5T : ninexact f5 = true) by (apply I5; left; rewrite I4; apply orb_true_r).
  assert (D6 : near (64 * w6) (value q0 / value f5) true (n_div q0 f5 (64 * w6) RNone)).
  { apply div_near; auto; [apply Wq0|apply N5| |rewrite I5T; apply orb_true_r|lra]. pose proof (wlen_pos f5 W5 ltac:(apply N5)). lia. }
  destruct D6 as (v & -> & Wv & Nv & Lv & Av & Iv). cbn [outcome].
  assert (D7 : (Rabs (value v - value q0 / value f5) <= d * Rabs (value q0 / value f5))%R). { eapply Rle_trans; [exact Av|]. apply Rmult_le_compat_r; [apply Rabs_pos|]. apply bpow_le. lia. }
  destruct (pi_err s (value p0) (value q0) (value f4) (value f5) (value v) d ltac:(lra) ltac:(lra) ltac:(lra) ltac:(lra) A4 D5 D7) as [_ E].
  assert (ET : (value q0 / (value p0 * s) = chud_value (rsum chud_term 0 b))%R).
  { unfold chud_value. fold s. rewrite <- HS, VP, VQ. assert (SQ : (s * s = 10005)%R) by (unfold s; apply sqrt_sqrt; lra). replace (IZR Q * 4270934400)%R with (IZR Q * 426880 * (s * s))%R by (rewrite SQ; ring). field. repeat split; lra. }
  rewrite ET in E. set (T := chud_value (rsum chud_term 0 b)) in *.
  assert (TR : (31 / 10 <= T <= 315 / 100)%R).
  { rewrite <- ET, VQ. assert (X : (0 < value p0 * s)%R) by (apply Rmult_lt_0_compat; lra). split; apply Rmult_le_reg_r with (value p0 * s)%R; try lra; unfold Rdiv; rewrite ?Rmult_assoc, Rinv_l, ?Rmult_1_r by lra.
    - assert (value p0 * s <= 13591410 * IZR Q * 101)%R by (apply Rmult_le_compat; lra). lra.
    - assert (13591408 * IZR Q * 100 <= value p0 * s)%R by (apply Rmult_le_compat; lra). lra. }
  assert (DB : d = (2 * bpow radix2 (- (47 * b)))%R). { unfold d. replace (1 - 47 * b) with (1 + - (47 * b)) by ring. rewrite bpow_plus. reflexivity. }
  assert (E4 : (4 * d * T <= 26 * bpow radix2 (- (47 * b)))%R) by (rewrite DB; pose proof (bpow_gt_0 radix2 (- (47 * b))); nra). assert (E5 : (4 * d * T <= / 1000)%R) by nra.
  pose proof E as E'. apply Rabs_le_inv in E'. split; [lia|]. split; [exact Wv|]. split; [exact Nv|]. split; [apply Iv; now left|]. split; [|split; [|split]].
  - apply exp_of_range; auto. rewrite Rabs_pos_eq by lra. change (bpow radix2 (2 - 1)) with 2%R. change (bpow radix2 2) with 4%R. lra.
  - lia.
  - lra.
  - intros S HSl. pose proof (chud_cut S b HSl ltac:(lia)) as CC. fold T in CC. apply Rabs_le_inv in CC. apply Rabs_le. split; lra.
Qed.

(** ** The loop *)
Definition pi_fits (s b : Z) : Prop := s + 47 <= 47 * b.
Definition pi_cache_ok := cache_ok pi_pqr pi_val 0.

Lemma pi_sums_ok i x : sums pi_pqr 0 i x -> tri_good chud_weight chud_term 170 0 (2 ^ i) x.
Proof. intros (H0 & Hi & E). assert (0 < 2 ^ i <= 2 ^ 33) by (split; [apply Z.pow_pos_nonneg; lia|apply Z.pow_le_mono_r; lia]). pose proof (pi_pqr_ok 0 (2 ^ i) ltac:(lia) ltac:(lia)) as O. rewrite E in O. exact O. Qed.
Lemma pi_split_ok i : 0 <= i <= 30 -> outcome (pi_pqr 0 (2 ^ i)) (fun _ => i < 30) True.
Proof.
  intros Hi. assert (0 < 2 ^ i <= 2 ^ 33) by (split; [apply Z.pow_pos_nonneg; lia|apply Z.pow_le_mono_r; lia]). refine (outcome_weak _ _ _ _ _ (pi_pqr_ok 0 (2 ^ i) ltac:(lia) ltac:(lia))). intros [[p q] r] (P & Q & R & WP & WQ & WR & NP & _ & [HQ _] & [HR _] & HS & HW).
  rewrite chud_weight_0, Rmult_1_r in HW. apply (three_pow i 47); [lia..|]. apply (whole_bits q Q _ WQ HQ). assert (0 < IZR Q)%R by (apply IZR_lt; lia). apply (ln_den chud_weight 47 (2 ^ i) Q R); auto; [split; [apply chud_weight_pos|apply chud_weight_small; lia]|]. rewrite <- HW. field. lra.
Qed.
Lemma pi_val_facts s b v k : pi_val b v -> pi_fits s b -> s mod 64 = 0 -> 0 < k -> k + 64 <= s -> s <= 64 * wlen v /\ forall S, chud_limit S -> (Rabs (chud_value S - value v) < bpow radix2 (2 - s))%R.
Proof.
  intros (B & W & N & I & E & L & V & A) Hf Hs Hk Hks. unfold pi_fits in Hf. split; [lia|]. intros S HS. eapply Rle_lt_trans; [exact (A S HS)|].
  assert (A1 : (bpow radix2 (- (47 * b)) <= bpow radix2 (2 - s) * / 1024)%R). { change (/ 1024)%R with (bpow radix2 (-10)). rewrite <- bpow_plus. apply bpow_le. lia. } pose proof (bpow_gt_0 radix2 (2 - s)). lra.
Qed.

Theorem pi_for_prec_ok f c k rm : pi_cache_ok c -> 64 <= k < 2 ^ 62 -> k mod 64 = 0 -> (31 <= f)%nat ->
  exists c' r, pi_for_prec f c k rm = Some (c', r) /\ pi_cache_ok c' /\ match r with Ok y => forall S, chud_limit S -> const_result (chud_value S) 2 k rm y | _ => overflows r end.
Proof.
  intros Hc Hk Hk64 Hf. assert (Hr : round_p k = k). { unfold round_p. rewrite Z.min_l by lia. clear - Hk64. dlia. }
  destruct (for_prec_ok pi_pqr pi_inc pi_calc pi_kext k rm pi_val pi_fits 0) with (f := f) (c := c) as (c' & r & E & C & R); auto.
  - exact pi_extends.
  - exact pi_split_ok.
  - intros i x Hi Hs. apply calc_pi_ok; [|now apply pi_sums_ok]. destruct Hs as (_ & Hs & _). split; [apply Z.pow_pos_nonneg; lia|apply Z.pow_le_mono_r; lia].
  - intros s Hs. exists ((k + 46 + 64) / 47). split; [reflexivity|]. clear - Hk. dlia.
  - intros s kx i -> Ek Hi Hx. injection Ek as <-. unfold pi_fits. set (b := 2 ^ i) in *. clearbody b. clear - Hx. dlia.
  - intros s d kx i j F Hs Hd Hsd Ek Hx Hij Hj. unfold pi_fits in *. pose proof (pow2_le i j ltac:(lia) ltac:(lia)). lia.
  - intros s b v V F Hs Hks. destruct (pi_val_facts s b v k V F Hs ltac:(lia) Hks) as [L _]. destruct V as (_ & W & N & _). pose proof (try_outcome v k rm s W N ltac:(lia) Hk64 Hs ltac:(lia)) as O.
    destruct (try_set_precision v k rm s) as [[y [|]]|e|]; auto.
  - intros s b v (B & W & N & I & E & L & V & A) F Hs. unfold pi_fits in F. pose proof (wf_lim v W). lia.
  - exists c', r. split; [exact E|]. split; [exact C|]. destruct r as [y|e|]; auto. intros S HS. destruct R as (s & S1 & S2 & V & S4 & S5). destruct (pi_val_facts s _ _ k V S4 S2 ltac:(lia) S1) as [L A]. specialize (A S HS). destruct V as (_ & W & N & I & Ee & _ & P0 & _).
    apply (accept_const (chud_value S) 2 k rm s (c_val c')); auto; lia.
Qed.
Theorem pi_new_ok : exists c, pi_new = Ok c /\ pi_cache_ok c.
Proof.
  assert (E : exists c, pi_new = Ok c) by (vm_compute; eexists; reflexivity). destruct E as (c & E). exists c. split; [exact E|]. unfold pi_new, new_cache in E. destruct (pi_pqr 0 1) as [x| |] eqn:Ex; try discriminate E. cbn [bind] in E. destruct (calc_pi x 1) as [v| |]; try discriminate E. injection E as <-.
  exists 0. cbn [c_b c_sum c_val]. split; [reflexivity|]. split; [split; [lia|]; split; [lia|exact Ex]|]. now left.
Qed.
