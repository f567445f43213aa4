(** The constants e, ln 2 and ln 10: the value computed from the sums, and the
    results of [for_prec]. *)

From Coq Require Import ZArith Znumtheory Zpow_facts Reals List Bool Lia Lra.
From Flocq Require Import Core Relative.
From Verif Require Import Words Mantissa Num Consts SpecZ WordsP WordsP2 RoundP Spec SpecConst RealP RealP2 NumP CmpP SetP AddNum MulNum DivNum RootP RootNum ArithTop Conv2Num RoundableNum PowNum ConstP SeriesP LoopP.
Import ListNotations.
Open Scope Z_scope.
Ltac Zify.zify_post_hook ::= idtac.
Arguments Z.mul : simpl never.
Arguments Z.add : simpl never.
Arguments Z.pow : simpl never.
Arguments Z.sub : simpl never.
Arguments Z.of_nat : simpl never.
Ltac dlia := Z.div_mod_to_equations; lia.

(** ** One cut-off operation *)
Definition near (p : Z) (r : R) (ix : bool) (res : result num) : Prop :=
  exists q, res = Ok q /\ wf q /\ normal q /\ 64 * wlen q = p /\ (Rabs (value q - r) <= bpow radix2 (1 - p) * Rabs r)%R /\ (ninexact q = true <-> ix = true \/ value q <> r).

Lemma cut_near p r s ix res : correctly_rounded p RNone r s ix res -> 0 < p -> (bpow radix2 (-100) <= Rabs r <= bpow radix2 100)%R -> near p r ix res.
Proof.
  intros C Hp [R1 R2]. unfold correctly_rounded in C. cbv zeta in C. destruct C as [_ C].
  assert (Z1 : (bpow radix2 (-100) <= Rabs (rnd_prec p RNone r))%R). { unfold rnd_prec. apply abs_round_ge_generic; [apply FLX_exp_valid; exact Hp|apply rnd_valid| |exact R1]. apply generic_format_bpow. unfold FLX_exp. lia. }
  assert (Z2 : (Rabs (rnd_prec p RNone r) <= bpow radix2 100)%R). { unfold rnd_prec. apply abs_round_le_generic; [apply FLX_exp_valid; exact Hp|apply rnd_valid| |exact R2]. apply generic_format_bpow. unfold FLX_exp. lia. }
  pose proof (bpow_lt radix2 100 EMAX ltac:(reflexivity)) as L1. pose proof (bpow_le radix2 (EMIN - 1) (-100) ltac:(vm_compute; discriminate)) as L2.
  destruct C as (q & E & W & L & _ & N & _ & _ & _ & I); [eapply Rle_lt_trans; [exact Z2|exact L1]|]. destruct N as [V N]; [eapply Rle_trans; [exact L2|exact Z1]|].
  exists q. split; [exact E|]. split; [exact W|]. split; [exact N|]. split; [exact L|]. split; [|exact I]. rewrite V.
  pose proof (bpow_gt_0 radix2 (-100)) as G. assert (NZ : r <> 0%R). { intros ->. rewrite Rabs_R0 in R1. apply (Rlt_irrefl 0). eapply Rlt_le_trans; [exact G|exact R1]. }
  left. replace (1 - p) with (- p + 1) by ring. unfold rnd_prec. apply (relative_error_FLX radix2 p Hp (rnd RNone) r NZ).
Qed.

Lemma normal_range x : wf x -> normal x -> (bpow radix2 (ne x - 1) <= Rabs (value x) < bpow radix2 (ne x))%R.
Proof.
  intros W [N NZ]. pose proof (wf_words x W) as Ho. pose proof (val_bound _ Ho) as HM. fold (magnitude x) (wlen x) in HM. pose proof (wf_bits x W) as Hb. rewrite N in Hb.
  pose proof (bitlen_spec (magnitude x) ltac:(unfold nonzero in NZ; lia)) as [B _]. rewrite <- Hb in B.
  assert (A : Rabs (value x) = (IZR (magnitude x) * bpow radix2 (ne x - 64 * wlen x))%R).
  { unfold value, F2R. cbn [Fnum Fexp]. rewrite mult_IZR, Rmult_assoc, Rabs_mult, (Rabs_pos_eq (_ * _)); [destruct (ns x); cbn [sgnZ]; rewrite <- abs_IZR; cbn; ring|].
    apply Rmult_le_pos; [apply IZR_le; lia|apply bpow_ge_0]. }
  assert (P : 0 < 64 * wlen x). { assert (magnitude x <> 0) by exact NZ. destruct (Z.eq_dec (wlen x) 0) as [E|]; [rewrite E in HM; change (2 ^ (64 * 0)) with 1 in HM; lia|]. pose proof (zlen_nonneg (mm (nm x))) as Q. fold (wlen x) in Q. lia. }
  rewrite A. split.
  - replace (ne x - 1) with (64 * wlen x - 1 + (ne x - 64 * wlen x)) by ring. rewrite bpow_plus. apply Rmult_le_compat_r; [apply bpow_ge_0|]. rewrite bpow_IZR by lia. apply IZR_le. exact B.
  - replace (bpow radix2 (ne x)) with (bpow radix2 (64 * wlen x + (ne x - 64 * wlen x))) by (f_equal; ring). rewrite bpow_plus. apply Rmult_lt_compat_r; [apply bpow_gt_0|]. rewrite bpow_IZR by lia. apply IZR_lt. apply HM.
Qed.
Lemma exp_of_range x e : wf x -> normal x -> (bpow radix2 (e - 1) <= Rabs (value x) < bpow radix2 e)%R -> ne x = e.
Proof.
  intros W N [A B]. destruct (normal_range x W N) as [C D]. assert (ne x - 1 < e) by (apply (lt_bpow radix2); eapply Rle_lt_trans; eassumption). assert (e - 1 < ne x) by (apply (lt_bpow radix2); eapply Rle_lt_trans; eassumption). lia.
Qed.

(** ** Exact integers *)
Lemma whole_range x N : whole x N -> N <> 0 -> Z.abs N < 2 ^ EMAX.
Proof.
  intros Hx HN. pose proof (whole_nonzero x N Hx HN) as NZ. destruct Hx as (W & _ & V). pose proof (wf_exp x W) as He.
  assert (NN : normal x). { apply normal_iff; [exact W|]. rewrite V, <- abs_IZR. apply Rle_trans with 1%R; [|apply IZR_le; lia]. change 1%R with (bpow radix2 0). apply bpow_le. vm_compute. discriminate. }
  destruct (normal_range x W NN) as [_ B]. rewrite V, <- abs_IZR in B. apply lt_IZR. rewrite <- bpow_IZR by lia. eapply Rlt_le_trans; [exact B|]. apply bpow_le. lia.
Qed.
Lemma whole_odd_len x N : whole x N -> Z.odd N = true -> Z.abs N < 2 ^ (64 * wlen x).
Proof.
  intros Hx HO. assert (HN : N <> 0) by (intros ->; discriminate HO). destruct Hx as (W & _ & V). pose proof (wf_words x W) as Ho. pose proof (val_bound _ Ho) as HM. fold (magnitude x) (wlen x) in HM.
  assert (HS : Z.abs (sgnZ (ns x) * magnitude x) = magnitude x) by (destruct (ns x); cbn [sgnZ]; lia).
  unfold value, F2R in V. cbn [Fnum Fexp] in V. set (m := sgnZ (ns x) * magnitude x) in *. set (d := ne x - 64 * wlen x) in *. destruct (Z.lt_ge_cases 0 d) as [H|H].
  - exfalso. rewrite bpow_IZR, <- mult_IZR in V by lia. apply eq_IZR in V. replace d with (1 + (d - 1)) in V by ring. rewrite Z.pow_add_r in V by lia. change (2 ^ 1) with 2 in V.
    rewrite <- V in HO. rewrite !Z.odd_mul in HO. change (Z.odd 2) with false in HO. rewrite Bool.andb_false_l, Bool.andb_false_r in HO. discriminate HO.
  - assert (E : m = N * 2 ^ (- d)). { apply eq_IZR. rewrite mult_IZR, <- bpow_IZR, <- V, Rmult_assoc, <- bpow_plus by lia. replace (d + - d) with 0 by ring. cbn [bpow]. ring. }
    assert (1 <= 2 ^ (- d)) by (pose proof (pow2_gt0 (- d) ltac:(lia)); lia). apply (f_equal Z.abs) in E. rewrite Z.abs_mul, (Z.abs_eq (2 ^ (- d))) in E by lia. nia.
Qed.
(** A value equal to a fraction has a power of two as denominator. *)
Lemma dyadic_div x P Q : (value x * IZR Q = IZR P)%R -> exists j, 0 <= j /\ (Q | P * 2 ^ j).
Proof.
  unfold value, F2R. cbn [Fnum Fexp]. set (m := sgnZ (ns x) * magnitude x). set (d := ne x - 64 * wlen x). intros V. destruct (Z.lt_ge_cases 0 d) as [H|H].
  - rewrite bpow_IZR, <- !mult_IZR in V by lia. apply eq_IZR in V. exists 0. split; [lia|]. exists (m * 2 ^ d). rewrite <- V. ring.
  - exists (- d). split; [lia|]. exists m. apply eq_IZR. rewrite !mult_IZR, <- bpow_IZR, <- V by lia. replace (IZR m * bpow radix2 d * IZR Q * bpow radix2 (- d))%R with (IZR m * IZR Q * (bpow radix2 d * bpow radix2 (- d)))%R by ring.
    rewrite <- bpow_plus. replace (d + - d) with 0 by ring. cbn [bpow]. ring.
Qed.

(** ** The denominators of ln 2 and ln 10 are odd *)
Definition odd_q (t : num * num * num) : Prop := let '(_, q, _) := t in exists Q, whole q Q /\ Z.odd Q = true.
Lemma ln_join_odd x y : odd_q x -> odd_q y -> forall t, ln_join x y = Ok t -> odd_q t.
Proof.
  destruct x as [[pa qa] ra]. destruct y as [[pb qb] rb]. intros (Qa & Wa & Oa) (Qb & Wb & Ob) t. unfold ln_join.
  destruct (n_mul_full_prec pa qb) as [n0| |]; try discriminate. cbn [bind]. destruct (n_mul_full_prec pb ra) as [n1| |]; try discriminate. cbn [bind]. destruct (n_add_full_prec n0 n1) as [p| |]; try discriminate. cbn [bind].
  assert (NA : Qa <> 0) by (intros ->; discriminate Oa). assert (NB : Qb <> 0) by (intros ->; discriminate Ob). pose proof (whole_mul qa qb Qa Qb Wa Wb NA NB) as M.
  destruct (n_mul_full_prec qa qb) as [q| |]; try discriminate. cbn [bind]. destruct (n_mul_full_prec ra rb) as [r| |]; try discriminate. cbn [bind]. intros E. injection E as <-.
  exists (Qa * Qb). split; [exact M|]. rewrite Z.odd_mul, Oa, Ob. reflexivity.
Qed.
Definition ln_good (w u : Z -> R) (a b : Z) (t : num * num * num) : Prop := tri_good w u 64 a b t /\ odd_q t.
Lemma outcome_and {T} (r : result T) (g h : T -> Prop) bad : outcome r g bad -> (forall t, r = Ok t -> h t) -> outcome r (fun t => g t /\ h t) bad.
Proof. destruct r as [t|[s| | |]|]; cbn [outcome]; auto. Qed.

Theorem ln2_sums a b : 0 <= a < b -> b <= 2 ^ 55 -> outcome (ln2_pqr a b) (ln_good (powR (/ 9)) ln2_term a b) (2 ^ 24 < b - a).
Proof.
  intros Ha Hb. unfold ln2_pqr. apply (splitting_ok ln2_leaf ln_join _ (2 ^ 55) (2 ^ 24)); auto.
  - discriminate.
  - intros c Hc. apply outcome_and; [exact (ln2_leaf_good c Hc)|]. intros t. unfold ln2_leaf. destruct (from_word 1 1) as [x| |]; try discriminate. cbn [bind]. rewrite !chk_ok by lia. cbn [bind]. intros E. injection E as <-.
    exists ((2 * c + 1) * 9). split; [apply whole_usize; lia|]. rewrite Z.odd_mul, Z.odd_add, Z.odd_mul. reflexivity.
  - intros a0 m b0 x y H1 H2 [G1 O1] [G2 O2]. apply outcome_and; [|exact (ln_join_odd x y O1 O2)]. apply (ln_join_good (powR (/ 9)) ln2_term 64 (2 ^ 24) (2 ^ 55)) with (m := m); auto; try reflexivity; try discriminate.
    + intros k _. apply powR_pos. lra.
    + intros a' b' H'. pose proof (ln2_sum_pos a' b' H'). lra.
  - change (2 ^ Z.of_nat 64) with (2 ^ 9 * 2 ^ 55). lia.
Qed.
Theorem ln10_sums a b : 0 <= a < b -> b <= 2 ^ 55 -> outcome (ln10_pqr a b) (ln_good (powR (81 / 121)) ln10_term a b) (2 ^ 24 < b - a).
Proof.
  intros Ha Hb. unfold ln10_pqr. apply (splitting_ok ln10_leaf ln_join _ (2 ^ 55) (2 ^ 24)); auto.
  - discriminate.
  - intros c Hc. apply outcome_and; [exact (ln10_leaf_good c Hc)|]. intros t. unfold ln10_leaf. destruct (from_word 81 1) as [x| |]; try discriminate. cbn [bind]. rewrite !chk_ok by lia. cbn [bind]. intros E. injection E as <-.
    exists ((2 * c + 1) * 121). split; [apply whole_usize; lia|]. rewrite Z.odd_mul, Z.odd_add, Z.odd_mul. reflexivity.
  - intros a0 m b0 x y H1 H2 [G1 O1] [G2 O2]. apply outcome_and; [|exact (ln_join_odd x y O1 O2)]. apply (ln_join_good (powR (81 / 121)) ln10_term 64 (2 ^ 24) (2 ^ 55)) with (m := m); auto; try reflexivity; try discriminate.
    + intros k _. apply powR_pos. lra.
    + intros a' b' H'. pose proof (ln10_sum_pos a' b' H'). lra.
  - change (2 ^ Z.of_nat 64) with (2 ^ 9 * 2 ^ 55). lia.
Qed.

(** ** Series facts *)
Lemma ln2_small : (ln 2 <= 7 / 10)%R.
Proof. pose proof (ln2_bounds 0 ltac:(lia)) as B. rewrite rsum_nil in B. change (powR (/ 9) 0) with 1%R in B. change (2 * 0 + 3) with 3 in B. lra. Qed.
Lemma ln2_sum_range b : 0 < b -> (0 < rsum ln2_term 0 b <= / 10)%R.
Proof. intros H. split; [apply ln2_sum_pos; lia|]. pose proof (ln2_bounds b ltac:(lia)) as [B _]. pose proof ln2_small. lra. Qed.
Lemma ln10_sum_range b : 0 < b -> (/ 8 < rsum ln10_term 0 b <= 1)%R.
Proof.
  intros H. split.
  - rewrite (rsum_first ln10_term 0 b) by lia. assert (T : (ln10_term (0 + 1) = 27 / 121)%R) by (change (0 + 1) with 1; unfold ln10_term, powR; change (2 * 1 + 1) with 3; change (Z.to_nat 1) with 1%nat; rewrite pow_1; field). rewrite T. destruct (Z.eq_dec b 1) as [->|]; [rewrite rsum_nil; lra|]. pose proof (ln10_sum_pos (0 + 1) b ltac:(lia)). lra.
  - pose proof (ln10_bounds b ltac:(lia)) as [B _]. pose proof (ln10_bounds 0 ltac:(lia)) as [_ C]. rewrite rsum_nil in C. change (powR (81 / 121) 0) with 1%R in C. change (2 * 0 + 3) with 3 in C. lra.
Qed.
Lemma e_sum_range b : 2 <= b -> (3 / 2 <= rsum e_term 0 b <= 2)%R.
Proof.
  intros H. split.
  - rewrite (rsum_first e_term 0 b), (rsum_first e_term (0 + 1) b) by lia. assert (T1 : e_term (0 + 1) = 1%R) by (change (0 + 1) with 1; unfold e_term, factR; change (fact (Z.to_nat 1)) with 1%nat; cbn [INR]; lra). assert (T2 : e_term (0 + 1 + 1) = (1 / 2)%R) by (change (0 + 1 + 1) with 2; unfold e_term, factR; change (fact (Z.to_nat 2)) with 2%nat; cbn [INR]; lra).
    rewrite T1, T2. destruct (Z.eq_dec b 2) as [->|]; [rewrite rsum_nil; lra|]. assert (0 < rsum e_term (0 + 1 + 1) b)%R; [|lra]. apply rsum_pos; [lia|]. intros k Hk. unfold e_term. apply Rinv_0_lt_compat, factR_pos.
  - pose proof (e_bounds b ltac:(lia)) as [B _]. pose proof exp_le_3. lra.
Qed.

(** Numerator of the sum for e. *)
Fixpoint esum (n : nat) : Z := match n with O => 0 | S m => Z.of_nat n * esum m + 1 end.
Lemma esum_spec n : IZR (esum n) = (factR (Z.of_nat n) * rsum e_term 0 (Z.of_nat n))%R.
Proof.
  induction n as [|n IH]; [cbn [esum]; change (Z.of_nat 0) with 0; rewrite rsum_nil; ring|]. cbn [esum]. rewrite plus_IZR, mult_IZR, IH, (rsum_last e_term 0 (Z.of_nat (S n))) by lia. replace (Z.of_nat (S n) - 1) with (Z.of_nat n) by lia.
  change (e_term (Z.of_nat (S n))) with (/ factR (Z.of_nat (S n)))%R. pose proof (factR_pos (Z.of_nat (S n))) as F. rewrite Rmult_plus_distr_l, Rinv_r by lra. rewrite (factR_succ (Z.of_nat (S n))) by lia. replace (Z.of_nat (S n) - 1) with (Z.of_nat n) by lia. ring.
Qed.
Lemma esum_odd n : Z.even (Z.of_nat (S n)) = true -> Z.odd (esum (S n)) = true.
Proof. intros H. cbn [esum]. rewrite Z.odd_add, Z.odd_mul, <- Z.negb_even, H. reflexivity. Qed.
Lemma esum_mod3 n : esum (S (S (S n))) mod 3 <> 0.
Proof.
  cbn [esum]. set (c := esum n). replace (Z.of_nat (S (S (S n)))) with (Z.of_nat n + 3) by lia. replace (Z.of_nat (S (S n))) with (Z.of_nat n + 2) by lia. replace (Z.of_nat (S n)) with (Z.of_nat n + 1) by lia. set (m := Z.of_nat n).
  set (q := m / 3). set (r := m mod 3). assert (E : m = 3 * q + r) by (apply Z.div_mod; lia). assert (Hr : r = 0 \/ r = 1 \/ r = 2) by (pose proof (Z.mod_pos_bound m 3 ltac:(lia)); unfold r; lia). clearbody q r c. rewrite E.
  destruct Hr as [->|[->| ->]].
  - match goal with |- ?x mod 3 <> 0 => assert (X : exists k, x = 1 + 3 * k) end. { exists ((q + 1) * ((3 * q + 2) * ((3 * q + 1) * c + 1) + 1)). ring. } destruct X as (k & ->). rewrite (Z.mul_comm 3), Z.mod_add by lia. discriminate.
  - match goal with |- ?x mod 3 <> 0 => assert (X : exists k, x = 2 + 3 * k) end. { exists ((3 * q + 4) * ((q + 1) * ((3 * q + 1 + 1) * c + 1)) + q + 1). ring. } destruct X as (k & ->). rewrite (Z.mul_comm 3), Z.mod_add by lia. discriminate.
  - match goal with |- ?x mod 3 <> 0 => assert (X : exists k, x = 2 + 3 * k) end. { exists ((3 * q + 5) * (3 * q + 4) * (q + 1) * c + 3 * q * q + 10 * q + 8). ring. } destruct X as (k & ->). rewrite (Z.mul_comm 3), Z.mod_add by lia. discriminate.
Qed.

(** ** Values computed from the sums *)
Lemma prec_whole w : prec_up (64 * w) = 64 * w.
Proof. unfold prec_up. dlia. Qed.
Lemma max_len x y : Z.max (mantissa_max_bit_len x) (mantissa_max_bit_len y) = 64 * Z.max (wlen x) (wlen y).
Proof. unfold mantissa_max_bit_len, max_bit_len, mlen. fold (wlen x) (wlen y). lia. Qed.
Lemma max_lim x y : wf x -> wf y -> 64 * Z.max (wlen x) (wlen y) < P_LIM.
Proof. intros Wx Wy. pose proof (wf_lim x Wx). pose proof (wf_lim y Wy). lia. Qed.
Lemma wlen_pos x : wf x -> nonzero x -> 0 < wlen x.
Proof.
  intros W N. pose proof (val_bound _ (wf_words x W)) as HM. fold (magnitude x) (wlen x) in HM. unfold nonzero in N.
  destruct (Z.eq_dec (wlen x) 0) as [E|]; [rewrite E in HM; change (2 ^ (64 * 0)) with 1 in HM; lia|]. pose proof (zlen_nonneg (mm (nm x))) as Q. fold (wlen x) in Q. lia.
Qed.

Lemma bpow_small e : (e <= -50)%Z -> (0 < bpow radix2 e <= / 1000000)%R.
Proof. intros H. split; [apply bpow_gt_0|]. apply Rle_trans with (bpow radix2 (-50)); [now apply bpow_le|]. change (bpow radix2 (-50)) with (/ 1125899906842624)%R. lra. Qed.
Lemma mid_range t : (/ 1000 <= t <= 1000)%R -> (bpow radix2 (-100) <= Rabs t <= bpow radix2 100)%R.
Proof.
  intros H. rewrite Rabs_pos_eq by lra. split; [apply Rle_trans with (bpow radix2 (-10)); [apply bpow_le; lia|change (bpow radix2 (-10)) with (/ 1024)%R; lra]|apply Rle_trans with (bpow radix2 10); [change (bpow radix2 10) with 1024%R; lra|apply bpow_le; lia]].
Qed.

Lemma div_near x y w ix : wf x -> wf y -> nonzero x -> nonzero y -> 0 < w -> 64 * w < P_LIM -> ninexact x || ninexact y = ix -> (/ 1000 <= value x / value y <= 1000)%R ->
  near (64 * w) (value x / value y) ix (n_div x y (64 * w) RNone).
Proof.
  intros Wx Wy Nx Ny Hw HP <- Hr. pose proof (div_nonzero x y (64 * w) RNone Wx Wy Nx Ny ltac:(lia)) as C. rewrite prec_whole in C. apply (cut_near _ _ _ _ _ (C HP)); [lia|]. now apply mid_range.
Qed.
Lemma mul_near x y w ix : wf x -> wf y -> nonzero x -> nonzero y -> 0 < w -> 64 * w < P_LIM -> ninexact x || ninexact y = ix -> (/ 1000 <= value x * value y <= 1000)%R ->
  near (64 * w) (value x * value y) ix (n_mul x y (64 * w) RNone).
Proof.
  intros Wx Wy Nx Ny Hw HP <- Hr. pose proof (mul_nonzero x y (64 * w) RNone Wx Wy Nx Ny ltac:(lia)) as C. rewrite prec_whole in C. apply (cut_near _ _ _ _ _ (C HP)); [lia|]. now apply mid_range.
Qed.
Lemma add_near x y w ix : wf x -> wf y -> nonzero x -> nonzero y -> 0 < w -> 64 * w < P_LIM -> ninexact x || ninexact y = ix -> (/ 1000 <= value x + value y <= 1000)%R ->
  near (64 * w) (value x + value y) ix (n_add x y (64 * w) RNone).
Proof.
  intros Wx Wy Nx Ny Hw HP <- Hr. pose proof (add_sub_nonzero x y (64 * w) 1 RNone Wx Wy Nx Ny (or_introl eq_refl) ltac:(lia)) as C. rewrite prec_whole, Rmult_1_l in C. destruct (C HP) as [C1 _]. destruct C1 as (s & _ & C1); [lra|].
  apply (cut_near _ _ _ _ _ C1); [lia|]. now apply mid_range.
Qed.

(** The first two steps are the same for e, ln 2 and ln 10: 1 + p / q. *)
Lemma one_plus p q P Q : whole p P -> whole q Q -> 0 < P -> 0 < Q -> (/ 1000 <= IZR P / IZR Q <= 2)%R ->
  (forall x, (value x * IZR Q)%R <> IZR P) ->
  let prec := Z.max (mantissa_max_bit_len p) (mantissa_max_bit_len q) in
  let w := Z.max (wlen p) (wlen q) in
  exists v, (do f0 <- n_div p q prec RNone; n_add f0 ONE prec RNone) = Ok v /\ wf v /\ normal v /\ wlen v = w /\ ninexact v = true /\
    (Rabs (value v - (1 + IZR P / IZR Q)) <= 12 * bpow radix2 (- (64 * w)))%R.
Proof.
  intros Hp Hq P0 Q0 Ht ND. cbv zeta. rewrite max_len. pose proof (whole_nonzero p P Hp ltac:(lia)) as Np. pose proof (whole_nonzero q Q Hq ltac:(lia)) as Nq.
  destruct Hp as (Wp & Ip & Vp). destruct Hq as (Wq & Iq & Vq). set (w := Z.max (wlen p) (wlen q)). pose proof (max_lim p q Wp Wq) as HP. fold w in HP. pose proof (wlen_pos p Wp Np) as Lp. assert (Hw : 0 < w) by (unfold w; lia). clearbody w.
  set (t := (IZR P / IZR Q)%R) in *.
  assert (D : near (64 * w) t false (n_div p q (64 * w) RNone)). { unfold t. rewrite <- Vp, <- Vq. apply div_near; auto. - now rewrite Ip, Iq. - rewrite Vp, Vq. fold t. lra. }
  destruct D as (v0 & -> & W0 & N0 & L0 & E0 & I0). cbn [bind]. pose proof (bpow_small (1 - 64 * w) ltac:(lia)) as B. set (d := bpow radix2 (1 - 64 * w)) in *.
  assert (I0' : ninexact v0 = true). { apply I0. right. intros E. apply (ND v0). rewrite E. unfold t. field. apply Rgt_not_eq, IZR_lt. exact Q0. }
  rewrite (Rabs_pos_eq t) in E0 by lra. assert (D1 : (d * t <= 2 * d)%R) by nra. apply Rabs_le_inv in E0.
  assert (A : near (64 * w) (value v0 + value ONE) true (n_add v0 ONE (64 * w) RNone)).
  { apply add_near; auto. - apply ONE_wf. - apply N0. - apply ONE_nonzero. - now rewrite I0'. - rewrite ONE_value. split; lra. }
  destruct A as (v & -> & W & N & L & E & I). exists v. split; [reflexivity|]. split; [exact W|]. split; [exact N|]. split; [lia|]. split; [apply I; now left|].
  rewrite ONE_value in E. fold d in E. rewrite (Rabs_pos_eq (value v0 + 1)) in E by lra. assert (D2 : (d * (value v0 + 1) <= 4 * d)%R) by nra. apply Rabs_le_inv in E.
  replace (bpow radix2 (- (64 * w))) with (d / 2)%R. 2:{ unfold d. replace (1 - 64 * w) with (- (64 * w) + 1) by ring. rewrite bpow_plus. change (bpow radix2 1) with 2%R. field. }
  apply Rabs_le. split; lra.
Qed.

Definition e_val (b : Z) (v : num) : Prop :=
  wf v /\ normal v /\ ninexact v = true /\ ne v = 2 /\ (factR b < bpow radix2 (64 * wlen v))%R /\ (Rabs (exp 1 - value v) <= 12 * bpow radix2 (- (64 * wlen v)) + / (factR b * IZR b))%R.
Lemma factR_IZR b : 0 <= b -> exists F, 0 < F /\ factR b = IZR F.
Proof. intros H. exists (Z.of_nat (fact (Z.to_nat b))). split; [pose proof (lt_O_fact (Z.to_nat b)); lia|]. unfold factR. apply INR_IZR_INZ. Qed.
Lemma factR_ge b : 2 <= b -> (2 <= factR b)%R.
Proof.
  intros H. pattern b. apply (Zlt_lower_bound_ind _ 2); [|exact H]. clear b H. intros b IH Hb. destruct (Z.eq_dec b 2) as [->|]; [unfold factR; change (fact (Z.to_nat 2)) with 2%nat; cbn [INR]; lra|].
  rewrite factR_succ by lia. pose proof (IH (b - 1) ltac:(lia)). assert (3 <= IZR b)%R by (apply IZR_le; lia). nra.
Qed.
Lemma e_numbers b t : 4 <= b -> Z.even b = true -> e_good 0 b t -> exists p q P Q, t = (p, q) /\ whole p P /\ whole q Q /\ 0 < P /\ 0 < Q /\
  IZR Q = factR b /\ (IZR P / IZR Q)%R = rsum e_term 0 b /\ Z.odd P = true /\ P mod 3 <> 0 /\ Q mod 3 = 0 /\ (factR b <= IZR P)%R.
Proof.
  intros Hb He G. destruct t as [p q]. destruct G as (P & Q & WP & WQ & BP & BQ & HS & F). assert (F0 : factR 0 = 1%R) by reflexivity. rewrite F0, Rmult_1_l in HS. rewrite F0, Rmult_1_r in F.
  exists p, q, P, Q. split; [reflexivity|]. split; [exact WP|]. split; [exact WQ|]. split; [lia|]. split; [lia|]. split; [exact F|]. split; [exact HS|].
  assert (HQ : (0 < IZR Q)%R) by (apply IZR_lt; lia).
  assert (EP : P = esum (Z.to_nat b)). { apply eq_IZR. rewrite esum_spec, Z2Nat.id by lia. rewrite <- HS, <- F. field. lra. }
  set (n := Z.to_nat b) in *. assert (Hn : exists m, n = S (S (S m))) by (exists (n - 3)%nat; unfold n; lia). destruct Hn as (m & Hn).
  split; [|split; [|split]].
  - rewrite EP, Hn. apply esum_odd. rewrite <- Hn. unfold n. now rewrite Z2Nat.id by lia.
  - rewrite EP, Hn. apply esum_mod3.
  - assert (Q = Z.of_nat (fact n)). { apply eq_IZR. rewrite F. unfold factR. fold n. apply INR_IZR_INZ. } rewrite H, Hn. clear. induction m as [|m IH]; [reflexivity|]. rewrite fact_simpl, Nat2Z.inj_mul, Z.mul_mod, IH by lia. rewrite Z.mul_0_r. reflexivity.
  - pose proof (e_sum_range b ltac:(lia)) as R. rewrite <- HS in R. rewrite <- F. apply Rmult_le_reg_r with (/ IZR Q)%R; [now apply Rinv_0_lt_compat|]. rewrite Rinv_r by lra. unfold Rdiv in R. lra.
Qed.
Lemma calc_e_ok b t : 4 <= b -> Z.even b = true -> e_good 0 b t -> exists v, calc_e t = Ok v /\ e_val b v.
Proof.
  intros Hb He G. destruct (e_numbers b t Hb He G) as (p & q & P & Q & -> & WP & WQ & P0 & Q0 & FQ & HS & OP & MP & MQ & FP).
  pose proof (e_sum_range b ltac:(lia)) as R.
  destruct (one_plus p q P Q WP WQ P0 Q0) as (v & E & W & N & L & I & A).
  - rewrite HS. lra.
  - intros x Hx. destruct (dyadic_div x P Q Hx) as (j & Hj & D). assert (D3 : (3 | P * 2 ^ j)) by (apply Z.divide_trans with Q; [apply Z.mod_divide; lia|exact D]).
    apply MP. apply Z.mod_divide; [lia|]. apply (Gauss 3 (2 ^ j)); [rewrite Z.mul_comm; exact D3|]. apply rel_prime_Zpower_r; [lia|]. apply Zgcd_1_rel_prime. reflexivity.
  - exists v. split; [exact E|]. set (w := Z.max (wlen p) (wlen q)) in *. rewrite <- L in A. clear E. rewrite HS in A. pose proof (e_bounds b ltac:(lia)) as BE.
    pose proof (wlen_pos v W ltac:(apply N)) as LV. pose proof (bpow_small (- (64 * wlen v)) ltac:(lia)) as BS. apply Rabs_le_inv in A.
    assert (T : (/ (factR b * IZR b) <= / 8)%R). { apply Rinv_le_contravar; [lra|]. pose proof (factR_ge b ltac:(lia)). assert (4 <= IZR b)%R by (apply IZR_le; lia). nra. }
    split; [exact W|]. split; [exact N|]. split; [exact I|]. split; [|split].
    + apply exp_of_range; auto. rewrite Rabs_pos_eq by lra. change (bpow radix2 (2 - 1)) with 2%R. change (bpow radix2 2) with 4%R. lra.
    + eapply Rle_lt_trans; [exact FP|]. pose proof (whole_odd_len p P WP OP) as OL. rewrite Z.abs_eq in OL by lia. apply IZR_lt in OL. rewrite <- bpow_IZR in OL by (pose proof (zlen_nonneg (mm (nm p))) as Z1; fold (wlen p) in Z1; lia).
      eapply Rlt_le_trans; [exact OL|]. apply bpow_le. rewrite L. unfold w. lia.
    + apply Rabs_le. split; lra.
Qed.

(** ** ln 2 and ln 10 *)
Lemma ln_numbers (w u : Z -> R) b t : w 0 = 1%R -> ln_good w u 0 b t -> exists p q r P Q R, t = (p, q, r) /\ whole p P /\ whole q Q /\ 0 < Q /\ Z.odd Q = true /\ 0 < R /\ (IZR P / IZR Q = rsum u 0 b)%R /\ (IZR R = w b * IZR Q)%R.
Proof.
  intros W0 [G O]. destruct t as [[p q] r]. destruct G as (P & Q & R & WP & WQ & WR & NP & BP & BQ & BR & HS & HW). destruct O as (Q' & WQ' & OQ).
  assert (Q' = Q). { apply eq_IZR. destruct WQ as (_ & _ & <-). destruct WQ' as (_ & _ & <-). reflexivity. } subst Q'. rewrite W0, Rmult_1_r in HS, HW. assert (0 < IZR Q)%R by (apply IZR_lt; lia).
  exists p, q, r, P, Q, R. split; [reflexivity|]. split; [exact WP|]. split; [exact WQ|]. split; [lia|]. split; [exact OQ|]. split; [lia|]. split; [exact HS|]. rewrite <- HW. field. lra.
Qed.
Lemma odd_not_dyadic P Q x : 0 < Q -> 0 < P < Q -> Z.odd Q = true -> (value x * IZR Q)%R <> IZR P.
Proof.
  intros HQ HP HO E. destruct (dyadic_div x P Q E) as (j & Hj & D). assert (G : (Q | P)). { apply (Gauss Q (2 ^ j)); [rewrite Z.mul_comm; exact D|]. apply rel_prime_Zpower_r; [lia|]. apply rel_prime_sym. apply prime_rel_prime; [exact prime_2|].
    intros H. apply Z.mod_divide in H; [|lia]. rewrite Zmod_odd, HO in H. discriminate H. }
  apply Z.divide_pos_le in G; lia.
Qed.
Lemma ln2_sum_low b : 0 < b -> (/ 27 <= rsum ln2_term 0 b)%R.
Proof.
  intros H. rewrite (rsum_first ln2_term 0 b) by lia. assert (T : (ln2_term (0 + 1) = / 27)%R) by (change (0 + 1) with 1; unfold ln2_term, powR; change (2 * 1 + 1) with 3; change (Z.to_nat 1) with 1%nat; rewrite pow_1; field). rewrite T.
  destruct (Z.eq_dec b 1) as [->|]; [rewrite rsum_nil; lra|]. pose proof (ln2_sum_pos (0 + 1) b ltac:(lia)). lra.
Qed.
Lemma ln10_sum_low b : 0 < b -> (27 / 121 <= rsum ln10_term 0 b)%R.
Proof.
  intros H. rewrite (rsum_first ln10_term 0 b) by lia. assert (T : (ln10_term (0 + 1) = 27 / 121)%R) by (change (0 + 1) with 1; unfold ln10_term, powR; change (2 * 1 + 1) with 3; change (Z.to_nat 1) with 1%nat; rewrite pow_1; field). rewrite T.
  destruct (Z.eq_dec b 1) as [->|]; [rewrite rsum_nil; lra|]. pose proof (ln10_sum_pos (0 + 1) b ltac:(lia)). lra.
Qed.
(** Terms that shrink by at least 2^-c give denominators of more than c b bits. *)
Lemma powR_bpow x c b : 0 <= b -> (0 < x <= bpow radix2 (- c))%R -> (powR x b <= bpow radix2 (- (c * b)))%R.
Proof.
  intros Hb [H1 H2]. unfold powR. rewrite <- (Z2Nat.id b Hb) at 2. induction (Z.to_nat b) as [|n IH]; [change (Z.of_nat 0) with 0; rewrite Z.mul_0_r; cbn; lra|].
  cbn [pow]. rewrite Nat2Z.inj_succ. replace (- (c * Z.succ (Z.of_nat n))) with (- c + - (c * Z.of_nat n)) by ring. rewrite bpow_plus. apply Rmult_le_compat; [lra|apply pow_le; lra|exact H2|exact IH].
Qed.

Lemma THREE_wf : wf THREE.
Proof.
  constructor.
  - unfold words_ok. cbn [THREE nm mm]. repeat constructor; lia.
  - reflexivity.
  - reflexivity.
  - cbn [THREE ne]. lia.
  - intros H. vm_compute in H. discriminate H.
  - intros [_ H]. vm_compute in H. discriminate H.
Qed.
Lemma THREE_value : value THREE = 3%R.
Proof.
  unfold value, F2R. cbn [Fnum Fexp]. replace (sgnZ (ns THREE) * magnitude THREE) with (3 * 2 ^ 126) by (vm_compute; reflexivity). replace (ne THREE - 64 * wlen THREE) with (-126) by reflexivity.
  rewrite mult_IZR, <- bpow_IZR, Rmult_assoc, <- bpow_plus by lia. change (bpow radix2 (126 + -126)) with 1%R. ring.
Qed.
Lemma THREE_nonzero : nonzero THREE.
Proof. unfold nonzero. vm_compute. discriminate. Qed.

Definition ln2_val (b : Z) (v : num) : Prop :=
  wf v /\ normal v /\ ninexact v = true /\ ne v = 0 /\ 3 * b < 64 * wlen v /\ (0 < value v)%R /\ (Rabs (ln 2 - value v) <= 12 * bpow radix2 (- (64 * wlen v)) + powR (/ 9) b)%R.
Definition ln10_val (b : Z) (v : num) : Prop :=
  wf v /\ normal v /\ ninexact v = true /\ ne v = 2 /\ 6 * b < 64 * wlen v /\ (0 < value v)%R /\ (Rabs (18 / 11 * (1 + rsum ln10_term 0 b) - value v) <= 40 * bpow radix2 (- (64 * wlen v)))%R.

Lemma ln_len p q Q c b : whole q Q -> 0 < Q -> Z.odd Q = true -> 0 <= c * b -> (bpow radix2 (c * b) <= IZR Q)%R -> c * b < 64 * Z.max (wlen p) (wlen q).
Proof.
  intros WQ HQ OQ Hc HB. pose proof (whole_odd_len q Q WQ OQ) as L. rewrite Z.abs_eq in L by lia. apply IZR_lt in L. pose proof (zlen_nonneg (mm (nm q))) as Z1. fold (wlen q) in Z1. rewrite <- bpow_IZR in L by lia.
  assert (c * b < 64 * wlen q) by (apply (lt_bpow radix2); eapply Rle_lt_trans; eassumption). lia.
Qed.
Lemma ln_den w c b Q R : (0 < w b <= bpow radix2 (- (c * b)))%R -> 0 < Q -> 0 < R -> (IZR R = w b * IZR Q)%R -> (bpow radix2 (c * b) <= IZR Q)%R.
Proof.
  intros [W1 W2] HQ HR E. assert (R1 : (1 <= IZR R)%R) by (apply IZR_le; lia). assert (0 < IZR Q)%R by (apply IZR_lt; lia). apply Rmult_le_reg_l with (bpow radix2 (- (c * b))); [apply bpow_gt_0|]. rewrite <- bpow_plus.
  replace (- (c * b) + c * b) with 0 by ring. cbn [bpow]. eapply Rle_trans; [exact R1|]. rewrite E. apply Rmult_le_compat_r; lra.
Qed.

Lemma calc_ln2_ok b t : 0 < b -> ln_good (powR (/ 9)) ln2_term 0 b t -> exists v, calc_ln2 t = Ok v /\ ln2_val b v.
Proof.
  intros Hb G. destruct (ln_numbers _ _ b t eq_refl G) as (p & q & r & P & Q & R & -> & WP & WQ & HQ & OQ & HR & HS & HW). pose proof (ln2_sum_range b Hb) as SR. pose proof (ln2_sum_low b Hb) as SL.
  assert (Q0 : (0 < IZR Q)%R) by (apply IZR_lt; lia). assert (HP : 0 < P < Q). { rewrite <- HS in SR. assert (EP : (IZR P = IZR P / IZR Q * IZR Q)%R) by (field; lra). split; apply lt_IZR; rewrite EP; nra. }
  destruct (one_plus p q P Q WP WQ ltac:(lia) HQ) as (v1 & E1 & W1 & N1 & L1 & I1 & A1); [rewrite HS; lra|intros x; apply odd_not_dyadic; auto|].
  assert (PB : (powR (/ 9) b <= bpow radix2 (- (3 * b)))%R) by (apply powR_bpow; [lia|change (bpow radix2 (- (3))) with (/ 8)%R; lra]).
  pose proof (ln_len p q Q 3 b WQ HQ OQ ltac:(lia) (ln_den (powR (/ 9)) 3 b Q R ltac:(split; [apply powR_pos; lra|exact PB]) HQ HR HW)) as LN.
  unfold calc_ln2. rewrite <- (bind_assoc (n_div p q _ RNone)), E1. cbn [bind]. rewrite max_len. set (w := Z.max (wlen p) (wlen q)) in *. pose proof (wlen_pos v1 W1 ltac:(apply N1)) as LV. rewrite L1 in LV.
  pose proof (wf_lim v1 W1) as HL. rewrite L1 in HL. rewrite HS in A1. apply Rabs_le_inv in A1. pose proof (bpow_small (- (64 * w)) ltac:(lia)) as BS.
  assert (D : near (64 * w) (value v1 / value THREE) true (n_div v1 THREE (64 * w) RNone)).
  { apply div_near; auto. - apply THREE_wf. - apply N1. - apply THREE_nonzero. - now rewrite I1. - rewrite THREE_value. lra. }
  destruct D as (v2 & -> & W2 & N2 & L2 & E2 & I2). cbn [bind]. eexists. split; [reflexivity|]. rewrite THREE_value in E2. rewrite (Rabs_pos_eq (value v1 / 3)) in E2 by lra.
  assert (D2 : bpow radix2 (1 - 64 * w) = (2 * bpow radix2 (- (64 * w)))%R). { replace (1 - 64 * w) with (1 + - (64 * w)) by ring. rewrite bpow_plus. reflexivity. }
  rewrite D2 in E2. set (B := bpow radix2 (- (64 * w))) in *. assert (D3 : (2 * B * (value v1 / 3) <= B)%R) by nra. apply Rabs_le_inv in E2.
  assert (NE : ne v2 = -1). { apply exp_of_range; auto. rewrite Rabs_pos_eq by lra. change (bpow radix2 (-1 - 1)) with (/ 4)%R. change (bpow radix2 (-1)) with (/ 2)%R. lra. }
  rewrite NE. change (-1 + 1) with 0. pose proof (set_exponent_spec v2 0 W2 ltac:(lia)) as SE. cbv zeta in SE. destruct SE as (X1 & X2 & X3 & X4 & X5). rewrite NE in X5. change (bpow radix2 (0 - -1)) with 2%R in X5.
  set (v := set_exponent v2 0) in *. assert (LW : 64 * wlen v = 64 * w) by lia.
  assert (NV : normal v). { apply normal_iff; [exact X1|]. rewrite X5, Rabs_pos_eq by lra. apply Rle_trans with (bpow radix2 (-1)); [apply bpow_le; vm_compute; discriminate|]. change (bpow radix2 (-1)) with (/ 2)%R. lra. }
  split; [exact X1|]. split; [exact NV|]. split; [rewrite X4; apply I2; now left|]. split; [|split; [|split]].
  - apply exp_of_range; auto. rewrite X5, Rabs_pos_eq by lra. change (bpow radix2 (0 - 1)) with (/ 2)%R. change (bpow radix2 0) with 1%R. lra.
  - lia.
  - rewrite X5. lra.
  - rewrite LW. fold B. rewrite X5. pose proof (ln2_bounds b ltac:(lia)) as LB. assert (T : (powR (/ 9) b / 12 / IZR (2 * b + 3) <= powR (/ 9) b)%R).
    { pose proof (powR_pos (/ 9) b ltac:(lra)) as PP. assert (1 <= IZR (2 * b + 3))%R by (apply IZR_le; lia). apply Rmult_le_reg_r with (IZR (2 * b + 3)); [lra|]. unfold Rdiv at 1. rewrite Rmult_assoc, Rinv_l by lra. nra. }
    apply Rabs_le. split; lra.
Qed.

(** The rest term of the ln 10 series is (81/121)^b, and 81 and 121 have no common factor. *)
Lemma ln10_den b Q R : 0 <= b -> 0 < Q -> 0 < R -> (IZR R = powR (81 / 121) b * IZR Q)%R -> (bpow radix2 (6 * b) <= IZR Q)%R.
Proof.
  intros Hb HQ HR E. assert (EI : R * 121 ^ b = 81 ^ b * Q).
  { apply eq_IZR. rewrite !mult_IZR, E. unfold powR. rewrite <- (Z2Nat.id b Hb) at 2 3. rewrite <- !pow_IZR. unfold Rdiv. rewrite Rpow_mult_distr, pow_inv. field. apply pow_nonzero. lra. }
  assert (D : (121 ^ b | Q)). { apply (Gauss (121 ^ b) (81 ^ b)); [exists R; lia|]. destruct (Z.eq_dec b 0) as [->|]; [apply rel_prime_1|]. apply rel_prime_Zpower; [lia..|]. apply Zgcd_1_rel_prime. reflexivity. }
  apply Z.divide_pos_le in D; [|exact HQ]. apply Rle_trans with (IZR (64 ^ b)); [|apply IZR_le; eapply Z.le_trans; [|exact D]; apply Z.pow_le_mono_l; lia]. rewrite bpow_IZR by lia. apply IZR_le. rewrite Z.pow_mul_r by lia. change (2 ^ 6) with 64. lia.
Qed.
Lemma ln10_sum_high b : 0 < b -> (rsum ln10_term 0 b <= 7 / 8)%R.
Proof.
  intros H. pose proof (ln10_bounds b ltac:(lia)) as [B _]. pose proof (ln10_bounds 1 ltac:(lia)) as [_ C]. rewrite (rsum_first ln10_term 0 1) in C by lia. assert (T : (ln10_term (0 + 1) = 27 / 121)%R) by (change (0 + 1) with 1; unfold ln10_term, powR; change (2 * 1 + 1) with 3; change (Z.to_nat 1) with 1%nat; rewrite pow_1; field).
  rewrite T in C. change (0 + 1) with 1 in C. rewrite rsum_nil in C by lia. change (2 * 1 + 3) with 5 in C. assert (P : powR (81 / 121) 1 = (81 / 121)%R) by (unfold powR; change (Z.to_nat 1) with 1%nat; apply pow_1). rewrite P in C. lra.
Qed.

Lemma calc_ln10_ok b t : 0 < b -> ln_good (powR (81 / 121)) ln10_term 0 b t -> exists v, calc_ln10 t = Ok v /\ ln10_val b v.
Proof.
  intros Hb G. destruct (ln_numbers _ _ b t eq_refl G) as (p & q & r & P & Q & R & -> & WP & WQ & HQ & OQ & HR & HS & HW). pose proof (ln10_sum_low b Hb) as SL. pose proof (ln10_sum_high b Hb) as SH.
  assert (Q0 : (0 < IZR Q)%R) by (apply IZR_lt; lia). assert (HP : 0 < P < Q). { rewrite <- HS in SL, SH. assert (EP : (IZR P = IZR P / IZR Q * IZR Q)%R) by (field; lra). split; apply lt_IZR; rewrite EP; nra. }
  destruct (one_plus p q P Q WP WQ ltac:(lia) HQ) as (v1 & E1 & W1 & N1 & L1 & I1 & A1); [rewrite HS; lra|intros x; apply odd_not_dyadic; auto|].
  pose proof (ln_len p q Q 6 b WQ HQ OQ ltac:(lia) (ln10_den b Q R ltac:(lia) HQ HR HW)) as LN.
  unfold calc_ln10. destruct (whole_word 18 ltac:(lia)) as (f0 & F0 & K0). destruct (whole_word 11 ltac:(lia)) as (f1 & F1 & K1). rewrite F0, F1. cbn [bind].
  rewrite <- (bind_assoc (n_div p q _ RNone)), E1. cbn [bind]. rewrite max_len. set (w := Z.max (wlen p) (wlen q)) in *. pose proof (wlen_pos v1 W1 ltac:(apply N1)) as LV. rewrite L1 in LV.
  pose proof (wf_lim v1 W1) as HL. rewrite L1 in HL. rewrite HS in A1. apply Rabs_le_inv in A1. pose proof (bpow_small (- (64 * w)) ltac:(lia)) as BS. set (S0 := rsum ln10_term 0 b) in *.
  pose proof (whole_nonzero f0 18 K0 ltac:(lia)) as Z0. pose proof (whole_nonzero f1 11 K1 ltac:(lia)) as Z1. destruct K0 as (X1 & X2 & X3). destruct K1 as (Y1 & Y2 & Y3).
  assert (D2 : bpow radix2 (1 - 64 * w) = (2 * bpow radix2 (- (64 * w)))%R). { replace (1 - 64 * w) with (1 + - (64 * w)) by ring. rewrite bpow_plus. reflexivity. }
  set (B := bpow radix2 (- (64 * w))) in *.
  assert (D : near (64 * w) (value v1 * value f0) true (n_mul v1 f0 (64 * w) RNone)). { apply mul_near; auto. - apply N1. - now rewrite I1. - rewrite X3. lra. }
  destruct D as (v2 & -> & W2 & N2 & L2 & E2 & I2). cbn [bind]. rewrite X3 in E2. rewrite (Rabs_pos_eq (value v1 * 18)) in E2 by lra. rewrite D2 in E2. assert (D3 : (2 * B * (value v1 * 18) <= 80 * B)%R) by nra. apply Rabs_le_inv in E2.
  assert (D : near (64 * w) (value v2 / value f1) true (n_div v2 f1 (64 * w) RNone)). { apply div_near; auto. - apply N2. - rewrite (proj2 I2); auto. - rewrite Y3. lra. }
  destruct D as (v3 & -> & W3 & N3 & L3 & E3 & I3). rewrite Y3 in E3. rewrite (Rabs_pos_eq (value v2 / 11)) in E3 by lra. rewrite D2 in E3. assert (D4 : (2 * B * (value v2 / 11) <= 8 * B)%R) by nra. apply Rabs_le_inv in E3.
  exists v3. split; [reflexivity|]. split; [exact W3|]. split; [exact N3|]. split; [apply I3; now left|]. split; [|split; [|split]].
  - apply exp_of_range; auto. rewrite Rabs_pos_eq by lra. change (bpow radix2 (2 - 1)) with 2%R. change (bpow radix2 2) with 4%R. lra.
  - lia.
  - lra.
  - rewrite L3. fold B. fold S0. apply Rabs_le. split; lra.
Qed.
