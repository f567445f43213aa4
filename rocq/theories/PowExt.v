(** Powers: special cases of powi and pow. *)

From Coq Require Import ZArith List Bool Lia Reals Lra.
From Flocq Require Import Core.
From Verif Require Import Words IntModel Mantissa Num Ext Pow SpecZ WordsP WordsP2 Spec SpecOps SpecExt SpecPow RoundP RealP RealP2 NumP CmpP AddP SetP AddNum MulNum DivNum ArithTop IntNum ConvNum ExtP PowNum PowTop.
Import ListNotations.
Open Scope Z_scope.
Ltac Zify.zify_post_hook ::= idtac.
Arguments Z.mul : simpl never.
Arguments Z.add : simpl never.
Arguments Z.pow : simpl never.
Arguments Z.sub : simpl never.
Arguments Z.of_nat : simpl never.

(** ** Odd integers *)

Lemma land1 a : Z.land a 1 = a mod 2.
Proof. change 1 with (Z.ones 1). rewrite Z.land_ones by lia. reflexivity. Qed.

Lemma bit_of m n : words_ok m -> 0 <= n < 64 * zlen m -> Z.land (wshr (znth (n / 64) m) (n mod 64)) 1 = val m / 2 ^ n mod 2.
Proof.
  intros W H. rewrite low_bit by dlia. rewrite znth_bit by (auto; dlia). do 2 f_equal. f_equal. dlia.
Qed.

Lemma odd_mod z : (exists k, z = 2 * k + 1) <-> z mod 2 = 1.
Proof. split; [intros (k & ->); dlia|]. intros H. exists (z / 2). dlia. Qed.

Lemma odd_sgn s r : odd_int (sgnR s * r) <-> odd_int r.
Proof.
  destruct (sgnR_cases s) as [->| ->]; [now rewrite Rmult_1_l|]. unfold odd_int. split; intros (k & E).
  - exists (- k - 1). replace (2 * (- k - 1) + 1) with (- (2 * k + 1)) by ring. rewrite opp_IZR. lra.
  - exists (- k - 1). replace (2 * (- k - 1) + 1) with (- (2 * k + 1)) by ring. rewrite opp_IZR. lra.
Qed.

Lemma odd_scaled M n : 0 <= n -> odd_int (IZR M * bpow radix2 (- n)) <-> M mod 2 ^ n = 0 /\ M / 2 ^ n mod 2 = 1.
Proof.
  intros Hn. rewrite bpow_opp_IZR by auto. pose proof (pow2_gt0 n Hn) as G. unfold odd_int. split.
  - intros (k & E). assert (E2 : M = (2 * k + 1) * 2 ^ n).
    { apply eq_IZR. rewrite mult_IZR, <- E. field. apply IZR_neq. lia. }
    subst M. rewrite Z_mod_mult, Z_div_mult by lia. split; [reflexivity|]. apply odd_mod. eauto.
  - intros [A B]. apply odd_mod in B. destruct B as (k & B). exists k. rewrite <- B.
    pose proof (Z.div_mod M (2 ^ n) ltac:(lia)) as D. rewrite A, Z.add_0_r in D. rewrite D at 1. rewrite mult_IZR. field. apply IZR_neq. lia.
Qed.

Theorem odd_spec x : wf x -> nonzero x -> n_is_odd_int x = true <-> odd_int (value x).
Proof.
  intros W N. unfold n_is_odd_int, max_bit_len, mlen. fold (wlen x). pose proof (wf_words x W) as Wk.
  destruct (Z.ltb_spec 0 (ne x)) as [He|He].
  2:{ rewrite is_zero_false by auto. split; [discriminate|]. intros (k & E). exfalso.
      pose proof (value_lt_bpow x W) as B. assert (bpow radix2 (ne x) <= 1)%R by (change 1%R with (bpow radix2 0); apply bpow_le; lia).
      assert (Rabs (value x) < 1)%R by (eapply Rlt_le_trans; [exact B|auto]). rewrite E, <- abs_IZR in H0. apply lt_IZR in H0. lia. }
  destruct (pos_exp_normal x W He) as (Nm & M0 & L0 & B0).
  rewrite (value_split x), odd_sgn.
  destruct (Z.leb_spec (ne x) (64 * wlen x)) as [Hl|Hl].
  2:{ split; [discriminate|]. intros (k & E). exfalso. rewrite bpow_IZR in E by lia. rewrite <- mult_IZR in E. apply eq_IZR in E.
      replace (ne x - 64 * wlen x) with (1 + (ne x - 64 * wlen x - 1)) in E by lia. rewrite Z.pow_add_r in E by lia. change (2 ^ 1) with 2 in E.
      assert (exists j, magnitude x * (2 * 2 ^ (ne x - 64 * wlen x - 1)) = 2 * j) by (exists (magnitude x * 2 ^ (ne x - 64 * wlen x - 1)); ring).
      destruct H as (j & H). lia. }
  replace (ne x - 64 * wlen x) with (- (64 * wlen x - ne x)) by lia. rewrite odd_scaled by lia.
  unfold m_is_odd_int, max_bit_len, mlen. fold (wlen x). set (n := 64 * wlen x - ne x) in *.
  destruct (Z.eqb_spec n 0) as [Z0|Z0].
  - rewrite Z0. change (2 ^ 0) with 1. rewrite Z.mod_1_r, Z.div_1_r. 
    pose proof (bit_of (mm (nm x)) 0 Wk ltac:(fold (wlen x); lia)) as E. change (0 / 64) with 0 in E. change (0 mod 64) with 0 in E. unfold wshr in E. rewrite Z.shiftr_0_r in E.
    rewrite E. change (2 ^ 0) with 1. rewrite Z.div_1_r. fold (magnitude x). pose proof (Z.mod_pos_bound (magnitude x) 2 ltac:(lia)). rewrite Z.ltb_lt. lia.
  - rewrite bit_of by (auto; fold (wlen x); unfold n in *; lia). fold (magnitude x). pose proof (Z.mod_pos_bound (magnitude x / 2 ^ n) 2 ltac:(lia)) as Bd.
    rewrite find_one_from_spec by (auto; lia). cbv zeta. fold (wlen x) (magnitude x). fold n. replace (64 * wlen x <=? ne x) with false by (unfold n in *; lia). cbn [orb].
    destruct (Z.eqb_spec (magnitude x / 2 ^ n mod 2) 0) as [E|E]; cbn [negb].
    + split; [discriminate|]. lia.
    + destruct (Z.eqb_spec (magnitude x mod 2 ^ n) 0); split; try discriminate; try lia.
Qed.

(** ** Plus and minus one *)

Lemma unit_spec x : wf x -> nonzero x -> (ne x =? 1) && (n_abs_cmp x ONE =? 0) = true <-> Rabs (value x) = 1%R.
Proof.
  intros W N. pose proof (n_abs_cmp_spec x ONE W ONE_wf N ONE_nonzero) as C. rewrite ONE_value, Rabs_R1 in C.
  rewrite andb_true_iff, !Z.eqb_eq. split.
  - intros [_ E]. rewrite E in C. cbn in C. destruct (Rcompare_spec (Rabs (value x)) 1); cbn in C; try discriminate. auto.
  - intros E. split.
    + pose proof (value_lt_bpow x W) as B. rewrite E in B. change 1%R with (bpow radix2 0) in B. apply lt_bpow in B.
      destruct (pos_exp_normal x W B) as ([Nm _] & _). destruct (norm_bounds x W N) as [Lo _]. rewrite E in Lo. change 1%R with (bpow radix2 0) in Lo. apply le_bpow in Lo.
      unfold norm_exp in Lo. lia.
    + rewrite E, Rcompare_Eq in C by auto. cbn in C. lia.
Qed.

(** ** powi *)

Lemma up_idem p : prec_up (prec_up p) = prec_up p.
Proof. unfold prec_up. dlia. Qed.

Theorem powi_zero_exp f x p rm : 0 < p -> prec_up p < P_LIM -> exists res, n_powi f x 0 p rm = Some res /\ exact_pos p 1 res.
Proof.
  intros Hp HP. unfold n_powi, powi_internal. cbn [Z.eqb]. rewrite round_p_eq by lia. fold (prec_up p). eexists. split; [reflexivity|].
  pose proof (from_word_spec 1 (prec_up p) ltac:(pose proof (pow2_gt0 64); lia) (prec_up_pos p Hp) ltac:(now rewrite up_idem)) as H. unfold exact_pos in *. now rewrite up_idem in H.
Qed.

Theorem powi_one f x p rm : wf x -> 0 < p -> prec_up p < P_LIM -> rm <> RNone ->
  let z := rnd_grad (prec_up p) rm (value x) in
  exists res, n_powi f x 1 p rm = Some res /\
  ((bpow radix2 EMAX <= Rabs z)%R -> res = Err (ExponentOverflow (ns x))) /\
  ((Rabs z < bpow radix2 EMAX)%R -> exists q, res = Ok q /\ wf q /\ 64 * wlen q = prec_up p /\ ns q = ns x /\
     value q = z /\ (ninexact q = true <-> ninexact x = true \/ z <> value x)).
Proof.
  intros W Hp HP Hr z. unfold n_powi, powi_internal. change (1 =? 0) with false. change (1 =? 1) with true. rewrite orb_true_r. cbn match. rewrite round_p_eq by lia. fold (prec_up p).
  eexists. split; [reflexivity|]. destruct (set_precision_spec x (prec_up p) rm W (prec_up_pos p Hp) ltac:(now rewrite up_idem) (or_introl Hr)) as [A B]. fold z in A, B.
  split; [exact A|]. intros H. destruct (B H) as (q & Q1 & Q2 & Q3 & Q4 & Q5 & Q6). exists q. split; [exact Q1|]. split; [exact Q2|]. split; [rewrite Q3; apply up_idem|].
  split; [exact Q4|]. split; [exact Q5|exact Q6].
Qed.

Theorem powi_zero f x n p rm : wf x -> magnitude x = 0 -> 0 < n -> 0 < p -> prec_up p < P_LIM ->
  exists q, n_powi f x n p rm = Some (Ok q) /\ wf q /\ 64 * wlen q = prec_up p /\ ns q = ns x /\ value q = 0%R /\ ninexact q = ninexact x.
Proof.
  intros W Z0 Hn Hp HP. unfold n_powi, powi_internal. replace (n =? 0) with false by lia. rewrite is_zero_spec, Z0 by auto. cbn [orb Z.eqb]. rewrite round_p_eq by lia. fold (prec_up p).
  destruct (set_precision_zero x (prec_up p) rm W Z0 (prec_up_pos p Hp) ltac:(now rewrite up_idem)) as (q & Q1 & Q2 & Q3 & Q4 & Q5 & Q6).
  exists q. rewrite Q1. split; [reflexivity|]. split; [exact Q2|]. split; [rewrite Q3; apply up_idem|]. split; [exact Q4|]. split; [now apply value_zero|exact Q6].
Qed.

Theorem powi_inf f s n p rm : 0 < n ->
  x_powi f (Inf s) n p rm = Some (Ok (Inf (match s with Neg => if Z.odd n then Neg else Pos | Pos => Pos end))).
Proof.
  intros Hn. unfold x_powi. replace (n =? 0) with false by lia. rewrite land1, Zmod_odd. destruct s; cbn [is_pos negb andb]; [|reflexivity].
  destruct (Z.odd n); reflexivity.
Qed.

Theorem powi_nan f e n p rm : x_powi f (NaN e) n p rm = Some (Ok (NaN e)).
Proof. reflexivity. Qed.

(** ** pow *)

Lemma unit_zero x : wf x -> magnitude x = 0 -> (ne x =? 1) && (n_abs_cmp x ONE =? 0) = false.
Proof. intros W Z0. rewrite (wf_zero x W Z0). reflexivity. Qed.

Lemma unit_iff x : wf x -> (ne x =? 1) && (n_abs_cmp x ONE =? 0) = true <-> Rabs (value x) = 1%R.
Proof.
  intros W. destruct (nonzero_dec x) as [Z0|N]; [|now apply unit_spec]. rewrite unit_zero by auto. rewrite value_zero, Rabs_R0 by auto.
  split; [discriminate|]. intros; lra.
Qed.

Lemma sign_pos x : wf x -> nonzero x -> is_positive x = true <-> (0 < value x)%R.
Proof.
  intros W N. rewrite (value_sgn_abs x) by auto. assert (0 < Rabs (value x))%R by (apply Rabs_pos_lt; rewrite value_zero_iff; exact N).
  unfold is_positive, sgnR, sgnZ, is_pos. destruct (ns x); cbn; split; try discriminate; try reflexivity; intros; lra.
Qed.
Lemma neg_pos x : is_negative x = negb (is_positive x).
Proof. unfold is_negative, is_positive, is_pos. destruct (ns x); reflexivity. Qed.

Section Pow.
Variable general : num -> num -> Z -> rmode -> result num.

Lemma wf_inexact q b : wf q -> wf (set_inexact q b).
Proof. intros [A B C D E F]. constructor; assumption. Qed.

Theorem pow_exp_zero x n p rm : wf x -> wf n -> magnitude n = 0 -> 0 < p -> prec_up p < P_LIM ->
  exists q, n_pow general x n p rm = Ok q /\ wf q /\ 64 * wlen q = prec_up p /\ ns q = Pos /\ value q = 1%R /\
    (ninexact q = true <-> ninexact n = true /\ (Rabs (value x) = 1%R -> ninexact x = true)).
Proof.
  intros W Wn Z0 Hp HP. unfold n_pow. cbv zeta. rewrite (is_zero_spec n), Z0 by auto. cbn [Z.eqb].
  destruct (from_word_spec 1 p ltac:(pose proof (pow2_gt0 64); lia) Hp HP) as (q & -> & Q1 & Q2 & Q3 & Q4 & Q5). cbn [bind].
  pose proof (unit_iff x W) as U. eexists. split; [reflexivity|].
  destruct (ninexact n).
  - destruct ((ne x =? 1) && (n_abs_cmp x ONE =? 0)).
    + split; [now apply wf_inexact|]. split; [exact Q2|]. split; [exact Q3|]. split; [exact Q5|]. cbn. destruct U as [U _]. specialize (U eq_refl).
      split; [intros H; split; [reflexivity|intros _; exact H]|]. intros [_ H]. auto.
    + split; [now apply wf_inexact|]. split; [exact Q2|]. split; [exact Q3|]. split; [exact Q5|]. cbn. split; [|reflexivity]. intros _. split; [reflexivity|].
      intros E. destruct U as [_ U]. now specialize (U E).
  - split; [exact Q1|]. split; [exact Q2|]. split; [exact Q3|]. split; [exact Q5|]. rewrite Q4. split; [discriminate|]. intros [H _]. discriminate.
Qed.

Theorem pow_base_zero x n p rm : wf x -> wf n -> magnitude x = 0 -> nonzero n -> 0 < p -> prec_up p < P_LIM ->
  exists s, (odd_int (value n) -> s = ns x) /\ (~ odd_int (value n) -> s = Pos) /\
  ((value n < 0)%R -> n_pow general x n p rm = Err (ExponentOverflow s)) /\
  ((0 < value n)%R -> exists q, n_pow general x n p rm = Ok q /\ wf q /\ 64 * wlen q = prec_up p /\ ns q = s /\ value q = 0%R /\ ninexact q = ninexact x).
Proof.
  intros W Wn Z0 N Hp HP. unfold n_pow. cbv zeta. rewrite (is_zero_false n) by auto. rewrite (is_zero_spec x), Z0 by auto. cbn [Z.eqb].
  rewrite neg_pos. pose proof (sign_pos n Wn N) as S. pose proof (odd_spec n Wn N) as O.
  exists (if n_is_odd_int n then ns x else Pos). split; [intros H; apply O in H; now rewrite H|]. split; [intros H; destruct (n_is_odd_int n); [exfalso; apply H, O; reflexivity|reflexivity]|]. split.
  - intros H. destruct (is_positive n); [destruct S as [S _]; specialize (S eq_refl); lra|]. cbn [negb]. now destruct (n_is_odd_int n).
  - intros H. apply S in H. rewrite H. cbn [negb]. unfold n_new2. assert (Hle : p <= prec_up p) by (unfold prec_up; dlia). rewrite p_assertion_ok by lia. cbn [bind].
    assert (E : m_new p = m_new (64 * ((p + 63) / 64))). { unfold m_new. rewrite wlen_of_bits_eq by lia. rewrite wlen_of_bits_64 by dlia. reflexivity. }
    rewrite E. destruct (zero_m_new ((p + 63) / 64) (if n_is_odd_int n then ns x else Pos) (ninexact x) ltac:(dlia) HP) as (A & B & C).
    eexists. split; [reflexivity|]. split; [exact A|]. split; [rewrite B; reflexivity|]. split; [reflexivity|]. split; [now apply value_zero|reflexivity].
Qed.

Theorem pow_base_unit x n p rm : wf x -> wf n -> Rabs (value x) = 1%R -> nonzero n -> 8 <= p -> prec_up p < P_LIM ->
  let good v := exists q, n_pow general x n p rm = Ok q /\ wf q /\ 64 * wlen q = prec_up p /\ value q = v /\ ninexact q = ninexact x || ninexact n in
  (odd_int (value n) -> good (value x)) /\
  (~ odd_int (value n) -> value x = 1%R \/ (exists k, value n = IZR k) -> good 1%R) /\
  (value x = (-1)%R -> ~ (exists k, value n = IZR k) -> n_pow general x n p rm = Err InvalidArgument).
Proof.
  intros W Wn U N Hp HP. cbv zeta. assert (Nx : nonzero x). { intros Z0. rewrite value_zero, Rabs_R0 in U by auto. lra. }
  unfold n_pow. cbv zeta. rewrite (is_zero_false n), (is_zero_false x) by auto. rewrite (proj2 (unit_iff x W) U).
  pose proof (odd_spec n Wn N) as O. pose proof (is_int_spec n Wn) as I. pose proof (sign_pos x W Nx) as S. split; [|split].
  - intros H. apply O in H. rewrite H. destruct (from_int_spec 8 (sign_int (ns x)) p) as [_ B]; [lia|assert (1 < 2 ^ 63) by reflexivity; destruct (ns x); unfold sign_int; lia|exact HP|].
    destruct (B Hp) as (q & -> & Q1 & Q2 & Q3 & Q4 & Q5). cbn [bind]. eexists. split; [reflexivity|]. split; [now apply wf_inexact|]. split; [exact Q2|]. split; [|reflexivity].
    change (value (set_inexact q (ninexact x || ninexact n))) with (value q). rewrite Q4. rewrite (value_sgn_abs x W), U. unfold sgnR. destruct (ns x); cbn; ring.
  - intros H C. destruct (n_is_odd_int n); [exfalso; apply H, O; reflexivity|]. replace (is_positive x || n_is_int n) with true.
    2:{ symmetry. apply orb_true_iff. destruct C as [C|C]; [left; apply S; lra|right; now apply I]. }
    destruct (from_word_spec 1 p ltac:(pose proof (pow2_gt0 64); lia) ltac:(lia) HP) as (q & -> & Q1 & Q2 & Q3 & Q4 & Q5). cbn [bind].
    eexists. split; [reflexivity|]. split; [now apply wf_inexact|]. split; [exact Q2|]. split; [exact Q5|reflexivity].
  - intros H C. assert (n_is_int n = false) as E by (destruct (n_is_int n); [exfalso; apply C, I; reflexivity|reflexivity]).
    destruct (n_is_odd_int n) eqn:F. { exfalso. apply C. destruct (proj1 O eq_refl) as (k & G). eauto. }
    rewrite E. destruct (is_positive x); [destruct S as [S _]; specialize (S eq_refl); lra|]. reflexivity.
Qed.

Theorem pow_neg_base x n p rm : wf x -> wf n -> (value x < 0)%R -> ~ (exists k, value n = IZR k) -> n_pow general x n p rm = Err InvalidArgument.
Proof.
  intros W Wn H C. assert (Nx : nonzero x). { intros Z0. rewrite value_zero in H by auto. lra. }
  assert (N : nonzero n). { intros Z0. apply C. exists 0. now apply value_zero. }
  pose proof (is_int_spec n Wn) as I. assert (n_is_int n = false) as E by (destruct (n_is_int n); [exfalso; apply C, I; reflexivity|reflexivity]).
  pose proof (sign_pos x W Nx) as S. assert (is_positive x = false) as P by (destruct (is_positive x); [destruct S as [S _]; specialize (S eq_refl); lra|reflexivity]).
  assert (n_is_odd_int n = false) as O. { destruct (n_is_odd_int n) eqn:F; [|reflexivity]. exfalso. apply C. apply (odd_spec n Wn N) in F. destruct F as (k & F). eauto. }
  unfold n_pow. cbv zeta. rewrite (is_zero_false n), (is_zero_false x) by auto. rewrite neg_pos, E, P, O. cbn [negb andb orb]. destruct (_ && _); reflexivity.
Qed.

Theorem pow_exp_one x n p rm : wf x -> wf n -> nonzero x -> Rabs (value x) <> 1%R -> value n = 1%R -> 0 < p -> prec_up p < P_LIM -> rm <> RNone ->
  let z := rnd_grad p rm (value x) in
  ((bpow radix2 EMAX <= Rabs z)%R -> n_pow general x n p rm = Err (ExponentOverflow (ns x))) /\
  ((Rabs z < bpow radix2 EMAX)%R -> exists q, n_pow general x n p rm = Ok q /\ wf q /\ 64 * wlen q = prec_up p /\ value q = z /\
     (ninexact q = true <-> ninexact x = true \/ ninexact n = true \/ z <> value x)).
Proof.
  intros W Wn Nx U E Hp HP Hr z. assert (N : nonzero n). { intros Z0. rewrite value_zero in E by auto. lra. }
  unfold n_pow. cbv zeta. rewrite (is_zero_false n), (is_zero_false x) by auto.
  replace ((ne x =? 1) && (n_abs_cmp x ONE =? 0)) with false. 2:{ symmetry. destruct (_ && _) eqn:F; [|reflexivity]. apply (unit_iff x W) in F. contradiction. }
  rewrite (proj2 (is_int_spec n Wn)) by (exists 1; exact E). rewrite andb_false_r. rewrite (proj2 (unit_iff n Wn)) by (rewrite E; apply Rabs_R1).
  rewrite (proj2 (sign_pos n Wn N)) by lra.
  destruct (set_precision_spec x p rm W Hp HP (or_introl Hr)) as [A B]. fold z in A, B. split.
  - intros H. now rewrite (A H).
  - intros H. destruct (B H) as (q & -> & Q2 & Q3 & Q4 & Q5 & Q6). cbn [bind]. eexists. split; [reflexivity|]. split; [now apply wf_inexact|].
    split; [change (wlen (set_inexact q (ninexact q || ninexact n))) with (wlen q); rewrite Q3; reflexivity|]. split; [exact Q5|]. cbn. rewrite orb_true_iff, Q6. tauto.
Qed.

Theorem pow_exp_minus_one x n p rm : wf x -> wf n -> nonzero x -> Rabs (value x) <> 1%R -> value n = (-1)%R -> 0 < p -> prec_up p < P_LIM ->
  n_pow general x n p rm = (do ret <- n_div ONE x p rm; Ok (set_inexact ret (ninexact ret || ninexact n))).
Proof.
  intros W Wn Nx U E Hp HP. assert (N : nonzero n). { intros Z0. rewrite value_zero in E by auto. lra. }
  unfold n_pow. cbv zeta. rewrite (is_zero_false n), (is_zero_false x) by auto.
  replace ((ne x =? 1) && (n_abs_cmp x ONE =? 0)) with false. 2:{ symmetry. destruct (_ && _) eqn:F; [|reflexivity]. apply (unit_iff x W) in F. contradiction. }
  rewrite (proj2 (is_int_spec n Wn)) by (exists (-1); exact E). rewrite andb_false_r. rewrite (proj2 (unit_iff n Wn)) by (rewrite E, <- abs_IZR; reflexivity).
  destruct (is_positive n) eqn:F; [|reflexivity]. apply (sign_pos n Wn N) in F. lra.
Qed.

Lemma cr_mark p rm r s ix b res : correctly_rounded p rm r s ix res ->
  correctly_rounded p rm r s (ix || b) (do ret <- res; Ok (set_inexact ret (ninexact ret || b))).
Proof.
  intros [A B]. split.
  - intros H. now rewrite (A H).
  - intros H. destruct (B H) as (q & -> & Q1 & Q2 & Q3 & Q4 & Q5 & Q6 & Q7 & Q8). eexists. split; [reflexivity|]. split; [now apply wf_inexact|].
    split; [exact Q2|]. split; [exact Q3|]. split; [exact Q4|]. split; [exact Q5|]. split; [exact Q6|]. split; [exact Q7|].
    change (value (set_inexact q (ninexact q || b))) with (value q). cbn. rewrite !orb_true_iff, Q8. tauto.
Qed.

Theorem pow_exp_minus_one_spec x n p rm : wf x -> wf n -> nonzero x -> Rabs (value x) <> 1%R -> value n = (-1)%R -> 0 < p -> prec_up p < P_LIM ->
  correctly_rounded (prec_up p) rm (/ value x) (ns x) (ninexact x || ninexact n) (n_pow general x n p rm).
Proof.
  intros W Wn Nx U E Hp HP. rewrite pow_exp_minus_one by assumption. apply cr_mark. pose proof (reciprocal_nonzero x p rm W Nx Hp HP) as R. exact R.
Qed.

(** The general case: whatever the evaluation of e^(n ln |x|) returns, the sign is right. *)
Theorem pow_general_sign x n p rm : wf x -> wf n -> nonzero x -> nonzero n -> Rabs (value x) <> 1%R -> Rabs (value n) <> 1%R ->
  (0 < value x)%R \/ (exists k, value n = IZR k) ->
  exists s, (odd_int (value n) -> s = ns x) /\ (~ odd_int (value n) -> s = Pos) /\
  match n_pow general x n p rm with
  | Ok q => ns q = s
  | Err (ExponentOverflow t) => t = s
  | _ => True
  end.
Proof.
  intros W Wn Nx N U V D. pose proof (odd_spec n Wn N) as O. pose proof (is_int_spec n Wn) as I.
  exists (if n_is_odd_int n then ns x else Pos). split; [intros H; apply O in H; now rewrite H|]. split; [intros H; destruct (n_is_odd_int n); [exfalso; apply H, O; reflexivity|reflexivity]|].
  unfold n_pow. cbv zeta. rewrite (is_zero_false n), (is_zero_false x) by auto.
  replace ((ne x =? 1) && (n_abs_cmp x ONE =? 0)) with false. 2:{ symmetry. destruct (_ && _) eqn:F; [|reflexivity]. apply (unit_iff x W) in F. contradiction. }
  replace ((ne n =? 1) && (n_abs_cmp n ONE =? 0)) with false. 2:{ symmetry. destruct (_ && _) eqn:F; [|reflexivity]. apply (unit_iff n Wn) in F. contradiction. }
  replace (is_negative x && negb (n_is_int n)) with false.
  2:{ symmetry. rewrite neg_pos. destruct D as [D|D]; [apply (sign_pos x W Nx) in D; now rewrite D|]. apply I in D. rewrite D. apply andb_false_r. }
  assert (Es : n_is_int n && n_is_odd_int n = n_is_odd_int n).
  { destruct (n_is_odd_int n) eqn:F; [|apply andb_false_r]. destruct (proj1 O eq_refl) as (k & G). rewrite (proj2 I) by eauto. reflexivity. }
  rewrite Es. set (g := general _ _ _ _). destruct g as [v|e|]; [reflexivity| |exact Logic.I]. destruct e; exact eq_refl || exact Logic.I.
Qed.

(** ** Infinities *)

Lemma x_one p : 8 <= p -> prec_up p < P_LIM -> exists q, x_from_uint 8 1 p = Ok (Value q) /\ wf q /\ 64 * wlen q = prec_up p /\ value q = 1%R.
Proof.
  intros Hp HP. destruct (from_uint_spec 8 1 p ltac:(lia) ltac:(pose proof (pow2_gt0 64); lia) HP) as [_ B]. destruct (B Hp) as (q & E & Q1 & Q2 & Q3 & Q4 & Q5).
  exists q. unfold x_from_uint. rewrite E. split; [reflexivity|]. split; [exact Q1|]. split; [exact Q2|exact Q5].
Qed.
Lemma x_zero p : 0 <= p -> prec_up p < P_LIM -> exists q, x_new p = Ok (Value q) /\ wf q /\ 64 * wlen q = prec_up p /\ value q = 0%R.
Proof.
  intros Hp HP. destruct (zero_wf_value p Hp HP) as (q & E & Q1 & Q2 & Q3 & Q4). exists q. unfold x_new. rewrite E. split; [reflexivity|]. split; [exact Q1|].
  split; [rewrite Q2; reflexivity|exact Q3].
Qed.

Lemma cmp_one v : wf v -> Z.sgn (n_cmp v ONE) = sgn_of (Rcompare (value v) 1).
Proof.
  intros W. destruct (nonzero_dec v) as [Z0|N].
  - rewrite value_zero, Rcompare_Lt by (auto; lra). unfold n_cmp. rewrite (is_zero_spec v), Z0 by auto. change (is_zero ONE) with false. rewrite andb_false_r.
    destruct (ns v); [reflexivity|]. cbn [sign_eqb negb sign_int]. unfold n_abs_cmp. rewrite (is_zero_spec v), Z0 by auto. reflexivity.
  - rewrite n_cmp_spec by (auto using ONE_wf, ONE_nonzero). now rewrite ONE_value.
Qed.

Theorem pow_exp_inf v s p rm : wf v -> 8 <= p -> prec_up p < P_LIM ->
  ((1 < value v)%R -> x_pow general (Value v) (Inf s) p rm = Ok (Inf s)) /\
  ((value v < 1)%R -> exists q, x_pow general (Value v) (Inf s) p rm = Ok (Value q) /\ wf q /\ 64 * wlen q = prec_up p /\ value q = 0%R) /\
  (value v = 1%R -> exists q, x_pow general (Value v) (Inf s) p rm = Ok (Value q) /\ wf q /\ 64 * wlen q = prec_up p /\ value q = 1%R).
Proof.
  intros W Hp HP. unfold x_pow. cbv zeta. pose proof (cmp_one v W) as C. split; [|split]; intros H.
  - rewrite Rcompare_Gt in C by lra. cbn in C. replace (0 <? n_cmp v ONE) with true by lia. reflexivity.
  - rewrite Rcompare_Lt in C by lra. cbn in C. replace (0 <? n_cmp v ONE) with false by lia. replace (n_cmp v ONE <? 0) with true by lia. apply x_zero; [lia|exact HP].
  - rewrite Rcompare_Eq in C by lra. cbn in C. replace (0 <? n_cmp v ONE) with false by lia. replace (n_cmp v ONE <? 0) with false by lia. now apply x_one.
Qed.

Theorem pow_base_inf s v p rm : wf v -> 8 <= p -> prec_up p < P_LIM ->
  (value v = 0%R -> exists q, x_pow general (Inf s) (Value v) p rm = Ok (Value q) /\ wf q /\ 64 * wlen q = prec_up p /\ value q = 1%R) /\
  ((value v < 0)%R -> exists q, x_pow general (Inf s) (Value v) p rm = Ok (Value q) /\ wf q /\ 64 * wlen q = prec_up p /\ value q = 0%R) /\
  ((0 < value v)%R -> exists t, x_pow general (Inf s) (Value v) p rm = Ok (Inf t) /\
      (odd_int (value v) -> t = s) /\ (~ odd_int (value v) -> t = Pos)).
Proof.
  intros W Hp HP. unfold x_pow. split; [|split]; intros H.
  - rewrite value_zero_iff in H. rewrite is_zero_spec, H by auto. now apply x_one.
  - assert (N : nonzero v). { intros Z0. rewrite value_zero in H by auto. lra. }
    rewrite is_zero_false by auto. destruct (is_positive v) eqn:F; [apply (sign_pos v W N) in F; lra|]. apply x_zero; [lia|exact HP].
  - assert (N : nonzero v). { intros Z0. rewrite value_zero in H by auto. lra. }
    rewrite is_zero_false by auto. apply (sign_pos v W N) in H. rewrite H. pose proof (odd_spec v W N) as O.
    destruct (n_is_odd_int v); [assert (odd_int (value v)) by (apply O; reflexivity)|assert (~ odd_int (value v)) by (intros G; apply O in G; discriminate)];
    destruct s; cbn; eexists; (split; [reflexivity|]); split; intros G; try reflexivity; contradiction.
Qed.

Theorem pow_inf_inf s p rm : 0 <= p -> prec_up p < P_LIM ->
  x_pow general (Inf s) (Inf Pos) p rm = Ok (Inf Pos) /\
  exists q, x_pow general (Inf s) (Inf Neg) p rm = Ok (Value q) /\ wf q /\ 64 * wlen q = prec_up p /\ value q = 0%R.
Proof. intros Hp HP. split; [reflexivity|]. cbn. now apply x_zero. Qed.

Theorem pow_nan e a p rm : x_pow general (NaN e) a p rm = Ok (NaN e) /\ (x_is_nan a = false -> x_pow general a (NaN e) p rm = Ok (NaN e)).
Proof. split; [reflexivity|]. destruct a; cbn; intros; try reflexivity. discriminate. Qed.

End Pow.
