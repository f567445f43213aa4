(** The elementary functions at zero, at the ends of their domain and outside it;
    base two logarithms of powers of two. *)

From Coq Require Import ZArith List Bool Lia Reals Lra.
From Flocq Require Import Core.
From Verif Require Import Words IntModel Mantissa Num Elem SpecZ WordsP WordsP2 Spec SpecOps RoundP RealP RealP2 NumP CmpP AddP SetP AddNum DivNum ArithTop IntNum ConvNum Conv2Num RoundableNum PowNum PowTop SpecConst ConstP ConstNum SmallP ElemR ElemNum.
Import ListNotations.
Open Scope Z_scope.
Ltac Zify.zify_post_hook ::= idtac.
Arguments Z.mul : simpl never.
Arguments Z.add : simpl never.
Arguments Z.pow : simpl never.
Arguments Z.sub : simpl never.
Arguments Z.of_nat : simpl never.
Ltac dlia := Z.div_mod_to_equations; lia.

(** An exact result: value, sign, precision, and the inexact mark of the argument. *)
Definition exactly (p : Z) (r : R) (s : sign) (ix : bool) (res : result num) : Prop :=
  exists q, res = Ok q /\ wf q /\ 64 * wlen q = p /\ ns q = s /\ value q = r /\ ninexact q = ix.

Lemma new2_exact p s ix : 0 < p -> prec_up p < P_LIM -> exactly (prec_up p) 0 s ix (n_new2 (round_p p) s ix).
Proof.
  intros Hp HP. rewrite round_p_eq by lia. fold (prec_up p). unfold n_new2. rewrite p_assertion_ok by lia. cbn [bind].
  destruct (zero_m_new ((p + 63) / 64) s ix ltac:(dlia) HP) as (A & B & C). fold (prec_up p) in *. eexists. split; [reflexivity|]. split; [exact A|].
  split; [rewrite B; reflexivity|]. split; [reflexivity|]. split; [now apply value_zero|reflexivity].
Qed.

Lemma one_exact p ix : 0 < p -> prec_up p < P_LIM -> exactly (prec_up p) 1 Pos ix (do r <- from_word 1 (round_p p); Ok (set_inexact r ix)).
Proof.
  intros Hp HP. rewrite round_p_eq by lia. fold (prec_up p). assert (U : prec_up (prec_up p) = prec_up p) by (unfold prec_up; dlia).
  destruct (from_word_spec 1 (prec_up p) ltac:(pose proof (pow2_gt0 64); lia) (prec_up_pos p Hp) ltac:(now rewrite U)) as (q & -> & Wq & Lq & Sq & _ & Vq). cbn [bind].
  exists (set_inexact q ix). split; [reflexivity|]. split; [destruct Wq; constructor; auto|]. split; [rewrite <- U; exact Lq|]. split; [exact Sq|]. split; [exact Vq|reflexivity].
Qed.

Lemma is_zero_true x : wf x -> magnitude x = 0 -> is_zero x = true.
Proof. intros W Z. rewrite (is_zero_spec x W), Z. reflexivity. Qed.

(** ** Zero *)
Theorem odd_zero rest d inv x p rm : wf x -> magnitude x = 0 -> 0 < p -> prec_up p < P_LIM -> exactly (prec_up p) 0 (ns x) (ninexact x) (odd_top rest d inv x p rm).
Proof. intros. unfold odd_top, odd_in. cbv zeta. rewrite is_zero_true by auto. now apply new2_exact. Qed.
Theorem tanh_zero rest x p rm : wf x -> magnitude x = 0 -> 0 < p -> prec_up p < P_LIM -> exactly (prec_up p) 0 (ns x) (ninexact x) (n_tanh rest x p rm).
Proof. intros. unfold n_tanh, tanh_in. cbv zeta. rewrite is_zero_true by auto. now apply new2_exact. Qed.
Theorem asin_zero pi rest x p rm : wf x -> magnitude x = 0 -> 0 < p -> prec_up p < P_LIM -> exactly (prec_up p) 0 (ns x) (ninexact x) (n_asin rest pi x p rm).
Proof. intros. unfold n_asin. cbv zeta. rewrite is_zero_true by auto. now apply new2_exact. Qed.
Theorem atanh_zero rest x p rm : wf x -> magnitude x = 0 -> 0 < p -> prec_up p < P_LIM -> exactly (prec_up p) 0 (ns x) (ninexact x) (n_atanh rest x p rm).
Proof.
  intros W Z Hp HP. unfold n_atanh. cbv zeta. rewrite is_zero_true by auto. rewrite round_p_eq by lia. fold (prec_up p).
  assert (U : prec_up (prec_up p) = prec_up p) by (unfold prec_up; dlia). pose proof (prec_up_pos p Hp) as PP.
  destruct (set_precision_zero x (prec_up p) RNone W Z PP ltac:(now rewrite U)) as (q & E & Wq & Lq & Sq & Mq & Iq).
  exists q. split; [exact E|]. split; [exact Wq|]. split; [rewrite Lq; exact U|]. split; [exact Sq|]. split; [now apply value_zero|exact Iq].
Qed.
Theorem even_zero rest inv x p rm : wf x -> magnitude x = 0 -> 0 < p -> prec_up p < P_LIM -> exactly (prec_up p) 1 Pos (ninexact x) (even_top rest inv x p rm).
Proof. intros. unfold even_top, even_in. cbv zeta. rewrite is_zero_true by auto. now apply one_exact. Qed.
Theorem exp_zero {A} (ok : result num -> A) rest x p rm : wf x -> magnitude x = 0 -> 0 < p -> prec_up p < P_LIM ->
  exists res, exp_top ok rest x p rm = ok res /\ exactly (prec_up p) 1 Pos (ninexact x) res.
Proof. intros. unfold exp_top. cbv zeta. rewrite is_zero_true by auto. eexists. split; [reflexivity|]. now apply one_exact. Qed.

(** ** Domains *)
Lemma cmp_one x : wf x -> Z.sgn (n_cmp x ONE) = sgn_of (Rcompare (value x) 1).
Proof.
  intros W. destruct (Z.eq_dec (magnitude x) 0) as [E|N].
  - unfold n_cmp. rewrite (is_zero_false ONE ONE_wf ONE_nonzero), andb_false_r, (value_zero x E), Rcompare_Lt by lra. change (ns ONE) with Pos. unfold n_abs_cmp.
    rewrite (is_zero_true x W E), (is_zero_false ONE ONE_wf ONE_nonzero). destruct (ns x); reflexivity.
  - rewrite (n_cmp_spec x ONE W ONE_wf N ONE_nonzero), ONE_value. reflexivity.
Qed.

Lemma is_neg_value x : wf x -> nonzero x -> is_negative x = true <-> (value x < 0)%R.
Proof.
  intros W N. pose proof (value_has_sign x W N) as H. unfold has_sign in H. unfold is_negative. destruct (ns x); cbn [sgnZ is_pos negb] in *; split; intros; auto; try lra; discriminate.
Qed.

(** asin: outside [-1, 1], at the ends, and inside. *)
Theorem asin_outside pi rest x p rm : wf x -> (1 < Rabs (value x))%R -> n_asin rest pi x p rm = Err InvalidArgument.
Proof.
  intros W H. assert (N : nonzero x) by (intros Z; rewrite (value_zero x Z), Rabs_R0 in H; lra).
  unfold n_asin. cbv zeta. rewrite (is_zero_false x W N). pose proof (abs_cmp_one x W) as C. rewrite Rcompare_Gt in C by lra. cbn [sgn_of] in C.
  replace (0 <? n_abs_cmp x ONE) with true by lia. reflexivity.
Qed.
Theorem asin_inside pi rest x p rm : wf x -> (Rabs (value x) < 1)%R -> n_asin rest pi x p rm = odd_top rest 2 false x p rm.
Proof.
  intros W H. unfold n_asin, odd_top, odd_in. cbv zeta. destruct (is_zero x); [reflexivity|]. pose proof (abs_cmp_one x W) as C. rewrite Rcompare_Lt in C by lra. cbn [sgn_of] in C.
  replace (0 <? n_abs_cmp x ONE) with false by lia. replace (n_abs_cmp x ONE =? 0) with false by lia. reflexivity.
Qed.

(** acos. *)
Theorem acos_outside rest x p rm : wf x -> (1 < Rabs (value x))%R -> n_acos rest x p rm = Err InvalidArgument.
Proof.
  intros W H. unfold n_acos. cbv zeta. pose proof (abs_cmp_one x W) as C. rewrite Rcompare_Gt in C by lra. cbn [sgn_of] in C.
  replace (n_abs_cmp x ONE =? 0) with false by lia. replace (0 <? n_abs_cmp x ONE) with true by lia. reflexivity.
Qed.
Lemma one_pos x : wf x -> Rabs (value x) = 1%R -> is_positive x = true <-> value x = 1%R.
Proof.
  intros W H. assert (N : nonzero x) by (intros Z; rewrite (value_zero x Z), Rabs_R0 in H; lra). pose proof (value_has_sign x W N) as S1. unfold has_sign in S1. unfold is_positive.
  destruct (ns x); cbn [sgnZ is_pos] in *; split; intros; auto; try discriminate; [lra|rewrite Rabs_pos_eq in H by lra; auto].
Qed.
Theorem acos_one rest x p rm : wf x -> value x = 1%R -> 0 < p -> prec_up p < P_LIM -> exactly (prec_up p) (acos (value x)) Pos (ninexact x) (n_acos rest x p rm).
Proof.
  intros W H Hp HP. unfold n_acos. cbv zeta. pose proof (abs_cmp_one x W) as C. rewrite H, Rabs_R1, Rcompare_Eq in C by lra. cbn [sgn_of] in C.
  replace (n_abs_cmp x ONE =? 0) with true by lia. rewrite (proj2 (one_pos x W ltac:(rewrite H; apply Rabs_R1)) H). cbn [andb]. rewrite H, acos_1. now apply new2_exact.
Qed.
Theorem acos_inside rest x p rm : wf x -> (-1 <= value x < 1)%R -> n_acos rest x p rm = rest x (round_p p) rm.
Proof.
  intros W H. unfold n_acos. cbv zeta. pose proof (abs_cmp_one x W) as C. destruct (Req_dec (value x) (-1)) as [E|E].
  - assert (A1 : Rabs (value x) = 1%R) by (rewrite E, Rabs_left by lra; ring). rewrite Rcompare_Eq in C by exact A1. cbn [sgn_of] in C.
    destruct (is_positive x) eqn:P; [apply (one_pos x W A1) in P; lra|]. rewrite andb_false_r. replace (0 <? n_abs_cmp x ONE) with false by lia. reflexivity.
  - rewrite Rcompare_Lt in C by (apply Rabs_def1; lra). cbn [sgn_of] in C. replace (n_abs_cmp x ONE =? 0) with false by lia. replace (0 <? n_abs_cmp x ONE) with false by lia. reflexivity.
Qed.

(** acosh. *)
Theorem acosh_outside rest x p rm : wf x -> (value x < 1)%R -> n_acosh rest x p rm = Err InvalidArgument.
Proof.
  intros W H. unfold n_acosh. cbv zeta. pose proof (cmp_one x W) as C. rewrite Rcompare_Lt in C by lra. cbn [sgn_of] in C.
  replace (n_cmp x ONE =? 0) with false by lia. replace (n_cmp x ONE <? 0) with true by lia. reflexivity.
Qed.
Theorem acosh_one rest x p rm : wf x -> value x = 1%R -> 0 < p -> prec_up p < P_LIM -> exactly (prec_up p) 0 Pos (ninexact x) (n_acosh rest x p rm).
Proof.
  intros W H Hp HP. unfold n_acosh. cbv zeta. pose proof (cmp_one x W) as C. rewrite H, Rcompare_Eq in C by lra. cbn [sgn_of] in C.
  replace (n_cmp x ONE =? 0) with true by lia. now apply new2_exact.
Qed.
Theorem acosh_inside rest x p rm : wf x -> (1 < value x)%R -> n_acosh rest x p rm = rest x (round_p p) rm.
Proof.
  intros W H. unfold n_acosh. cbv zeta. pose proof (cmp_one x W) as C. rewrite Rcompare_Gt in C by lra. cbn [sgn_of] in C.
  replace (n_cmp x ONE =? 0) with false by lia. replace (n_cmp x ONE <? 0) with false by lia. reflexivity.
Qed.

(** atanh. *)
Lemma exp_one x : wf x -> nonzero x -> (ne x <= 0 <-> (Rabs (value x) < 1)%R) /\ (1 < ne x -> (1 < Rabs (value x))%R).
Proof.
  intros W N. assert (Nm : 0 < ne x -> normal x) by (intros H; destruct (normal_or x W N) as [K|[_ K]]; [exact K|rewrite K in H; discriminate]). split; [split|]; intros H.
  - change 1%R with (bpow radix2 0). now apply tiny_le.
  - destruct (Z.le_gt_cases (ne x) 0) as [|G]; [auto|]. exfalso. destruct (normal_range x W (Nm G)) as [B _].
    assert (bpow radix2 0 <= bpow radix2 (ne x - 1))%R by (apply bpow_le; lia). change (bpow radix2 0) with 1%R in *. lra.
  - destruct (normal_range x W (Nm ltac:(lia))) as [B _]. assert (bpow radix2 1 <= bpow radix2 (ne x - 1))%R by (apply bpow_le; lia). change (bpow radix2 1) with 2%R in *. lra.
Qed.
Theorem atanh_outside rest x p rm : wf x -> (1 < Rabs (value x))%R -> n_atanh rest x p rm = Err InvalidArgument.
Proof.
  intros W H. assert (N : nonzero x) by (intros Z; rewrite (value_zero x Z), Rabs_R0 in H; lra).
  unfold n_atanh. cbv zeta. rewrite (is_zero_false x W N). destruct (exp_one x W N) as [E1 E2]. pose proof (abs_cmp_one x W) as C. rewrite Rcompare_Gt in C by lra. cbn [sgn_of] in C.
  replace (n_abs_cmp x ONE =? 0) with false by lia. destruct (Z.eqb_spec (ne x) 1); [reflexivity|]. destruct (Z.ltb_spec 1 (ne x)); [reflexivity|]. exfalso. assert (Rabs (value x) < 1)%R by (apply E1; lia). lra.
Qed.
Theorem atanh_one rest x p rm : wf x -> Rabs (value x) = 1%R -> n_atanh rest x p rm = Err (ExponentOverflow (ns x)).
Proof.
  intros W H. assert (N : nonzero x) by (intros Z; rewrite (value_zero x Z), Rabs_R0 in H; lra).
  unfold n_atanh. cbv zeta. rewrite (is_zero_false x W N). destruct (exp_one x W N) as [E1 E2]. pose proof (abs_cmp_one x W) as C. rewrite Rcompare_Eq in C by lra. cbn [sgn_of] in C.
  replace (n_abs_cmp x ONE =? 0) with true by lia. destruct (Z.eqb_spec (ne x) 1) as [|NE]; [reflexivity|]. exfalso. destruct (Z.lt_ge_cases 1 (ne x)) as [G|G]; [specialize (E2 G); lra|].
  assert (Rabs (value x) < 1)%R by (apply E1; lia). lra.
Qed.
Theorem atanh_inside rest x p rm : wf x -> nonzero x -> (Rabs (value x) < 1)%R -> n_atanh rest x p rm = odd_top rest 1 false x p rm.
Proof.
  intros W N H. unfold n_atanh, odd_top, odd_in. cbv zeta. rewrite (is_zero_false x W N). destruct (exp_one x W N) as [E1 _]. apply E1 in H.
  replace (ne x =? 1) with false by lia. replace (1 <? ne x) with false by lia. reflexivity.
Qed.

(** Inside the domain and not below the threshold of the shortcut the loops are entered. *)
Lemma odd_rest rest d inv x p rm : wf x -> nonzero x -> ~ max64 (prec_up p) x + 1 < - (ne x * 2 - d) -> 0 < p -> prec_up p < P_LIM -> odd_top rest d inv x p rm = rest x (prec_up p) rm.
Proof.
  intros W N H Hp HP. unfold odd_top, odd_in, small_exp. cbv zeta. rewrite (is_zero_false x W N), (p_wrk_eq x p HP Hp). replace (max64 (prec_up p) x + 1 <? - (ne x * 2 - d)) with false by lia.
  rewrite round_p_eq by lia. reflexivity.
Qed.
Theorem atanh_domain rest x p rm : wf x ->
  ((1 < Rabs (value x))%R -> n_atanh rest x p rm = Err InvalidArgument) /\
  (Rabs (value x) = 1%R -> n_atanh rest x p rm = Err (ExponentOverflow (ns x))) /\
  (nonzero x -> (Rabs (value x) < 1)%R -> ~ max64 (prec_up p) x + 1 < - (ne x * 2 - 1) -> 0 < p -> prec_up p < P_LIM -> n_atanh rest x p rm = rest x (prec_up p) rm).
Proof.
  intros W. split; [now apply atanh_outside|]. split; [now apply atanh_one|]. intros N H1 H2 Hp HP. rewrite atanh_inside by auto. now apply odd_rest.
Qed.
Theorem asin_domain pi rest x p rm : wf x ->
  ((1 < Rabs (value x))%R -> n_asin rest pi x p rm = Err InvalidArgument) /\
  (nonzero x -> (Rabs (value x) < 1)%R -> ~ max64 (prec_up p) x + 1 < - (ne x * 2 - 2) -> 0 < p -> prec_up p < P_LIM -> n_asin rest pi x p rm = rest x (prec_up p) rm).
Proof.
  intros W. split; [now apply asin_outside|]. intros N H1 H2 Hp HP. rewrite asin_inside by auto. now apply odd_rest.
Qed.

(** Logarithms. *)
Lemma not_pos x : wf x -> (value x <= 0)%R -> is_zero x || is_negative x = true.
Proof.
  intros W H. destruct (Z.eq_dec (magnitude x) 0) as [E|N]; [now rewrite (is_zero_true x W E)|]. rewrite (is_zero_false x W N). cbn [orb]. apply is_neg_value; auto.
  destruct (Req_dec (value x) 0) as [E|E]; [apply value_zero_iff in E; contradiction|lra].
Qed.
Lemma yes_pos x : wf x -> (0 < value x)%R -> nonzero x /\ is_zero x || is_negative x = false.
Proof.
  intros W H. assert (N : nonzero x) by (intros Z; rewrite (value_zero x Z) in H; lra). split; [exact N|]. rewrite (is_zero_false x W N). cbn [orb].
  destruct (is_negative x) eqn:E; [apply is_neg_value in E; auto; lra|reflexivity].
Qed.
Theorem ln_outside rest x p rm : wf x -> (value x <= 0)%R -> n_ln rest x p rm = Err InvalidArgument.
Proof. intros W H. unfold n_ln. cbv zeta. now rewrite not_pos. Qed.
Theorem log2_outside rest x p rm : wf x -> (value x <= 0)%R -> n_log2 rest x p rm = Err InvalidArgument.
Proof. intros W H. unfold n_log2. cbv zeta. now rewrite not_pos. Qed.
Theorem log_outside rest x n p rm : wf x -> wf n -> (value x <= 0 \/ value n <= 0)%R -> n_log rest x n p rm = Err InvalidArgument.
Proof.
  intros W Wn [H|H]; unfold n_log; cbv zeta; [now rewrite (not_pos x)|]. rewrite <- orb_assoc, (not_pos n) by auto. now rewrite orb_true_r.
Qed.
Theorem log_inside rest x n p rm : wf x -> wf n -> (0 < value x)%R -> (0 < value n)%R -> n_log rest x n p rm = rest x n (round_p p) rm.
Proof. intros W Wn H1 H2. unfold n_log. cbv zeta. rewrite <- orb_assoc. now rewrite (proj2 (yes_pos x W H1)), (proj2 (yes_pos n Wn H2)). Qed.

(** The normalised mantissa and exponent of a positive number. *)
Lemma normal2 x : wf x -> (0 < value x)%R -> exists m, m_normilize2 (nm x) = (64 * wlen x - mn (nm x), m) /\ words_ok (mm m) /\ zlen (mm m) = wlen x /\
  2 ^ (64 * wlen x - 1) <= val (mm m) < 2 ^ (64 * wlen x) /\ max_bit_len m = 64 * wlen x /\
  value x = (IZR (val (mm m)) * bpow radix2 (ne x - (64 * wlen x - mn (nm x)) - 64 * wlen x))%R.
Proof.
  intros W H. destruct (yes_pos x W H) as [N _]. destruct (nonzero_bits x W N) as (M0 & N0 & L0).
  destruct (maximize_spec (mm (nm x)) (wf_words x W) M0) as (w & E & S0 & V & O & L & B). fold (wlen x) (magnitude x) in *.
  unfold m_normilize2. rewrite E. rewrite <- (wf_bits x W). eexists. split; [reflexivity|]. cbn [mm]. split; [exact O|]. split; [exact L|]. split; [exact B|].
  split; [unfold max_bit_len, mlen; cbn [mm]; rewrite L; reflexivity|]. rewrite V, <- (wf_bits x W) in *. rewrite mult_IZR, <- bpow_IZR by lia. rewrite Rmult_assoc, <- bpow_plus.
  rewrite value_split. pose proof (value_has_sign x W N) as S1. unfold has_sign in S1. destruct (ns x); unfold sgnR; cbn [sgnZ] in *; [lra|]. rewrite Rmult_1_l. do 2 f_equal. lia.
Qed.

Lemma top_bit L v e : 0 < L -> 2 ^ (64 * L - 1) <= v < 2 ^ (64 * L) -> forall k, (IZR v * bpow radix2 (e - 64 * L) = bpow radix2 k)%R <-> (v = 2 ^ (64 * L - 1) /\ e = k + 1).
Proof.
  intros HL Hv k. split.
  - intros E. assert (B : (bpow radix2 (e - 1) <= bpow radix2 k < bpow radix2 e)%R).
    { rewrite <- E. pose proof (bpow_gt_0 radix2 (e - 64 * L)) as G. split.
      - replace (e - 1) with (64 * L - 1 + (e - 64 * L)) by lia. rewrite bpow_plus, bpow_IZR by lia. apply Rmult_le_compat_r; [lra|]. apply IZR_le. lia.
      - apply Rlt_le_trans with (IZR (2 ^ (64 * L)) * bpow radix2 (e - 64 * L))%R; [apply Rmult_lt_compat_r; [exact G|]; apply IZR_lt; lia|].
        rewrite <- bpow_IZR, <- bpow_plus by lia. apply bpow_le. lia. }
    destruct B as [B1 B2]. apply le_bpow in B1. apply lt_bpow in B2. assert (e = k + 1) by lia. split; [|auto]. subst e.
    apply eq_IZR. rewrite <- bpow_IZR by lia. apply Rmult_eq_reg_r with (bpow radix2 (k + 1 - 64 * L)); [|pose proof (bpow_gt_0 radix2 (k + 1 - 64 * L)); lra].
    rewrite E, <- bpow_plus. f_equal. lia.
  - intros [-> ->]. rewrite <- bpow_IZR by lia. rewrite <- bpow_plus. f_equal. lia.
Qed.

Theorem ln_one rest x p rm : wf x -> value x = 1%R -> 0 < p -> prec_up p < P_LIM -> exactly (prec_up p) 0 Pos (ninexact x) (n_ln rest x p rm).
Proof.
  intros W H Hp HP. assert (H0 : (0 < value x)%R) by lra. unfold n_ln. cbv zeta. rewrite (proj2 (yes_pos x W H0)).
  destruct (normal2 x W H0) as (m & -> & Om & Lm & Bm & Mm & Vm). destruct (nonzero_bits x W (proj1 (yes_pos x W H0))) as (_ & _ & L0).
  rewrite H in Vm. symmetry in Vm. apply (top_bit (wlen x) _ _ L0 Bm 0) in Vm as [V1 V2]. cbv iota beta.
  rewrite V2. change (0 + 1) with 1. cbn [Z.eqb Pos.eqb andb]. pose proof (skip_first_full (mm m) Om ltac:(lia) ltac:(rewrite Lm; lia)) as K. rewrite Lm in K. rewrite Mm, K, V1, Z.eqb_refl.
  now apply new2_exact.
Qed.
Theorem ln_inside rest x p rm : wf x -> (0 < value x)%R -> value x <> 1%R -> n_ln rest x p rm = rest x (round_p p) rm.
Proof.
  intros W H0 H1. unfold n_ln. cbv zeta. rewrite (proj2 (yes_pos x W H0)).
  destruct (normal2 x W H0) as (m & -> & Om & Lm & Bm & Mm & Vm). destruct (nonzero_bits x W (proj1 (yes_pos x W H0))) as (_ & _ & L0). cbv iota beta.
  set (e := ne x - (64 * wlen x - mn (nm x))) in *. destruct (Z.eqb_spec e 1) as [E|E]; cbn [andb]; [|reflexivity].
  replace (e =? 0) with false by lia. pose proof (skip_first_full (mm m) Om ltac:(lia) ltac:(rewrite Lm; lia)) as K. rewrite Lm in K. rewrite Mm, K.
  destruct (Z.eqb_spec (val (mm m)) (2 ^ (64 * wlen x - 1))) as [V|V]; [|reflexivity]. exfalso. apply H1. rewrite Vm. apply (top_bit (wlen x) _ _ L0 Bm 0). auto.
Qed.

(** log2. *)
Theorem log2_inside rest x p rm : wf x -> (0 < value x)%R -> (forall k, value x <> bpow radix2 k) -> n_log2 rest x p rm = rest x (round_p p) rm.
Proof.
  intros W H0 H1. unfold n_log2. cbv zeta. rewrite (proj2 (yes_pos x W H0)).
  destruct (normal2 x W H0) as (m & -> & Om & Lm & Bm & Mm & Vm). destruct (nonzero_bits x W (proj1 (yes_pos x W H0))) as (_ & _ & L0). cbv iota beta.
  set (e := ne x - (64 * wlen x - mn (nm x))) in *. pose proof (skip_first_full (mm m) Om ltac:(lia) ltac:(rewrite Lm; lia)) as K. rewrite Lm in K. rewrite Mm, K.
  destruct (Z.eqb_spec (val (mm m)) (2 ^ (64 * wlen x - 1))) as [V|V]; [|reflexivity]. exfalso. apply (H1 (e - 1)). rewrite Vm. apply (top_bit (wlen x) _ _ L0 Bm). split; [auto|lia].
Qed.

Theorem log2_power rest x p rm k : wf x -> value x = bpow radix2 k -> k <> 0 -> 0 < p -> prec_up p < P_LIM ->
  exactly (prec_up p) (IZR k) (if k <? 0 then Neg else Pos) (ninexact x) (n_log2 rest x p rm).
Proof.
  intros W V K0 Hp HP. assert (H0 : (0 < value x)%R) by (rewrite V; apply bpow_gt_0). unfold n_log2. cbv zeta. rewrite (proj2 (yes_pos x W H0)).
  destruct (normal2 x W H0) as (m & -> & Om & Lm & Bm & Mm & Vm). destruct (nonzero_bits x W (proj1 (yes_pos x W H0))) as (_ & N0 & L0). cbv iota beta.
  rewrite V in Vm. symmetry in Vm. apply (top_bit (wlen x) _ _ L0 Bm k) in Vm as [V1 V2].
  pose proof (skip_first_full (mm m) Om ltac:(lia) ltac:(rewrite Lm; lia)) as K. rewrite Lm in K. rewrite Mm, K, V1, Z.eqb_refl.
  assert (KB : Z.abs k < 2 ^ 64). { pose proof (wf_exp x W). pose proof (wf_lim x W). assert (EMIN = -2147483648) by reflexivity. assert (EMAX = 2147483647) by reflexivity.
    assert (P_LIM < 2 ^ 62) by reflexivity. assert (2 ^ 64 = 4 * 2 ^ 62) by reflexivity. lia. }
  rewrite V2. replace (k + 1 - 1) with k by lia. destruct (whole_usize (Z.abs k) ltac:(lia)) as (Wu & Iu & Vu). set (u := from_usize (Z.abs k)) in *.
  assert (Lu : wlen u = 1). { unfold u, from_usize, m_from_usize. replace (Z.abs k =? 0) with false by lia.
    assert (Ho : words_ok [Z.abs k]) by (constructor; [lia|constructor]). assert (Hv : 0 < val [Z.abs k]) by (rewrite val_cons, val_nil; lia).
    destruct (maximize_spec [Z.abs k] Ho Hv) as (m' & -> & _ & _ & _ & Q & _). exact Q. }
  assert (Su : ns u = Pos). { unfold u, from_usize, m_from_usize. replace (Z.abs k =? 0) with false by lia. destruct (maximize [Z.abs k]). reflexivity. }
  set (v := if k + 1 <? 1 then set_sign u Neg else u).
  assert (Hv : wf v /\ wlen v = 1 /\ ns v = (if k <? 0 then Neg else Pos) /\ value v = IZR k).
  { unfold v. destruct (Z.ltb_spec (k + 1) 1); destruct (Z.ltb_spec k 0); try lia.
    - split; [now apply wf_set_sign|]. split; [exact Lu|]. split; [reflexivity|]. rewrite value_set_sign, Su, Vu. cbn [sgnZ]. rewrite <- !mult_IZR. f_equal. lia.
    - split; [exact Wu|]. split; [exact Lu|]. split; [exact Su|]. rewrite Vu. f_equal. lia. }
  destruct Hv as (Wv & Lv & Sv & Vv). clearbody v. rewrite round_p_eq by lia. fold (prec_up p). assert (U : prec_up (prec_up p) = prec_up p) by (unfold prec_up; dlia).
  assert (PP : 64 <= prec_up p) by (unfold prec_up; dlia).
  destruct (set_precision_spec v (prec_up p) rm Wv ltac:(lia) ltac:(now rewrite U)) as [_ S1]. { right. right. lia. }
  rewrite rnd_grad_long in S1 by (auto; lia). destruct S1 as (q & -> & Wq & Lq & Sq & Vq & _).
  { rewrite Vv. apply Rlt_trans with (bpow radix2 64); [|apply bpow_lt; reflexivity]. rewrite <- abs_IZR, bpow_IZR by lia. apply IZR_lt. exact KB. }
  cbn [bind]. exists (set_inexact q (ninexact x)). split; [reflexivity|]. split; [destruct Wq; constructor; auto|]. split; [change (wlen (set_inexact q (ninexact x))) with (wlen q); rewrite Lq; exact U|].
  split; [change (ns q = if k <? 0 then Neg else Pos); congruence|]. split; [change (value q = IZR k); congruence|reflexivity].
Qed.

(** log2(1) is zero, but a zero with the exponent 64. *)
Theorem log2_one rest x p rm : wf x -> value x = 1%R -> 0 < p -> prec_up p < P_LIM ->
  exists q, n_log2 rest x p rm = Ok q /\ value q = 0%R /\ ns q = Pos /\ 64 * wlen q = prec_up p /\ ninexact q = ninexact x /\ ne q = 64 /\ ~ wf q.
Proof.
  intros W V Hp HP. change 1%R with (bpow radix2 0) in V. assert (H0 : (0 < value x)%R) by (rewrite V; apply bpow_gt_0). unfold n_log2. cbv zeta. rewrite (proj2 (yes_pos x W H0)).
  destruct (normal2 x W H0) as (m & -> & Om & Lm & Bm & Mm & Vm). destruct (nonzero_bits x W (proj1 (yes_pos x W H0))) as (_ & N0 & L0). cbv iota beta.
  rewrite V in Vm. symmetry in Vm. apply (top_bit (wlen x) _ _ L0 Bm 0) in Vm as [V1 V2].
  pose proof (skip_first_full (mm m) Om ltac:(lia) ltac:(rewrite Lm; lia)) as K. rewrite Lm in K. rewrite Mm, K, V1, Z.eqb_refl, V2.
  change (from_usize (Z.abs (0 + 1 - 1))) with (mk_num (mk_m [0] 0) Pos 64 false). change (0 + 1 <? 1) with false. cbv iota.
  rewrite round_p_eq by lia. fold (prec_up p). assert (PP : 64 <= prec_up p) by (unfold prec_up; dlia).
  unfold set_precision, set_precision_internal. rewrite p_assertion_ok by lia. cbn [bind]. change (mantissa_max_bit_len (mk_num (mk_m [0] 0) Pos 64 false)) with 64.
  replace (prec_up p <? 64) with false by lia. cbn [andb]. replace (prec_up p =? 0) with false by lia. cbn [bind nm ns ne ninexact].
  assert (O0 : words_ok [0]) by (constructor; [lia|constructor]). destruct (m_set_length_spec [0] 0 (prec_up p) Pos 64 O0 eq_refl ltac:(lia)) as (S1 & S2 & S3 & S4 & S5 & S6).
  { intros _. reflexivity. }
  assert (Z0 : magnitude (set_inexact (mk_num (m_set_length (mk_m [0] 0) (prec_up p)) Pos 64 false) (ninexact x)) = 0) by (apply (proj2 S4); reflexivity).
  eexists. split; [reflexivity|]. split; [now apply value_zero|]. split; [reflexivity|]. split.
  { unfold wlen. cbn [nm set_inexact]. rewrite S2. unfold prec_up. clear. dlia. }
  split; [reflexivity|]. split; [reflexivity|]. intros Wq. pose proof (wf_zero _ Wq Z0) as Q. discriminate Q.
Qed.
