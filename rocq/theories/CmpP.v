(** Normalisation and comparison. *)

From Coq Require Import ZArith Reals List Bool Lia Lra.
From Flocq Require Import Core.
From Verif Require Import Words IntModel Mantissa Num SpecZ WordsP WordsP2 RoundP Spec RealP RealP2 NumP.
Import ListNotations.
Open Scope Z_scope.
Ltac Zify.zify_post_hook ::= Z.div_mod_to_equations.
Arguments Z.mul : simpl never.
Arguments Z.add : simpl never.
Arguments Z.pow : simpl never.
Arguments Z.sub : simpl never.
Arguments Z.of_nat : simpl never.

Lemma nonzero_bits x : wf x -> nonzero x -> 0 < magnitude x /\ 0 < mn (nm x) <= 64 * wlen x /\ 0 < wlen x.
Proof.
  intros W Hn. unfold nonzero in Hn. pose proof (val_bound _ (wf_words x W)) as Hb. fold (magnitude x) in Hb. fold (wlen x) in Hb.
  rewrite (wf_bits x W). assert (0 < magnitude x) by lia. pose proof (bitlen_pos _ H).
  pose proof (zlen_nonneg (mm (nm x))). fold (wlen x) in H1.
  assert (bitlen (magnitude x) <= 64 * wlen x) by (apply bitlen_le; lia). lia.
Qed.

Lemma is_zero_spec x : wf x -> is_zero x = (magnitude x =? 0).
Proof.
  intros W. unfold is_zero, m_is_zero. rewrite (wf_bits x W). pose proof (val_nonneg _ (wf_words x W)). fold (magnitude x) in H.
  destruct (Z.eqb_spec (magnitude x) 0) as [->|]; [reflexivity|]. apply Z.eqb_neq.
  pose proof (bitlen_pos (magnitude x) ltac:(lia)). lia.
Qed.
Lemma is_zero_false x : wf x -> nonzero x -> is_zero x = false.
Proof. intros W H. rewrite is_zero_spec by auto. now apply Z.eqb_neq. Qed.

(** The normalised form of a nonzero number. *)
Definition norm_exp (x : num) : Z := ne x - (64 * wlen x - mn (nm x)).

Lemma normalize_spec x : wf x -> nonzero x ->
  exists m, normalize x = Ok (norm_exp x, m) /\ words_ok (mm m) /\ zlen (mm m) = wlen x /\ mn m = 64 * wlen x /\ top_set (mm m) /\
    value x = F2 (ns x) (val (mm m)) (norm_exp x - 64 * wlen x).
Proof.
  intros W Hn. destruct (nonzero_bits x W Hn) as (Hm & Hb & Hl). pose proof (wf_exp x W) as He.
  pose proof (wf_words x W) as Hok. pose proof (wf_lim x W) as Hlim. pose proof (wf_bits x W) as Hbits.
  pose proof (bitlen_spec _ Hm) as [B1 B2]. rewrite <- Hbits in B1, B2.
  unfold normalize, is_subnormal, m_is_subnormal, max_bit_len, mlen, norm_exp. fold (wlen x).
  destruct (Z.ltb_spec (mn (nm x)) (64 * wlen x)) as [Hs|Hs].
  - unfold m_normilize, max_bit_len, mlen. fold (wlen x). replace (0 <? 64 * wlen x - mn (nm x)) with true by lia.
    set (sh := 64 * wlen x - mn (nm x)) in *. replace (ne x - sh <=? _) with false by lia.
    set (w := shift_slice_left (mm (nm x)) sh).
    assert (Hw : val w = magnitude x * 2 ^ sh).
    { apply shift_slice_left_exact; auto; try lia. fold (magnitude x). fold (wlen x).
      replace (64 * wlen x) with (mn (nm x) + sh) by lia. rewrite Z.pow_add_r by lia. apply Z.mul_lt_mono_pos_r; auto. apply pow2_gt0; lia. }
    exists (mk_m w (64 * wlen x)). cbn [mm mn].
    split; [reflexivity|]. split; [now apply shift_slice_left_ok; [|lia]|].
    assert (zlen w = wlen x) by (apply shift_slice_left_len; auto; lia). split; [auto|]. split; [auto|]. split.
    + unfold top_set. rewrite H, Hw. replace (64 * wlen x - 1) with (mn (nm x) - 1 + sh) by lia. rewrite Z.pow_add_r by lia.
      apply Z.mul_le_mono_nonneg_r; auto. apply pow2_nonneg.
    + rewrite Hw, F2R_shift by lia. unfold value. do 2 f_equal. lia.
  - exists (nm x). replace (64 * wlen x - mn (nm x)) with 0 by lia. rewrite !Z.sub_0_r.
    split; [reflexivity|]. split; [auto|]. split; [auto|]. split; [lia|]. split.
    + unfold top_set. fold (wlen x). fold (magnitude x). replace (64 * wlen x) with (mn (nm x)) by lia. auto.
    + reflexivity.
Qed.

Lemma norm_exp_range x : wf x -> nonzero x -> EMIN - P_LIM < norm_exp x <= EMAX.
Proof.
  intros W Hn. destruct (nonzero_bits x W Hn) as (Hm & Hb & Hl). pose proof (wf_exp x W). pose proof (wf_lim x W).
  unfold norm_exp. lia.
Qed.

(** ** Comparison *)
Lemma sgn_cmp_rest a b : words_ok a -> words_ok b ->
  cmp_rest a b = if negb (val (rev a) =? 0) then 1 else if negb (val (rev b) =? 0) then -1 else 0.
Proof.
  intros Ha Hb. unfold cmp_rest. rewrite <- (all_zero_rev a), <- (all_zero_rev b) by auto.
  rewrite !all_zero_spec by auto using ok_rev. reflexivity.
Qed.

Lemma cmp_iters_spec a : forall b, words_ok a -> words_ok b ->
  Z.sgn (cmp_iters (Nat.min (length a) (length b)) a b) =
  Z.sgn (val (rev a) * 2 ^ (64 * zlen b) - val (rev b) * 2 ^ (64 * zlen a)).
Proof.
  induction a as [|x a IH]; intros b Ha Hb.
  - cbn [length Nat.min cmp_iters]. rewrite sgn_cmp_rest by auto. cbn [rev]. rewrite val_nil, zlen_nil.
    change (2 ^ (64 * 0)) with 1. rewrite Z.mul_0_l, Z.mul_1_r. cbn [Z.eqb negb].
    pose proof (val_nonneg _ (ok_rev _ Hb)). destruct (Z.eqb_spec (val (rev b)) 0) as [->|]; cbn [negb]; [reflexivity|].
    rewrite Z.sub_0_l, Z.sgn_opp, (Z.sgn_pos (val (rev b))) by lia. reflexivity.
  - destruct b as [|y b].
    + cbn [length Nat.min]. replace (cmp_iters 0 (x :: a) []) with (cmp_rest (x :: a) []) by reflexivity.
      rewrite sgn_cmp_rest by auto. change (rev []) with (@nil Z). rewrite val_nil, zlen_nil. change (2 ^ (64 * 0)) with 1.
      rewrite Z.mul_0_l, Z.mul_1_r, Z.sub_0_r. cbn [Z.eqb negb].
      pose proof (val_nonneg _ (ok_rev _ Ha)). destruct (Z.eqb_spec (val (rev (x :: a))) 0) as [->|]; cbn [negb]; [reflexivity|].
      rewrite (Z.sgn_pos (val (rev (x :: a)))) by lia. reflexivity.
    + apply ok_cons in Ha as [Hx Ha]. apply ok_cons in Hb as [Hy Hb]. specialize (IH b Ha Hb).
      cbn [length Nat.min cmp_iters]. rewrite !val_rev_cons, !zlen_cons.
      pose proof (val_bound _ (ok_rev _ Ha)) as Ba. pose proof (val_bound _ (ok_rev _ Hb)) as Bb. rewrite zlen_rev in Ba, Bb.
      pose proof (zlen_nonneg a). pose proof (zlen_nonneg b).
      rewrite !pow64_succ by lia. pose proof (pow2_gt0 (64 * zlen a) ltac:(lia)). pose proof (pow2_gt0 (64 * zlen b) ltac:(lia)).
      set (A := val (rev a)) in *. set (C := val (rev b)) in *. set (pa := 2 ^ (64 * zlen a)) in *. set (pb := 2 ^ (64 * zlen b)) in *.
      destruct (Z.eqb_spec (x - y) 0) as [E|E].
      * rewrite IH. assert (x = y) by lia. subst y.
        replace ((A + pa * x) * (2 ^ 64 * pb) - (C + pb * x) * (2 ^ 64 * pa)) with (2 ^ 64 * (A * pb - C * pa)) by ring.
        rewrite Z.sgn_mul. rewrite (Z.sgn_pos (2 ^ 64)) by lia. lia.
      * replace ((A + pa * x) * (2 ^ 64 * pb) - (C + pb * y) * (2 ^ 64 * pa)) with (2 ^ 64 * (A * pb - C * pa + (pa * pb) * (x - y))) by ring.
        rewrite Z.sgn_mul. rewrite (Z.sgn_pos (2 ^ 64)) by lia. rewrite Z.mul_1_l.
        assert (0 <= A * pb < pa * pb) by nia. assert (0 <= C * pa < pa * pb) by nia.
        destruct (Z_lt_le_dec (x - y) 0).
        -- rewrite Z.sgn_neg by lia. rewrite Z.sgn_neg; [reflexivity|]. nia.
        -- rewrite Z.sgn_pos by lia. rewrite Z.sgn_pos; [reflexivity|]. nia.
Qed.

Lemma m_abs_cmp_spec m1 m2 : words_ok (mm m1) -> words_ok (mm m2) ->
  Z.sgn (m_abs_cmp m1 m2 true) = Z.sgn (val (mm m1) * 2 ^ (64 * mlen m2) - val (mm m2) * 2 ^ (64 * mlen m1)).
Proof.
  intros H1 H2. unfold m_abs_cmp. rewrite <- (rev_length (mm m1)), <- (rev_length (mm m2)).
  rewrite cmp_iters_spec by auto using ok_rev. now rewrite !rev_involutive, !zlen_rev.
Qed.

Lemma Rcompare_F2_same a b e : Rcompare (F2R (Float radix2 a e)) (F2R (Float radix2 b e)) = Z.compare a b.
Proof.
  unfold F2R; cbn [Fnum Fexp]. rewrite Rcompare_mult_r by apply bpow_gt_0. apply Rcompare_IZR.
Qed.

Lemma sgn_sub_compare a b : Z.sgn (a - b) = sgn_of (Z.compare a b).
Proof.
  destruct (Z.compare_spec a b); cbn [sgn_of]; [|apply Z.sgn_neg; lia|apply Z.sgn_pos; lia].
  subst. now rewrite Z.sub_diag.
Qed.

Lemma abs_value x : wf x -> Rabs (value x) = F2R (Float radix2 (magnitude x) (ne x - 64 * wlen x)).
Proof.
  intros W. unfold value. rewrite F2_abs by (apply val_nonneg; apply (wf_words x W)). reflexivity.
Qed.

Lemma norm_bounds x : wf x -> nonzero x ->
  (bpow radix2 (norm_exp x - 1) <= Rabs (value x) < bpow radix2 (norm_exp x))%R.
Proof.
  intros W Hn. destruct (nonzero_bits x W Hn) as (Hm & Hb & Hl). unfold value.
  assert (E : norm_exp x = bitlen (magnitude x) + (ne x - 64 * wlen x)) by (unfold norm_exp; rewrite (wf_bits x W); lia).
  split; [apply (F2_ge _ _ _ _ _ Hm eq_refl)|apply (F2_lt _ _ _ _ _ Hm eq_refl)]; lia.
Qed.

Theorem n_abs_cmp_spec x y : wf x -> wf y -> nonzero x -> nonzero y ->
  Z.sgn (n_abs_cmp x y) = sgn_of (Rcompare (Rabs (value x)) (Rabs (value y))).
Proof.
  intros Wx Wy Nx Ny. unfold n_abs_cmp. rewrite is_zero_false by auto.
  unfold mantissa_max_bit_len, precision, max_bit_len, mlen. fold (wlen x) (wlen y).
  pose proof (norm_bounds x Wx Nx) as Bx. pose proof (norm_bounds y Wy Ny) as By.
  replace (ne x - (64 * wlen x - mn (nm x)) - ne y + (64 * wlen y - mn (nm y))) with (norm_exp x - norm_exp y) by (unfold norm_exp; lia).
  destruct (Z.ltb_spec 0 (norm_exp x - norm_exp y)) as [H|H].
  { rewrite Rcompare_Gt; [reflexivity|]. pose proof (bpow_le radix2 (norm_exp y) (norm_exp x - 1) ltac:(lia)). lra. }
  destruct (Z.ltb_spec (norm_exp x - norm_exp y) 0) as [H2|H2].
  { rewrite Rcompare_Lt; [reflexivity|]. pose proof (bpow_le radix2 (norm_exp x) (norm_exp y - 1) ltac:(lia)). lra. }
  destruct (nonzero_bits x Wx Nx) as (Mx & Bbx & Lx). destruct (nonzero_bits y Wy Ny) as (My & Bby & Ly).
  pose proof (wf_exp x Wx). pose proof (wf_exp y Wy). pose proof (wf_sub x Wx). pose proof (wf_sub y Wy).
  unfold norm_exp in H, H2.
  assert (En : 64 * wlen x - mn (nm x) = 64 * wlen y - mn (nm y)) by lia.
  rewrite (proj2 (Z.eqb_eq _ _) En). rewrite m_abs_cmp_spec by (apply wf_words; auto).
  unfold mlen. fold (wlen x) (wlen y) (magnitude x) (magnitude y).
  rewrite !abs_value by auto. assert (Ee : ne x = ne y) by lia.
  rewrite sgn_sub_compare. f_equal.
  rewrite <- (Rcompare_F2_same _ _ (ne x - 64 * wlen x - 64 * wlen y)). f_equal.
  - pose proof (F2R_shift Pos (magnitude x) (ne x - 64 * wlen x - 64 * wlen y) (64 * wlen y) ltac:(lia)) as E.
    cbn [sgnZ] in E. rewrite !Z.mul_1_l in E. rewrite E. do 2 f_equal. lia.
  - pose proof (F2R_shift Pos (magnitude y) (ne x - 64 * wlen x - 64 * wlen y) (64 * wlen x) ltac:(lia)) as E.
    cbn [sgnZ] in E. rewrite !Z.mul_1_l in E. rewrite E. do 2 f_equal. lia.
Qed.

Lemma value_sgn x : value x = (sgnR (ns x) * Rabs (value x))%R \/ magnitude x < 0.
Proof.
  destruct (Z_lt_le_dec (magnitude x) 0) as [H|H]; [auto|left]. unfold value. rewrite F2_abs by auto. now rewrite F2R_sgn, Rmult_assoc.
Qed.
Lemma value_sgn_abs x : wf x -> value x = (sgnR (ns x) * Rabs (value x))%R.
Proof. intros W. destruct (value_sgn x); auto. pose proof (val_nonneg _ (wf_words x W)). fold (magnitude x) in H0. lia. Qed.

Lemma value_pos x : wf x -> nonzero x -> (0 < Rabs (value x))%R.
Proof. intros W N. destruct (norm_bounds x W N). pose proof (bpow_gt_0 radix2 (norm_exp x - 1)). lra. Qed.

Theorem n_cmp_spec x y : wf x -> wf y -> nonzero x -> nonzero y ->
  Z.sgn (n_cmp x y) = sgn_of (Rcompare (value x) (value y)).
Proof.
  intros Wx Wy Nx Ny. unfold n_cmp. rewrite !is_zero_false by auto. cbn [andb].
  pose proof (value_pos x Wx Nx). pose proof (value_pos y Wy Ny).
  pose proof (n_abs_cmp_spec x y Wx Wy Nx Ny) as C.
  rewrite (value_sgn_abs x), (value_sgn_abs y) by auto.
  destruct (ns x), (ns y); cbn [sign_eqb negb sign_int sgnR]; unfold sgnR; cbn [sgnZ].
  - rewrite Z.sgn_mul, C. destruct (Rcompare_spec (Rabs (value x)) (Rabs (value y))); [rewrite Rcompare_Gt|rewrite Rcompare_Eq|rewrite Rcompare_Lt]; try lra; reflexivity.
  - rewrite Rcompare_Lt by lra. reflexivity.
  - rewrite Rcompare_Gt by lra. reflexivity.
  - rewrite Z.mul_1_r, !Rmult_1_l. exact C.
Qed.
