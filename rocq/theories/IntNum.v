(** int, fract, floor, ceil, is_int and round on BigFloatNumber. *)

From Coq Require Import ZArith Reals List Bool Lia Lra.
From Flocq Require Import Core.
From Verif Require Import Words IntModel MulModel DivModel Mantissa Num SpecZ WordsP WordsP2 RoundP Spec SpecOps RealP RealP2 NumP CmpP AddP SetP AddNum IntP MulP MulP2 MulNum DivP DivP2 DivNum ArithTop RemNum.
Import ListNotations.
Open Scope Z_scope.
Ltac Zify.zify_post_hook ::= idtac.
Arguments Z.mul : simpl never.
Arguments Z.add : simpl never.
Arguments Z.pow : simpl never.
Arguments Z.sub : simpl never.
Arguments Z.of_nat : simpl never.

(** ** Words *)

Lemma land_high v n : 0 <= v < 2 ^ 64 -> 0 <= n < 64 -> Z.land v (wshl WORD_MAX n) = v / 2 ^ n * 2 ^ n.
Proof.
  intros Hv Hn. apply Z.bits_inj'. intros k Hk. rewrite Z.land_spec. unfold wshl.
  change WORD_BASE with (2 ^ 64). change WORD_MAX with (Z.ones 64).
  assert (Hi : 64 <= k -> Z.testbit v k = false).
  { intros H. destruct (Z.eq_dec v 0) as [->|]; [apply Z.bits_0|]. apply Z.bits_above_log2; [lia|]. assert (Z.log2 v < 64) by (apply Z.log2_lt_pow2; lia). lia. }
  destruct (Z.lt_ge_cases k n) as [H|H].
  - rewrite Z.mul_pow2_bits_low by lia. rewrite Z.mod_pow2_bits_low, Z.shiftl_spec_low by lia. apply andb_false_r.
  - rewrite Z.mul_pow2_bits, Z.div_pow2_bits by lia. replace (k - n + n) with k by lia.
    destruct (Z.lt_ge_cases k 64) as [H'|H'].
    + rewrite Z.mod_pow2_bits_low, Z.shiftl_spec, Z.ones_spec_low by lia. apply andb_true_r.
    + rewrite Hi by auto. reflexivity.
Qed.

Lemma mask_low_spec l : forall n, words_ok l -> 0 <= n ->
  words_ok (mask_low l n) /\ zlen (mask_low l n) = zlen l /\ val (mask_low l n) = val l / 2 ^ n * 2 ^ n.
Proof.
  induction l as [|v t IH]; intros n Hok Hn; cbn [mask_low].
  - rewrite val_nil, Z.div_0_l by (pose proof (pow2_gt0 n Hn); lia). auto.
  - apply ok_cons in Hok as [Hv Ht]. destruct (Z.leb_spec 64 n) as [H|H].
    + destruct (IH (n - 64) Ht ltac:(lia)) as (A & B & C). rewrite !zlen_cons, !val_cons. split; [apply ok_cons; split; [lia|auto]|]. split; [lia|].
      rewrite C. pose proof (pow2_gt0 (n - 64) ltac:(lia)). pose proof (pow2_gt0 64 ltac:(lia)).
      replace (2 ^ n) with (2 ^ 64 * 2 ^ (n - 64)) by (rewrite <- Z.pow_add_r by lia; f_equal; lia).
      rewrite <- Z.div_div by lia. replace ((v + 2 ^ 64 * val t) / 2 ^ 64) with (val t); [ring|].
      apply Z.div_unique with (r := v); [left; lia|ring].
    + rewrite !zlen_cons, !val_cons. rewrite land_high by lia. pose proof (pow2_gt0 n ltac:(lia)) as G.
      split. { apply ok_cons. split; [|auto]. pose proof (Z.mul_div_le v (2 ^ n) G). pose proof (Z.div_pos v (2 ^ n) ltac:(lia) G). nia. }
      split; [auto|]. rewrite div_word by lia. rewrite Z.mul_add_distr_r. f_equal.
      replace (2 ^ 64) with (2 ^ (64 - n) * 2 ^ n) by (rewrite <- Z.pow_add_r by lia; f_equal; lia). ring.
Qed.

(** ** Integer part *)

Lemma pos_exp_normal x : wf x -> 0 < ne x -> normal x /\ 0 < magnitude x /\ 0 < wlen x /\ mn (nm x) = 64 * wlen x.
Proof.
  intros W He. assert (E1 : EMIN = - 2147483648) by reflexivity.
  assert (N : nonzero x) by (intros Z0; pose proof (wf_zero x W Z0); lia).
  destruct (nonzero_bits x W N) as (A & B & C). assert (mn (nm x) = 64 * wlen x).
  { destruct (Z.eq_dec (mn (nm x)) (64 * wlen x)); auto. pose proof (wf_sub x W ltac:(lia)). lia. }
  unfold normal. auto.
Qed.

Lemma set_zero_wf x : wf x -> let q := mk_num (m_set_zero (nm x)) (ns x) 0 (ninexact x) in
  wf q /\ wlen q = wlen x /\ magnitude q = 0.
Proof.
  intros W. cbv zeta. assert (L : zlen (zeros (zlen (mm (nm x)))) = zlen (mm (nm x))) by (apply zlen_zeros; apply zlen_nonneg).
  assert (M : val (zeros (zlen (mm (nm x)))) = 0) by apply val_zeros. pose proof (wf_lim x W) as HL. unfold wlen in HL.
  assert (E1 : EMIN = - 2147483648) by reflexivity. assert (E2 : EMAX = 2147483647) by reflexivity.
  unfold m_set_zero, mlen, wlen, magnitude. cbn [nm mm]. split; [|auto].
  constructor; unfold magnitude, wlen; cbn [nm mm mn ne]; auto using ok_zeros; try lia. now rewrite M. 
Qed.

Lemma value_split x : value x = (sgnR (ns x) * (IZR (magnitude x) * bpow radix2 (ne x - 64 * wlen x)))%R.
Proof. unfold value. rewrite F2R_sgn. ring. Qed.

(** Truncation of a scaled integer. *)
Lemma Ztrunc_sgn s u : (0 <= u)%R -> Ztrunc (sgnR s * u) = sgnZ s * Zfloor u.
Proof.
  intros Hu. destruct s; unfold sgnR, sgnZ.
  - replace (-1 * u)%R with (- u)%R by ring. rewrite Ztrunc_opp, Ztrunc_floor by auto. lia.
  - rewrite Rmult_1_l, Ztrunc_floor by auto. lia.
Qed.

Lemma Zfloor_scaled M k : 0 <= k -> Zfloor (IZR M * bpow radix2 (- k)) = M / 2 ^ k.
Proof.
  intros Hk. rewrite bpow_opp_IZR by auto. apply (Zfloor_div M (2 ^ k)). pose proof (pow2_gt0 k Hk). lia.
Qed.

Theorem int_spec x : wf x -> let q := n_int x in
  wf q /\ wlen q = wlen x /\ ns q = ns x /\ ninexact q = ninexact x /\ value q = IZR (Ztrunc (value x)).
Proof.
  intros W. cbv zeta. unfold n_int, max_bit_len, mlen. fold (wlen x). pose proof (wf_words x W) as Ok.
  destruct (Z.ltb_spec 0 (ne x)) as [He|He].
  - destruct (pos_exp_normal x W He) as (N & M0 & L0 & B0). rewrite (value_split x).
    assert (Up : (0 <= IZR (magnitude x) * bpow radix2 (ne x - 64 * wlen x))%R).
    { apply Rmult_le_pos; [apply IZR_le; lia|apply bpow_ge_0]. }
    rewrite Ztrunc_sgn by exact Up.
    destruct (Z.ltb_spec (ne x) (64 * wlen x)) as [Hl|Hl].
    + set (n := 64 * wlen x - ne x). unfold m_mask_bits.
      destruct (mask_low_spec (mm (nm x)) n Ok ltac:(lia)) as (A & B & C). fold (wlen x) in B. fold (magnitude x) in C.
      replace (ne x - 64 * wlen x) with (- n) by (unfold n; lia). rewrite Zfloor_scaled by lia.
      destruct (bitlen_spec (magnitude x) M0) as [B1 B2]. rewrite <- (wf_bits x W), B0 in B1, B2.
      assert (P : 2 ^ (64 * wlen x - 1) = 2 ^ (ne x - 1) * 2 ^ n) by (rewrite <- Z.pow_add_r by lia; f_equal; unfold n; lia).
      pose proof (pow2_gt0 n ltac:(unfold n; lia)) as G.
      assert (Q1 : 2 ^ (ne x - 1) <= magnitude x / 2 ^ n) by (apply Z.div_le_lower_bound; lia).
      pose proof (Z.mul_div_le (magnitude x) (2 ^ n) G) as Q2.
      assert (BL : bitlen (magnitude x / 2 ^ n * 2 ^ n) = 64 * wlen x) by (apply bitlen_unique; [lia|split; [rewrite P; apply Z.mul_le_mono_pos_r; auto|lia]]).
      split. { constructor; unfold magnitude, wlen; cbn [nm mm mn ne]; rewrite ?B, ?C; auto; try (apply (wf_lim x W)); try (apply (wf_exp x W)); try lia.
               intros Z0. exfalso. pose proof (pow2_gt0 (64 * wlen x - 1) ltac:(lia)). nia. }
      unfold wlen at 1. cbn [nm mm ns ninexact]. split; [auto|]. split; [auto|]. split; [auto|].
      unfold value, magnitude, wlen. cbn [nm mm ns ne]. rewrite B, C. fold (wlen x) (magnitude x). rewrite F2R_shift by lia.
      replace (ne x - 64 * wlen x + n) with 0 by (unfold n; lia).
      unfold F2R. cbn [Fnum Fexp]. change (bpow radix2 0) with 1%R. ring.
    + split; [auto|]. split; [auto|]. split; [auto|]. split; [auto|]. rewrite (value_split x) at 1. rewrite mult_IZR. f_equal.
      rewrite bpow_IZR by lia. rewrite <- mult_IZR. now rewrite Zfloor_IZR.
  - destruct (set_zero_wf x W) as (A & B & C). split; [auto|]. split; [auto|]. split; [auto|]. split; [auto|].
    rewrite (value_zero _ C). replace (Ztrunc (value x)) with 0; [reflexivity|]. symmetry.
    rewrite (value_split x), Ztrunc_sgn.
    2:{ apply Rmult_le_pos; [apply IZR_le; apply val_nonneg; auto|apply bpow_ge_0]. }
    pose proof (val_bound _ Ok) as V. fold (magnitude x) (wlen x) in V. pose proof (zlen_nonneg (mm (nm x))) as Z1. fold (wlen x) in Z1.
    replace (ne x - 64 * wlen x) with (- (64 * wlen x - ne x)) by lia. rewrite Zfloor_scaled by lia.
    rewrite Z.div_small; [lia|]. split; [lia|]. assert (2 ^ (64 * wlen x) <= 2 ^ (64 * wlen x - ne x)) by (apply Z.pow_le_mono_r; lia). lia.
Qed.

(** ** Fractional part *)

Lemma frac_sgn s u : (0 <= u)%R -> (sgnR s * u - IZR (Ztrunc (sgnR s * u)) = sgnR s * (u - IZR (Zfloor u)))%R.
Proof. intros. rewrite Ztrunc_sgn by auto. rewrite mult_IZR. fold (sgnR s). ring. Qed.

Theorem fract_spec x : wf x -> 64 * wlen x <= 2 ^ 31 -> let q := n_fract x in
  wf q /\ wlen q = wlen x /\ ns q = ns x /\ ninexact q = ninexact x /\ value q = (value x - IZR (Ztrunc (value x)))%R.
Proof.
  intros W HL. cbv zeta. unfold n_fract, max_bit_len, mlen. fold (wlen x). pose proof (wf_words x W) as Ok.
  destruct (Z.ltb_spec 0 (ne x)) as [He|He].
  2:{ split; [auto|]. split; [auto|]. split; [auto|]. split; [auto|]. destruct (int_spec x W) as (_ & _ & _ & _ & V).
      unfold n_int in V. replace (0 <? ne x) with false in V by lia. destruct (set_zero_wf x W) as (_ & _ & C). rewrite (value_zero _ C) in V. rewrite <- V. ring. }
  destruct (pos_exp_normal x W He) as (N & M0 & L0 & B0).
  assert (Up : (0 <= IZR (magnitude x) * bpow radix2 (ne x - 64 * wlen x))%R).
  { apply Rmult_le_pos; [apply IZR_le; lia|apply bpow_ge_0]. }
  rewrite (value_split x), frac_sgn by exact Up.
  destruct (Z.ltb_spec (ne x) (64 * wlen x)) as [Hl|Hl].
  2:{ destruct (set_zero_wf x W) as (A & B & C). split; [auto|]. split; [auto|]. split; [auto|]. split; [auto|].
      rewrite (value_zero _ C). rewrite bpow_IZR by lia. rewrite <- mult_IZR. rewrite Zfloor_IZR. ring. }
  set (n := 64 * wlen x - ne x). replace (ne x - 64 * wlen x) with (- n) by (unfold n; lia). rewrite Zfloor_scaled by (unfold n; lia).
  pose proof (pow2_gt0 n ltac:(unfold n; lia)) as G.
  assert (FR : (IZR (magnitude x) * bpow radix2 (- n) - IZR (magnitude x / 2 ^ n) = IZR (magnitude x mod 2 ^ n) * bpow radix2 (- n))%R).
  { rewrite bpow_opp_IZR by (unfold n; lia). pose proof (Z.div_mod (magnitude x) (2 ^ n) ltac:(lia)) as D. apply (f_equal IZR) in D. rewrite plus_IZR, mult_IZR in D.
    rewrite D at 1. field. apply IZR_neq. lia. }
  rewrite FR. rewrite find_one_from_spec by (auto; lia). cbv zeta. fold (wlen x) (magnitude x). fold n.
  replace (64 * wlen x <=? ne x) with false by lia. cbn [orb].
  destruct (Z.eqb_spec (magnitude x mod 2 ^ n) 0) as [Z0|Z0].
  { destruct (set_zero_wf x W) as (A & B & C). split; [auto|]. split; [auto|]. split; [auto|]. split; [auto|].
    rewrite (value_zero _ C), Z0. ring. }
  pose proof (Z.mod_pos_bound (magnitude x) (2 ^ n) G) as VB. set (v := magnitude x mod 2 ^ n) in *.
  destruct (Z.log2_spec v ltac:(lia)) as [L1 L2]. pose proof (Z.log2_nonneg v) as L3.
  assert (L4 : Z.log2 v < n) by (apply Z.log2_lt_pow2; lia). rewrite <- Z.add_1_r in L2.
  set (j := Z.log2 v) in *. set (shift := 64 * wlen x - 1 - j).
  assert (E1 : EMIN = - 2147483648) by reflexivity. assert (E2 : EMAX = 2147483647) by reflexivity. change (2 ^ 31) with 2147483648 in HL.
  pose proof (wf_exp x W) as We. replace (ne x - shift <? EXPONENT_MIN) with false by (unfold shift; lia).
  assert (Sh : 0 <= shift) by (unfold shift; unfold n in L4; lia).
  unfold m_shift_left. destruct (shift_slice_left_spec (mm (nm x)) shift Ok Sh) as (V1 & V2 & V3). fold (wlen x) (magnitude x) in *.
  assert (P64 : 2 ^ (64 * wlen x) = 2 ^ (j + 1) * 2 ^ shift) by (rewrite <- Z.pow_add_r by lia; f_equal; unfold shift; lia).
  assert (VV : val (shift_slice_left (mm (nm x)) shift) = v * 2 ^ shift).
  { rewrite V1, P64, Zmult_mod_distr_r. f_equal. rewrite <- (mod_mod_pow _ (j + 1) n) by lia. fold v. apply Z.mod_small. lia. }
  assert (BL : bitlen (v * 2 ^ shift) = 64 * wlen x).
  { pose proof (pow2_gt0 shift Sh). apply bitlen_unique; [lia|]. rewrite P64. replace (64 * wlen x - 1) with (j + shift) by (unfold shift; lia).
    rewrite Z.pow_add_r by lia. split; [apply Z.mul_le_mono_pos_r; auto|apply Z.mul_lt_mono_pos_r; auto]. }
  assert (Vp : v * 2 ^ shift <> 0) by (pose proof (pow2_gt0 shift Sh); nia).
  split. { constructor; unfold magnitude, wlen; cbn [nm mm mn ne]; rewrite ?V3, ?VV; auto; try (apply (wf_lim x W)); try lia; fold (wlen x); unfold shift; lia. }
  unfold wlen at 1. cbn [nm mm ns ninexact]. split; [auto|]. split; [auto|]. split; [auto|].
  unfold value, magnitude, wlen. cbn [nm mm ns ne]. rewrite VV, V3. fold (wlen x). rewrite F2R_shift by lia. rewrite F2R_sgn.
  replace (ne x - shift - 64 * wlen x + shift) with (- n) by (unfold n; lia). ring.
Qed.

Lemma nonint_frac r : (r - IZR (Ztrunc r) = 0)%R <-> exists n, r = IZR n.
Proof.
  split; [intros H; exists (Ztrunc r); lra|]. intros (n & ->). rewrite Ztrunc_IZR. ring.
Qed.

Theorem is_int_spec x : wf x -> n_is_int x = true <-> exists n, value x = IZR n.
Proof.
  intros W. rewrite <- nonint_frac. unfold n_is_int, max_bit_len, mlen. fold (wlen x). pose proof (wf_words x W) as Ok.
  assert (Up : (0 <= IZR (magnitude x) * bpow radix2 (ne x - 64 * wlen x))%R).
  { apply Rmult_le_pos; [apply IZR_le; apply val_nonneg; auto|apply bpow_ge_0]. }
  destruct (Z.ltb_spec 0 (ne x)) as [He|He].
  2:{ destruct (int_spec x W) as (_ & _ & _ & _ & V).
      unfold n_int in V. replace (0 <? ne x) with false in V by lia. destruct (set_zero_wf x W) as (_ & _ & C). rewrite (value_zero _ C) in V. rewrite <- V.
      rewrite is_zero_spec by auto. rewrite Z.eqb_eq. rewrite <- value_zero_iff. split; intros; lra. }
  destruct (pos_exp_normal x W He) as (N & M0 & L0 & B0).
  rewrite (value_split x), frac_sgn by exact Up.
  destruct (Z.ltb_spec (ne x) (64 * wlen x)) as [Hl|Hl].
  2:{ rewrite bpow_IZR by lia. rewrite <- mult_IZR. rewrite Zfloor_IZR. split; [intros _; ring|auto]. }
  set (n := 64 * wlen x - ne x). replace (ne x - 64 * wlen x) with (- n) by (unfold n; lia). rewrite Zfloor_scaled by (unfold n; lia).
  pose proof (pow2_gt0 n ltac:(unfold n; lia)) as G.
  assert (FR : (IZR (magnitude x) * bpow radix2 (- n) - IZR (magnitude x / 2 ^ n) = IZR (magnitude x mod 2 ^ n) * bpow radix2 (- n))%R).
  { rewrite bpow_opp_IZR by (unfold n; lia). pose proof (Z.div_mod (magnitude x) (2 ^ n) ltac:(lia)) as D. apply (f_equal IZR) in D. rewrite plus_IZR, mult_IZR in D.
    rewrite D at 1. field. apply IZR_neq. lia. }
  rewrite FR. rewrite find_one_from_spec by (auto; lia). cbv zeta. fold (wlen x) (magnitude x). fold n.
  replace (64 * wlen x <=? ne x) with false by lia. cbn [orb].
  destruct (Z.eqb_spec (magnitude x mod 2 ^ n) 0) as [Z0|Z0].
  - rewrite Z0. split; [intros _; ring|auto].
  - split; [discriminate|]. intros E. exfalso. apply Z0. pose proof (bpow_gt_0 radix2 (- n)) as B.
    assert (IZR (magnitude x mod 2 ^ n) = 0)%R.
    { destruct (sgnR_cases (ns x)) as [S|S]; rewrite S in E; nra. }
    now apply eq_IZR in H.
Qed.

(** ** floor and ceil *)

Lemma fract_zero x : wf x -> is_zero (n_fract x) = n_is_int x.
Proof.
  intros W. unfold n_fract, n_is_int, max_bit_len, mlen. fold (wlen x).
  destruct (Z.ltb_spec 0 (ne x)) as [He|He]; [|reflexivity].
  destruct (pos_exp_normal x W He) as (N & M0 & L0 & B0).
  destruct (ne x <? 64 * wlen x); [|reflexivity].
  destruct (find_one_from _ _); [|reflexivity].
  destruct (_ <? _); unfold is_zero, m_is_zero; cbn [nm mn m_mask_bits m_shift_left]; rewrite B0; lia.
Qed.

Lemma int_fmt p K : 0 < p -> Z.abs K <= 2 ^ p -> generic_format radix2 (FLX_exp p) (IZR K).
Proof.
  intros Hp HK. destruct (Z.eq_dec (Z.abs K) (2 ^ p)) as [E|E].
  - replace (IZR K) with (F2R (Float radix2 (Z.sgn K) p)).
    + apply generic_format_F2R. intros HZ. unfold cexp, FLX_exp.
      assert (M : mag radix2 (F2R (Float radix2 (Z.sgn K) p)) = p + 1 :> Z).
      { apply mag_unique. unfold F2R. cbn [Fnum Fexp]. rewrite Rabs_mult, <- abs_IZR. replace (Z.abs (Z.sgn K)) with 1 by lia. rewrite Rmult_1_l.
        rewrite Rabs_pos_eq by apply bpow_ge_0. split; [apply bpow_le; lia|apply bpow_lt; lia]. }
      rewrite M. lia.
    + unfold F2R. cbn [Fnum Fexp]. rewrite bpow_IZR, <- mult_IZR by lia. f_equal. rewrite <- E. lia.
  - apply generic_format_FLX. exists (Float radix2 K 0); [unfold F2R; cbn [Fnum Fexp]; change (bpow radix2 0) with 1%R; ring|].
    cbn [Fnum]. change (Zpower (radix_val radix2) p) with (2 ^ p). lia.
Qed.

Lemma trunc_bound r e : 0 <= e -> (Rabs r < bpow radix2 e)%R -> Z.abs (Ztrunc r) + 1 <= 2 ^ e.
Proof.
  intros He H. assert (Z.abs (Ztrunc r) < 2 ^ e); [|lia]. apply lt_IZR. rewrite <- bpow_IZR by auto. rewrite abs_IZR.
  eapply Rle_lt_trans; [|exact H]. destruct (Rle_or_lt 0 r) as [P|P].
  - rewrite Ztrunc_floor by auto. assert (0 <= IZR (Zfloor r))%R by (apply IZR_le; apply Zfloor_lub; auto). pose proof (Zfloor_lb r).
    rewrite !Rabs_pos_eq by lra. auto.
  - rewrite Ztrunc_ceil by lra. assert (IZR (Zceil r) <= 0)%R by (apply IZR_le; apply Zceil_glb; lra). pose proof (Zceil_ub r).
    rewrite !Rabs_left1 by lra. lra.
Qed.

Lemma nonint_floor r : ~ (exists n, r = IZR n) -> Zceil r = Zfloor r + 1.
Proof. intros H. apply Zceil_floor_neq. intros E. apply H. now exists (Zfloor r). Qed.

(** One unit is added to or taken from the integer part exactly. *)
Lemma unit_step x k : wf x -> n_is_int x = false -> 64 * wlen x < 2 ^ 31 -> k = 1 \/ k = -1 ->
  (0 <= IZR k * value x)%R ->
  let K := Ztrunc (value x) + k in
  rnd_prec (64 * wlen x) RToZero (IZR K) = IZR K /\ 0 < 64 * wlen x /\
  (bpow radix2 (EMIN - 1) <= Rabs (IZR K) < bpow radix2 EMAX)%R /\ K <> 0.
Proof.
  intros W NI HL Hk Hs. cbv zeta. assert (E1 : EMIN = - 2147483648) by reflexivity. assert (E2 : EMAX = 2147483647) by reflexivity.
  change (2 ^ 31) with 2147483648 in HL.
  assert (Nx : nonzero x). { intros Z0. assert (H : n_is_int x = true); [|congruence]. apply is_int_spec; auto. exists 0. now apply value_zero. }
  destruct (nonzero_bits x W Nx) as (M0 & Bx & L0). destruct (norm_bounds x W Nx) as [_ UB].
  pose proof (wf_exp x W) as We.
  assert (EX : exists e, 0 <= e <= 64 * wlen x /\ e < EMAX /\ (Rabs (value x) < bpow radix2 e)%R).
  { destruct (Z.lt_ge_cases 0 (ne x)) as [He|He].
    - destruct (pos_exp_normal x W He) as (_ & _ & _ & B0). exists (ne x).
      assert (ne x < 64 * wlen x). { destruct (Z.lt_ge_cases (ne x) (64 * wlen x)); auto. unfold n_is_int, max_bit_len, mlen in NI. fold (wlen x) in NI.
        replace (0 <? ne x) with true in NI by lia. replace (ne x <? 64 * wlen x) with false in NI by lia. discriminate. }
      split; [lia|]. split; [lia|]. unfold norm_exp in UB. rewrite B0 in UB. replace (ne x - (64 * wlen x - 64 * wlen x)) with (ne x) in UB by lia. exact UB.
    - exists 0. split; [lia|]. split; [lia|]. eapply Rlt_le_trans; [exact UB|]. apply bpow_le. unfold norm_exp. lia. }
  destruct EX as (e & He1 & He2 & He3). pose proof (trunc_bound (value x) e ltac:(lia) He3) as TB.
  assert (Sg : 0 <= k * Ztrunc (value x)).
  { destruct Hk as [-> | ->].
    - assert (0 <= Ztrunc (value x)); [|lia]. rewrite Ztrunc_floor by lra. apply Zfloor_lub. lra.
    - assert (Ztrunc (value x) <= 0); [|lia]. rewrite Ztrunc_ceil by lra. apply Zceil_glb. lra. }
  set (T := Ztrunc (value x)) in *. assert (KB : 1 <= Z.abs (T + k) <= 2 ^ e) by lia.
  assert (2 ^ e <= 2 ^ (64 * wlen x)) by (apply Z.pow_le_mono_r; lia).
  split. { unfold rnd_prec. apply round_generic; [apply rnd_valid|]. apply int_fmt; lia. }
  split; [lia|]. split; [|lia]. rewrite <- abs_IZR. split.
  - apply Rle_trans with 1%R; [|apply IZR_le; lia]. change 1%R with (bpow radix2 0). apply bpow_le. lia.
  - eapply Rle_lt_trans; [apply IZR_le; apply (proj2 KB)|]. rewrite <- bpow_IZR by lia. apply bpow_lt. lia.
Qed.

Lemma prec_up_words L : prec_up (64 * L) = 64 * L.
Proof. unfold prec_up. f_equal. dlia. Qed.

Lemma value_sign_neg x : wf x -> ns x = Neg -> (value x <= 0)%R.
Proof. intros W E. rewrite value_sgn_abs by auto. rewrite E. unfold sgnR, sgnZ. pose proof (Rabs_pos (value x)). lra. Qed.
Lemma value_sign_pos x : wf x -> ns x = Pos -> (0 <= value x)%R.
Proof. intros W E. rewrite value_sgn_abs by auto. rewrite E. unfold sgnR, sgnZ. pose proof (Rabs_pos (value x)). lra. Qed.

Lemma step_flag (q i : bool) (A B : Prop) (T : Prop) (u v : R) : (q = true <-> (A /\ i = true) \/ (B /\ false = true) \/ u <> v) ->
  u = v -> (T -> A) -> (q = true -> i = true) /\ (T -> q = i).
Proof.
  intros F E HT. split.
  - intros Q. apply F in Q as [[_ Q]|[[_ Q]|Q]]; [auto|discriminate|contradiction].
  - intros t. destruct q; [symmetry|]. { destruct F as [F _]. destruct (F eq_refl) as [[_ Q]|[[_ Q]|Q]]; [auto|discriminate|contradiction]. }
    destruct i; auto. destruct F as [_ F]. apply F. left. auto.
Qed.

Theorem floor_spec x : wf x -> 64 * wlen x < 2 ^ 31 -> exists q, n_floor x = Ok q /\
  wf q /\ wlen q = wlen x /\ (ninexact q = true -> ninexact x = true) /\ (Ztrunc (value x) <> 0 -> ninexact q = ninexact x) /\
  value q = IZR (Zfloor (value x)).
Proof.
  intros W HL. unfold n_floor. destruct (int_spec x W) as (I1 & I2 & I3 & I4 & I5). rewrite fract_zero by auto.
  destruct (n_is_int x) eqn:NI.
  { rewrite andb_false_r. eexists. split; [reflexivity|]. apply is_int_spec in NI as (n & E); auto. rewrite I5, I4, E, Ztrunc_IZR, Zfloor_IZR. auto 8. }
  rewrite andb_true_r. unfold is_negative. destruct (ns x) eqn:S; cbn [is_pos negb].
  - pose proof (value_sign_neg x W S) as Vs. destruct (unit_step x (-1) W NI HL ltac:(auto)) as (R1 & R2 & R3 & R4); [lra|].
    unfold mantissa_max_bit_len, max_bit_len, mlen. change (zlen (mm (nm (n_int x)))) with (wlen (n_int x)). rewrite I2.
    pose proof (wf_lim x W) as Lim.
    destruct (sub_top (n_int x) ONE (64 * wlen x) RToZero I1 ONE_wf R2) as (A & _ & _); [rewrite prec_up_words; exact Lim|].
    rewrite prec_up_words in A. unfold rounds_to_normal in A. cbv zeta in A. rewrite I5, ONE_value in A.
    replace (IZR (Ztrunc (value x)) - 1)%R with (IZR (Ztrunc (value x) + -1)) in A by (rewrite plus_IZR; lra).
    rewrite R1 in A. destruct (A R3) as (q & Q1 & Q2 & Q3 & Q4 & Q5). exists q. split; [exact Q1|]. split; [auto|]. split; [lia|].
    apply and_assoc. split.
    + pose proof (sub_flag (n_int x) ONE (64 * wlen x) RToZero q I1 ONE_wf ltac:(right; exact ONE_nonzero) R2 ltac:(rewrite prec_up_words; exact Lim) Q1) as F.
      rewrite Q4, I5, ONE_value in F. rewrite <- I4.
      replace (IZR (Ztrunc (value x)) - 1)%R with (IZR (Ztrunc (value x) + -1)) in F by (rewrite plus_IZR; lra).
      eapply step_flag; [exact F|reflexivity|]. intros T0 Z0. apply T0. apply eq_IZR. rewrite <- I5. now apply value_zero.
    + rewrite Q4. f_equal. rewrite Ztrunc_ceil by lra. rewrite nonint_floor; [lia|]. intros E. apply is_int_spec in E; auto. congruence.
  - eexists. split; [reflexivity|]. rewrite I5, I4. pose proof (value_sign_pos x W S). rewrite Ztrunc_floor by auto. auto 8.
Qed.

Theorem ceil_spec x : wf x -> 64 * wlen x < 2 ^ 31 -> exists q, n_ceil x = Ok q /\
  wf q /\ wlen q = wlen x /\ (ninexact q = true -> ninexact x = true) /\ (Ztrunc (value x) <> 0 -> ninexact q = ninexact x) /\
  value q = IZR (Zceil (value x)).
Proof.
  intros W HL. unfold n_ceil. destruct (int_spec x W) as (I1 & I2 & I3 & I4 & I5). rewrite fract_zero by auto.
  destruct (n_is_int x) eqn:NI.
  { rewrite andb_false_r. eexists. split; [reflexivity|]. apply is_int_spec in NI as (n & E); auto. rewrite I5, I4, E, Ztrunc_IZR, Zceil_IZR. auto 8. }
  rewrite andb_true_r. unfold is_positive. destruct (ns x) eqn:S; cbn [is_pos negb].
  - eexists. split; [reflexivity|]. rewrite I5, I4. pose proof (value_sign_neg x W S). rewrite Ztrunc_ceil by auto. auto 8.
  - pose proof (value_sign_pos x W S) as Vs. destruct (unit_step x 1 W NI HL ltac:(auto)) as (R1 & R2 & R3 & R4); [lra|].
    unfold mantissa_max_bit_len, max_bit_len, mlen. change (zlen (mm (nm (n_int x)))) with (wlen (n_int x)). rewrite I2.
    pose proof (wf_lim x W) as Lim.
    destruct (add_top (n_int x) ONE (64 * wlen x) RToZero I1 ONE_wf R2) as (A & _); [rewrite prec_up_words; exact Lim|].
    rewrite prec_up_words in A. unfold rounds_to_normal in A. cbv zeta in A. rewrite I5, ONE_value in A.
    replace (IZR (Ztrunc (value x)) + 1)%R with (IZR (Ztrunc (value x) + 1)) in A by (rewrite plus_IZR; lra).
    rewrite R1 in A. destruct (A R3) as (q & Q1 & Q2 & Q3 & Q4 & Q5). exists q. split; [exact Q1|]. split; [auto|]. split; [lia|].
    apply and_assoc. split.
    + pose proof (add_flag (n_int x) ONE (64 * wlen x) RToZero q I1 ONE_wf ltac:(right; exact ONE_nonzero) R2 ltac:(rewrite prec_up_words; exact Lim) Q1) as F.
      rewrite Q4, I5, ONE_value in F. rewrite <- I4.
      replace (IZR (Ztrunc (value x)) + 1)%R with (IZR (Ztrunc (value x) + 1)) in F by (rewrite plus_IZR; lra).
      eapply step_flag; [exact F|reflexivity|]. intros T0 Z0. apply T0. apply eq_IZR. rewrite <- I5. now apply value_zero.
    + rewrite Q4. f_equal. rewrite Ztrunc_floor by lra. rewrite nonint_floor; [lia|]. intros E. apply is_int_spec in E; auto. congruence.
Qed.

(** ** round *)

(** Nearest multiple of 2^-n in the direction [rm]. *)
Lemma rnd_frac_scaled n rm s X k : 0 <= X -> k <= - n ->
  rnd_frac n rm (F2R (Float radix2 (sgnZ s * X) k)) = F2R (Float radix2 (sgnZ s * rndN rm (is_pos s) X (- n - k)) (- n)).
Proof. intros HX Hk. unfold rnd_frac. apply (round_at (FIX_exp (- n)) rm s X k HX). exact Hk. Qed.

Lemma rnd_frac_id n rm s X k : - n <= k -> rnd_frac n rm (F2R (Float radix2 (sgnZ s * X) k)) = F2R (Float radix2 (sgnZ s * X) k).
Proof.
  intros Hk. unfold rnd_frac. apply round_generic; [apply rnd_valid|]. apply generic_format_F2R. intros _. unfold cexp, FIX_exp. exact Hk.
Qed.

Lemma skip_first_full m : words_ok m -> 0 < zlen m -> 2 ^ (64 * zlen m - 1) <= val m ->
  (count_leading_zeroes_skip_first m =? 64 * zlen m) = (val m =? 2 ^ (64 * zlen m - 1)).
Proof.
  intros Hok Hl Ht. unfold count_leading_zeroes_skip_first.
  destruct (rev m) as [|v rest] eqn:E. { apply (f_equal (@rev Z)) in E. rewrite rev_involutive in E. subst m. change (zlen (rev [])) with 0 in Hl. lia. }
  assert (Em : m = rev rest ++ [v]). { apply (f_equal (@rev Z)) in E. rewrite rev_involutive in E. exact E. }
  assert (Okr : words_ok (rev rest) /\ 0 <= v < 2 ^ 64). { rewrite Em in Hok. apply ok_app in Hok as [A B]. apply ok_cons in B as [B _]. auto. }
  destruct Okr as [Or Hv]. assert (Ok' : words_ok rest) by (rewrite <- (rev_involutive rest); now apply ok_rev).
  assert (Lm : zlen m = 1 + zlen rest) by (rewrite Em, zlen_app, zlen_single, zlen_rev; lia).
  assert (Vm : val m = val (rev rest) + 2 ^ (64 * zlen rest) * v) by (rewrite Em, val_app, val_single, zlen_rev; ring).
  pose proof (val_bound _ Or) as Vr. rewrite zlen_rev in Vr. pose proof (zlen_nonneg rest) as Zr.
  assert (P : 2 ^ (64 * zlen m - 1) = 2 ^ (64 * zlen rest) * 2 ^ 63) by (rewrite <- Z.pow_add_r by lia; f_equal; lia).
  rewrite P, Vm in *. set (Q := 2 ^ (64 * zlen rest)) in *. assert (Q0 : 0 < Q) by (apply pow2_gt0; lia).
  change (2 ^ 64) with (2 * 2 ^ 63) in Hv. assert (G63 : 0 < 2 ^ 63) by reflexivity.
  assert (Hv1 : 2 ^ 63 <= v) by nia.
  assert (Lw : Z.land v (wshr WORD_MAX 1) = v - 2 ^ 63).
  { change (wshr WORD_MAX 1) with (Z.ones 63). rewrite Z.land_ones by lia. symmetry. apply Z.mod_unique with (q := 1); [left; lia|lia]. }
  rewrite Lw. destruct (Z.eqb_spec (v - 2 ^ 63) 0) as [Z0|Z0].
  - rewrite lead_zeros_spec by auto. assert (v = 2 ^ 63) by lia. subst v. destruct (Z.eqb_spec (val (rev rest)) 0) as [R0|R0].
    + rewrite R0. rewrite Lm. replace (0 + Q * 2 ^ 63 =? Q * 2 ^ 63) with true by lia. lia.
    + replace (val (rev rest) + Q * 2 ^ 63 =? Q * 2 ^ 63) with false by lia. pose proof (Z.log2_nonneg (val (rev rest))). lia.
  - assert (F : val (rev rest) + Q * v =? Q * 2 ^ 63 = false) by nia. rewrite F.
    assert (C : clz (v - 2 ^ 63) < 64). { rewrite clz_spec by (change (2 ^ 64) with (2 * 2 ^ 63); lia). pose proof (Z.log2_nonneg (v - 2 ^ 63)). lia. }
    lia.
Qed.

Lemma top_sig_words L : 0 < L -> let w := zupd (L - 1) WORD_SIG (zeros L) in
  words_ok w /\ zlen w = L /\ val w = 2 ^ (64 * L - 1).
Proof.
  intros HL. cbv zeta. assert (E : zupd (L - 1) WORD_SIG (zeros L) = zeros (L - 1) ++ [WORD_SIG]).
  { replace (zeros L) with (zeros (L - 1) ++ [0]).
    - rewrite zupd_split; [reflexivity|]. apply zlen_zeros. lia.
    - unfold zeros. replace (Z.to_nat L) with (Z.to_nat (L - 1) + 1)%nat by lia. rewrite repeat_app. reflexivity. }
  rewrite E. split; [apply ok_app; split; [apply ok_zeros|apply ok_cons; split; [rewrite wsig_val; split; [lia|reflexivity]|constructor]]|].
  split; [rewrite zlen_app, zlen_zeros, zlen_single by lia; lia|now apply val_top_sig].
Qed.

(** The digit dropped entirely: all bits of the magnitude are below the last kept position. *)
Lemma rup_small rm pos M L m : rm <> RNone -> 0 < M < 2 ^ (64 * L) -> 0 < L -> 64 * L <= m ->
  rup rm pos M m = rounds_away rm pos || ((m =? 64 * L) &&
    (((2 ^ (64 * L - 1) <=? M) && rmode_eqb rm RToOdd) || (rmode_eqb rm RToEven && (2 ^ (64 * L - 1) <=? M) && negb (M =? 2 ^ (64 * L - 1))))).
Proof.
  intros Hrm HM HL Hm. unfold rup. assert (2 ^ (64 * L) <= 2 ^ m) by (apply Z.pow_le_mono_r; lia).
  rewrite Z.div_small, Z.mod_small by lia. change (Z.odd 0) with false. change (Z.even 0) with true. rewrite andb_false_r, andb_true_r.
  replace (M =? 0) with false by lia. cbn [negb]. rewrite !andb_true_r, orb_false_r.
  assert (HP : 2 ^ (64 * L) = 2 * 2 ^ (64 * L - 1)) by (rewrite <- (Z.pow_succ_r 2) by lia; f_equal; lia).
  destruct (Z.eqb_spec m (64 * L)) as [E|E].
  - rewrite E in *. set (H0 := 2 ^ (64 * L - 1)) in *. rewrite HP.
    destruct rm, pos; try congruence; cbn [rounds_away orb andb negb rmode_eqb]; rewrite ?andb_false_r, ?andb_true_r, ?orb_false_r; auto; cbn [orb andb]; lia.
  - assert (HQ : 2 * 2 ^ (64 * L) <= 2 ^ m). { rewrite <- (Z.pow_succ_r 2) by lia. apply Z.pow_le_mono_r; lia. }
    destruct rm, pos; try congruence; cbn [rounds_away orb andb negb rmode_eqb]; auto; lia.
Qed.

Lemma value_lt_max x : wf x -> (Rabs (value x) < bpow radix2 EMAX)%R.
Proof.
  intros W. destruct (Z.eq_dec (magnitude x) 0) as [Z0|N]. { rewrite (value_zero x Z0), Rabs_R0. apply bpow_gt_0. }
  destruct (norm_bounds x W N) as [_ B]. eapply Rlt_le_trans; [exact B|]. apply bpow_le. apply (norm_exp_range x W N).
Qed.

Theorem round_spec x n rm : wf x -> 0 <= n < 4611686018427387903 -> rm <> RNone ->
  nearest rm = false \/ mn (nm x) = 64 * wlen x \/ n <> 2 ^ 31 ->
  round_post x n rm (n_round x n rm).
Proof.
  intros W Hn Hrm Hc. unfold n_round. replace (4611686018427387903 <=? n) with false by lia.
  unfold mantissa_max_bit_len, max_bit_len, mlen. fold (wlen x). pose proof (wf_words x W) as Okw. pose proof (wf_exp x W) as We. pose proof (wf_lim x W) as Wl.
  assert (E1 : EMIN = - 2147483648) by reflexivity. assert (E2 : EMAX = 2147483647) by reflexivity. change (2 ^ 31) with 2147483648 in Hc.
  assert (Id : rnd_frac n rm (value x) = value x -> round_post x n rm (Ok x)).
  { intros E. unfold round_post. cbv zeta. rewrite E. pose proof (value_lt_max x W). split; [intros; lra|]. intros _. exists x.
    split; [auto|]. split; [auto|]. split; [auto|]. split; [auto|]. split; [auto|]. tauto. }
  rewrite is_zero_spec by auto.
  destruct (Z.eqb_spec (magnitude x) 0) as [Z0|Nx]; cbn [negb].
  { rewrite andb_false_r. apply Id. rewrite value_zero by auto. unfold rnd_frac. apply round_0. apply rnd_valid. }
  rewrite andb_true_r. destruct (nonzero_bits x W Nx) as (M0 & Bx & L0).
  set (e := 64 * wlen x - ne x). destruct (Z.ltb_spec n e) as [He|He].
  2:{ rewrite andb_false_r. apply Id. apply rnd_frac_id. unfold e in He. lia. }
  rewrite andb_true_r. replace (0 <? e) with true by lia.
  set (m := e - n). set (L := wlen x) in *. set (M := magnitude x) in *.
  pose proof (val_bound _ Okw) as Vb. fold (wlen x) (magnitude x) in Vb. fold L M in Vb.
  assert (Hz : rnd_frac n rm (value x) = F2R (Float radix2 (sgnZ (ns x) * rndN rm (is_pos (ns x)) M m) (- n))).
  { unfold value. fold L M. rewrite rnd_frac_scaled by (unfold e in *; lia). do 4 f_equal. unfold m, e. lia. }
  assert (Bm : mn (nm x) = bitlen M) by apply (wf_bits x W).
  destruct (bitlen_spec M M0) as [B1 B2].
  destruct (Z.leb_spec (64 * L) m) as [Hm|Hm].
  - (* nothing is kept *)
    assert (Hz2 : rndN rm (is_pos (ns x)) M m = Z.b2z (rup rm (is_pos (ns x)) M m)).
    { unfold rndN. rewrite Z.div_small; [lia|]. assert (2 ^ (64 * L) <= 2 ^ m) by (apply Z.pow_le_mono_r; lia). lia. }
    rewrite Hz2 in Hz.
    assert (Cond : (rounds_away rm (is_positive x)
           || (m =? 64 * L) &&
              (negb (Z.land (m_most_significant_word (nm x)) WORD_SIG =? 0) && rmode_eqb rm RToOdd
               || rmode_eqb rm RToEven && negb (Z.land (m_most_significant_word (nm x)) WORD_SIG =? 0) &&
                  negb (count_leading_zeroes_skip_first (mm (nm x)) =? 64 * L))) = rup rm (is_pos (ns x)) M m).
    { rewrite (rup_small rm (is_pos (ns x)) M L m Hrm ltac:(lia) ltac:(lia) Hm). unfold is_positive. f_equal.
      destruct (nearest rm) eqn:Nr; [|destruct rm; try discriminate; cbn [rmode_eqb]; rewrite !andb_false_r; reflexivity].
      destruct (Z.eqb_spec m (64 * L)) as [Em|Em]; [|reflexivity]. cbn [andb].
      assert (Norm : mn (nm x) = 64 * L).
      { destruct Hc as [Hc|[Hc|Hc]]; [discriminate|exact Hc|]. destruct (Z.eq_dec (mn (nm x)) (64 * L)); auto. exfalso.
        assert (ne x = EMIN) by (apply (wf_sub x W); fold L; lia). unfold m, e in Em. lia. }
      rewrite <- Bm, Norm in B1. assert (S : negb (Z.land (m_most_significant_word (nm x)) WORD_SIG =? 0) = true).
      { unfold m_most_significant_word. replace (0 <? mn (nm x)) with true by lia. rewrite Norm.
        replace ((64 * L - 1) / 64) with (L - 1) by (clear; Z.div_mod_to_equations; lia).
        destruct (zsplit (L - 1) (mm (nm x))) as (lo & v & hi & E & Elo). { fold (wlen x). fold L. lia. }
        rewrite E. rewrite znth_split by auto.
        assert (hi = []). { assert (zlen (mm (nm x)) = L) by reflexivity. rewrite E, zlen_app, zlen_cons in H. pose proof (zlen_nonneg hi). destruct hi; auto. rewrite zlen_cons in H. pose proof (zlen_nonneg hi). lia. }
        subst hi. assert (HM : M = val lo + 2 ^ (64 * (L - 1)) * v). { unfold M, magnitude. rewrite E, val_app, val_single, Elo. ring. }
        rewrite E in Okw. apply ok_app in Okw as [O1 O2]. apply ok_cons in O2 as [O2 _]. rewrite land_sig_ge by auto.
        pose proof (val_bound _ O1) as Vl. rewrite Elo in Vl.
        assert (P : 2 ^ (64 * L - 1) = 2 ^ (64 * (L - 1)) * 2 ^ 63) by (rewrite <- Z.pow_add_r by lia; f_equal; lia).
        rewrite P, HM in B1. apply Z.leb_le. pose proof (pow2_gt0 (64 * (L - 1)) ltac:(lia)). nia. }
      rewrite S. replace (2 ^ (64 * L - 1) <=? M) with true by lia. cbn [andb]. do 2 f_equal. f_equal.
      exact (skip_first_full (mm (nm x)) Okw L0 B1). }
    rewrite Cond. set (up := rup rm (is_pos (ns x)) M m) in *. clear Cond.
    assert (nEx : n <= - ne x) by (unfold m, e in Hm; lia).
    assert (Xlt : (Rabs (value x) < bpow radix2 (- n))%R).
    { destruct (norm_bounds x W Nx) as [_ B]. eapply Rlt_le_trans; [exact B|]. apply bpow_le. unfold norm_exp. fold L. lia. }
    assert (Xpos : (0 < Rabs (value x))%R) by (apply Rabs_pos_lt; intros H; apply Nx; now apply value_zero_iff).
    destruct up eqn:Up; cbn [Z.b2z] in Hz.
    + assert (Az : Rabs (rnd_frac n rm (value x)) = bpow radix2 (- n)).
      { rewrite Hz, F2R_sgn, Rmult_assoc. rewrite sgnR_abs; [ring|]. pose proof (bpow_ge_0 radix2 (- n)). lra. }
      destruct (top_sig_words L L0) as (T1 & T2 & T3).
      replace (- (n - 1) <? EXPONENT_MIN) with false by lia.
      unfold round_post. cbv zeta. rewrite Az. split.
      { intros H. exfalso. assert (bpow radix2 (- n) < bpow radix2 EMAX)%R by (apply bpow_lt; lia). lra. }
      intros _. eexists. split; [reflexivity|]. assert (BL : bitlen (2 ^ (64 * L - 1)) = 64 * L).
      { apply bitlen_unique; [lia|]. split; [lia|]. apply Z.pow_lt_mono_r; lia. }
      split. { constructor; unfold magnitude, wlen; cbn [nm mm mn ne]; rewrite ?T2, ?T3; auto; try lia; intros H; pose proof (pow2_gt0 (64 * L - 1) ltac:(lia)); lia. }
      unfold wlen at 1. cbn [nm mm ns ninexact]. split; [auto|]. split; [auto|]. split.
      * unfold value at 1. unfold magnitude, wlen. cbn [nm mm ns ne]. rewrite T2, T3, Hz. rewrite <- (Z.mul_1_l (2 ^ (64 * L - 1))), F2R_shift by lia. do 2 f_equal. lia.
      * split; [|auto]. intros _. right. intros H. rewrite H in Az. lra.
    + assert (z0 : rnd_frac n rm (value x) = 0%R) by (rewrite Hz, Z.mul_0_r; apply F2R_0).
      unfold round_post. cbv zeta. rewrite z0, Rabs_R0. split. { intros H. pose proof (bpow_gt_0 radix2 EMAX). lra. }
      intros _. eexists. split; [reflexivity|]. destruct (set_zero_wf x W) as (A & B & C).
      split. { constructor; try apply A. } split; [exact B|]. split; [auto|]. split; [now apply value_zero|]. cbn [ninexact]. split; [|auto]. intros _. right. intros H. rewrite <- H, Rabs_R0 in Xpos. lra.
  - (* some bits are kept *)
    assert (Hm0 : 0 < m) by (unfold m; lia).
    destruct (round_mantissa_spec (mm (nm x)) m rm (is_positive x) (64 * L) (ninexact x) Okw ltac:(fold (wlen x); fold L; lia) Hrm) as (RR & _ & RI).
    set (o := round_mantissa _ _ _ _ _ _ _) in *. unfold rres_inexact in RI. fold (magnitude x) in *. fold M in RI. unfold is_positive in RR. fold (is_pos (ns x)) in *.
    destruct RR as (O1 & O2 & O3). fold (wlen x) in *. fold L in O2, O3. fold M in O3.
    set (q := rndN rm (is_pos (ns x)) M m) in *. pose proof (pow2_gt0 m ltac:(lia)) as Gm.
    assert (Ix : ninexact x || ro_inexact o = true <-> ninexact x = true \/ rnd_frac n rm (value x) <> value x).
    { rewrite RI. assert (K : rnd_frac n rm (value x) = value x <-> M mod 2 ^ m = 0).
      { rewrite Hz. unfold value. fold L M. replace (- n) with (ne x - 64 * L + m) by (unfold m, e; lia). rewrite <- F2R_shift by lia.
        rewrite F2R_inj_num. rewrite <- (rndN_exact rm (is_pos (ns x)) M m) by lia. fold q. split; [intros H; now apply sgnZ_inj in H|now intros ->]. }
      destruct (ninexact x); cbn [orb]; [tauto|]. destruct (Z.eqb_spec (M mod 2 ^ m) 0); cbn [negb]; intuition discriminate. }
    assert (Az : forall j, 0 < q -> (Rabs (rnd_frac n rm (value x)) < bpow radix2 j)%R <-> bitlen q - n <= j).
    { intros j Hq. rewrite Hz. rewrite (F2_lt (ns x) q (- n) j (bitlen q) Hq eq_refl). lia. }
    destruct O3 as [(Eo & Ev & Elt)|(Eo & Ev & Elt)]; rewrite Eo.
    + (* no carry *)
      assert (q0 : 0 <= q) by (pose proof (val_nonneg _ O1); rewrite Ev in H; nia).
      assert (Vq : forall mn', value (mk_num (mk_m (ro_m o) mn') (ns x) (ne x) (ninexact x || ro_inexact o)) = rnd_frac n rm (value x)).
      { intros mn'. unfold value at 1, magnitude, wlen. cbn [nm mm ns ne]. rewrite O2, Ev, Hz, F2R_shift by lia. do 2 f_equal. unfold m, e. lia. }
      assert (Lt : (Rabs (rnd_frac n rm (value x)) < bpow radix2 EMAX)%R).
      { rewrite <- (Vq 0), value_split. cbn [ns ne]. unfold magnitude, wlen. cbn [nm mm]. rewrite O2, Ev.
        rewrite sgnR_abs by (apply Rmult_le_pos; [apply IZR_le; nia|apply bpow_ge_0]).
        apply Rlt_le_trans with (IZR (2 ^ (64 * L)) * bpow radix2 (ne x - 64 * L))%R.
        - apply Rmult_lt_compat_r; [apply bpow_gt_0|]. apply IZR_lt. exact Elt.
        - rewrite <- bpow_IZR, <- bpow_plus by lia. apply bpow_le. lia. }
      unfold round_post. cbv zeta. split; [intros; lra|]. intros _. unfold m_is_all_zero. cbn [mm]. rewrite all_zero_spec by auto.
      destruct (Z.eqb_spec (val (ro_m o)) 0) as [V0|V0].
      * eexists. split; [reflexivity|].
        split. { constructor; unfold magnitude, wlen; cbn [nm mm mn ne]; rewrite ?O2, ?V0; auto; lia. }
        unfold wlen at 1. cbn [nm mm ns ninexact]. split; [auto|]. split; [auto|]. split; [|auto].
        rewrite <- (Vq 0). rewrite !value_zero; auto.
      * set (mant := mk_m (ro_m o) (mn (nm x))).
        assert (Hq : 0 < q) by (rewrite Ev in V0; nia).
        assert (Nb : find_bit_len (ro_m o) = bitlen (val (ro_m o))) by now apply find_bit_len_spec.
        assert (Ble : bitlen (val (ro_m o)) <= 64 * L) by (apply bitlen_le; [lia|rewrite Ev; nia]).
        unfold m_is_subnormal, max_bit_len, mlen. unfold mant at 1 2. cbn [mm mn]. rewrite O2.
        destruct (Z.ltb_spec (mn (nm x)) (64 * L)) as [Hs|Hs].
        -- eexists. split; [reflexivity|]. unfold m_update_bit_len, mant. cbn [mm mn].
           split. { constructor; unfold magnitude, wlen; cbn [nm mm mn ne]; rewrite ?O2; auto; try lia. intros _. apply (wf_sub x W). fold L. lia. }
           unfold wlen at 1. cbn [nm mm ns ninexact]. split; [auto|]. split; [auto|]. split; [apply Vq|auto].
        -- eexists. split; [reflexivity|]. unfold mant. assert (Nm : mn (nm x) = 64 * L) by lia.
           assert (Hb : bitlen (val (ro_m o)) = 64 * L).
           { apply bitlen_unique; [lia|]. rewrite Ev. split; [|lia]. rewrite <- Bm, Nm in B1.
             assert (P : 2 ^ (64 * L - 1) = 2 ^ (64 * L - 1 - m) * 2 ^ m) by (rewrite <- Z.pow_add_r by lia; f_equal; lia).
             rewrite P in *. apply Z.mul_le_mono_pos_r; auto. unfold q, rndN. assert (2 ^ (64 * L - 1 - m) <= M / 2 ^ m) by (apply Z.div_le_lower_bound; lia).
             destruct (rup _ _ _ _); cbn [Z.b2z]; lia. }
           split. { constructor; unfold magnitude, wlen; cbn [nm mm mn ne]; rewrite ?O2; auto; try lia. }
           unfold wlen at 1. cbn [nm mm ns ninexact]. split; [auto|]. split; [auto|]. split; [apply Vq|auto].
    + (* carry into the exponent *)
      assert (Pq : q * 2 ^ m = 2 ^ (64 * L - m) * 2 ^ m) by (rewrite Elt, <- Z.pow_add_r by lia; f_equal; lia).
      apply Z.mul_reg_r in Pq; [|lia]. assert (Bq : bitlen q = 64 * L - m + 1).
      { apply bitlen_unique; [lia|]. rewrite Pq. split; [apply Z.pow_le_mono_r; lia|apply Z.pow_lt_mono_r; lia]. }
      assert (Hq : 0 < q) by (rewrite Pq; apply pow2_gt0; lia).
      unfold round_post. cbv zeta.
      destruct (Z.eqb_spec (ne x) EXPONENT_MAX) as [Em|Em].
      * split; [auto|]. intros H. exfalso. apply (Az EMAX Hq) in H. unfold m, e in *. lia.
      * split. { intros H. exfalso. assert (Rabs (rnd_frac n rm (value x)) < bpow radix2 EMAX)%R; [|lra]. apply Az; auto. unfold m, e in *. lia. }
        intros _. eexists. split; [reflexivity|].
        assert (BL : bitlen (2 ^ (64 * L - 1)) = 64 * L).
        { apply bitlen_unique; [lia|]. split; [lia|]. apply Z.pow_lt_mono_r; lia. }
        assert (Nm : mn (nm x) = 64 * L).
        { destruct (Z.eq_dec (mn (nm x)) (64 * L)); auto. exfalso. rewrite <- Bm in B2.
          assert (M < 2 ^ (64 * L - 1)) by (eapply Z.lt_le_trans; [exact B2|]; apply Z.pow_le_mono_r; lia).
          assert (q <= M / 2 ^ m + 1) by (unfold q, rndN; destruct (rup _ _ _ _); cbn [Z.b2z]; lia).
          assert (P : 2 ^ (64 * L - 1) = 2 ^ (64 * L - 1 - m) * 2 ^ m) by (rewrite <- Z.pow_add_r by lia; f_equal; lia).
          assert (M / 2 ^ m < 2 ^ (64 * L - 1 - m)) by (apply Z.div_lt_upper_bound; lia).
          assert (2 ^ (64 * L - m) = 2 * 2 ^ (64 * L - 1 - m)) by (rewrite <- (Z.pow_succ_r 2) by lia; f_equal; lia).
          assert (1 <= 2 ^ (64 * L - 1 - m)) by (pose proof (pow2_gt0 (64 * L - 1 - m) ltac:(lia)); lia).
          assert (m = 64 * L - 1) by (destruct (Z.eq_dec m (64 * L - 1)); auto; assert (2 <= 2 ^ (64 * L - 1 - m)) by (change 2 with (2 ^ 1) at 1; apply Z.pow_le_mono_r; lia); lia).
          lia. }
        split. { constructor; unfold magnitude, wlen; cbn [nm mm mn ne]; rewrite ?O2, ?Ev; auto; try lia; intros H; pose proof (pow2_gt0 (64 * L - 1) ltac:(lia)); lia. }
        unfold wlen at 1. cbn [nm mm ns ninexact]. split; [auto|]. split; [auto|]. split; [|auto].
        unfold value at 1, magnitude, wlen. cbn [nm mm ns ne]. rewrite O2, Ev, Hz, Pq.
        rewrite <- (Z.mul_1_l (2 ^ (64 * L - 1))), <- (Z.mul_1_l (2 ^ (64 * L - m))), !F2R_shift by lia. do 2 f_equal. unfold m, e. lia.
Qed.
