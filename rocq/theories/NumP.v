(** The common end of the arithmetic operations: fitting the mantissa to the
    target precision, exponent checks, gradual underflow. *)

From Coq Require Import ZArith Reals List Bool Lia Lra.
From Flocq Require Import Core.
From Verif Require Import Words IntModel Mantissa Num SpecZ WordsP WordsP2 RoundP Spec RealP RealP2.
Import ListNotations.
Open Scope Z_scope.
Ltac Zify.zify_post_hook ::= Z.div_mod_to_equations.
Arguments Z.mul : simpl never.
Arguments Z.add : simpl never.
Arguments Z.pow : simpl never.
Arguments Z.sub : simpl never.
Arguments Z.of_nat : simpl never.

Notation F2 s M e := (F2R (Float radix2 (sgnZ s * M) e)).

(** top bit set *)
Definition top_set (m : words) : Prop := 2 ^ (64 * zlen m - 1) <= val m.

Lemma top_set_bitlen m : words_ok m -> 0 < zlen m -> top_set m -> bitlen (val m) = 64 * zlen m.
Proof. intros Hok Hl Ht. apply bitlen_unique; [lia|]. split; [exact Ht|]. now apply val_bound. Qed.

Lemma top_set_pos m : 0 < zlen m -> top_set m -> 0 < val m.
Proof. unfold top_set. intros. pose proof (pow2_gt0 (64 * zlen m - 1) ltac:(lia)). lia. Qed.

Lemma round_mantissa_none m n pos chk s ix : words_ok m -> 0 < n < 64 * zlen m ->
  let o := round_mantissa m n RNone pos chk s ix in
  ro_m o = m /\ ro_ovf o = false /\ ro_chk o = false /\ ro_inexact o = rres_inexact m n ix.
Proof.
  intros Hok Hn. unfold round_mantissa, rres_inexact. cbv zeta. cbn [ro_m ro_ovf ro_chk ro_inexact].
  repeat (split; [reflexivity|]). replace (0 <? n) with true by lia. replace (n <? 64 * zlen m) with true by lia.
  rewrite !andb_true_r. rewrite find_one_from_spec by (auto; lia). cbv zeta.
  replace (64 * zlen m <=? 64 * zlen m - n) with false by lia. cbn [orb].
  replace (64 * zlen m - (64 * zlen m - n)) with n by lia.
  destruct ix; cbn [negb orb]; auto. destruct (_ =? 0); auto.
Qed.

Lemma round_to_words_spec m p rm s ix k : words_ok m -> top_set m -> 0 < p <= zlen m ->
  let '(m3, ovf, ix') := round_to_words m p rm (is_pos s) ix in
  let r := F2 s (val m) (k - 64 * zlen m) in
  words_ok m3 /\ zlen m3 = p /\ top_set m3 /\
  F2 s (val m3) (k + Z.b2z ovf - 64 * p) = rnd_prec (64 * p) rm r /\
  (ix' = true <-> ix = true \/ rnd_prec (64 * p) rm r <> r).
Proof.
  intros Hok Htop Hp. unfold round_to_words. set (L := zlen m) in *.
  pose proof (top_set_bitlen m Hok ltac:(lia) Htop) as Hbl. fold L in Hbl.
  pose proof (top_set_pos m ltac:(lia) Htop) as HV.
  set (d := (L - p) * 64). assert (Hd : d = 64 * L - 64 * p) by (unfold d; lia).
  pose proof (pow2_gt0 d ltac:(lia)) as Hpd.
  assert (Hprec : rnd_prec (64 * p) rm (F2 s (val m) (k - 64 * L)) = F2 s (rndN rm (is_pos s) (val m) d) (k - 64 * p)).
  { rewrite round_prec_down by lia. rewrite Hbl. rewrite <- Hd. do 2 f_equal. lia. }
  assert (Hneq : rnd_prec (64 * p) rm (F2 s (val m) (k - 64 * L)) <> F2 s (val m) (k - 64 * L) <-> val m mod 2 ^ d <> 0).
  { rewrite Hprec. replace (k - 64 * p) with (k - 64 * L + d) by lia. rewrite <- F2R_shift by lia. rewrite F2R_inj_num.
    rewrite <- (rndN_exact rm (is_pos s) (val m) d) by lia. split; intros A B; apply A; [now rewrite B|now apply sgnZ_inj in B]. }
  assert (Hfl : val m / 2 ^ d * 2 ^ d < 2 ^ (64 * L)).
  { pose proof (val_bound m Hok). fold L in H. pose proof (Z.mul_div_le (val m) (2 ^ d) Hpd). lia. }
  assert (E64 : 2 ^ (64 * L - 1) = 2 ^ (64 * p - 1) * 2 ^ d) by (rewrite <- Z.pow_add_r by lia; f_equal; lia).
  assert (E64' : 2 ^ (64 * L) = 2 ^ (64 * p) * 2 ^ d) by (rewrite <- Z.pow_add_r by lia; f_equal; lia).
  destruct (Z.eq_dec p L) as [HpL|HpL].
  - assert (d = 0) as -> by lia. subst p.
    assert (Ho : exists c, round_mantissa m 0 rm (is_pos s) false (64 * L) ix = mk_ro m false c ix).
    { unfold round_mantissa. cbn [Z.ltb andb]. rewrite andb_false_r. destruct rm; cbn [andb Z.ltb Z.compare]; eauto. }
    destruct Ho as (c & ->). cbn [ro_m ro_ovf ro_inexact]. cbv zeta.
    destruct (trunc_to_words m L Hok ltac:(lia)) as (Tv & To & Tl).
    replace (64 * (zlen m - L)) with 0 in Tv by lia. change (2 ^ 0) with 1 in *. rewrite Z.div_1_r in Tv.
    split; [auto|]. split; [auto|]. split; [unfold top_set; rewrite Tl, Tv; exact Htop|].
    cbn [Z.b2z]. rewrite Z.add_0_r, Tv. rewrite Z.mod_1_r in Hneq. split.
    + rewrite Hprec. unfold rndN. change (2 ^ 0) with 1. rewrite Z.div_1_r.
      assert (rup rm (is_pos s) (val m) 0 = false) as ->.
      { unfold rup. change (2 ^ 0) with 1. rewrite Z.mod_1_r. destruct rm, (is_pos s); reflexivity. }
      cbn [Z.b2z]. now rewrite Z.add_0_r.
    + tauto.
  - destruct (rmode_eqb rm RNone) eqn:Erm.
    + assert (rm = RNone) as -> by (destruct rm; try discriminate; auto).
      destruct (round_mantissa_none m d (is_pos s) false (64 * L) ix Hok ltac:(lia)) as (R1 & R2 & R3 & R4).
      rewrite R1, R2, R4. destruct (trunc_to_words m p Hok ltac:(lia)) as (Tv & To & Tl).
      replace (64 * (zlen m - p)) with d in Tv by (fold L; lia). cbv zeta.
      split; [auto|]. split; [auto|]. split.
      { unfold top_set. rewrite Tl, Tv. apply Z.div_le_lower_bound; [lia|]. unfold top_set in Htop. fold L in Htop. nia. }
      cbn [Z.b2z]. rewrite Z.add_0_r, Tv, Hprec. unfold rndN, rup. cbn [Z.b2z]. rewrite Z.add_0_r. split; [auto|].
      rewrite Hprec in Hneq. unfold rndN, rup in Hneq. cbn [Z.b2z] in Hneq. rewrite Z.add_0_r in Hneq.
      rewrite Hneq. unfold rres_inexact. destruct ix, (Z.eqb_spec (val m mod 2 ^ d) 0); cbn; intuition congruence.
    + destruct (round_mantissa_spec m d rm (is_pos s) (64 * L) ix Hok ltac:(lia)) as (R1 & R2 & R3).
      { destruct rm; try discriminate; congruence. }
      rewrite R3. destruct R1 as (Ro & Rl & Rv). set (o := round_mantissa m d rm (is_pos s) false (64 * L) ix) in *.
      destruct (trunc_to_words (ro_m o) p Ro ltac:(lia)) as (Tv & To & Tl).
      replace (64 * (zlen (ro_m o) - p)) with d in Tv by (rewrite Rl; fold L; lia). cbv zeta.
      split; [auto|]. split; [auto|].
      assert (Hinx : rres_inexact m d ix = true <-> ix = true \/ rnd_prec (64 * p) rm (F2 s (val m) (k - 64 * L)) <> F2 s (val m) (k - 64 * L)).
      { rewrite Hneq. unfold rres_inexact. destruct ix, (Z.eqb_spec (val m mod 2 ^ d) 0); cbn; intuition congruence. }
      fold L in Rv. pose proof (rndN_bounds rm (is_pos s) (val m) d ltac:(lia) ltac:(lia)) as Hbd.
      assert (Hge : 2 ^ (64 * p - 1) <= val m / 2 ^ d).
      { apply Z.div_le_lower_bound; [lia|]. unfold top_set in Htop. fold L in Htop. nia. }
      destruct Rv as [(Ov & Rv & Rlt)|(Ov & Rv & Req)]; rewrite Ov, Rv in *.
      * rewrite Z_div_mult in Tv by lia. split; [unfold top_set; rewrite Tl, Tv; lia|].
        split; auto. cbn [Z.b2z]. rewrite Z.add_0_r, Tv. auto.
      * rewrite E64, Z_div_mult in Tv by lia. split; [unfold top_set; rewrite Tl, Tv; lia|].
        split; auto. cbn [Z.b2z]. rewrite Tv, Hprec. rewrite E64' in Req. apply Z.mul_cancel_r in Req; [|lia]. rewrite Req.
        replace (2 ^ (64 * p)) with (2 ^ (64 * p - 1) * 2 ^ 1) by (rewrite <- Z.pow_add_r by lia; f_equal; lia).
        rewrite F2R_shift by lia. do 2 f_equal. lia.
Qed.

Lemma fit_words_spec m p rm s ix k : words_ok m -> 0 < zlen m -> top_set m -> 0 < p ->
  let '(m3, ovf, ix') := fit_words m p rm (is_pos s) false ix in
  let r := F2 s (val m) (k - 64 * zlen m) in
  words_ok m3 /\ zlen m3 = p /\ top_set m3 /\
  F2 s (val m3) (k + Z.b2z ovf - 64 * p) = rnd_prec (64 * p) rm r /\
  (ix' = true <-> ix = true \/ rnd_prec (64 * p) rm r <> r).
Proof.
  intros Hok HL Htop Hp. unfold fit_words.
  pose proof (top_set_bitlen m Hok HL Htop) as Hbl. pose proof (top_set_pos m ltac:(lia) Htop) as HV.
  destruct (Z.ltb_spec (zlen m) p).
  - destruct (try_extend_words m p Hok ltac:(lia)) as (Tv & To & Tl). cbv zeta.
    split; [auto|]. split; [auto|].
    assert (Hexact : rnd_prec (64 * p) rm (F2 s (val m) (k - 64 * zlen m)) = F2 s (val m) (k - 64 * zlen m)).
    { apply round_prec_exact; lia. }
    split; [|split].
    + unfold top_set in *. rewrite Tl, Tv. replace (64 * p - 1) with (64 * zlen m - 1 + 64 * (p - zlen m)) by lia.
      rewrite Z.pow_add_r by lia. apply Z.mul_le_mono_nonneg_r; auto. apply pow2_nonneg.
    + rewrite Hexact, Tv, F2R_shift by lia. cbn [Z.b2z]. do 2 f_equal. lia.
    + rewrite Hexact. tauto.
  - destruct (Z.ltb_spec p (zlen m)).
    + apply (round_to_words_spec m p rm s ix k); auto; lia.
    + assert (p = zlen m) by lia. subst p. cbv zeta. split; [auto|]. split; [auto|]. split; [auto|].
      assert (Hexact : rnd_prec (64 * zlen m) rm (F2 s (val m) (k - 64 * zlen m)) = F2 s (val m) (k - 64 * zlen m)).
      { apply round_prec_exact; lia. }
      cbn [Z.b2z]. rewrite Hexact, Z.add_0_r. tauto.
Qed.

(** ** Exponent checks *)
Lemma F2_abs s M e : 0 <= M -> Rabs (F2 s M e) = (IZR M * bpow radix2 e)%R.
Proof.
  intros. rewrite F2R_sgn, Rmult_assoc, sgnR_abs; auto.
  apply Rmult_le_pos; [now apply IZR_le|apply bpow_ge_0].
Qed.

Lemma F2_ge s M e j b : 0 < M -> bitlen M = b -> (bpow radix2 j <= Rabs (F2 s M e))%R <-> j < b + e.
Proof.
  intros HM Hb. pose proof (mag_F2R_bitlen s M e HM) as Hm. rewrite Hb in Hm.
  assert (Hnz : F2 s M e <> 0%R) by (apply F2R_neq_0; cbn [Fnum]; destruct s; cbn [sgnZ]; lia).
  split; intros H.
  - destruct (Z_lt_le_dec j (b + e)); auto. exfalso.
    pose proof (bpow_mag_gt radix2 (F2 s M e)) as G. rewrite Hm in G.
    pose proof (bpow_le radix2 _ _ l). lra.
  - pose proof (bpow_mag_le radix2 (F2 s M e) Hnz) as G. rewrite Hm in G.
    eapply Rle_trans; [|apply G]. apply bpow_le. lia.
Qed.
Lemma F2_lt s M e j b : 0 < M -> bitlen M = b -> (Rabs (F2 s M e) < bpow radix2 j)%R <-> b + e <= j.
Proof.
  intros HM Hb. pose proof (F2_ge s M e j b HM Hb). split; intros; [|apply Rnot_le_lt; rewrite H; lia].
  destruct (Z_le_gt_dec (b + e) j); auto. exfalso. assert (j < b + e) by lia. apply H in H1. lra.
Qed.

Lemma grad_in_prec p rm r : 0 < p -> generic_format radix2 (FLX_exp p) (rnd_grad p rm r).
Proof.
  intros Hp. apply flt_flx; auto. apply generic_format_round; [apply FLT_exp_valid; exact Hp|apply rnd_valid].
Qed.

Lemma prec_id p rm r : 0 < p -> generic_format radix2 (FLX_exp p) r -> rnd_prec p rm r = r.
Proof. intros. apply round_generic; auto. apply rnd_valid. Qed.

Lemma fmt_grid p s M : 0 < p -> 0 <= M <= 2 ^ p -> generic_format radix2 (FLX_exp p) (F2 s M (EMIN - p)).
Proof.
  intros Hp HM. destruct (Z.eq_dec M (2 ^ p)) as [->|].
  - replace (2 ^ p) with (1 * 2 ^ p) by lia. rewrite F2R_shift by lia. apply generic_format_F2R.
    intros _. unfold cexp, FLX_exp. rewrite mag_F2R_bitlen by lia. cbn. lia.
  - destruct (Z.eq_dec M 0) as [->|]. { rewrite Z.mul_0_r, F2R_0. apply generic_format_0. }
    apply generic_format_F2R. intros _. unfold cexp, FLX_exp. rewrite mag_F2R_bitlen by lia.
    pose proof (bitlen_le M p ltac:(lia) ltac:(lia)). lia.
Qed.

(** subnormalize on a normalised mantissa of p words. *)
Lemma subnormalize_spec m s e ix rm p : words_ok m -> zlen m = p -> 0 < p -> 64 * p < P_LIM -> top_set m -> e < EMIN ->
  let z := F2 s (val m) (e - 64 * p) in
  let q := subnormalize (mk_num (mk_m m (64 * p)) s EMIN ix) e rm in
  wf q /\ 64 * wlen q = 64 * p /\ ns q = s /\
  (is_nearest rm = false \/ EMIN - 64 * p < e -> value q = rnd_grad (64 * p) rm z) /\
  (is_nearest rm = true -> e <= EMIN - 64 * p -> value q = 0%R) /\
  generic_format radix2 (FLX_exp (64 * p)) (value q) /\
  (ninexact q = true <-> ix = true \/ value q <> z) /\
  (bpow radix2 (EMIN - 1) <= Rabs (value q) -> value q <> 0 -> normal q)%R.
Proof.
  intros Hok Hl Hp Hlim Htop He z q. subst p.
  pose proof (top_set_bitlen m Hok ltac:(lia) Htop) as Hbl. pose proof (top_set_pos m ltac:(lia) Htop) as HV.
  set (p := zlen m) in *. set (shift := EMIN - e).
  assert (Hz : 0 <= shift) by lia. 
  assert (Hgrad : rnd_grad (64 * p) rm z = F2 s (rndN rm (is_pos s) (val m) shift) (EMIN - 64 * p)).
  { unfold z. rewrite grad_small by lia. do 4 f_equal. unfold shift. lia. }
  assert (Hpd : 0 < 2 ^ shift) by (apply pow2_gt0; lia).
  assert (Hvb : val m < 2 ^ (64 * p)) by (apply val_bound; auto).
  unfold q, subnormalize, is_zero, m_is_zero, is_positive. cbn [nm mn mm ns ne ninexact].
  unfold max_bit_len, mlen. cbn [mm].
  replace (64 * p =? 0) with false by lia.
  change (zlen m) with p.
  destruct (Z.ltb_spec EMIN (64 * p + e)) as [Hin|Hout].
  - (* bits remain *)
    fold shift.
    assert (Hsh : 0 < shift < 64 * p) by lia.
    set (o := round_mantissa m shift rm (is_pos s) false (64 * p) ix).
    set (N := rndN rm (is_pos s) (val m) shift) in *.
    set (sh2 := if ro_ovf o then shift - 1 else shift).
    assert (Ho : words_ok (ro_m o) /\ zlen (ro_m o) = p /\ ro_inexact o = rres_inexact m shift ix /\
       val (ro_m o) / 2 ^ sh2 = N /\ (sh2 = 0 -> ro_m o = ro_m o /\ val (ro_m o) = 2 ^ (64 * p - 1)) /\ 0 <= sh2).
    { unfold sh2. destruct (rmode_eqb rm RNone) eqn:Erm.
      - assert (rm = RNone) as -> by (destruct rm; try discriminate; auto).
        destruct (round_mantissa_none m shift (is_pos s) false (64 * p) ix Hok ltac:(fold p; lia)) as (R1 & R2 & R3 & R4).
        fold o in R1, R2, R3, R4. rewrite R1, R2, R4. repeat split; auto; try lia.
        unfold N, rndN, rup. cbn [Z.b2z]. lia.
      - destruct (round_mantissa_spec m shift rm (is_pos s) (64 * p) ix Hok ltac:(fold p; lia)) as (R1 & R2 & R3).
        { destruct rm; try discriminate; congruence. }
        fold o in R1, R2, R3. fold N in R1. destruct R1 as (Ro & Rl & Rv). fold p in Rl, Rv.
        repeat (split; [now auto|]).
        destruct Rv as [(Ov & Rv & Rlt)|(Ov & Rv & Req)]; rewrite Ov, Rv.
        + rewrite Z_div_mult by lia. repeat split; auto; lia.
        + assert (HN : N = 2 ^ (64 * p - shift)).
          { apply (Z.mul_cancel_r _ _ (2 ^ shift)); [lia|]. rewrite Req. rewrite <- Z.pow_add_r by lia. f_equal; lia. }
          split; [|repeat split; auto; lia].
          rewrite HN. replace (64 * p - 1) with (64 * p - shift + (shift - 1)) by lia. rewrite Z.pow_add_r by lia.
          apply Z_div_mult. apply Z.lt_gt, pow2_gt0. lia. }
    destruct Ho as (Ho & Hol & Hoi & Hov & Hz0 & Hsh2). 
    pose proof (rndN_bounds rm (is_pos s) (val m) shift ltac:(lia) ltac:(lia)) as HNb. fold N in HNb.
    assert (HN0 : 0 <= N). { assert (0 <= val m / 2 ^ shift) by (apply Z.div_pos; lia). lia. }
    assert (HN1 : 1 <= N). { assert (1 <= val m / 2 ^ shift); [|lia]. apply Z.div_le_lower_bound; [lia|].
      unfold top_set in Htop. fold p in Htop. assert (2 ^ shift <= 2 ^ (64 * p - 1)) by (apply Z.pow_le_mono_r; lia). lia. }
    assert (HNu : N <= 2 ^ (64 * p - 1)).
    { assert (val m / 2 ^ shift < 2 ^ (64 * p - shift)).
      { apply Z.div_lt_upper_bound; [lia|]. rewrite <- Z.pow_add_r by lia. now replace (shift + (64 * p - shift)) with (64 * p) by lia. }
      assert (2 ^ (64 * p - shift) <= 2 ^ (64 * p - 1)) by (apply Z.pow_le_mono_r; lia). lia. }
    set (m2 := if 0 <? sh2 then m_update_bit_len (m_shift_right (mk_m (ro_m o) (64 * p)) sh2) else mk_m (ro_m o) (64 * p)).
    assert (Hm2 : words_ok (mm m2) /\ zlen (mm m2) = p /\ val (mm m2) = N /\ mn m2 = bitlen N).
    { unfold m2. destruct (Z.ltb_spec 0 sh2).
      - unfold m_update_bit_len, m_shift_right. cbn [mm mn].
        destruct (shift_slice_right_spec (ro_m o) sh2 Ho ltac:(lia)) as (A & B & C).
        rewrite find_bit_len_spec by auto. rewrite A, Hov. repeat split; auto; lia.
      - cbn [mm mn]. assert (E0 : sh2 = 0) by lia. destruct (Hz0 E0) as (_ & Hv). rewrite E0 in Hov. change (2 ^ 0) with 1 in Hov. rewrite Z.div_1_r in Hov.
        repeat split; auto. symmetry. apply bitlen_unique; [lia|]. rewrite <- Hov, Hv. split; [lia|].
        apply Z.pow_lt_mono_r; lia. }
    destruct Hm2 as (M1 & M2 & M3 & M4).
    assert (Hblp : 0 < bitlen N <= 64 * p).
    { split; [apply bitlen_pos; lia|]. apply bitlen_le; [lia|]. split; [lia|].
      assert (2 ^ (64 * p - 1) < 2 ^ (64 * p)) by (apply Z.pow_lt_mono_r; lia). lia. }
    assert (Hval : value (mk_num m2 s EMIN (ix || ro_inexact o)) = F2 s N (EMIN - 64 * p)).
    { unfold value, magnitude, wlen. cbn [nm ns ne]. now rewrite M2, M3. }
    assert (Hnx : F2 s N (EMIN - 64 * p) <> z <-> val m mod 2 ^ shift <> 0).
    { unfold z. replace (EMIN - 64 * p) with (e - 64 * p + shift) by lia. rewrite <- F2R_shift by lia. rewrite F2R_inj_num.
      rewrite <- (rndN_exact rm (is_pos s) (val m) shift) by lia. fold N. split; intros A B; apply A; [now rewrite B|now apply sgnZ_inj in B]. }
    split; [|split; [|split; [|split; [|split; [|split; [|split]]]]]].
    + constructor; unfold magnitude, wlen; cbn [nm ns ne mm mn]; rewrite ?M2, ?M3, ?M4; auto; try lia.
    + unfold wlen. cbn [nm]. lia.
    + reflexivity.
    + intros _. rewrite Hval, Hgrad. reflexivity.
    + intros _ ?. lia.
    + rewrite Hval. apply fmt_grid; [lia|]. split; [lia|]. eapply Z.le_trans; [apply HNu|]. apply Z.pow_le_mono_r; lia.
    + rewrite Hval. cbn [ninexact]. rewrite Hnx, Hoi. unfold rres_inexact.
      destruct ix, (Z.eqb_spec (val m mod 2 ^ shift) 0); cbn; intuition congruence.
    + rewrite Hval. intros Hge _. rewrite (F2_ge s N (EMIN - 64 * p) (EMIN - 1) (bitlen N)) in Hge by (auto; lia).
      unfold normal, nonzero, magnitude, wlen. cbn [nm]. rewrite M2, M3, M4. lia.
  - assert (Hsh : 64 * p <= shift) by lia.
    assert (Hdiv0 : val m / 2 ^ shift = 0).
    { apply Z.div_small. split; [lia|]. eapply Z.lt_le_trans; [apply Hvb|]. apply Z.pow_le_mono_r; lia. }
    assert (Hmod : val m mod 2 ^ shift = val m).
    { apply Z.mod_small. split; [lia|]. eapply Z.lt_le_trans; [apply Hvb|]. apply Z.pow_le_mono_r; lia. }
    assert (Hgr : is_nearest rm = false -> rndN rm (is_pos s) (val m) shift = if rounds_away rm (is_pos s) then 1 else 0).
    { intros Hn. unfold rndN, rup. rewrite Hdiv0, Hmod. rewrite (proj2 (Z.eqb_neq _ _)) by lia.
      destruct rm, (is_pos s); cbn in *; try discriminate; reflexivity. }
    assert (Hzlt : (Rabs z < bpow radix2 (EMIN - 64 * p))%R).
    { unfold z. apply (F2_lt s (val m) (e - 64 * p) (EMIN - 64 * p) (64 * p)); auto; lia. }
    assert (Hz0 : z <> 0%R) by (apply F2R_neq_0; cbn [Fnum]; destruct s; cbn [sgnZ]; lia).
    destruct (rounds_away rm (is_pos s)) eqn:Eaw.
    + set (w := zupd 0 1 (zeros p)).
      assert (Hw : words_ok w /\ zlen w = p /\ val w = 1).
      { unfold w. replace p with (1 + (p - 1)) by lia. rewrite zeros_succ by lia. unfold zupd. cbn [Z.to_nat upd].
        rewrite val_cons, zlen_cons, val_zeros, zlen_zeros by lia. repeat split; try lia.
        apply ok_cons; split; [lia|apply ok_zeros]. }
      destruct Hw as (W1 & W2 & W3).
      assert (Hval : value (mk_num (mk_m w 1) s EMIN true) = F2 s 1 (EMIN - 64 * p)).
      { unfold value, magnitude, wlen. cbn [nm ns ne mm]. now rewrite W2, W3. }
      split; [|split; [|split; [|split; [|split; [|split; [|split]]]]]].
      * constructor; unfold magnitude, wlen; cbn [nm ns ne mm mn]; rewrite ?W2, ?W3; auto; try lia.
      * unfold wlen. cbn [nm mm]. lia.
      * reflexivity.
      * intros [Hn|Hn]; [|lia]. rewrite Hval, Hgrad, Hgr by auto. reflexivity.
      * intros Hn _. destruct rm; cbn in *; try discriminate.
      * rewrite Hval. apply fmt_grid; [lia|]. split; [lia|]. apply Z.lt_le_incl, Z.pow_gt_1; lia.
      * rewrite Hval. cbn [ninexact]. split; [intros _|auto]. right. intros E. rewrite <- E in Hzlt.
        rewrite F2_abs, Rmult_1_l in Hzlt by lia. lra.
      * rewrite Hval. intros Hge _. rewrite (F2_ge s 1 (EMIN - 64 * p) (EMIN - 1) 1) in Hge by (auto; lia). lia.
    + assert (Hval : value (mk_num (m_set_zero (mk_m m (64 * p))) s 0 true) = 0%R).
      { unfold value, magnitude, wlen, m_set_zero. cbn [nm ns ne mm]. rewrite val_zeros, Z.mul_0_r. apply F2R_0. }
      split; [|split; [|split; [|split; [|split; [|split; [|split]]]]]].
      * constructor; unfold magnitude, wlen, m_set_zero, mlen; cbn [nm ns ne mm mn]; fold p; rewrite ?val_zeros, ?zlen_zeros by lia; auto using ok_zeros; lia.
      * unfold wlen, m_set_zero, mlen. cbn [nm mm]. fold p. rewrite zlen_zeros; lia.
      * reflexivity.
      * intros [Hn|Hn]; [|lia]. rewrite Hval, Hgrad, Hgr by auto. rewrite Z.mul_0_r. symmetry. apply F2R_0.
      * auto.
      * rewrite Hval. apply generic_format_0.
      * rewrite Hval. cbn [ninexact]. split; auto.
      * rewrite Hval. intros _ H. now elim H.
Qed.

Lemma finish_num_spec m s e ix ix0 rm p r : words_ok m -> zlen m = p -> 0 < p -> 64 * p < P_LIM -> top_set m ->
  F2 s (val m) (e - 64 * p) = rnd_prec (64 * p) rm r ->
  (ix = true <-> ix0 = true \/ rnd_prec (64 * p) rm r <> r) ->
  correctly_rounded (64 * p) rm r s ix0 (finish_num (mk_m m (64 * p)) s e ix rm).
Proof.
  intros Hok Hl Hp Hlim Htop Hz Hix. unfold correctly_rounded. rewrite <- Hz in *. set (z := F2 s (val m) (e - 64 * p)) in *.
  pose proof (top_set_bitlen m Hok ltac:(lia) Htop) as Hbl. pose proof (top_set_pos m ltac:(lia) Htop) as HV.
  assert (Hge : forall j, (bpow radix2 j <= Rabs z)%R <-> j < e).
  { intros j. unfold z. rewrite (F2_ge s (val m) (e - 64 * p) j (64 * p)) by (auto; lia). lia. }
  assert (Hlt : forall j, (Rabs z < bpow radix2 j)%R <-> e <= j).
  { intros j. unfold z. rewrite (F2_lt s (val m) (e - 64 * p) j (64 * p)) by (auto; lia). lia. }
  unfold finish_num. split; [rewrite Hge|rewrite Hlt].
  - intros H. replace (EMAX <? e) with true by lia. reflexivity.
  - intros H. replace (EMAX <? e) with false by lia.
    destruct (Z.ltb_spec e EMIN) as [Hsub|Hnorm].
    + destruct (subnormalize_spec m s e ix rm p Hok Hl Hp Hlim Htop Hsub) as (S1 & S2 & S3 & S4 & S5 & S6 & S7 & S8).
      set (q := subnormalize (mk_num (mk_m m (64 * p)) s EMIN ix) e rm) in *. fold z in S4, S7.
      exists q. split; [reflexivity|]. split; [auto|]. split; [auto|]. split; [auto|]. split; [intros H'; apply Hge in H'; lia|]. split; [|split; [|split]].
      * intros Hn. rewrite S4 by auto. rewrite Hz. now apply grad_prec_directed; [lia|].
      * intros H'. apply Hge in H'. apply S4. right. lia.
      * intros Hn Hle. apply Hlt in Hle. apply S5; auto.
      * rewrite S7. rewrite Hix. split.
        -- intros [[A|A]|A]; auto; right; intros E; apply A.
           ++ rewrite Hz. rewrite <- E. apply prec_id; auto; lia.
           ++ rewrite E. rewrite <- E at 1. rewrite Hz, <- E. symmetry. rewrite prec_id by (auto; lia). auto.
        -- intros [A|A]; auto. destruct (Req_EM_T z r) as [E|E]; [right; now rewrite E|left; right; auto].
    + assert (Hval : value (mk_num (mk_m m (64 * p)) s e ix) = z).
      { unfold value, magnitude, wlen. cbn [nm ns ne mm]. now rewrite Hl. }
      assert (Hgz : rnd_grad (64 * p) rm z = z).
      { rewrite grad_normal by (apply Hge; lia). rewrite Hz. apply prec_id; [lia|].
        apply generic_format_round; [apply FLX_exp_valid; red; lia|apply rnd_valid]. }
      exists (mk_num (mk_m m (64 * p)) s e ix). split; [reflexivity|]. rewrite Hval.
      split; [|split; [|split; [|split; [|split; [|split; [|split]]]]]].
      * constructor; unfold magnitude, wlen; cbn [nm ns ne mm mn]; auto; try lia.
      * unfold wlen. cbn [nm mm]. lia.
      * reflexivity.
      * intros _. split; auto. unfold normal, nonzero, magnitude, wlen. cbn [nm mm mn]. lia.
      * intros Hn. rewrite <- grad_prec_directed by (auto; lia). rewrite <- Hz. auto.
      * intros _. auto.
      * intros _ H'. apply Hlt in H'. lia.
      * cbn [ninexact]. exact Hix.
Qed.
