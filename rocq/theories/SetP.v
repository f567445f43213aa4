(** set_precision. *)

From Coq Require Import ZArith Reals List Bool Lia Lra.
From Flocq Require Import Core.
From Verif Require Import Words IntModel Mantissa Num SpecZ WordsP WordsP2 RoundP Spec RealP RealP2 NumP CmpP AddP.
Import ListNotations.
Open Scope Z_scope.
Ltac Zify.zify_post_hook ::= idtac.
Arguments Z.mul : simpl never.
Arguments Z.add : simpl never.
Arguments Z.pow : simpl never.
Arguments Z.sub : simpl never.
Arguments Z.of_nat : simpl never.

Lemma wlen_of_bits_eq p : 0 <= p -> wlen_of_bits p = (p + 63) / 64.
Proof. intros. unfold wlen_of_bits. dlia. Qed.

Lemma bitlen_div X k : 0 <= k -> 0 <= X -> bitlen (X / 2 ^ k) = Z.max 0 (bitlen X - k).
Proof.
  intros Hk HX. destruct (Z.eq_dec X 0) as [->|]. { rewrite Z.div_0_l by (pose proof (pow2_gt0 k); lia). change (bitlen 0) with 0. lia. }
  pose proof (bitlen_spec X ltac:(lia)) as [B1 B2]. pose proof (bitlen_pos X ltac:(lia)). pose proof (pow2_gt0 k Hk) as Hp.
  destruct (Z_lt_le_dec k (bitlen X)).
  - rewrite Z.max_r by lia. apply bitlen_unique; [lia|]. split.
    + apply Z.div_le_lower_bound; auto. rewrite <- Z.pow_add_r by lia. eapply Z.le_trans; [|apply B1]. apply Z.pow_le_mono_r; lia.
    + apply Z.div_lt_upper_bound; auto. rewrite <- Z.pow_add_r by lia. replace (k + (bitlen X - k)) with (bitlen X) by lia. auto.
  - rewrite Z.max_l by lia. rewrite Z.div_small; [reflexivity|]. split; [lia|]. eapply Z.lt_le_trans; [apply B2|]. apply Z.pow_le_mono_r; lia.
Qed.

Lemma bitlen_0_iff X : 0 <= X -> (bitlen X = 0 <-> X = 0).
Proof. intros. split; [|intros ->; reflexivity]. intros. destruct (Z.eq_dec X 0); auto. pose proof (bitlen_pos X ltac:(lia)). lia. Qed.

(** set_length on words whose dropped part is zero. *)
Lemma m_set_length_spec w n p s e : words_ok w -> n = bitlen (val w) -> 0 <= p -> let P := (p + 63) / 64 in
  (P < zlen w -> val w mod 2 ^ (64 * (zlen w - P)) = 0) ->
  let m := m_set_length (mk_m w n) p in
  words_ok (mm m) /\ zlen (mm m) = P /\ mn m = bitlen (val (mm m)) /\ (val (mm m) = 0 <-> val w = 0) /\
  F2 s (val (mm m)) (e - 64 * P) = F2 s (val w) (e - 64 * zlen w) /\
  (val w <> 0 -> 64 * P - mn m = 64 * zlen w - n).
Proof.
  intros Hok Hn Hp P Hdrop m. unfold m, m_set_length, mlen. cbn [mm mn]. rewrite wlen_of_bits_eq by auto. fold P.
  assert (HP : 0 <= P) by (unfold P; dlia). pose proof (val_nonneg w Hok) as Hv. pose proof (zlen_nonneg w) as HL.
  destruct (Z.ltb_spec P (zlen w)) as [H|H].
  - specialize (Hdrop H). destruct (trunc_to_spec w p Hok Hp ltac:(fold P; plia)) as (T1 & T2 & T3). fold P in T1, T3. cbn [mm mn].
    set (g := 64 * (zlen w - P)) in *. pose proof (pow2_gt0 g ltac:(unfold g; plia)) as Hg.
    pose proof (Z.div_mod (val w) (2 ^ g) ltac:(lia)) as Hdm. rewrite Hdrop, Z.add_0_r in Hdm. rewrite <- T1 in Hdm.
    split; [auto|]. split; [auto|].
    assert (Hb : bitlen (val (trunc_to w p)) = Z.max 0 (n - g)) by (rewrite T1, bitlen_div by (unfold g; plia); rewrite Hn; reflexivity).
    assert (Hz : val (trunc_to w p) = 0 <-> val w = 0) by (rewrite Hdm; clear -Hg; nia).
    replace ((zlen w - P) * 64) with g by (unfold g; ring).
    assert (Hmn : (if g <=? n then n - g else 0) = bitlen (val (trunc_to w p))) by (rewrite Hb; destruct (Z.leb_spec g n); clear -H0; lia).
    split; [exact Hmn|]. split; [exact Hz|]. split.
    + rewrite Hdm. rewrite (Z.mul_comm (2 ^ g)), F2R_shift by (unfold g; plia). f2eq.
    + intros Hnz. rewrite Hmn, Hb. assert (0 < val (trunc_to w p)) by (pose proof (val_nonneg _ T2); lia).
      pose proof (bitlen_pos _ H0). rewrite Hb in H1. unfold g in *. clear -H1. lia.
  - destruct (Z.ltb_spec (zlen w) P) as [H'|H'].
    + destruct (try_extend_spec w p Hok ltac:(fold P; plia)) as (T1 & T2 & T3). fold P in T1, T3. cbn [mm mn].
      split; [auto|]. split; [auto|]. set (g := 64 * (P - zlen w)) in *. pose proof (pow2_gt0 g ltac:(unfold g; plia)) as Hg.
      replace ((P - zlen w) * 64) with g by (unfold g; ring).
      assert (Hmn : (if n =? 0 then 0 else n + g) = bitlen (val (try_extend w p))).
      { rewrite T1, Hn. destruct (Z.eqb_spec (bitlen (val w)) 0) as [E|E].
        - apply (proj1 (bitlen_0_iff _ Hv)) in E. rewrite E. reflexivity.
        - rewrite bitlen_mul_pow2; auto; [|unfold g; plia]. destruct (Z.eq_dec (val w) 0) as [E0|]; [rewrite E0 in E; contradict E; reflexivity|plia]. }
      split; [exact Hmn|]. split; [rewrite T1; clear -Hg; nia|]. split.
      * rewrite T1, F2R_shift by (unfold g; plia). f2eq.
      * intros Hnz. destruct (Z.eqb_spec n 0) as [E|E]; [rewrite Hn in E; apply (proj1 (bitlen_0_iff _ Hv)) in E; tauto|]. unfold g. clear. lia.
    + assert (P = zlen w) by plia. cbn [mm mn]. rewrite H0. repeat split; auto.
Qed.

Lemma value_cexp x p : wf x -> nonzero x -> 0 < p -> cexp radix2 (FLT_exp (EMIN - p) p) (value x) = ne x - p.
Proof.
  intros W N Hp. destruct (nonzero_bits x W N) as (Hm & Hb & Hl). unfold cexp, FLT_exp, value. rewrite mag_F2R_bitlen by auto.
  rewrite <- (wf_bits x W). pose proof (wf_exp x W). pose proof (wf_sub x W). lia.
Qed.

Lemma rnd_grad_0 p rm : 0 < p -> rnd_grad p rm 0 = 0%R.
Proof. intros. unfold rnd_grad. apply round_0. apply rnd_valid. Qed.

Lemma value_zero x : magnitude x = 0 -> value x = 0%R.
Proof. intros H. unfold value. rewrite H, Z.mul_0_r. apply F2R_0. Qed.

Lemma value_zero_iff x : value x = 0%R <-> magnitude x = 0.
Proof.
  split; [|apply value_zero]. intros H. apply eq_0_F2R in H. destruct (ns x); cbn [sgnZ] in H; lia.
Qed.

Lemma rnd_grad_long x p rm : wf x -> 0 < p -> 64 * wlen x <= p -> rnd_grad p rm (value x) = value x.
Proof.
  intros W Hp Hl. destruct (Z.eq_dec (magnitude x) 0) as [E|E]. { rewrite value_zero by auto. now apply rnd_grad_0. }
  unfold rnd_grad. apply round_generic; [apply rnd_valid|]. apply generic_format_F2R. intros _. fold (value x).
  rewrite value_cexp by auto. lia.
Qed.

Lemma rnd_grad_short x p rm : wf x -> 0 < p < 64 * wlen x ->
  rnd_grad p rm (value x) = F2 (ns x) (rndN rm (is_pos (ns x)) (magnitude x) (64 * wlen x - p)) (ne x - p).
Proof.
  intros W Hp. destruct (Z.eq_dec (magnitude x) 0) as [E|E].
  { rewrite value_zero, rnd_grad_0, E by (auto; lia). assert (Hz : rndN rm (is_pos (ns x)) 0 (64 * wlen x - p) = 0).
    { assert (rndN rm (is_pos (ns x)) 0 (64 * wlen x - p) * 2 ^ (64 * wlen x - p) = 0) by (apply rndN_exact; try lia; apply Z.mod_0_l; pose proof (pow2_gt0 (64 * wlen x - p)); lia).
      pose proof (pow2_gt0 (64 * wlen x - p) ltac:(lia)). nia. }
    rewrite Hz, Z.mul_0_r. now rewrite F2R_0. }
  unfold rnd_grad, value at 1.
  pose proof (round_at (FLT_exp (EMIN - p) p) rm (ns x) (magnitude x) (ne x - 64 * wlen x)) as R. fold (value x) in R. rewrite value_cexp in R by (auto; lia).
  cbv zeta in R. fold (value x). rewrite R.
  - replace (ne x - p - (ne x - 64 * wlen x)) with (64 * wlen x - p) by lia. reflexivity.
  - apply val_nonneg, (wf_words x W).
  - lia.
Qed.

Definition word_prec_ok (p : Z) (rm : rmode) (x : num) : Prop := rm <> RNone \/ (p mod 64 = 0 /\ normal x) \/ 64 * wlen x <= p.

Theorem set_precision_spec x p rm : wf x -> 0 < p -> prec_up p < P_LIM -> word_prec_ok p rm x ->
  let z := rnd_grad p rm (value x) in
  ((bpow radix2 EMAX <= Rabs z)%R -> set_precision x p rm = Err (ExponentOverflow (ns x))) /\
  ((Rabs z < bpow radix2 EMAX)%R -> exists q, set_precision x p rm = Ok q /\ wf q /\ wlen q = (p + 63) / 64 /\ ns q = ns x /\
     value q = z /\ (ninexact q = true <-> ninexact x = true \/ z <> value x)).
Proof.
  intros W Hp0 HP Hrm z. unfold prec_up in HP. assert (Hp : 0 < p < P_LIM) by (clear -Hp0 HP; dlia). pose proof (wf_words x W) as Hok. pose proof (wf_bits x W) as Hbits. pose proof (wf_exp x W) as He.
  pose proof (val_bound _ Hok) as Hvb. fold (magnitude x) in Hvb. fold (wlen x) in Hvb. pose proof (zlen_nonneg (mm (nm x))) as HL. fold (wlen x) in HL.
  unfold set_precision, set_precision_internal, p_assertion. replace (P_LIM <=? p) with false by (clear -Hp; lia). cbn [bind].
  unfold mantissa_max_bit_len, max_bit_len, mlen. fold (wlen x). cbv zeta.
  destruct (Z.ltb_spec p (64 * wlen x)) as [Hlt|Hge].
  2:{ cbn [andb]. rewrite (proj2 (Z.eqb_neq p 0)) by lia.
      assert (Hz : z = value x) by (unfold z; apply rnd_grad_long; auto; lia).
      assert (Hsmall : (Rabs z < bpow radix2 EMAX)%R).
      { rewrite Hz. unfold value. rewrite F2_abs by lia. destruct (Z.eq_dec (wlen x) 0) as [E0|E0].
        - rewrite E0 in Hvb. change (2 ^ (64 * 0)) with 1 in Hvb. replace (magnitude x) with 0 by lia. rewrite Rmult_0_l. apply bpow_gt_0.
        - destruct (Z.eq_dec (magnitude x) 0) as [->|]. { rewrite Rmult_0_l. apply bpow_gt_0. }
          pose proof (tiny_bound (magnitude x) (wlen x) (ne x) ltac:(lia) ltac:(lia)) as [_ T]. eapply Rlt_le_trans; [exact T|]. apply bpow_le. lia. }
      split; [intros; exfalso; lra|]. intros _.
      destruct (m_set_length_spec (mm (nm x)) (mn (nm x)) p (ns x) (ne x) Hok Hbits ltac:(lia)) as (S1 & S2 & S3 & S4 & S5 & S6).
      { intros Hc. exfalso. fold (wlen x) in Hc. clear -Hc Hge. dlia. }
      replace (mk_m (mm (nm x)) (mn (nm x))) with (nm x) in * by (destruct (nm x); reflexivity).
      eexists. split; [reflexivity|]. fold (magnitude x) in *. fold (wlen x) in *.
      split; [|split; [exact S2|split; [reflexivity|split]]].
      - constructor; unfold magnitude, wlen; cbn [nm ns ne ninexact]; auto.
        + rewrite S2. exact HP.
        + rewrite S4. apply (wf_zero x W).
        + rewrite S2. intros Hb. apply (wf_sub x W). fold (magnitude x) in S6.
          assert (Hnz : magnitude x <> 0). { intros E. apply S4 in E. rewrite S3, E in Hb. change (bitlen 0) with 0 in Hb. lia. }
          specialize (S6 Hnz). pose proof (nonzero_bits x W Hnz). fold (wlen x) in S6. lia.
      - unfold value, magnitude, wlen; cbn [nm ns ne]. rewrite S2, S5. rewrite Hz. reflexivity.
      - cbn [ninexact]. rewrite Hz. tauto. }
  replace (0 <? p) with true by lia. cbn [andb]. destruct (Z_lt_le_dec 0 (wlen x)) as [HL0|]; [|lia].
  unfold is_positive.
  set (d := 64 * wlen x - p) in *. set (N := rndN rm (is_pos (ns x)) (magnitude x) d).
  assert (Hz : z = F2 (ns x) N (ne x - p)) by (unfold z; apply rnd_grad_short; auto; lia).
  assert (Hzx : z = value x <-> magnitude x mod 2 ^ d = 0).
  { rewrite Hz. unfold value. replace (ne x - p) with (ne x - 64 * wlen x + d) by (unfold d; lia).
    rewrite <- F2R_shift by (unfold d; lia). rewrite F2R_inj_num. rewrite <- (rndN_exact rm (is_pos (ns x)) (magnitude x) d) by (unfold d; lia).
    fold N. split; [apply sgnZ_inj|intros ->; reflexivity]. }
  pose proof (rndN_bounds rm (is_pos (ns x)) (magnitude x) d ltac:(unfold d; lia) ltac:(lia)) as HNb. fold N in HNb.
  pose proof (pow2_gt0 d ltac:(unfold d; lia)) as Hpd. pose proof (pow2_gt0 p ltac:(lia)) as Hpp.
  assert (Hsplit : 2 ^ (64 * wlen x) = 2 ^ p * 2 ^ d) by (rewrite <- Z.pow_add_r by (unfold d; lia); f_equal; unfold d; lia).
  assert (HN0 : 0 <= N). { pose proof (Z.div_pos (magnitude x) (2 ^ d) ltac:(lia) Hpd). lia. }
  assert (HNp : N <= 2 ^ p). { pose proof (Z.div_lt_upper_bound (magnitude x) (2 ^ d) (2 ^ p) Hpd ltac:(lia)). lia. }
  (* result of the rounding step *)
  assert (HR : let r := round_mantissa (mm (nm x)) d rm (is_pos (ns x)) false (64 * wlen x) (ninexact x) in
    words_ok (ro_m r) /\ zlen (ro_m r) = wlen x /\ ro_chk r = false /\ ro_inexact r = ninexact x || negb (magnitude x mod 2 ^ d =? 0) /\
    ((ro_ovf r = true /\ val (ro_m r) = 2 ^ (64 * wlen x - 1) /\ N = 2 ^ p) \/
     (ro_ovf r = false /\ (rm = RNone -> p mod 64 = 0 /\ normal x) /\ val (ro_m r) = (if rmode_eqb rm RNone then magnitude x else N * 2 ^ d) /\ N < 2 ^ p))).
  { destruct (rmode_eqb rm RNone) eqn:Erm.
    - assert (rm = RNone) as Hrm' by (destruct rm; cbn in Erm; congruence).
      pose proof (round_mantissa_none (mm (nm x)) d (is_pos (ns x)) false (64 * wlen x) (ninexact x) Hok ltac:(fold (wlen x); unfold d; lia)) as HH.
      rewrite <- Hrm' in HH. cbv zeta in *. destruct HH as (R1 & R2 & R3 & R4). rewrite R1, R2, R3, R4.
      split; [auto|]. split; [auto|]. split; [auto|]. split; [reflexivity|]. right. split; [auto|]. split.
      + intros _. destruct Hrm as [|[|]]; [congruence|auto|lia].
      + split; [reflexivity|]. unfold N. rewrite Hrm'. unfold rndN, rup. cbn [Z.b2z]. rewrite Z.add_0_r. apply Z.div_lt_upper_bound; lia.
    - assert (rm <> RNone) as Hrm' by (destruct rm; cbn in Erm; congruence).
      pose proof (round_mantissa_spec (mm (nm x)) d rm (is_pos (ns x)) (64 * wlen x) (ninexact x) Hok ltac:(fold (wlen x); unfold d; lia) Hrm') as HH.
      cbv zeta in *. fold (magnitude x) in HH. fold N in HH. destruct HH as (R1 & R2 & R3). unfold rnd_result in R1. fold (wlen x) in R1.
      destruct R1 as (R1 & R4 & R5). split; [auto|]. split; [auto|]. split; [auto|]. split; [exact R3|].
      rewrite Hsplit in R5. destruct R5 as [(A & B & C)|(A & B & C)]; [right|left].
      + split; [auto|]. split; [congruence|]. split; [auto|]. apply Z.mul_lt_mono_pos_r in C; auto.
      + split; [auto|]. split; [auto|]. apply Z.mul_cancel_r in C; lia. }
  set (r := round_mantissa _ _ _ _ _ _ _) in *. cbv zeta in HR. destruct HR as (R1 & R2 & R3 & R4 & R5). rewrite R3. cbn [andb].
  assert (Hinx : ninexact x || ro_inexact r = true <-> ninexact x = true \/ z <> value x).
  { rewrite R4, Hzx, !orb_true_iff, negb_true_iff, Z.eqb_neq. tauto. }
  set (ix := ninexact x || ro_inexact r) in *.
  assert (HdP : 64 * (wlen x - (p + 63) / 64) <= d) by (unfold d; clear; dlia).
  assert (HlP : (p + 63) / 64 <= wlen x) by (clear -Hlt; dlia).
  set (P := (p + 63) / 64) in *.
  assert (Hdiv : forall T, (T * 2 ^ d) mod 2 ^ (64 * (wlen x - P)) = 0).
  { intros T. replace d with (d - 64 * (wlen x - P) + 64 * (wlen x - P)) by lia. rewrite Z.pow_add_r by lia. rewrite Z.mul_assoc.
    apply Z.mod_mul. pose proof (pow2_gt0 (64 * (wlen x - P)) ltac:(lia)). lia. }
  assert (Htop : 2 ^ (64 * wlen x - 1) = 2 ^ (p - 1) * 2 ^ d) by (rewrite <- Z.pow_add_r by (unfold d; lia); f_equal; unfold d; lia).
  assert (HbL : bitlen (2 ^ (64 * wlen x - 1)) = 64 * wlen x).
  { rewrite <- (Z.mul_1_l (2 ^ _)), bitlen_mul_pow2 by lia. change (bitlen 1) with 1. lia. }
  assert (Hzabs : Rabs z = (IZR N * bpow radix2 (ne x - p))%R) by (rewrite Hz; apply F2_abs; auto).
  destruct R5 as [(O1 & O2 & O3)|(O1 & O2 & O3 & O4)]; rewrite O1.
  - (* carry out of the top: value is 2^e *)
    assert (Hz2 : Rabs z = bpow radix2 (ne x)).
    { rewrite Hzabs, O3, <- bpow_IZR, <- bpow_plus by lia. f_equal. lia. }
    assert (Hnorm : mn (nm x) = 64 * wlen x).
    { destruct (Z_lt_le_dec (magnitude x) (2 ^ (64 * wlen x - 1))) as [Hc|Hc].
      - exfalso. rewrite Htop in Hc. pose proof (Z.div_lt_upper_bound (magnitude x) (2 ^ d) (2 ^ (p - 1)) Hpd ltac:(clear -Hc; lia)) as Hq.
        pose proof (pow_half p ltac:(lia)) as E2. pose proof (pow2_gt0 (p - 1) ltac:(lia)). destruct (Z.eq_dec p 1) as [E1|E1].
        + (* p = 1 : M / 2^d < 1, so N <= 1 < 2 *) rewrite E1 in *. change (2 ^ 1) with 2 in *. change (2 ^ (1 - 1)) with 1 in *. clear -Hq HNb O3. lia.
        + assert (2 ^ (p - 1) >= 2) by (rewrite (pow_half (p - 1)) by lia; pose proof (pow2_gt0 (p - 1 - 1)); lia). clear -Hq HNb O3 E2 H0. lia.
      - rewrite Hbits. apply bitlen_unique; lia. }
    split.
    + intros Hbig. rewrite Hz2 in Hbig. apply le_bpow in Hbig. replace (ne x =? EMAX) with true by lia. reflexivity.
    + intros Hsm. rewrite Hz2 in Hsm. apply lt_bpow in Hsm. rewrite (proj2 (Z.eqb_neq (ne x) EMAX)) by lia. cbn [bind nm ns ne ninexact].
      pose proof (m_set_length_spec (ro_m r) (mn (nm x)) p (ns x) (ne x + 1) R1) as S. fold P in S.
      assert (S0 : mn (nm x) = bitlen (val (ro_m r))) by (rewrite O2; lia). specialize (S S0 ltac:(lia)).
      assert (Sd : P < zlen (ro_m r) -> val (ro_m r) mod 2 ^ (64 * (zlen (ro_m r) - P)) = 0) by (intros _; rewrite O2, R2, Htop; apply Hdiv).
      specialize (S Sd). cbv zeta in S. destruct S as (S1 & S2 & S3 & S4 & S5 & S6). clear Sd.
      assert (Hnz : val (ro_m r) <> 0) by (rewrite O2; pose proof (pow2_gt0 (64 * wlen x - 1) ltac:(lia)); lia).
      specialize (S6 Hnz). rewrite R2 in *.
      eexists. split; [reflexivity|]. split; [|split; [exact S2|split; [reflexivity|split; [|exact Hinx]]]].
      * constructor; unfold magnitude, wlen; cbn [nm ns ne ninexact]; auto; try (rewrite S2; lia); try lia.
      * unfold value, magnitude, wlen; cbn [nm ns ne]. rewrite S2, S5, O2, Hz, O3. clear - HL0 Hp.
        replace (2 ^ (64 * wlen x - 1)) with (1 * 2 ^ (64 * wlen x - 1)) by lia. replace (2 ^ p) with (1 * 2 ^ p) by lia. rewrite !F2R_shift by lia. f2eq.
  - assert (Hzs : (Rabs z < bpow radix2 EMAX)%R).
    { rewrite Hzabs. apply Rlt_le_trans with (IZR (2 ^ p) * bpow radix2 (ne x - p))%R.
      - apply Rmult_lt_compat_r; [apply bpow_gt_0|apply IZR_lt; auto].
      - rewrite <- bpow_IZR, <- bpow_plus by lia. apply bpow_le. lia. }
    split; [intros; exfalso; lra|]. intros _.
    assert (Hfin : forall n e, n = bitlen (val (ro_m r)) ->
        (val (ro_m r) = 0 -> e = 0) -> (val (ro_m r) <> 0 -> e = ne x) -> (n < 64 * wlen x -> val (ro_m r) <> 0 -> e = EMIN) ->
        exists q, Ok (mk_num (m_set_length (mk_m (ro_m r) n) p) (ns x) e ix) = Ok q /\ wf q /\ wlen q = P /\ ns q = ns x /\
         value q = z /\ (ninexact q = true <-> ninexact x = true \/ z <> value x)).
    { intros n e Hn Hze Hnze Hsub. destruct (rmode_eqb rm RNone) eqn:Erm.
      - (* truncation of whole words *)
        assert (Hrm' : rm = RNone) by (destruct rm; cbn in Erm; congruence). destruct (O2 Hrm') as [Hp64 [Hnm Hnz]].
        assert (HpP : p = 64 * P) by (unfold P; clear -Hp64; dlia).
        assert (HPL : P < wlen x) by (clear -HpP Hlt; lia).
        eexists. split; [reflexivity|]. unfold m_set_length, mlen. cbn [mm mn]. rewrite wlen_of_bits_eq by lia. fold P. rewrite R2.
        replace (P <? wlen x) with true by lia.
        destruct (trunc_to_spec (ro_m r) p R1 ltac:(lia) ltac:(fold P; lia)) as (T1 & T2 & T3). fold P in T1, T3. rewrite R2, O3 in T1.
        rewrite O3 in Hn, Hze, Hnze, Hsub. rewrite <- Hbits, Hnm in Hn.
        assert (Hd' : 64 * (wlen x - P) = d) by (unfold d; lia). rewrite Hd' in T1.
        assert (HNv : val (trunc_to (ro_m r) p) = N). { rewrite T1. unfold N, rndN, rup. rewrite Hrm'. cbn [Z.b2z]. lia. }
        replace ((wlen x - P) * 64) with d by lia. replace (d <=? n) with true by (clear -Hn HpP Hp; unfold d; lia).
        replace (n - d) with (64 * P) by (unfold d; lia).
        assert (HbN : bitlen N = 64 * P). { rewrite <- HNv, T1, bitlen_div by (unfold d; lia). rewrite <- Hbits, Hnm. unfold d. lia. }
        split; [|split; [exact T3|split; [reflexivity|split; [|exact Hinx]]]].
        + constructor; unfold magnitude, wlen; cbn [nm ns ne ninexact mm mn]; auto; try (rewrite T3; lia).
          * rewrite HNv. auto.
          * rewrite (Hnze Hnz). lia.
          * rewrite HNv. intros E0. rewrite E0 in HbN. change (bitlen 0) with 0 in HbN. lia.
        + unfold value, magnitude, wlen; cbn [nm ns ne mm]. rewrite T3, HNv, Hz, (Hnze Hnz). f2eq.
      - pose proof (m_set_length_spec (ro_m r) n p (ns x) (ne x) R1 Hn ltac:(lia)) as S. cbv zeta in S. fold P in S.
        assert (Sd : P < zlen (ro_m r) -> val (ro_m r) mod 2 ^ (64 * (zlen (ro_m r) - P)) = 0) by (intros _; rewrite O3, R2; apply Hdiv).
        specialize (S Sd). destruct S as (S1 & S2 & S3 & S4 & S5 & S6). clear Sd. rewrite R2 in *.
        eexists. split; [reflexivity|]. split; [|split; [exact S2|split; [reflexivity|split; [|exact Hinx]]]].
        + constructor; unfold magnitude, wlen; cbn [nm ns ne ninexact]; auto; try (rewrite S2; lia).
          * destruct (Z.eq_dec (val (ro_m r)) 0) as [E|E]; [rewrite (Hze E); lia|rewrite (Hnze E); lia].
          * rewrite S4. exact Hze.
          * rewrite S2. intros Hb. assert (Hnz : val (ro_m r) <> 0). { intros E. apply S4 in E. rewrite S3, E in Hb. change (bitlen 0) with 0 in Hb. lia. }
            specialize (S6 Hnz). apply Hsub; auto. lia.
        + unfold value, magnitude, wlen; cbn [nm ns ne]. rewrite S2. destruct (Z.eq_dec (val (ro_m r)) 0) as [E|E].
          * pose proof (proj2 S4 E) as E'. rewrite E', Z.mul_0_r, F2R_0, Hz. rewrite O3 in E. assert (N = 0) as -> by (clear -E Hpd; nia). now rewrite Z.mul_0_r, F2R_0.
          * rewrite (Hnze E), S5, O3, Hz. replace (ne x - p) with (ne x - 64 * wlen x + d) by (unfold d; lia). apply F2R_shift. unfold d; lia. }
    unfold m_is_all_zero. cbn [mm mn]. rewrite all_zero_spec by auto. fold ix.
    destruct (Z.eqb_spec (val (ro_m r)) 0) as [E0|E0].
    + cbn [bind nm ns ne ninexact mm mn].
      apply Hfin; auto; try tauto. rewrite E0. reflexivity.
    + unfold m_is_subnormal, max_bit_len, mlen. cbn [mm mn]. rewrite R2.
      destruct (Z.ltb_spec (mn (nm x)) (64 * wlen x)) as [Hs|Hs].
      * cbn [bind nm ns ne ninexact mm mn]. unfold m_update_bit_len. cbn [mm mn]. apply Hfin; auto; try tauto.
        -- now apply find_bit_len_spec.
        -- intros _ _. apply (wf_sub x W). split; [|exact Hs]. rewrite Hbits. apply bitlen_pos.
           destruct (rmode_eqb rm RNone); [lia|]. destruct (Z.eq_dec (magnitude x) 0) as [Ez|]; [|lia]. exfalso. apply E0. rewrite O3.
           apply Z.mul_eq_0. left. assert (Hz0 : z = 0%R) by (unfold z; rewrite value_zero by auto; apply rnd_grad_0; lia).
           rewrite Hz in Hz0. apply eq_0_F2R in Hz0. clear -Hz0. destruct (ns x); cbn [sgnZ] in Hz0; lia.
      * cbn [bind nm ns ne ninexact mm mn].
        assert (Hb : bitlen (magnitude x) <= 64 * wlen x) by (apply bitlen_le; lia).
        assert (Hm : mn (nm x) = 64 * wlen x) by lia.
        apply Hfin; auto; try tauto.
        -- symmetry. rewrite Hm. apply bitlen_unique; [lia|]. pose proof (val_bound _ R1) as Hrb. rewrite R2 in Hrb. split; [|apply Hrb].
           rewrite O3. rewrite Hbits in Hm. pose proof (bitlen_spec (magnitude x) ltac:(destruct (Z.eq_dec (magnitude x) 0) as [Ez|]; [rewrite Ez in Hm; change (bitlen 0) with 0 in Hm; lia|lia])) as [Q1 _].
           rewrite Hm in Q1. destruct (rmode_eqb rm RNone); [exact Q1|]. rewrite Htop in *. apply Z.mul_le_mono_nonneg_r; [lia|].
           pose proof (Z.div_le_lower_bound (magnitude x) (2 ^ d) (2 ^ (p - 1)) Hpd ltac:(clear -Q1; lia)). lia.
        -- intros. exfalso. lia.
Qed.
