(** Addition and subtraction. *)

From Coq Require Import ZArith Reals List Bool Lia Lra.
From Flocq Require Import Core.
From Verif Require Import Words IntModel Mantissa Num SpecZ WordsP WordsP2 RoundP Spec RealP RealP2 NumP CmpP.
Import ListNotations.
Open Scope Z_scope.
Ltac Zify.zify_post_hook ::= idtac.
Ltac dlia := Z.div_mod_to_equations; lia.
Ltac clear_pow := repeat match goal with H : context [Z.pow _ _] |- _ => clear H end.
Ltac plia := clear_pow; lia.
Ltac f2eq := repeat match goal with
  | |- F2R _ = F2R _ => f_equal
  | |- Float _ _ _ = Float _ _ _ => f_equal
  | |- (_ + _)%R = (_ + _)%R => f_equal
  | |- (_ - _)%R = (_ - _)%R => f_equal
  | |- (_ * _)%R = (_ * _)%R => f_equal
  end; plia.
Arguments Z.mul : simpl never.
Arguments Z.add : simpl never.
Arguments Z.pow : simpl never.
Arguments Z.sub : simpl never.
Arguments Z.of_nat : simpl never.

Lemma lor_1 v : 0 <= v -> Z.lor v 1 = 2 * (v / 2) + 1.
Proof.
  intros. apply Z.bits_inj'. intros n Hn. rewrite Z.lor_spec.
  destruct (Z.eq_dec n 0) as [->|].
  - rewrite Z.testbit_odd_0. now rewrite orb_true_r.
  - replace n with (Z.succ (n - 1)) by lia. rewrite Z.testbit_odd_succ by lia.
    rewrite Z.div2_bits by lia.
    replace (Z.testbit 1 (Z.succ (n - 1))) with false; [apply orb_false_r|].
    symmetry. apply (Z.bits_above_log2 1); cbn; lia.
Qed.

Lemma or1_spec m : words_ok m -> 0 < zlen m ->
  let m' := zupd 0 (Z.lor (znth 0 m) 1) m in
  val m' = 2 * (val m / 2) + 1 /\ words_ok m' /\ zlen m' = zlen m.
Proof.
  intros Hok Hl. destruct m as [|v t]; [rewrite zlen_nil in Hl; lia|]. cbv zeta. unfold zupd, znth. cbn [Z.to_nat upd nth].
  apply ok_cons in Hok as [Hv Ht]. rewrite lor_1 by lia. rewrite !val_cons, !zlen_cons. split; [|split; auto].
  - replace (2 ^ 64 * val t) with (2 ^ 63 * val t * 2) by (change (2 ^ 64) with (2 ^ 63 * 2); ring).
    rewrite Z_div_plus_full by lia. change (2 ^ 64) with (2 ^ 63 * 2). ring.
  - apply ok_cons; split; auto. change (2 ^ 64) with (2 * 2 ^ 63) in *. dlia.
Qed.

Lemma lor_sig_spec m : words_ok m -> 0 < zlen m -> val m < 2 ^ (64 * zlen m - 1) ->
  let m' := zupd (zlen m - 1) (Z.lor (znth (zlen m - 1) m) WORD_SIG) m in
  val m' = val m + 2 ^ (64 * zlen m - 1) /\ words_ok m' /\ zlen m' = zlen m.
Proof.
  intros Hok Hl Hv. cbv zeta.
  destruct (zsplit (zlen m - 1) m ltac:(lia)) as (L & v & H & E & HL).
  assert (H = []) as ->.
  { apply zlen_0_nil. pose proof (f_equal zlen E) as E'. rewrite zlen_app, zlen_cons in E'. lia. }
  set (n := zlen m) in *. rewrite E. rewrite znth_split, zupd_split by auto.
  rewrite E in Hok. apply ok_app in Hok as [HokL Hv']. apply ok_cons in Hv' as [Hv' _].
  assert (E2 : 2 ^ (64 * n - 1) = 2 ^ (64 * (n - 1)) * 2 ^ 63) by (rewrite <- Z.pow_add_r by lia; f_equal; lia).
  assert (Hsm : v < 2 ^ 63).
  { rewrite E, val_app, val_single, HL in Hv. pose proof (val_nonneg L HokL). pose proof (pow2_gt0 (64 * (n - 1)) ltac:(lia)). nia. }
  assert (Elor : Z.lor v WORD_SIG = v + 2 ^ 63).
  { rewrite Z.lor_comm, Z.add_comm. apply (lor_disjoint_add _ _ 63); try lia; reflexivity. }
  rewrite Elor. rewrite !val_app, !val_single, !zlen_app, !zlen_single, HL. split; [lia|]. split; [|lia].
  apply ok_app; split; auto. apply ok_cons; split; [lia|constructor].
Qed.

Lemma wlen_of_bits_64 P : wlen_of_bits (64 * P) = P.
Proof. unfold wlen_of_bits. dlia. Qed.

(** *** abs_add *)
Definition abs_add_core (w1 w2 : words) (P m2_shift : Z) (full_prec inexact : bool) : words * Z * bool :=
    if m2_shift =? 0 then
      let l := Z.max (zlen w1) (zlen w2) + 1 in
      (fst (add_words (right_shifted w1 1 (l - zlen w1) l)
                      (right_shifted w2 1 (l - zlen w2) l) 0), 1, inexact)
    else
      let l2 := (m2_shift + 62) / 64 in
      if (P <? l2) && (zlen w1 <? l2) && negb full_prec then
        let m3 :=
          if zlen w1 <=? P + 1 then zeros (P + 1 - zlen w1) ++ w1
          else zdrop (zlen w1 - (P + 1)) w1 in
        (zupd 0 (Z.lor (znth 0 m3) 1) m3, 0, true)
      else
        let l := Z.max (zlen w1) ((m2_shift + 63) / 64 + zlen w2) + 1 in
        let '(m3, c) :=
          add_words (extended_slice w1 (l - zlen w1))
                    (right_shifted w2 m2_shift (l - zlen w2) l) 0 in
        let m3 :=
          if 0 <? c then
            let m3 := shift_slice_right m3 1 in
            zupd (zlen m3 - 1) (Z.lor (znth (zlen m3 - 1) m3) WORD_SIG) m3
          else m3 in
        (m3, c, inexact).

Lemma m_abs_add_unfold m1 m2 p sh rm pos full ix :
  m_abs_add m1 m2 p sh rm pos full ix =
  let '(m3, c, ix) := abs_add_core (mm m1) (mm m2) (wlen_of_bits p) sh full ix in
  let '(m3, ovf, ix) := fit_words m3 (wlen_of_bits p) rm pos full ix in
  (if ovf : bool then - c - 1 else - c, mk_m m3 (64 * zlen m3), ix).
Proof.
  unfold m_abs_add, abs_add_core, mlen. reflexivity.
Qed.

Definition sticky_cond (P sh L1 : Z) (full : bool) : bool :=
  (P <? (sh + 62) / 64) && (L1 <? (sh + 62) / 64) && negb full.

Lemma length_zlen a b : zlen a = zlen b -> length a = length b.
Proof. unfold zlen; lia. Qed.

Lemma F2_plus s a b e : (F2 s a e + F2 s b e)%R = F2 s (a + b) e.
Proof. rewrite !F2R_sgn, plus_IZR. ring. Qed.

Lemma scaled_bounds V L k : 0 < L -> 0 <= k -> 2 ^ (64 * L - 1) <= V < 2 ^ (64 * L) ->
  2 ^ (64 * L - 1 + k) <= V * 2 ^ k < 2 ^ (64 * L + k).
Proof. intros. rewrite !Z.pow_add_r by lia. pose proof (pow2_gt0 k ltac:(lia)). nia. Qed.

Lemma pow_half k : 0 < k -> 2 ^ k = 2 * 2 ^ (k - 1).
Proof. intros. rewrite <- Z.pow_succ_r by lia. f_equal; lia. Qed.

Lemma mul_pow_half a k : 0 < k -> a * 2 ^ k = 2 * (a * 2 ^ (k - 1)).
Proof. intros. rewrite (pow_half k) by lia. ring. Qed.

Lemma mul_pow_div a k j : 0 <= j <= k -> a * 2 ^ k / 2 ^ j = a * 2 ^ (k - j).
Proof.
  intros. replace k with (k - j + j) at 1 by lia. rewrite Z.pow_add_r, Z.mul_assoc by lia.
  apply Z_div_mult. apply Z.lt_gt, pow2_gt0; lia.
Qed.

Lemma abs_add_exact w1 w2 P sh full ix s e : words_ok w1 -> words_ok w2 -> 0 < zlen w1 -> 0 < zlen w2 ->
  top_set w1 -> top_set w2 -> 0 <= sh -> sh = 0 \/ sticky_cond P sh (zlen w1) full = false ->
  let '(m3, c, ix') := abs_add_core w1 w2 P sh full ix in
  words_ok m3 /\ 0 < zlen m3 /\ top_set m3 /\ ix' = ix /\ 0 <= c <= 1 /\
  F2 s (val m3) (e + c - 64 * zlen m3) = (F2 s (val w1) (e - 64 * zlen w1) + F2 s (val w2) (e - sh - 64 * zlen w2))%R.
Proof.
  intros Ho1 Ho2 Hl1 Hl2 Ht1 Ht2 Hsh Hst. unfold abs_add_core, sticky_cond in *.
  pose proof (val_bound w1 Ho1) as Hb1. pose proof (val_bound w2 Ho2) as Hb2.
  set (L1 := zlen w1) in *. set (L2 := zlen w2) in *. unfold top_set in Ht1, Ht2. fold L1 in Ht1. fold L2 in Ht2.
  destruct (Z.eqb_spec sh 0) as [->|Hsh0].
  - set (l := Z.max L1 L2 + 1). assert (Hl : L1 < l /\ L2 < l) by plia. destruct Hl as [Hll1 Hll2]. clearbody l.
    destruct (right_shifted_spec w1 1 (l - L1) l Ho1 ltac:(plia) ltac:(plia) ltac:(fold L1; lia)) as (A1 & A2 & A3).
    destruct (right_shifted_spec w2 1 (l - L2) l Ho2 ltac:(plia) ltac:(plia) ltac:(fold L2; lia)) as (B1 & B2 & B3).
    destruct (add_words _ _ 0) as [r c] eqn:E.
    apply add_words_spec in E; auto; [|apply length_zlen; lia|plia]. destruct E as (E1 & E2 & E3 & E4). rewrite A3 in *.
    cbn [fst].
    rewrite A1, B1, !mul_pow_div in E1 by plia.
    pose proof (scaled_bounds _ L1 (64 * (l - L1) - 1) ltac:(plia) ltac:(plia) (conj Ht1 (proj2 Hb1))) as HA2.
    pose proof (scaled_bounds _ L2 (64 * (l - L2) - 1) ltac:(plia) ltac:(plia) (conj Ht2 (proj2 Hb2))) as HB2.
    replace (64 * L1 - 1 + (64 * (l - L1) - 1)) with (64 * l - 2) in HA2 by plia.
    replace (64 * L2 - 1 + (64 * (l - L2) - 1)) with (64 * l - 2) in HB2 by plia.
    replace (64 * L1 + (64 * (l - L1) - 1)) with (64 * l - 1) in HA2 by plia.
    replace (64 * L2 + (64 * (l - L2) - 1)) with (64 * l - 1) in HB2 by plia.
    pose proof (pow_half (64 * l) ltac:(plia)) as P1. pose proof (pow_half (64 * l - 1) ltac:(plia)) as P2.
    replace (64 * l - 1 - 1) with (64 * l - 2) in P2 by plia.
    pose proof (val_bound r E2) as Hbr. rewrite E3 in Hbr.
    assert (c = 0) as ->.
    { destruct (Z.eq_dec c 1) as [->|]; [|plia]. exfalso. clear -E1 HA2 HB2 P1 P2 Hbr. lia. }
    rewrite E3. rewrite Z.mul_0_r, !Z.add_0_r in E1.
    split; [auto|]. split; [plia|]. split; [unfold top_set; rewrite E3, E1; clear -HA2 HB2 P2; lia|]. split; [auto|]. split; [plia|].
    rewrite E1. rewrite <- F2_plus. rewrite !F2R_shift by plia. f2eq.
  - destruct Hst as [Hst|Hst]; [plia|]. rewrite Hst.
    set (l := Z.max L1 ((sh + 63) / 64 + L2) + 1).
    set (kb := 64 * (l - L2) - sh). assert (Hkb : 64 <= kb) by (unfold kb, l; clear; dlia).
    assert (Hl : L1 < l /\ L2 < l) by (unfold l; clear -Hsh; dlia). destruct Hl as [Hll1 Hll2].
    assert (Hkb2 : kb = 64 * (l - L2) - sh) by reflexivity. clearbody kb l.
    destruct (extended_slice_spec w1 (l - L1) Ho1 ltac:(plia)) as (A1 & A2 & A3).
    destruct (right_shifted_spec w2 sh (l - L2) l Ho2 ltac:(plia) ltac:(plia) ltac:(fold L2; lia)) as (B1 & B2 & B3).
    replace (l - L1 + zlen w1) with l in A3 by (fold L1; lia).
    destruct (add_words _ _ 0) as [r c] eqn:E.
    apply add_words_spec in E; auto; [|apply length_zlen; lia|plia]. destruct E as (E1 & E2 & E3 & E4). rewrite A3 in *.
    rewrite A1, B1, mul_pow_div in E1 by plia. rewrite <- Hkb2 in E1. rewrite (Z.mul_comm (2 ^ _) (val w1)) in E1. rewrite Z.add_0_r in E1.
    assert (Hsum : F2 s (val w1 * 2 ^ (64 * (l - L1)) + val w2 * 2 ^ kb) (e - 64 * l) =
       (F2 s (val w1) (e - 64 * L1) + F2 s (val w2) (e - sh - 64 * L2))%R).
    { rewrite <- F2_plus. rewrite !F2R_shift by plia. f2eq. }
    pose proof (scaled_bounds _ L1 (64 * (l - L1)) ltac:(plia) ltac:(plia) (conj Ht1 (proj2 Hb1))) as HA2.
    replace (64 * L1 - 1 + 64 * (l - L1)) with (64 * l - 1) in HA2 by plia.
    replace (64 * L1 + 64 * (l - L1)) with (64 * l) in HA2 by plia.
    pose proof (val_bound r E2) as Hbr. rewrite E3 in Hbr.
    pose proof (pow_half (64 * l) ltac:(plia)) as P1.
    assert (Hev : exists h, val w1 * 2 ^ (64 * (l - L1)) + val w2 * 2 ^ kb = 2 * h).
    { exists (val w1 * 2 ^ (64 * (l - L1) - 1) + val w2 * 2 ^ (kb - 1)).
      rewrite (mul_pow_half _ (64 * (l - L1))), (mul_pow_half _ kb) by plia. ring. }
    destruct Hev as (h & Hh).
    destruct (Z.ltb_spec 0 c) as [Hc|Hc].
    + assert (c = 1) as -> by plia. rewrite Hh in *. clear Hst.
      destruct (shift_slice_right_spec r 1 E2 ltac:(plia)) as (S1 & S2 & S3). change (2 ^ 1) with 2 in S1.
      assert (Hr2 : val r = (h - 2 ^ (64 * l - 1)) * 2) by (clear -E1 P1; lia).
      rewrite Hr2, Z_div_mult in S1 by plia.
      set (r2 := shift_slice_right r 1) in *.
      destruct (lor_sig_spec r2 S2 ltac:(plia)) as (T1 & T2 & T3). { rewrite S3, E3, S1. clear -Hr2 Hbr P1. lia. }
      cbv zeta. set (r3 := zupd _ _ r2) in *. rewrite T3, S3, E3. rewrite S3, E3, S1 in T1.
      assert (Hv : val r3 = h) by (clear -T1; lia).
      split; [auto|]. split; [plia|].
      split; [unfold top_set; rewrite T3, S3, E3, Hv; clear -Hr2 Hbr; lia|]. split; [auto|]. split; [plia|].
      rewrite Hv, <- Hsum. replace (2 * h) with (h * 2 ^ 1) by (clear; lia). rewrite F2R_shift by plia.
      f2eq.
    + assert (c = 0) as -> by plia. rewrite Z.mul_0_r, Z.add_0_r in E1. rewrite E3.
      assert (0 <= val w2 * 2 ^ kb) by (apply Z.mul_nonneg_nonneg; [apply Hb2|apply pow2_nonneg]).
      split; [auto|]. split; [plia|]. split; [unfold top_set; rewrite E3, E1; clear -HA2 H; lia|]. split; [auto|]. split; [plia|].
      rewrite E1, <- Hsum. f2eq.
Qed.

Lemma tiny_bound V L a : 0 < L -> 0 < V < 2 ^ (64 * L) -> (0 < IZR V * bpow radix2 (a - 64 * L) < bpow radix2 a)%R.
Proof.
  intros HL [H1 H2]. apply IZR_lt in H1, H2. rewrite <- bpow_IZR in H2 by lia.
  replace (bpow radix2 a) with (bpow radix2 (64 * L) * bpow radix2 (a - 64 * L))%R by (rewrite <- bpow_plus; f_equal; lia).
  pose proof (bpow_gt_0 radix2 (a - 64 * L)). split; [apply Rmult_lt_0_compat; lra|]. apply Rmult_lt_compat_r; auto.
Qed.

Lemma real_sum s V1 V2 e1 e2 k : (sgnR s * (IZR V1 * bpow radix2 (e1 - k) + IZR V2 * bpow radix2 (e2 - k)) * bpow radix2 k =
  F2 s V1 e1 + F2 s V2 e2)%R.
Proof.
  rewrite !F2R_sgn. replace (bpow radix2 e1) with (bpow radix2 (e1 - k) * bpow radix2 k)%R by (rewrite <- bpow_plus; f_equal; lia).
  replace (bpow radix2 e2) with (bpow radix2 (e2 - k) * bpow radix2 k)%R by (rewrite <- bpow_plus; f_equal; lia). ring.
Qed.

Lemma real_diff s V1 V2 e1 e2 k : (sgnR s * (IZR V1 * bpow radix2 (e1 - k) - IZR V2 * bpow radix2 (e2 - k)) * bpow radix2 k =
  F2 s V1 e1 - F2 s V2 e2)%R.
Proof.
  rewrite !F2R_sgn. replace (bpow radix2 e1) with (bpow radix2 (e1 - k) * bpow radix2 k)%R by (rewrite <- bpow_plus; f_equal; lia).
  replace (bpow radix2 e2) with (bpow radix2 (e2 - k) * bpow radix2 k)%R by (rewrite <- bpow_plus; f_equal; lia). ring.
Qed.

Lemma odd_cell X : 0 <= X -> let Y := 2 * (X / 2) + 1 in (X / 2 ^ 63) * 2 ^ 63 < Y < (X / 2 ^ 63 + 1) * 2 ^ 63.
Proof. intros. subst Y. change (2 ^ 63) with 9223372036854775808. dlia. Qed.

Lemma abs_add_sticky w1 w2 P sh full ix s e rm : words_ok w1 -> words_ok w2 -> 0 < zlen w1 -> 0 < zlen w2 ->
  top_set w1 -> top_set w2 -> 0 < sh -> 0 < P -> sticky_cond P sh (zlen w1) full = true ->
  let r := (F2 s (val w1) (e - 64 * zlen w1) + F2 s (val w2) (e - sh - 64 * zlen w2))%R in
  let '(m3, c, ix') := abs_add_core w1 w2 P sh full ix in
  words_ok m3 /\ 0 < zlen m3 /\ top_set m3 /\ ix' = true /\ c = 0 /\
  rnd_prec (64 * P) rm r = rnd_prec (64 * P) rm (F2 s (val m3) (e - 64 * zlen m3)) /\ rnd_prec (64 * P) rm r <> r.
Proof.
  intros Ho1 Ho2 Hl1 Hl2 Ht1 Ht2 Hsh HP Hst r. unfold abs_add_core. rewrite (proj2 (Z.eqb_neq sh 0)) by lia.
  unfold sticky_cond in Hst. rewrite Hst. cbv zeta.
  apply andb_prop in Hst as [Hst _]. apply andb_prop in Hst as [HsP HsL]. apply Z.ltb_lt in HsP, HsL.
  assert (HsP' : 64 * (P + 1) - 62 <= sh) by (clear -HsP; dlia). assert (HsL' : 64 * zlen w1 + 2 <= sh) by (clear -HsL; dlia).
  clear HsP HsL.
  pose proof (val_bound w1 Ho1) as Hb1. pose proof (val_bound w2 Ho2) as Hb2.
  pose proof (top_set_pos w1 Hl1 Ht1) as HV1. pose proof (top_set_pos w2 Hl2 Ht2) as HV2.
  unfold top_set in Ht1, Ht2. set (L1 := zlen w1) in *. set (L2 := zlen w2) in *. set (K := P + 1) in *.
  set (m0 := if L1 <=? K then zeros (K - L1) ++ w1 else zdrop (L1 - K) w1).
  pose proof (tiny_bound (val w2) L2 (64 * K - sh) Hl2 ltac:(clear -HV2 Hb2; lia)) as Hd.
  set (t := (IZR (val w1) * bpow radix2 (e - 64 * L1 - (e - 64 * K)) + IZR (val w2) * bpow radix2 (e - sh - 64 * L2 - (e - 64 * K)))%R).
  assert (Hm0 : words_ok m0 /\ zlen m0 = K /\ 2 ^ (64 * K - 1) <= val m0 < 2 ^ (64 * K) /\
     (IZR (val m0) < t < IZR ((val m0 / 2 ^ 63 + 1) * 2 ^ 63))%R).
  { unfold m0. destruct (Z.leb_spec L1 K) as [HLK|HLK].
    - destruct (extended_slice_spec w1 (K - L1) Ho1 ltac:(plia)) as (A1 & A2 & A3). unfold extended_slice in *. fold L1 in A3.
      split; [auto|]. split; [plia|]. rewrite A1, (Z.mul_comm _ (val w1)).
      pose proof (scaled_bounds _ L1 (64 * (K - L1)) ltac:(plia) ltac:(plia) (conj Ht1 (proj2 Hb1))) as HA2.
      replace (64 * L1 - 1 + 64 * (K - L1)) with (64 * K - 1) in HA2 by plia.
      replace (64 * L1 + 64 * (K - L1)) with (64 * K) in HA2 by plia.
      split; [exact HA2|].
      assert (Et : t = (IZR (val w1 * 2 ^ (64 * (K - L1))) + IZR (val w2) * bpow radix2 (64 * K - sh - 64 * L2))%R).
      { unfold t. rewrite mult_IZR, <- bpow_IZR by plia.
        replace (e - 64 * L1 - (e - 64 * K)) with (64 * (K - L1)) by plia.
        replace (e - sh - 64 * L2 - (e - 64 * K)) with (64 * K - sh - 64 * L2) by plia. reflexivity. }
      rewrite Et. split; [lra|].
      destruct (Z.eq_dec L1 K) as [EK|EK].
      + assert (bpow radix2 (64 * K - sh) <= 1)%R by (apply (bpow_le radix2 _ 0); plia).
        apply Rlt_le_trans with (IZR (val w1 * 2 ^ (64 * (K - L1)) + 1)); [rewrite plus_IZR; lra|]. apply IZR_le.
        clear. dlia.
      + assert (bpow radix2 (64 * K - sh) <= IZR (2 ^ 63))%R by (rewrite <- bpow_IZR by lia; apply bpow_le; plia).
        apply Rlt_le_trans with (IZR (val w1 * 2 ^ (64 * (K - L1)) + 2 ^ 63)); [rewrite plus_IZR; lra|]. apply IZR_le.
        rewrite mul_pow_div by plia.
        rewrite <- (Z.mul_1_l (2 ^ 63)) at 1. replace (64 * (K - L1)) with (64 * (K - L1) - 63 + 63) at 1 by plia.
        rewrite (Z.pow_add_r 2 _ 63) by plia. clear; lia.
    - assert (Hg : 0 <= 64 * (L1 - K)) by plia.
      pose proof (val_zdrop (L1 - K) w1 Ho1 ltac:(fold L1; plia)) as A1.
      split; [now apply ok_zdrop|]. split; [rewrite zlen_zdrop; fold L1; plia|]. rewrite A1. set (g := 64 * (L1 - K)) in *.
      pose proof (pow2_gt0 g Hg) as Hpg.
      assert (B1 : 2 ^ (64 * L1 - 1) = 2 ^ (64 * K - 1) * 2 ^ g) by (rewrite <- Z.pow_add_r by plia; f_equal; unfold g; plia).
      assert (B2 : 2 ^ (64 * L1) = 2 ^ (64 * K) * 2 ^ g) by (rewrite <- Z.pow_add_r by plia; f_equal; unfold g; plia).
      split. { split; [apply Z.div_le_lower_bound; [exact Hpg|]|apply Z.div_lt_upper_bound; [exact Hpg|]]; clear -B1 B2 Ht1 Hb1; lia. }
      pose proof (Z.div_mod (val w1) (2 ^ g) ltac:(clear -Hpg; lia)) as Hdm. pose proof (Z.mod_pos_bound (val w1) (2 ^ g) Hpg) as Hmb.
      set (X := val w1 / 2 ^ g) in *. set (f := val w1 mod 2 ^ g) in *. clearbody X f.
      assert (Et : t = (IZR X + IZR f * bpow radix2 (- g) + IZR (val w2) * bpow radix2 (64 * K - sh - 64 * L2))%R).
      { unfold t. rewrite Hdm, plus_IZR, mult_IZR, <- bpow_IZR by exact Hg.
        replace (e - 64 * L1 - (e - 64 * K)) with (- g) by (unfold g; plia).
        replace (e - sh - 64 * L2 - (e - 64 * K)) with (64 * K - sh - 64 * L2) by plia.
        rewrite Rmult_plus_distr_r. replace (bpow radix2 g * IZR X * bpow radix2 (- g))%R with (IZR X * (bpow radix2 g * bpow radix2 (- g)))%R by ring.
        rewrite <- bpow_plus. replace (g + - g) with 0 by lia. change (bpow radix2 0) with 1%R. ring. }
      assert (Hf : (0 <= IZR f * bpow radix2 (- g) <= 1 - bpow radix2 (- g))%R).
      { pose proof (bpow_gt_0 radix2 (- g)). split; [apply Rmult_le_pos; [apply IZR_le; apply Hmb|lra]|].
        replace 1%R with (bpow radix2 g * bpow radix2 (- g))%R by (rewrite <- bpow_plus; replace (g + - g) with 0 by lia; reflexivity).
        rewrite (bpow_IZR g) by exact Hg. rewrite <- (Rmult_1_l (bpow radix2 (- g))) at 3. rewrite <- Rmult_minus_distr_r.
        apply Rmult_le_compat_r; [lra|]. rewrite <- minus_IZR. apply IZR_le. clear -Hmb. lia. }
      assert (bpow radix2 (64 * K - sh) <= bpow radix2 (- g))%R by (apply bpow_le; unfold g; plia).
      rewrite Et. split; [lra|].
      apply Rlt_le_trans with (IZR (X + 1)); [rewrite plus_IZR; lra|]. apply IZR_le. clear. dlia. }
  destruct Hm0 as (M1 & M2 & M3 & M4). clearbody m0.
  assert (HK : 0 < K) by plia.
  destruct (or1_spec m0 M1 ltac:(plia)) as (Y1 & Y2 & Y3). set (m3 := zupd 0 _ m0) in *.
  pose proof (pow2_gt0 (64 * K - 1) ltac:(plia)) as Hp0.
  assert (Hev : exists h, 2 ^ (64 * K - 1) = 2 * h).
  { exists (2 ^ (64 * K - 1 - 1)). apply pow_half. plia. }
  pose proof (pow_half (64 * K) ltac:(plia)) as P1.
  assert (HYb : 2 ^ (64 * K - 1) <= val m3 < 2 ^ (64 * K)).
  { rewrite Y1. destruct Hev as [h Eh]. rewrite P1, Eh in *. clear -M3. dlia. }
  assert (HYbl : bitlen (val m3) = 64 * K) by (apply bitlen_unique; [plia|exact HYb]).
  split; [auto|]. split; [plia|]. split; [unfold top_set; rewrite Y3, M2; apply HYb|]. split; [auto|]. split; [auto|].
  pose proof (odd_cell (val m0) ltac:(clear -Hp0 M3; lia)) as Hcell. cbv zeta in Hcell. rewrite <- Y1 in Hcell.
  pose proof (round_sticky (64 * P) rm s t (val m3) (e - 64 * K) (val m0 / 2 ^ 63)) as RS. cbv zeta in RS.
  rewrite HYbl in RS. replace (64 * K - 64 * P - 1) with 63 in RS by (unfold K; clear; lia).
  unfold t in RS. rewrite real_sum in RS. fold r in RS. fold t in RS. rewrite Y3, M2.
  apply RS; [plia|unfold K; clear; lia|clear -HYb Hp0; lia| |exact Hcell].
  split; [|apply M4]. eapply Rle_lt_trans; [|apply M4]. apply IZR_le. clear -M3 Hp0. dlia.
Qed.

Theorem m_abs_add_spec m1 m2 P sh rm s ix e : words_ok (mm m1) -> words_ok (mm m2) -> 0 < zlen (mm m1) -> 0 < zlen (mm m2) ->
  top_set (mm m1) -> top_set (mm m2) -> 0 <= sh -> 0 < P ->
  let r := (F2 s (val (mm m1)) (e - 64 * zlen (mm m1)) + F2 s (val (mm m2)) (e - sh - 64 * zlen (mm m2)))%R in
  let '(c, m3, ix') := m_abs_add m1 m2 (64 * P) sh rm (is_pos s) false ix in
  words_ok (mm m3) /\ zlen (mm m3) = P /\ mn m3 = 64 * P /\ top_set (mm m3) /\
  F2 s (val (mm m3)) (e - c - 64 * P) = rnd_prec (64 * P) rm r /\
  (ix' = true <-> ix = true \/ rnd_prec (64 * P) rm r <> r).
Proof.
  intros Ho1 Ho2 Hl1 Hl2 Ht1 Ht2 Hsh HP r. rewrite m_abs_add_unfold, wlen_of_bits_64.
  destruct (sticky_cond P sh (zlen (mm m1)) false) eqn:Est.
  - assert (Hsh' : 0 < sh).
    { destruct (Z.eq_dec sh 0) as [->|]; [|lia]. unfold sticky_cond in Est. change ((0 + 62) / 64) with 0 in Est.
      destruct (Z.ltb_spec P 0); [lia|]. discriminate. }
    pose proof (abs_add_sticky (mm m1) (mm m2) P sh false ix s e rm Ho1 Ho2 Hl1 Hl2 Ht1 Ht2 Hsh' HP Est) as H.
    cbv zeta in H. fold r in H. destruct (abs_add_core _ _ _ _ _ _) as [[m3 c] ix']. destruct H as (A & B & C & -> & -> & D & E).
    pose proof (fit_words_spec m3 P rm s true e A B C HP) as F. destruct (fit_words _ _ _ _ _ _) as [[m4 ovf] ix4].
    destruct F as (F1 & F2' & F3 & F4 & F5). cbn [mm mn]. rewrite F2', D.
    split; [auto|]. split; [auto|]. split; [auto|]. split; [auto|]. split.
    + rewrite <- F4. destruct ovf; cbn [Z.b2z]; f2eq.
    + rewrite F5. rewrite D in E. tauto.
  - pose proof (abs_add_exact (mm m1) (mm m2) P sh false ix s e Ho1 Ho2 Hl1 Hl2 Ht1 Ht2 Hsh (or_intror Est)) as H.
    fold r in H. destruct (abs_add_core _ _ _ _ _ _) as [[m3 c] ix']. destruct H as (A & B & C & -> & Hc & D).
    pose proof (fit_words_spec m3 P rm s ix (e + c) A B C HP) as F. destruct (fit_words _ _ _ _ _ _) as [[m4 ovf] ix4].
    cbv zeta in F. rewrite D in F. destruct F as (F1 & F2' & F3 & F4 & F5). cbn [mm mn]. rewrite F2'.
    split; [auto|]. split; [auto|]. split; [auto|]. split; [auto|]. split; [|exact F5].
    rewrite <- F4. destruct ovf; cbn [Z.b2z]; f2eq.
Qed.

(** *** abs_sub *)
Lemma dec_words_false l : dec_words l false = l.
Proof. induction l; cbn; congruence. Qed.

Lemma dec_words_spec l : words_ok l -> 0 < val l ->
  val (dec_words l true) = val l - 1 /\ words_ok (dec_words l true) /\ zlen (dec_words l true) = zlen l.
Proof.
  induction l as [|a t IH]; intros Hok Hv. { rewrite val_nil in Hv; lia. }
  apply ok_cons in Hok as [Ha Ht]. rewrite val_cons in Hv. pose proof (val_nonneg t Ht). cbn [dec_words].
  destruct (Z.eqb_spec a 0) as [->|Hne].
  - destruct IH as (I1 & I2 & I3); auto; [lia|]. rewrite !val_cons, !zlen_cons, I1, I3. change WORD_MAX with (2 ^ 64 - 1).
    split; [lia|]. split; [|lia]. apply ok_cons; split; auto; lia.
  - rewrite dec_words_false, !val_cons, !zlen_cons. split; [lia|]. split; [|lia]. apply ok_cons; split; auto; lia.
Qed.

Definition abs_sub_core (w1 w2 : words) (P m2_shift : Z) (full_prec inexact : bool) : words * bool :=
    if (P <? (m2_shift + 62) / 64) && (zlen w1 <? (m2_shift + 62) / 64) && negb full_prec then
      let m3l := Z.max (zlen w1) P + 1 in
      (dec_words (extended_slice w1 (m3l - zlen w1)) true, true)
    else
      let l := Z.max (zlen w1) ((m2_shift + 63) / 64 + zlen w2) in
      (fst (sub_words (extended_slice w1 (l - zlen w1))
                      (right_shifted w2 m2_shift (l - zlen w2) l) 0), inexact).

Lemma m_abs_sub_unfold m1 m2 p sh rm pos full ix :
  m_abs_sub m1 m2 p sh rm pos full ix =
  let '(m3, ix) := abs_sub_core (mm m1) (mm m2) (wlen_of_bits p) sh full ix in
  let '(shift, m3) := maximize m3 in
  let '(m3, ovf, ix) := fit_words m3 (wlen_of_bits p) rm pos full ix in
  (if ovf : bool then shift - 1 else shift, mk_m m3 (64 * zlen m3), ix).
Proof.
  unfold m_abs_sub, abs_sub_core, mlen. reflexivity.
Qed.

Lemma F2_minus s a b e : (F2 s a e - F2 s b e)%R = F2 s (a - b) e.
Proof. rewrite !F2R_sgn, minus_IZR. ring. Qed.

(** The larger operand comes first. *)
Lemma abs_sub_exact w1 w2 P sh full ix s e : words_ok w1 -> words_ok w2 -> 0 < zlen w1 -> 0 < zlen w2 ->
  0 <= sh -> sticky_cond P sh (zlen w1) full = false ->
  (Rabs (F2 s (val w2) (e - sh - 64 * zlen w2)) < Rabs (F2 s (val w1) (e - 64 * zlen w1)))%R ->
  let '(m3, ix') := abs_sub_core w1 w2 P sh full ix in
  words_ok m3 /\ 0 < zlen m3 /\ 0 < val m3 /\ ix' = ix /\
  F2 s (val m3) (e - 64 * zlen m3) = (F2 s (val w1) (e - 64 * zlen w1) - F2 s (val w2) (e - sh - 64 * zlen w2))%R.
Proof.
  intros Ho1 Ho2 Hl1 Hl2 Hsh Hst Hlt. unfold abs_sub_core, sticky_cond in *. rewrite Hst. clear Hst.
  pose proof (val_nonneg w1 Ho1) as Hb1. pose proof (val_nonneg w2 Ho2) as Hb2.
  set (L1 := zlen w1) in *. set (L2 := zlen w2) in *. set (l := Z.max L1 ((sh + 63) / 64 + L2)).
  set (kb := 64 * (l - L2) - sh).
  assert (Hkb : 0 <= kb /\ L1 <= l /\ L2 <= l) by (unfold kb, l; clear -Hsh; dlia). destruct Hkb as (Hkb & Hll1 & Hll2).
  assert (Hkb2 : kb = 64 * (l - L2) - sh) by reflexivity. clearbody kb l.
  destruct (extended_slice_spec w1 (l - L1) Ho1 ltac:(plia)) as (A1 & A2 & A3).
  destruct (right_shifted_spec w2 sh (l - L2) l Ho2 ltac:(plia) ltac:(plia) ltac:(fold L2; plia)) as (B1 & B2 & B3).
  replace (l - L1 + zlen w1) with l in A3 by (fold L1; plia).
  destruct (sub_words _ _ 0) as [r c] eqn:E.
  apply sub_words_spec in E; auto; [|apply length_zlen; plia|plia]. destruct E as (E1 & E2 & E3 & E4). rewrite A3 in *.
  rewrite A1, B1, mul_pow_div in E1 by plia. rewrite <- Hkb2 in E1. rewrite (Z.mul_comm (2 ^ _) (val w1)) in E1. rewrite Z.sub_0_r in E1.
  assert (H1 : F2 s (val w1) (e - 64 * L1) = F2 s (val w1 * 2 ^ (64 * (l - L1))) (e - 64 * l)) by (rewrite F2R_shift by plia; f2eq).
  assert (H2 : F2 s (val w2) (e - sh - 64 * L2) = F2 s (val w2 * 2 ^ kb) (e - 64 * l)) by (rewrite F2R_shift by plia; f2eq).
  rewrite H1, H2, F2_minus. rewrite H1, H2 in Hlt.
  pose proof (pow2_nonneg kb). pose proof (pow2_nonneg (64 * (l - L1))).
  rewrite !F2_abs in Hlt by (apply Z.mul_nonneg_nonneg; auto).
  apply Rmult_lt_reg_r in Hlt; [|apply bpow_gt_0]. apply lt_IZR in Hlt.
  pose proof (val_bound r E2) as Hbr. rewrite E3 in Hbr.
  assert (c = 0) as ->.
  { destruct (Z.eq_dec c 1) as [->|]; [|plia]. exfalso. clear -E1 Hlt Hbr. lia. }
  rewrite Z.mul_0_r, Z.sub_0_r in E1. cbn [fst]. rewrite E3, E1.
  split; [auto|]. split; [plia|]. split; [clear -Hlt; lia|]. split; reflexivity.
Qed.

Lemma abs_sub_sticky w1 w2 P sh full ix s e rm : words_ok w1 -> words_ok w2 -> 0 < zlen w1 -> 0 < zlen w2 ->
  top_set w1 -> top_set w2 -> 0 <= sh -> 0 < P -> sticky_cond P sh (zlen w1) full = true ->
  let r := (F2 s (val w1) (e - 64 * zlen w1) - F2 s (val w2) (e - sh - 64 * zlen w2))%R in
  let '(m3, ix') := abs_sub_core w1 w2 P sh full ix in
  words_ok m3 /\ 0 < zlen m3 /\ 0 < val m3 /\ ix' = true /\
  rnd_prec (64 * P) rm r = rnd_prec (64 * P) rm (F2 s (val m3) (e - 64 * zlen m3)) /\ rnd_prec (64 * P) rm r <> r.
Proof.
  intros Ho1 Ho2 Hl1 Hl2 Ht1 Ht2 Hsh HP Hst r. unfold abs_sub_core.
  unfold sticky_cond in Hst. rewrite Hst. cbv zeta.
  apply andb_prop in Hst as [Hst _]. apply andb_prop in Hst as [HsP HsL]. apply Z.ltb_lt in HsP, HsL.
  set (K := Z.max (zlen w1) P + 1).
  assert (HsK : 64 * K - 62 <= sh) by (unfold K; clear -HsP HsL; dlia). assert (HK : zlen w1 < K /\ P < K) by (unfold K; plia).
  destruct HK as [HK1 HK2]. clearbody K. clear HsP HsL.
  pose proof (val_bound w1 Ho1) as Hb1. pose proof (val_bound w2 Ho2) as Hb2.
  pose proof (top_set_pos w1 Hl1 Ht1) as HV1. pose proof (top_set_pos w2 Hl2 Ht2) as HV2.
  unfold top_set in Ht1, Ht2. set (L1 := zlen w1) in *. set (L2 := zlen w2) in *.
  pose proof (tiny_bound (val w2) L2 (64 * K - sh) Hl2 ltac:(clear -HV2 Hb2; lia)) as Hd.
  assert (Hd62 : (bpow radix2 (64 * K - sh) <= IZR (2 ^ 62))%R) by (rewrite <- bpow_IZR by lia; apply bpow_le; plia).
  destruct (extended_slice_spec w1 (K - L1) Ho1 ltac:(plia)) as (A1 & A2 & A3). set (w := extended_slice w1 _) in *.
  replace (K - L1 + zlen w1) with K in A3 by (fold L1; plia).
  pose proof (scaled_bounds _ L1 (64 * (K - L1)) ltac:(plia) ltac:(plia) (conj Ht1 (proj2 Hb1))) as HA2.
  replace (64 * L1 - 1 + 64 * (K - L1)) with (64 * K - 1) in HA2 by plia.
  replace (64 * L1 + 64 * (K - L1)) with (64 * K) in HA2 by plia.
  rewrite (Z.mul_comm _ (val w1)) in A1. rewrite <- A1 in HA2.
  set (t := (IZR (val w1) * bpow radix2 (e - 64 * L1 - (e - 64 * K)) - IZR (val w2) * bpow radix2 (e - sh - 64 * L2 - (e - 64 * K)))%R).
  assert (Et : t = (IZR (val w) - IZR (val w2) * bpow radix2 (64 * K - sh - 64 * L2))%R).
  { unfold t. rewrite A1, mult_IZR, <- bpow_IZR by plia.
    replace (e - 64 * L1 - (e - 64 * K)) with (64 * (K - L1)) by plia.
    replace (e - sh - 64 * L2 - (e - 64 * K)) with (64 * K - sh - 64 * L2) by plia. reflexivity. }
  pose proof (Z.pow_le_mono_r 2 127 (64 * K - 1) ltac:(lia) ltac:(plia)) as H127. change (2 ^ 127) with (2 * 2 ^ 62 * 2 ^ 64) in H127.
  destruct (dec_words_spec w A2 ltac:(clear -H127 HA2; lia)) as (Y1 & Y2 & Y3). set (Y := dec_words w true) in *.
  rewrite Y3, A3.
  assert (Hmul : exists v, val w = v * 2 ^ 62).
  { exists (val w1 * 2 ^ (64 * (K - L1) - 62)). rewrite A1, <- Z.mul_assoc, <- Z.pow_add_r by plia. do 2 f_equal. plia. }
  destruct Hmul as [v Hv].
  assert (Hbl : 64 * K - 1 <= bitlen (val Y)).
  { apply Z.lt_pred_le. rewrite <- Z.sub_1_r. apply Z.nle_gt. intros Hc.
    pose proof (bitlen_spec (val Y) ltac:(clear -Y1 HA2 H127; lia)) as [_ B].
    pose proof (Z.pow_le_mono_r 2 _ _ ltac:(lia) Hc) as B2.
    pose proof (pow_half (64 * K - 1) ltac:(plia)) as P2. clear -B B2 P2 Y1 HA2 H127. lia. }
  set (d := bitlen (val Y) - 64 * P). assert (Hd1 : 62 <= d - 1) by (unfold d; plia).
  set (c := val Y / 2 ^ (d - 1)).
  pose proof (pow2_gt0 (d - 1) ltac:(plia)) as Hpd.
  assert (Hc2 : c * 2 ^ (d - 1) <= val w - 2 ^ 62 /\ val w <= (c + 1) * 2 ^ (d - 1)).
  { pose proof (Z.div_mod (val Y) (2 ^ (d - 1)) ltac:(clear -Hpd; lia)) as Hdm. pose proof (Z.mod_pos_bound (val Y) (2 ^ (d - 1)) Hpd) as Hmb.
    fold c in Hdm. split; [|clear -Hdm Hmb Y1; lia].
    assert (E62 : c * 2 ^ (d - 1) = (c * 2 ^ (d - 1 - 62)) * 2 ^ 62) by (rewrite <- Z.mul_assoc, <- Z.pow_add_r by plia; do 2 f_equal; lia).
    rewrite E62 in *. rewrite (Z.mul_comm (2 ^ (d - 1))), E62 in Hdm. set (u := c * 2 ^ (d - 1 - 62)) in *. clearbody u.
    clear -Hdm Hmb Y1 Hv. lia. }
  destruct Hc2 as [Hc1 Hc2].
  assert (0 < val Y) by (clear -Y1 HA2 H127; lia).
  split; [auto|]. split; [plia|]. split; [auto|]. split; [auto|].
  pose proof (round_sticky (64 * P) rm s t (val Y) (e - 64 * K) c) as RS. cbv zeta in RS. fold d in RS.
  unfold t in RS. rewrite real_diff in RS. fold r in RS. fold t in RS.
  apply RS; [plia|plia|exact H| |clear -Hc1 Hc2 Y1; lia].
  rewrite Et. apply IZR_le in Hc1, Hc2. rewrite minus_IZR in Hc1. lra.
Qed.

Theorem m_abs_sub_spec m1 m2 P sh rm s ix e : words_ok (mm m1) -> words_ok (mm m2) -> 0 < zlen (mm m1) -> 0 < zlen (mm m2) ->
  top_set (mm m1) -> top_set (mm m2) -> 0 <= sh -> 0 < P ->
  (Rabs (F2 s (val (mm m2)) (e - sh - 64 * zlen (mm m2))) < Rabs (F2 s (val (mm m1)) (e - 64 * zlen (mm m1))))%R ->
  let r := (F2 s (val (mm m1)) (e - 64 * zlen (mm m1)) - F2 s (val (mm m2)) (e - sh - 64 * zlen (mm m2)))%R in
  let '(c, m3, ix') := m_abs_sub m1 m2 (64 * P) sh rm (is_pos s) false ix in
  words_ok (mm m3) /\ zlen (mm m3) = P /\ mn m3 = 64 * P /\ top_set (mm m3) /\
  F2 s (val (mm m3)) (e - c - 64 * P) = rnd_prec (64 * P) rm r /\
  (ix' = true <-> ix = true \/ rnd_prec (64 * P) rm r <> r).
Proof.
  intros Ho1 Ho2 Hl1 Hl2 Ht1 Ht2 Hsh HP Hlt r. rewrite m_abs_sub_unfold, wlen_of_bits_64.
  assert (Hmax : forall m3 e, words_ok m3 -> 0 < zlen m3 -> 0 < val m3 -> exists sh m4, maximize m3 = (sh, m4) /\ words_ok m4 /\
     zlen m4 = zlen m3 /\ top_set m4 /\ F2 s (val m4) (e - sh - 64 * zlen m3) = F2 s (val m3) (e - 64 * zlen m3)).
  { intros m3 e' A B C. destruct (maximize_spec m3 A C) as (m' & M1 & M2 & M3 & M4 & M5 & M6). exists (64 * zlen m3 - bitlen (val m3)), m'.
    split; [auto|]. split; [auto|]. split; [auto|]. split; [unfold top_set; rewrite M5; apply M6|].
    rewrite M3, F2R_shift by auto. f2eq. }
  destruct (sticky_cond P sh (zlen (mm m1)) false) eqn:Est.
  - pose proof (abs_sub_sticky (mm m1) (mm m2) P sh false ix s e rm Ho1 Ho2 Hl1 Hl2 Ht1 Ht2 Hsh HP Est) as H.
    cbv zeta in H. fold r in H. destruct (abs_sub_core _ _ _ _ _ _) as [m3 ix']. destruct H as (A & B & C & -> & D & E).
    destruct (Hmax m3 e A B C) as (sh' & m3' & -> & A' & B' & C' & D'). rewrite <- D' in D.
    pose proof (fit_words_spec m3' P rm s true (e - sh') A' ltac:(lia) C' HP) as F. destruct (fit_words _ _ _ _ _ _) as [[m4 ovf] ix4].
    rewrite B' in F. destruct F as (F1 & F2' & F3 & F4 & F5). cbn [mm mn]. rewrite F2', D.
    split; [auto|]. split; [auto|]. split; [auto|]. split; [auto|]. split.
    + rewrite <- F4. destruct ovf; cbn [Z.b2z]; f2eq.
    + rewrite F5. rewrite D in E. tauto.
  - pose proof (abs_sub_exact (mm m1) (mm m2) P sh false ix s e Ho1 Ho2 Hl1 Hl2 Hsh Est Hlt) as H.
    fold r in H. destruct (abs_sub_core _ _ _ _ _ _) as [m3 ix']. destruct H as (A & B & C & -> & D).
    destruct (Hmax m3 e A B C) as (sh' & m3' & -> & A' & B' & C' & D'). rewrite <- D' in D.
    pose proof (fit_words_spec m3' P rm s ix (e - sh') A' ltac:(lia) C' HP) as F. destruct (fit_words _ _ _ _ _ _) as [[m4 ovf] ix4].
    cbv zeta in F. rewrite B', D in F. destruct F as (F1 & F2' & F3 & F4 & F5). cbn [mm mn]. rewrite F2'.
    split; [auto|]. split; [auto|]. split; [auto|]. split; [auto|]. split; [|exact F5].
    rewrite <- F4. destruct ovf; cbn [Z.b2z]; f2eq.
Qed.
