(** rem on BigFloatNumber: modular kernels of the mantissa and the three
    branches of the operation. *)

From Coq Require Import ZArith Reals List Bool Lia Lra.
From Flocq Require Import Core.
From Verif Require Import Words IntModel MulModel DivModel Mantissa Num SpecZ WordsP WordsP2 RoundP Spec SpecOps RealP RealP2 NumP CmpP AddP SetP AddNum IntP MulP MulP2 MulNum DivP DivP2.
Import ListNotations.
Open Scope Z_scope.
Ltac Zify.zify_post_hook ::= idtac.
Arguments Z.mul : simpl never.
Arguments Z.add : simpl never.
Arguments Z.pow : simpl never.
Arguments Z.sub : simpl never.
Arguments Z.of_nat : simpl never.

(** ** Mantissa kernels *)

Definition modulus (n : mantissa) : Prop := words_ok (mm n) /\ 1 <= zlen (mm n) /\ top_set (mm n).

Lemma modulus_div n : modulus n -> words_ok (mm n) /\ 1 <= zlen (mm n) /\ 2 ^ (64 * (zlen (mm n) - 1)) <= val (mm n) /\ 0 < val (mm n).
Proof.
  intros (A & B & C). unfold top_set in C. assert (2 ^ (64 * (zlen (mm n) - 1)) <= 2 ^ (64 * zlen (mm n) - 1)) by (apply Z.pow_le_mono_r; lia).
  pose proof (pow2_gt0 (64 * (zlen (mm n) - 1)) ltac:(lia)). repeat split; auto; lia.
Qed.

Lemma m_rem_spec a n : words_ok (mm a) -> modulus n -> exists r, m_rem a n = Ok r /\ words_ok (mm r) /\
  val (mm r) = val (mm a) mod val (mm n) /\ mn r = bitlen (val (mm r)) /\ zlen (mm r) <= zlen (mm a).
Proof.
  intros Ha Hn. destruct (modulus_div n Hn) as (N1 & N2 & N3 & N4).
  destruct (div_unbalanced_spec (mm a) (mm n) Ha N1 N2 N3) as (q & r & E & A1 & A2 & A3 & A4 & A5 & A6 & _).
  unfold m_rem. rewrite E. cbn [bind]. eexists. split; [reflexivity|]. cbn [mm mn]. split; [auto|].
  split; [|split; [now apply find_bit_len_spec|auto]].
  apply Z.mod_unique with (q := val q). { left. pose proof (val_nonneg r A4). lia. } rewrite A1. ring.
Qed.

Lemma m_mul_mod_spec a b n : words_ok (mm a) -> words_ok (mm b) -> modulus n -> exists r, m_mul_mod a b n = Ok r /\ words_ok (mm r) /\
  val (mm r) = (val (mm a) * val (mm b)) mod val (mm n) /\ mn r = bitlen (val (mm r)) /\
  (forall k, 0 <= k -> val (mm a) * val (mm b) < 2 ^ (64 * k) -> zlen (mm r) <= k).
Proof.
  intros Ha Hb Hn. destruct (modulus_div n Hn) as (N1 & N2 & N3 & N4). unfold m_mul_mod, mlen.
  destruct (mul_unbalanced_spec (mm a) (mm b) (zlen (mm a) + zlen (mm b)) Ha Hb ltac:(lia)) as (t & -> & T1 & T2 & T3). cbn [bind].
  destruct (trunc_leading_zeroes_spec t T2) as (B1 & B2 & B3 & B4 & B5). set (u := trunc_leading_zeroes t) in *.
  destruct (div_unbalanced_spec u (mm n) B2 N1 N2 N3) as (q & r & -> & A1 & A2 & A3 & A4 & A5 & A6 & _).
  cbn [bind]. eexists. split; [reflexivity|]. cbn [mm mn]. split; [auto|].
  split; [|split; [now apply find_bit_len_spec|]].
  - apply Z.mod_unique with (q := val q). { left. pose proof (val_nonneg r A4). lia. } rewrite <- T1, <- B1, A1. ring.
  - intros k Hk Hlt. rewrite <- T1 in Hlt. destruct (Z.eq_dec (val t) 0) as [Z0|Z0].
    + rewrite (B5 Z0) in A6. rewrite zlen_nil in A6. lia.
    + destruct (B4 Z0) as [C1 C2]. assert (2 ^ (64 * (zlen u - 1)) < 2 ^ (64 * k)) by lia.
      apply Z.pow_lt_mono_r_iff in H; lia.
Qed.

Lemma land_sig_ge i : 0 <= i < 2 ^ 64 -> negb (Z.land i WORD_SIG =? 0) = (2 ^ 63 <=? i).
Proof.
  intros Hi. rewrite wsig_val. assert (E : Z.land i (2 ^ 63) = (i / 2 ^ 63) * 2 ^ 63).
  { apply Z.bits_inj'. intros k Hk. rewrite Z.land_spec, Z.pow2_bits_eqb by lia.
    destruct (Z.lt_ge_cases k 63) as [H|H].
    - rewrite Z.mul_pow2_bits_low by lia. replace (63 =? k) with false by lia. apply andb_false_r.
    - rewrite Z.mul_pow2_bits by lia. rewrite Z.div_pow2_bits by lia. replace (k - 63 + 63) with k by lia.
      destruct (Z.eqb_spec 63 k); [apply andb_true_r|]. rewrite andb_false_r. symmetry.
      apply Z.bits_above_log2; [lia|]. destruct (Z.eq_dec i 0) as [->|]; [rewrite Z.log2_nonpos; lia|].
      assert (Z.log2 i < 64) by (apply Z.log2_lt_pow2; lia). lia. }
  rewrite E. change (2 ^ 64) with (2 * 2 ^ 63) in Hi. set (P := 2 ^ 63) in *. assert (0 < P) by reflexivity.
  destruct (Z.leb_spec P i) as [Hge|Hlt].
  - assert (i / P = 1) by (symmetry; apply Z.div_unique with (r := i - P); lia). rewrite H0. lia.
  - rewrite Z.div_small by lia. reflexivity.
Qed.

Lemma wshl1 i : 0 <= i < 2 ^ 64 -> wshl i 1 = (i * 2) mod 2 ^ 64.
Proof. intros. unfold wshl. rewrite Z.shiftl_mul_pow2 by lia. reflexivity. Qed.

(** The bits below the leading one bit of [i], moved to the top of the word. *)
Lemma pow_mod_skip_spec i : 0 < i -> forall b i0, Z.log2 i < Z.of_nat b -> Z.of_nat b <= 63 -> i0 = i * 2 ^ (63 - Z.of_nat b) -> 
  let k := Z.log2 i in
  pow_mod_skip (S b) i0 = (Z.to_nat k, (i mod 2 ^ k) * 2 ^ (64 - k)).
Proof.
  intros Hi. pose proof (Z.log2_nonneg i) as Hk0. destruct (Z.log2_spec i Hi) as [L1 L2]. cbv zeta. set (k := Z.log2 i) in *.
  rewrite <- Z.add_1_r in L2.
  induction b as [|b IH]; intros i0 Hb Hb' E; [lia|].
  set (B := Z.of_nat (S b)) in *. assert (EB : Z.of_nat b = B - 1) by lia.
  assert (P63 : 2 ^ (63 - B) * 2 = 2 ^ (64 - B)) by (replace (64 - B) with (63 - B + 1) by lia; rewrite Z.pow_add_r by lia; reflexivity).
  assert (U : i < 2 ^ B) by (eapply Z.lt_le_trans; [exact L2|apply Z.pow_le_mono_r; lia]).
  assert (S64 : 2 ^ B * 2 ^ (64 - B) = 2 ^ 64) by (rewrite <- Z.pow_add_r by lia; f_equal; lia).
  pose proof (pow2_gt0 (64 - B) ltac:(lia)) as G.
  assert (I1 : wshl i0 1 = i * 2 ^ (64 - B)).
  { rewrite wshl1.
    - rewrite E, <- Z.mul_assoc, P63. apply Z.mod_small. split; [nia|]. rewrite <- S64. apply Z.mul_lt_mono_pos_r; auto.
    - rewrite E. split. { pose proof (pow2_gt0 (63 - B) ltac:(lia)); nia. }
      apply Z.lt_trans with (i * 2 ^ (64 - B)). { rewrite <- P63. pose proof (pow2_gt0 (63 - B) ltac:(lia)); nia. }
      rewrite <- S64. apply Z.mul_lt_mono_pos_r; auto. }
  cbn [pow_mod_skip]. change (pow_mod_skip (S (S b)) i0) with
    (let i := wshl i0 1 in if negb (Z.land i WORD_SIG =? 0) then (pred (S b), wshl i 1) else pow_mod_skip (S b) i).
  cbv zeta. rewrite I1. assert (R : 0 <= i * 2 ^ (64 - B) < 2 ^ 64) by (rewrite <- S64; split; [nia|apply Z.mul_lt_mono_pos_r; auto]).
  rewrite land_sig_ge by exact R.
  destruct (Z.leb_spec (2 ^ 63) (i * 2 ^ (64 - B))) as [Hge|Hlt].
  - assert (Ek : k = B - 1).
    { assert (2 ^ (B - 1) * 2 ^ (64 - B) = 2 ^ 63) by (rewrite <- Z.pow_add_r by lia; f_equal; lia).
      assert (2 ^ (B - 1) <= i) by nia. assert (B - 1 < k + 1) by (apply (Z.pow_lt_mono_r_iff 2); lia). lia. }
    cbn [pred]. f_equal; [lia|]. rewrite wshl1 by exact R.
    replace (64 - k) with (64 - B + 1) by lia. rewrite Z.pow_add_r by lia. change (2 ^ 1) with 2.
    replace (2 ^ 64) with (2 ^ k * (2 ^ (64 - B) * 2)).
    2:{ change 2 with (2 ^ 1) at 3. rewrite <- !Z.pow_add_r by lia. f_equal. lia. }
    rewrite <- Z.mul_assoc. apply Zmult_mod_distr_r.
  - apply IH; [|lia|rewrite EB; f_equal; f_equal; lia].
    assert (2 ^ (B - 1) * 2 ^ (64 - B) = 2 ^ 63) by (rewrite <- Z.pow_add_r by lia; f_equal; lia).
    assert (i < 2 ^ (B - 1)) by nia. assert (k < B - 1) by (apply (Z.pow_lt_mono_r_iff 2); lia). lia.
Qed.

Lemma pow_mod_idemp u M k : 0 < M -> 0 <= k -> (u mod M) ^ k mod M = u ^ k mod M.
Proof.
  intros HM Hk. revert k Hk. apply natlike_ind; [reflexivity|]. intros k Hk IH. rewrite !Z.pow_succ_r by lia.
  rewrite Z.mul_mod_idemp_l by lia. rewrite <- Z.mul_mod_idemp_r, IH, Z.mul_mod_idemp_r by lia. reflexivity.
Qed.

Lemma pow_mod_loop_spec a n : words_ok (mm a) -> modulus n -> forall b i x t, words_ok (mm x) -> Z.of_nat b <= 64 ->
  0 <= t < 2 ^ Z.of_nat b -> i = t * 2 ^ (64 - Z.of_nat b) ->
  exists r, pow_mod_loop b i x a n = Ok r /\ words_ok (mm r) /\
    val (mm r) mod val (mm n) = (val (mm x) ^ (2 ^ Z.of_nat b) * val (mm a) ^ t) mod val (mm n) /\
    (0 < Z.of_nat b \/ val (mm x) < val (mm n) -> val (mm r) < val (mm n)).
Proof.
  intros Ha Hn. destruct (modulus_div n Hn) as (N1 & N2 & N3 & N4). set (M := val (mm n)) in *.
  induction b as [|b IH]; intros i x t Hx Hb Ht Ei.
  - cbn [pow_mod_loop]. exists x. split; [reflexivity|]. split; [auto|].
    change (2 ^ Z.of_nat 0) with 1 in *. assert (t = 0) by lia. subst t. rewrite Z.pow_1_r, Z.pow_0_r, Z.mul_1_r. split; [auto|]. intros [|]; [lia|auto].
  - set (B := Z.of_nat (S b)) in *. assert (EB : Z.of_nat b = B - 1) by lia.
    assert (S64 : 2 ^ B * 2 ^ (64 - B) = 2 ^ 64) by (rewrite <- Z.pow_add_r by lia; f_equal; lia).
    assert (S63 : 2 ^ (B - 1) * 2 ^ (64 - B) = 2 ^ 63) by (rewrite <- Z.pow_add_r by lia; f_equal; lia).
    pose proof (pow2_gt0 (64 - B) ltac:(lia)) as G. pose proof (pow2_gt0 (B - 1) ltac:(lia)) as G1.
    assert (PB : 2 ^ B = 2 * 2 ^ (B - 1)) by (replace B with (B - 1 + 1) at 1 by lia; rewrite Z.pow_add_r by lia; change (2 ^ 1) with 2; ring).
    assert (R : 0 <= i < 2 ^ 64) by (rewrite <- S64, Ei; split; [nia|apply Z.mul_lt_mono_pos_r; lia]).
    cbn [pow_mod_loop].
    destruct (m_mul_mod_spec x x n Hx Hx Hn) as (x1 & -> & X1 & X2 & _ & _). cbn [bind].
    rewrite land_sig_ge by exact R. fold M in X2.
    set (hb := 2 ^ 63 <=? i).
    assert (Et : t = Z.b2z hb * 2 ^ (B - 1) + t mod 2 ^ (B - 1) /\ (hb = true <-> 2 ^ (B - 1) <= t)).
    { unfold hb. rewrite Ei, <- S63. destruct (Z.leb_spec (2 ^ (B - 1) * 2 ^ (64 - B)) (t * 2 ^ (64 - B))) as [H|H].
      - assert (2 ^ (B - 1) <= t) by nia. split; [|tauto]. cbn [Z.b2z].
        replace (t mod 2 ^ (B - 1)) with (t - 2 ^ (B - 1)); [lia|]. apply Z.mod_unique with (q := 1); [left; lia|lia].
      - assert (t < 2 ^ (B - 1)) by nia. split; [|split; [discriminate|lia]]. rewrite Z.mod_small by lia. cbn [Z.b2z]. lia. }
    destruct Et as [Et _]. pose proof (Z.mod_pos_bound t (2 ^ (B - 1)) G1) as Tb. set (t' := t mod 2 ^ (B - 1)) in *.
    assert (X3 : exists x2, (if hb then m_mul_mod x1 a n else Ok x1) = Ok x2 /\ words_ok (mm x2) /\
      val (mm x2) = (val (mm x) * val (mm x) * val (mm a) ^ Z.b2z hb) mod M).
    { destruct hb.
      - destruct (m_mul_mod_spec x1 a n X1 Ha Hn) as (x2 & -> & Y1 & Y2 & _ & _). exists x2. split; [auto|]. split; [auto|].
        rewrite Y2, X2. fold M. cbn [Z.b2z]. rewrite Z.pow_1_r. apply Z.mul_mod_idemp_l. lia.
      - exists x1. split; [auto|]. split; [auto|]. cbn [Z.b2z]. rewrite Z.pow_0_r, Z.mul_1_r. auto. }
    destruct X3 as (x2 & E2 & Y1 & Y2). rewrite E2. cbn [bind].
    assert (W : wshl i 1 = t' * 2 ^ (64 - Z.of_nat b)).
    { rewrite wshl1 by exact R. rewrite EB. replace (64 - (B - 1)) with (64 - B + 1) by lia. rewrite Z.pow_add_r by lia. change (2 ^ 1) with 2.
      rewrite Ei. replace (2 ^ 64) with (2 ^ (B - 1) * (2 ^ (64 - B) * 2)) by (rewrite <- S64, PB; ring).
      rewrite <- Z.mul_assoc. unfold t'. apply Zmult_mod_distr_r. }
    destruct (IH (wshl i 1) x2 t' Y1 ltac:(lia) ltac:(rewrite EB; exact Tb) W) as (r & Er & R1 & R2 & R3).
    exists r. split; [exact Er|]. split; [auto|]. split.
    + rewrite R2, EB, Y2. set (vx := val (mm x)) in *. set (va := val (mm a)) in *.
      rewrite Et. rewrite Z.pow_add_r by (destruct hb; cbn [Z.b2z]; lia).
      rewrite (Z.pow_mul_r va) by (destruct hb; cbn [Z.b2z]; lia).
      rewrite PB, (Z.pow_mul_r vx) by lia. rewrite Z.mul_assoc, <- Z.pow_mul_l, Z.pow_2_r.
      rewrite <- Z.mul_mod_idemp_l by lia. rewrite <- (Z.mul_mod_idemp_l (_ ^ _)) by lia. f_equal. f_equal.
      apply pow_mod_idemp; lia.
    + intros _. apply R3. right. rewrite Y2. apply Z.mod_pos_bound. lia.
Qed.

Lemma m_pow_mod_spec a i n : words_ok (mm a) -> modulus n -> 1 < i < 2 ^ 63 -> exists r, m_pow_mod a i n = Ok r /\ words_ok (mm r) /\
  val (mm r) = val (mm a) ^ i mod val (mm n).
Proof.
  intros Ha Hn Hi. pose proof (Z.log2_nonneg i) as K0. destruct (Z.log2_spec i ltac:(lia)) as [L1 L2].
  assert (K : Z.log2 i < 63) by (apply Z.log2_lt_pow2; lia).
  assert (K1 : 0 < Z.log2 i) by (apply Z.log2_pos; lia).
  unfold m_pow_mod. change 64%nat with (S 63).
  rewrite (pow_mod_skip_spec i ltac:(lia) 63%nat i); [|change (Z.of_nat 63) with 63; lia|change (Z.of_nat 63) with 63; lia|].
  2:{ change (Z.of_nat 63) with 63. change (2 ^ (63 - 63)) with 1. ring. }
  set (k := Z.log2 i) in *. pose proof (pow2_gt0 k K0) as G. pose proof (Z.mod_pos_bound i (2 ^ k) G) as Mb.
  assert (Ek : Z.of_nat (Z.to_nat k) = k) by lia.
  destruct (pow_mod_loop_spec a n Ha Hn (Z.to_nat k) ((i mod 2 ^ k) * 2 ^ (64 - k)) a (i mod 2 ^ k) Ha ltac:(lia)) as (r & E & R1 & R2 & R3);
    [rewrite Ek; exact Mb|rewrite Ek; reflexivity|].
  exists r. split; [exact E|]. split; [auto|]. rewrite Ek in *.
  destruct (modulus_div n Hn) as (_ & _ & _ & N4). pose proof (val_nonneg (mm r) R1) as Rn.
  rewrite <- Z.pow_add_r in R2 by lia. replace (2 ^ k + i mod 2 ^ k) with i in R2.
  - rewrite <- R2. symmetry. apply Z.mod_small. split; [auto|]. apply R3. left. auto.
  - rewrite Z.pow_succ_r in L2 by lia. clear R2. replace (i mod 2 ^ k) with (i - 2 ^ k); [lia|]. apply Z.mod_unique with (q := 1); [left; lia|lia].
Qed.

Lemma m_pow2_spec m i : words_ok (mm m) -> mn m = bitlen (val (mm m)) -> 0 <= i ->
  words_ok (mm (m_pow2 m i)) /\ val (mm (m_pow2 m i)) = val (mm m) * 2 ^ i /\
  zlen (mm (m_pow2 m i)) <= Z.max (zlen (mm m)) ((mn m + i + 63) / 64).
Proof.
  intros Hm Hb Hi. unfold m_pow2, max_bit_len, mlen. cbn [mm].
  pose proof (val_nonneg (mm m) Hm) as V0.
  set (w := if _ <? _ then _ else _).
  assert (W : words_ok w /\ val w = val (mm m) /\ zlen w <= Z.max (zlen (mm m)) ((mn m + i + 63) / 64) /\ mn m + i <= 64 * zlen w).
  { unfold w. destruct (Z.ltb_spec (64 * zlen (mm m)) (mn m + i)) as [H|H].
    - destruct (try_extend_2_spec (mm m) (mn m + i) Hm) as (A & B & C). repeat split; auto; [lia|]. rewrite C.
      assert (mn m + i <= 64 * ((mn m + i + 63) / 64)) by (clear; Z.div_mod_to_equations; lia). lia.
    - repeat split; auto; lia. }
  destruct W as (W1 & W2 & W3 & W4). split; [now apply shift_slice_left_ok|]. split.
  - rewrite shift_slice_left_exact; auto; [now rewrite W2|]. rewrite W2.
    assert (val (mm m) < 2 ^ mn m).
    { destruct (Z.eq_dec (val (mm m)) 0) as [->|]. { apply pow2_gt0. rewrite Hb. unfold bitlen. destruct (_ =? _); [lia|]. pose proof (Z.log2_nonneg (val (mm m))). lia. }
      rewrite Hb. apply bitlen_spec. lia. }
    assert (0 <= mn m). { rewrite Hb. unfold bitlen. destruct (_ =? _); [lia|]. pose proof (Z.log2_nonneg (val (mm m))). lia. }
    apply Z.lt_le_trans with (2 ^ (mn m + i)); [|apply Z.pow_le_mono_r; lia].
    rewrite Z.pow_add_r by lia. apply Z.mul_lt_mono_pos_r; [apply pow2_gt0; lia|lia].
  - now rewrite shift_slice_left_len.
Qed.

Lemma m_extend_spec m d : modulus m -> mn m = 64 * zlen (mm m) -> 0 <= d ->
  let m' := m_set_length m (64 * zlen (mm m) + d) in
  exists k, 0 <= k /\ d <= 64 * k < d + 64 /\ modulus m' /\ zlen (mm m') = zlen (mm m) + k /\ val (mm m') = val (mm m) * 2 ^ (64 * k).
Proof.
  intros (A & B & C) Hn Hd. cbv zeta. unfold m_set_length, mlen. rewrite wlen_of_bits_eq by lia.
  set (l := zlen (mm m)) in *. exists ((64 * l + d + 63) / 64 - l).
  assert (E : 64 * l + d <= 64 * ((64 * l + d + 63) / 64) < 64 * l + d + 64) by (clear; Z.div_mod_to_equations; lia).
  set (sz := (64 * l + d + 63) / 64) in *. split; [lia|]. split; [lia|].
  replace (sz <? l) with false by lia.
  assert (Top : forall w, zlen w = sz -> val w = val (mm m) * 2 ^ (64 * (sz - l)) -> top_set w).
  { intros w Lw Vw. unfold top_set in *. rewrite Lw, Vw. fold l in C. replace (64 * sz - 1) with ((64 * l - 1) + 64 * (sz - l)) by lia.
    rewrite Z.pow_add_r by lia. apply Z.mul_le_mono_nonneg_r; [|exact C]. pose proof (pow2_gt0 (64 * (sz - l)) ltac:(lia)). lia. }
  destruct (Z.ltb_spec l sz) as [H|H].
  - destruct (try_extend_spec (mm m) (64 * l + d) A ltac:(fold l sz; lia)) as (T1 & T2 & T3). fold l in T1. fold sz in T1, T3. cbn [mm].
    split; [|split; [lia|auto]]. unfold modulus. cbn [mm]. split; [auto|]. split; [lia|]. now apply Top.
  - replace (sz - l) with 0 by lia. change (2 ^ (64 * 0)) with 1. split; [|split; [fold l; lia|lia]]. split; [auto|]. split; [auto|auto].
Qed.

(** ** The exact remainder over the reals *)

Lemma sgnR_sq s : (sgnR s * sgnR s = 1)%R.
Proof. destruct (sgnR_cases s) as [-> | ->]; ring. Qed.

Lemma rem_real_scaled s1 s2 A B g : 0 <= A -> 0 < B ->
  rem_real (F2R (Float radix2 (sgnZ s1 * A) g)) (F2R (Float radix2 (sgnZ s2 * B) g)) = F2R (Float radix2 (sgnZ s1 * (A mod B)) g).
Proof.
  intros HA HB. unfold rem_real. rewrite !F2R_sgn. pose proof (bpow_gt_0 radix2 g) as G. pose proof (IZR_lt _ _ HB) as RB.
  assert (E : (sgnR s1 * IZR A * bpow radix2 g / (sgnR s2 * IZR B * bpow radix2 g) = sgnR s1 * sgnR s2 * (IZR A / IZR B))%R).
  { destruct (sgnR_cases s2) as [-> | ->]; field; lra. }
  rewrite E. assert (T : (IZR (Ztrunc (sgnR s1 * sgnR s2 * (IZR A / IZR B))) = sgnR s1 * sgnR s2 * IZR (A / B))%R).
  { assert (P : (0 <= IZR A / IZR B)%R) by (unfold Rdiv; apply Rmult_le_pos; [now apply IZR_le|left; now apply Rinv_0_lt_compat]).
    assert (T0 : Ztrunc (IZR A / IZR B) = A / B) by (rewrite Ztrunc_floor by auto; apply Zfloor_div; lia).
    assert (C : (sgnR s1 * sgnR s2 = 1 \/ sgnR s1 * sgnR s2 = -1)%R) by (destruct (sgnR_cases s1) as [-> | ->]; destruct (sgnR_cases s2) as [-> | ->]; lra).
    destruct C as [-> | ->]; [rewrite !Rmult_1_l; now rewrite T0|].
    replace (-1 * (IZR A / IZR B))%R with (- (IZR A / IZR B))%R by ring. rewrite Ztrunc_opp, T0, opp_IZR. ring. }
  rewrite T. assert (D : A = B * (A / B) + A mod B) by (apply Z.div_mod; lia).
  apply (f_equal IZR) in D. rewrite plus_IZR, mult_IZR in D. rewrite D at 1.
  replace (sgnR s1 * sgnR s2 * IZR (A / B) * (sgnR s2 * IZR B * bpow radix2 g))%R with
    ((sgnR s2 * sgnR s2) * (sgnR s1 * IZR (A / B) * IZR B * bpow radix2 g))%R by ring. rewrite sgnR_sq. ring.
Qed.

Lemma rem_real_small x y : (Rabs x < Rabs y)%R -> rem_real x y = x.
Proof.
  intros H. unfold rem_real. assert (Hy : (y <> 0)%R) by (intros ->; rewrite Rabs_R0 in H; pose proof (Rabs_pos x); lra).
  assert (B : (Rabs (x / y) < 1)%R).
  { unfold Rdiv. rewrite Rabs_mult, Rabs_inv. apply Rabs_pos_lt in Hy. apply Rmult_lt_reg_r with (Rabs y); auto.
    rewrite Rmult_assoc, Rinv_l by lra. lra. }
  replace (Ztrunc (x / y)) with 0; [ring|]. symmetry. apply Rabs_def2 in B. destruct (Rle_or_lt 0 (x / y)).
  - rewrite Ztrunc_floor by auto. apply Zfloor_imp. change (0 + 1) with 1. lra.
  - rewrite Ztrunc_ceil by lra. apply Zceil_imp. change (0 - 1) with (-1). lra.
Qed.

(** ** The closure finalize *)

Lemma rem_finalize_spec s ix m g k : words_ok (mm m) -> mn m = bitlen (val (mm m)) -> zlen (mm m) <= k -> 64 * k < P_LIM ->
  g + mn m <= EMAX ->
  exists q, rem_finalize s ix m (g + mn m) = Ok q /\ wf q /\ ns q = s /\ ninexact q = ix /\ wlen q <= k /\
    let r := F2R (Float radix2 (sgnZ s * val (mm m)) g) in
    (val (mm m) = 0 -> magnitude q = 0) /\
    ((bpow radix2 (EMIN - 1) <= Rabs r)%R -> value q = r /\ normal q) /\
    ((Rabs r < bpow radix2 (EMIN - 1))%R -> magnitude q = 0).
Proof.
  intros Hok Hb Hk Hlim He. unfold rem_finalize. cbv zeta. pose proof (val_nonneg _ Hok) as V0. pose proof (zlen_nonneg (mm m)) as Zn.
  assert (E1 : EMIN = - 2147483648) by reflexivity. assert (E2 : EMAX = 2147483647) by reflexivity.
  destruct (Z.ltb_spec 0 (mn m)) as [Hp|Hp].
  2:{ assert (V : val (mm m) = 0). { apply bitlen_0_iff; auto. destruct (Z.eq_dec (val (mm m)) 0) as [->|]; [reflexivity|]. pose proof (bitlen_pos (val (mm m)) ltac:(lia)). lia. }
      eexists. split; [reflexivity|]. cbn [ns ninexact]. rewrite V, Z.mul_0_r, F2R_0, Rabs_R0. unfold magnitude, wlen. cbn [nm].
      split. { constructor; unfold magnitude, wlen; cbn [nm ne]; auto; try lia. }
      pose proof (bpow_gt_0 radix2 (EMIN - 1)) as G. split; [auto|]. split; [auto|]. split; [lia|]. split; [auto|]. split; [intros H; lra|auto]. }
  assert (V : 0 < val (mm m)). { destruct (Z.eq_dec (val (mm m)) 0) as [Z0|]; [|lia]. rewrite Z0 in Hb. cbn in Hb. lia. }
  replace (EXPONENT_MAX <? g + mn m) with false by lia.
  set (r := F2R _).
  assert (Ge : forall j, (bpow radix2 j <= Rabs r)%R <-> j < mn m + g) by (intros j; apply (F2_ge s (val (mm m)) g j (mn m) V (eq_sym Hb))).
  assert (Lt : forall j, (Rabs r < bpow radix2 j)%R <-> mn m + g <= j) by (intros j; apply (F2_lt s (val (mm m)) g j (mn m) V (eq_sym Hb))).
  destruct (Z.ltb_spec (g + mn m) EXPONENT_MIN) as [Hu|Hu].
  - replace (-1 <? _) with true by lia. eexists. split; [reflexivity|]. cbn [ns ninexact].
    assert (M0 : val (mm (m_set_zero m)) = 0 /\ words_ok (mm (m_set_zero m)) /\ zlen (mm (m_set_zero m)) = zlen (mm m) /\ mn (m_set_zero m) = 0).
    { unfold m_set_zero, mlen. cbn [mm mn]. rewrite val_zeros, zlen_zeros by auto. repeat split; auto using ok_zeros. }
    destruct M0 as (M1 & M2 & M3 & M4).
    split. { constructor; unfold magnitude, wlen; cbn [nm ne]; auto; try lia. rewrite M1, M4. reflexivity. }
    unfold magnitude, wlen. cbn [nm]. split; [auto|]. split; [auto|]. split; [lia|]. split; [auto|]. split; [|auto].
    intros H. apply Ge in H. exfalso. lia.
  - destruct (maximize_spec (mm m) Hok V) as (w & Ew & W0 & W1 & W2 & W3 & W4). unfold m_normilize2. rewrite Ew. cbn [snd].
    eexists. split; [reflexivity|]. cbn [ns ninexact]. unfold max_bit_len, mlen.
    assert (Bw : bitlen (val w) = 64 * zlen (mm m)).
    { assert (zlen (mm m) <> 0). { intros Z0. destruct (mm m); [rewrite val_nil in V; lia|]. rewrite zlen_cons in Z0. pose proof (zlen_nonneg l). lia. }
      apply bitlen_unique; lia. }
    split. { constructor; unfold magnitude, wlen; cbn [nm ne mm mn]; auto; try lia. }
    split; [auto|]. split; [auto|]. unfold wlen at 1. cbn [nm mm]. split; [lia|]. split; [intros; lia|]. split.
    + intros _. split.
      * unfold value, magnitude, wlen. cbn [nm mm ns ne]. rewrite W1, W3, F2R_shift by auto. unfold r. do 2 f_equal. lia.
      * unfold normal, nonzero, magnitude, wlen. cbn [nm mm mn]. rewrite W3. split; [auto|]. pose proof (pow2_gt0 (64 * zlen (mm m) - bitlen (val (mm m))) W0). nia.
    + intros H. apply Lt in H. exfalso. lia.
Qed.

(** ** The operation *)

Lemma value_zero_mag q : magnitude q = 0 -> value q = 0%R.
Proof. intros H. unfold value. rewrite H, Z.mul_0_r. apply F2R_0. Qed.

Lemma rem_finish x y m g k s2 A B : words_ok (mm m) -> mn m = bitlen (val (mm m)) -> zlen (mm m) <= k -> 64 * k < P_LIM ->
  g + mn m <= EMAX -> 0 <= A -> 0 < B -> value x = F2R (Float radix2 (sgnZ (ns x) * A) g) -> value y = F2R (Float radix2 (sgnZ s2 * B) g) ->
  val (mm m) = A mod B ->
  exists q, rem_finalize (ns x) (ninexact x || ninexact y) m (g + mn m) = Ok q /\ rem_post x y q k.
Proof.
  intros H1 H2 H3 H4 H5 HA HB Ex Ey Em.
  destruct (rem_finalize_spec (ns x) (ninexact x || ninexact y) m g k H1 H2 H3 H4 H5) as (q & E & W & S & I & L & Z0 & N & U).
  exists q. split; [exact E|]. unfold rem_post. cbv zeta. rewrite Ex, Ey, rem_real_scaled, <- Em by auto. rewrite <- Ex, <- Ey.
  split; [auto|]. split; [auto|]. split; [auto|]. split.
  { destruct (Rle_or_lt (bpow radix2 (EMIN - 1)) (Rabs (F2R (Float radix2 (sgnZ (ns x) * val (mm m)) g)))) as [H|H];
      [left; now apply N|right; apply value_zero_mag; now apply U]. }
  split.
  { intros R0. apply value_zero_mag. apply U. rewrite R0, Rabs_R0. apply bpow_gt_0. }
  split; [intros H; now apply N|]. split; [intros _ H; apply value_zero_mag; now apply U|].
  rewrite I. split; [destruct (ninexact x), (ninexact y); cbn; auto|]. split; [intros ->; reflexivity|auto].
Qed.

Lemma norm_small M d : 0 <= M < 2 ^ d -> 0 <= d -> bitlen M <= d.
Proof. intros. now apply bitlen_le. Qed.

Lemma two_pow2 d : 1 <= d -> let p := m_pow2 (mk_m [2] 2) (d - 1) in words_ok (mm p) /\ val (mm p) = 2 ^ d.
Proof.
  intros Hd. cbv zeta. destruct (m_pow2_spec (mk_m [2] 2) (d - 1)) as (A & B & _); cbn [mm mn].
  - repeat constructor; lia.
  - reflexivity.
  - lia.
  - split; [auto|]. rewrite B. cbn [mm]. change (val [2]) with (2 ^ 1). rewrite <- Z.pow_add_r by lia. f_equal. lia.
Qed.

Theorem rem_nonzero x y : wf x -> wf y -> nonzero x -> nonzero y ->
  let k := Z.max (wlen x + 1) (2 * wlen y) in 64 * k < P_LIM ->
  exists q, n_rem x y = Ok q /\ rem_post x y q k.
Proof.
  intros Wx Wy Nx Ny k Hk. unfold n_rem. rewrite (is_zero_false y Wy Ny), (is_zero_false x Wx Nx).
  destruct (nonzero_bits x Wx Nx) as (Mx & Bx & Lx). destruct (nonzero_bits y Wy Ny) as (My & By & Ly).
  pose proof (wf_words x Wx) as Okx. pose proof (wf_bits x Wx) as Bitx. pose proof (wf_exp x Wx) as Ex.
  destruct (normalize_spec y Wy Ny) as (m2 & -> & O2 & L2 & N2 & T2 & V2). cbn [bind].
  pose proof (norm_exp_range y Wy Ny) as Ny'. unfold max_bit_len, mlen. fold (wlen x). rewrite L2.
  assert (Mod2 : modulus m2) by (unfold modulus; repeat split; auto; lia).
  destruct (modulus_div m2 Mod2) as (_ & _ & _ & P2). pose proof (val_bound (mm m2) O2) as VB2. rewrite L2 in VB2.
  assert (Vx : value x = F2R (Float radix2 (sgnZ (ns x) * magnitude x) (ne x - 64 * wlen x))) by reflexivity.
  set (e1 := ne x - 64 * wlen x) in *. set (e2 := norm_exp y - 64 * wlen y) in *. set (M1 := magnitude x) in *. set (M2 := val (mm m2)) in *.
  assert (EP : P_LIM = 4611686016279904255) by reflexivity.
  assert (E1 : EMIN = - 2147483648) by reflexivity. assert (E2 : EMAX = 2147483647) by reflexivity.
  destruct (Z.ltb_spec e2 e1) as [Hd|Hd].
  - (* the dividend is reduced modulo the divisor *)
    set (d := e1 - e2) in *.
    assert (PW : exists pw, (if 64 * wlen y <=? d then m_pow_mod (mk_m [2] 2) d m2 else Ok (m_pow2 (mk_m [2] 2) (d - 1))) = Ok pw /\
      words_ok (mm pw) /\ val (mm pw) mod M2 = 2 ^ d mod M2 /\ val (mm pw) < 2 ^ (64 * wlen y)).
    { destruct (Z.leb_spec (64 * wlen y) d) as [H|H].
      - destruct (m_pow_mod_spec (mk_m [2] 2) d m2) as (pw & -> & A & B); [cbn [mm]; repeat constructor; lia|auto|unfold d, e1, e2 in *; change (2 ^ 63) with 9223372036854775808; lia|].
        exists pw. split; [auto|]. split; [auto|]. fold M2 in B. cbn [mm] in B. change (val [2]) with 2 in B. rewrite B.
        rewrite Z.mod_mod by lia. split; [auto|]. pose proof (Z.mod_pos_bound (2 ^ d) M2 P2). lia.
      - eexists. split; [reflexivity|]. destruct (two_pow2 d ltac:(unfold d; lia)) as [A B]. split; [auto|]. rewrite B. split; [auto|].
        apply Z.pow_lt_mono_r; lia. }
    destruct PW as (pw & -> & PW1 & PW2 & PW3). cbn [bind].
    destruct (m_rem_spec (nm x) m2 Okx Mod2) as (m3 & -> & R1 & R2 & R3 & R4). cbn [bind]. fold M1 M2 in R2. change (val (mm (nm x))) with M1 in R2.
    destruct (m_mul_mod_spec m3 pw m2 R1 PW1 Mod2) as (m4 & -> & Q1 & Q2 & Q3 & Q4). cbn [bind]. fold M2 in Q2.
    pose proof (Z.mod_pos_bound M1 M2 P2) as MB.
    assert (Q5 : val (mm m4) = (M1 * 2 ^ d) mod M2).
    { rewrite Q2, R2. rewrite Z.mul_mod_idemp_l by lia. rewrite <- Z.mul_mod_idemp_r, PW2, Z.mul_mod_idemp_r by lia. reflexivity. }
    assert (Q6 : zlen (mm m4) <= k).
    { assert (zlen (mm m4) <= 2 * wlen y); [|unfold k; lia]. apply Q4; [lia|]. rewrite R2.
      replace (64 * (2 * wlen y)) with (64 * wlen y + 64 * wlen y) by lia. rewrite Z.pow_add_r by lia.
      pose proof (val_nonneg _ PW1). apply Z.mul_lt_mono_nonneg; lia. }
    assert (Q7 : e2 + mn m4 <= EMAX).
    { rewrite Q3. assert (bitlen (val (mm m4)) <= 64 * wlen y); [|unfold e2; lia]. apply norm_small; [|lia]. rewrite Q5.
      pose proof (Z.mod_pos_bound (M1 * 2 ^ d) M2 P2). lia. }
    eapply (rem_finish x y m4 e2 k (ns y) (M1 * 2 ^ d) M2); auto.
    + pose proof (pow2_gt0 d ltac:(unfold d; lia)). nia.
    + rewrite Vx. rewrite F2R_shift by (unfold d; lia). do 2 f_equal. unfold d. lia.
  - destruct (Z.ltb_spec (mn (nm x) + ne x) (mn m2 + norm_exp y)) as [Hs|Hs].
    + (* smaller than the divisor *)
      exists x. split; [reflexivity|].
      assert (Sm : (Rabs (value x) < Rabs (value y))%R).
      { destruct (norm_bounds x Wx Nx) as [_ BX]. destruct (norm_bounds y Wy Ny) as [BY _].
        eapply Rlt_le_trans; [exact BX|]. eapply Rle_trans; [|exact BY]. apply bpow_le. unfold e1, e2, norm_exp in *. lia. }
      unfold rem_post. cbv zeta. rewrite (rem_real_small _ _ Sm).
      split; [auto|]. split; [auto|]. split; [unfold k; lia|]. split; [auto|]. split; [auto|]. split; [auto|]. split; [intros; lra|]. split; [auto|]. split; [auto|intros; lra].
    + (* the divisor is extended *)
      set (d := e2 - e1) in *. assert (N2' : mn m2 = 64 * zlen (mm m2)) by lia.
      destruct (m_extend_spec m2 d Mod2 N2' ltac:(unfold d; lia)) as (j & J0 & J1 & J2 & J3 & J4). rewrite L2 in *.
      set (m2' := m_set_length m2 (64 * wlen y + d)) in *. rewrite J3. fold M2 in J4.
      destruct (modulus_div m2' J2) as (Oy' & _ & _ & P2'). set (pad := 64 * (wlen y + j) - (64 * wlen y + d)) in *.
      assert (Pad : 0 <= pad < 64) by (unfold pad; lia).
      assert (M3 : exists m3, (if 64 * wlen y + d <? 64 * (wlen y + j) then m_rem (m_pow2 (nm x) pad) m2' else m_rem (nm x) m2') = Ok m3 /\
        words_ok (mm m3) /\ val (mm m3) = (M1 * 2 ^ pad) mod val (mm m2') /\ mn m3 = bitlen (val (mm m3)) /\ zlen (mm m3) <= k).
      { destruct (Z.ltb_spec (64 * wlen y + d) (64 * (wlen y + j))) as [H|H].
        - destruct (m_pow2_spec (nm x) pad Okx Bitx ltac:(lia)) as (A1 & A2 & A3).
          destruct (m_rem_spec (m_pow2 (nm x) pad) m2' A1 J2) as (m3 & E & R1 & R2 & R3 & R4). exists m3. split; [exact E|].
          split; [auto|]. split; [rewrite R2, A2; reflexivity|]. split; [auto|].
          assert ((mn (nm x) + pad + 63) / 64 <= wlen x + 1) by (clear - Bx Pad; Z.div_mod_to_equations; lia).
          fold (wlen x) in A3. unfold k. lia.
        - assert (pad = 0) by (unfold pad; lia). rewrite H0. rewrite Z.pow_0_r, Z.mul_1_r.
          destruct (m_rem_spec (nm x) m2' Okx J2) as (m3 & E & R1 & R2 & R3 & R4). exists m3. split; [exact E|].
          split; [auto|]. split; [auto|]. split; [auto|]. fold (wlen x) in R4. unfold k. lia. }
      destruct M3 as (m3 & -> & Q1 & Q2 & Q3 & Q4). cbn [bind].
      replace (e1 + mn m3 - 64 * (wlen y + j) + (64 * wlen y + d)) with ((e1 - pad) + mn m3) by (unfold pad; lia).
      pose proof (Z.mod_pos_bound (M1 * 2 ^ pad) (val (mm m2')) P2') as MB.
      pose proof (val_bound (mm m2') Oy') as VB. rewrite J3 in VB.
      eapply (rem_finish x y m3 (e1 - pad) k (ns y) (M1 * 2 ^ pad) (val (mm m2'))); auto.
      * rewrite Q3. assert (bitlen (val (mm m3)) <= 64 * (wlen y + j)) by (apply norm_small; lia). unfold pad, d, e2 in *. lia.
      * pose proof (pow2_gt0 pad ltac:(lia)). nia.
      * rewrite Vx, F2R_shift by lia. do 2 f_equal. lia.
      * rewrite J4, V2, F2R_shift by lia. fold e2. do 2 f_equal. unfold pad, d. lia.
Qed.

Theorem rem_total x y : wf x -> wf y -> nonzero y ->
  let k := Z.max (wlen x + 1) (2 * wlen y) in 64 * k < P_LIM ->
  exists q, n_rem x y = Ok q /\ rem_post x y q k.
Proof.
  intros Wx Wy Ny k Hk. destruct (Z.eq_dec (magnitude x) 0) as [Z0|Nz]; [|now apply rem_nonzero].
  exists x. unfold n_rem. rewrite (is_zero_false y Wy Ny), (is_zero_spec x Wx), Z0. cbn. split; [reflexivity|].
  unfold rem_post. cbv zeta. pose proof (value_zero_mag x Z0) as V. rewrite V.
  destruct (norm_bounds y Wy Ny) as [BY _]. pose proof (bpow_gt_0 radix2 (norm_exp y - 1)) as G.
  rewrite rem_real_small by (rewrite Rabs_R0; lra). rewrite Rabs_R0.
  split; [auto|]. split; [auto|]. split; [unfold k; lia|]. split; [auto|]. split; [auto|]. split; [auto|]. split; [intros; lra|]. split; [auto|]. split; [auto|intros; lra].
Qed.

(** The remainder is below the divisor, has the sign of the dividend and differs from it by a multiple of the divisor. *)
Lemma rem_real_props x y : (y <> 0)%R ->
  (Rabs (rem_real x y) < Rabs y)%R /\ (Rabs (rem_real x y) <= Rabs x)%R /\ (0 <= rem_real x y * x)%R.
Proof.
  intros Hy. unfold rem_real. set (t := (x / y)%R). assert (Ex : x = (t * y)%R) by (unfold t; field; auto).
  assert (F : (Rabs (t - IZR (Ztrunc t)) < 1)%R /\ (Rabs (t - IZR (Ztrunc t)) <= Rabs t)%R /\ (0 <= (t - IZR (Ztrunc t)) * t)%R).
  { destruct (Rle_or_lt 0 t) as [H|H].
    - rewrite Ztrunc_floor by auto. pose proof (Zfloor_lb t). pose proof (Zfloor_ub t).
      assert (0 <= IZR (Zfloor t))%R by (apply IZR_le; apply Zfloor_lub; auto).
      rewrite !Rabs_pos_eq by lra. repeat split; try lra. apply Rmult_le_pos; lra.
    - rewrite Ztrunc_ceil by lra. pose proof (Zceil_ub t). assert (IZR (Zceil t) - 1 < t)%R.
      { unfold Zceil. rewrite opp_IZR. pose proof (Zfloor_ub (- t)). lra. }
      assert (IZR (Zceil t) <= 0)%R by (apply IZR_le; apply Zceil_glb; lra).
      rewrite !Rabs_left1 by lra. repeat split; try lra.
      replace ((t - IZR (Zceil t)) * t)%R with ((IZR (Zceil t) - t) * - t)%R by ring. apply Rmult_le_pos; lra. }
  destruct F as (F1 & F2 & F3). rewrite Ex.
  replace (t * y - IZR (Ztrunc t) * y)%R with ((t - IZR (Ztrunc t)) * y)%R by ring. rewrite !Rabs_mult.
  pose proof (Rabs_pos_lt y Hy) as Py. split; [nra|]. split; [nra|].
  replace ((t - IZR (Ztrunc t)) * y * (t * y))%R with (((t - IZR (Ztrunc t)) * t) * (y * y))%R by ring.
  apply Rmult_le_pos; [auto|]. nra.
Qed.
