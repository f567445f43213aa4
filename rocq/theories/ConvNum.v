(** Constructors and raw access on BigFloatNumber: integers, f64, words, raw
    parts, exponent, extreme values. *)

From Coq Require Import ZArith Reals List Bool Lia Lra.
From Flocq Require Import Core.
From Verif Require Import Words IntModel MulModel DivModel Mantissa Num SpecZ WordsP WordsP2 RoundP Spec SpecOps RealP RealP2 NumP CmpP AddP SetP AddNum IntP MulP MulP2 MulNum DivP DivP2 DivNum ArithTop RemNum IntNum.
Import ListNotations.
Open Scope Z_scope.
Ltac Zify.zify_post_hook ::= idtac.
Arguments Z.mul : simpl never.
Arguments Z.add : simpl never.
Arguments Z.pow : simpl never.
Arguments Z.sub : simpl never.
Arguments Z.of_nat : simpl never.

(** A number made of a left-justified mantissa. *)
Lemma make_normal w s e ix : words_ok w -> 0 < zlen w -> 64 * zlen w < P_LIM -> top_set w -> EMIN <= e <= EMAX ->
  let q := mk_num (mk_m w (64 * zlen w)) s e ix in
  wf q /\ normal q /\ wlen q = zlen w /\ value q = F2R (Float radix2 (sgnZ s * val w) (e - 64 * zlen w)).
Proof.
  intros Ok L Lim T He. cbv zeta. pose proof (top_set_bitlen w Ok L T) as B. pose proof (top_set_pos w L T) as P.
  split. { constructor; unfold magnitude, wlen; cbn [nm mm mn ne]; auto; lia. }
  unfold normal, nonzero, magnitude, wlen. cbn [nm mm mn]. repeat split; auto; lia.
Qed.

Lemma p_assertion_ok p : p < P_LIM -> p_assertion p = Ok tt.
Proof. intros. unfold p_assertion. replace (P_LIM <=? p) with false by lia. reflexivity. Qed.

Lemma prec_up_ge p : 0 <= p -> p <= prec_up p < p + 64 /\ prec_up p = 64 * wlen_of_bits p.
Proof. intros. rewrite wlen_of_bits_eq by auto. unfold prec_up. dlia. Qed.

(** zeros followed by one normalised word *)
Lemma top_word_words l d : 0 < l -> 2 ^ 63 <= d < 2 ^ 64 -> let w := zeros (l - 1) ++ [d] in
  words_ok w /\ zlen w = l /\ top_set w /\ val w = d * 2 ^ (64 * (l - 1)).
Proof.
  intros Hl Hd. cbv zeta. assert (L : zlen (zeros (l - 1) ++ [d]) = l) by (rewrite zlen_app, zlen_zeros, zlen_single by lia; lia).
  assert (V : val (zeros (l - 1) ++ [d]) = d * 2 ^ (64 * (l - 1))) by (rewrite val_zeros_app, val_single by lia; ring).
  split. { apply ok_app. split; [apply ok_zeros|]. apply ok_cons. split; [lia|constructor]. }
  split; [auto|]. split; [|auto]. unfold top_set. rewrite L, V. replace (64 * l - 1) with (63 + 64 * (l - 1)) by lia. rewrite Z.pow_add_r by lia.
  apply Z.mul_le_mono_nonneg_r; [|lia]. pose proof (pow2_gt0 (64 * (l - 1)) ltac:(lia)). lia.
Qed.

Lemma norm_word d : 0 < d < 2 ^ 64 -> wshl d (clz d) = d * 2 ^ (63 - Z.log2 d) /\ 2 ^ 63 <= d * 2 ^ (63 - Z.log2 d) < 2 ^ 64 /\ 0 <= Z.log2 d <= 63.
Proof.
  intros Hd. pose proof (Z.log2_nonneg d). assert (Z.log2 d < 64) by (apply Z.log2_lt_pow2; lia). rewrite clz_spec by lia.
  destruct (Z.log2_spec d ltac:(lia)) as [A B]. rewrite <- Z.add_1_r in B. set (k := 63 - Z.log2 d). pose proof (pow2_gt0 k ltac:(lia)) as G.
  assert (R : 2 ^ 63 <= d * 2 ^ k < 2 ^ 64).
  { replace (2 ^ 63) with (2 ^ Z.log2 d * 2 ^ k) by (rewrite <- Z.pow_add_r by lia; f_equal; lia).
    replace (2 ^ 64) with (2 ^ (Z.log2 d + 1) * 2 ^ k) by (rewrite <- Z.pow_add_r by lia; f_equal; lia).
    split; [apply Z.mul_le_mono_pos_r; auto|apply Z.mul_lt_mono_pos_r; auto]. }
  split; [|split; [auto|lia]]. unfold wshl. rewrite Z.shiftl_mul_pow2 by lia. change WORD_BASE with (2 ^ 64). apply Z.mod_small. lia.
Qed.

Lemma m_from_word_spec p d : 0 < p -> 0 < d < 2 ^ 64 -> let l := wlen_of_bits p in
  m_from_word p d = Ok (mk_m (zeros (l - 1) ++ [d * 2 ^ (63 - Z.log2 d)]) (64 * l)) /\ 0 < l.
Proof.
  intros Hp Hd. cbv zeta. unfold m_from_word. assert (0 < wlen_of_bits p) by (rewrite wlen_of_bits_eq by lia; dlia).
  replace (wlen_of_bits p =? 0) with false by lia. replace (0 <? d) with true by lia. destruct (norm_word d Hd) as (-> & _). auto.
Qed.

Lemma F2R_exact s d k j : 0 <= j -> j + k = 0 -> F2R (Float radix2 (sgnZ s * (d * 2 ^ j)) k) = IZR (sgnZ s * d).
Proof. intros Hj E. rewrite F2R_shift by auto. replace (k + j) with 0 by lia. unfold F2R. cbn [Fnum Fexp]. change (bpow radix2 0) with 1%R. ring. Qed.

Lemma zero_exact p res : 0 <= p -> prec_up p < P_LIM -> res = n_new p -> exact_pos p 0 res.
Proof.
  intros Hp HP ->. destruct (prec_up_ge p Hp) as [A B]. unfold n_new. rewrite p_assertion_ok by lia. cbn [bind].
  destruct (zero_m_new (wlen_of_bits p) Pos false) as (C & D & E); [rewrite wlen_of_bits_eq by lia; dlia|lia|].
  replace (m_new (64 * wlen_of_bits p)) with (m_new p) in * by (unfold m_new; now rewrite wlen_of_bits_64).
  eexists. split; [reflexivity|]. split; [exact C|]. split; [rewrite D; auto|]. split; [auto|]. split; [auto|]. now apply value_zero.
Qed.

Theorem from_word_spec d p : 0 <= d < 2 ^ 64 -> 0 < p -> prec_up p < P_LIM -> exact_pos p d (from_word d p).
Proof.
  intros Hd Hp HP. destruct (prec_up_ge p ltac:(lia)) as [A B]. unfold from_word. rewrite p_assertion_ok by lia. cbn [bind].
  destruct (Z.eqb_spec d 0) as [->|Nd]; [apply zero_exact; auto; lia|].
  destruct (norm_word d ltac:(lia)) as (-> & R & K). set (d' := d * 2 ^ (63 - Z.log2 d)) in *.
  assert (L' : Z.log2 d' = 63) by (apply Z.log2_unique; [lia|]; change (Z.succ 63) with 64; lia).
  destruct (m_from_word_spec p d' Hp ltac:(pose proof (pow2_gt0 63); lia)) as [-> Ll]. cbn [bind]. rewrite L'. change (2 ^ (63 - 63)) with 1. rewrite Z.mul_1_r.
  destruct (top_word_words (wlen_of_bits p) d' Ll R) as (W1 & W2 & W3 & W4). rewrite clz_spec by lia.
  assert (E1 : EMIN = - 2147483648) by reflexivity. assert (E2 : EMAX = 2147483647) by reflexivity.
  destruct (make_normal _ Pos (64 - (63 - Z.log2 d)) false W1 ltac:(lia) ltac:(lia) W3 ltac:(lia)) as (N1 & N2 & N3 & N4). rewrite W2 in *.
  eexists. split; [reflexivity|]. split; [exact N1|]. split; [lia|]. split; [auto|]. split; [auto|]. rewrite N4, W4.
  unfold d'. rewrite <- Z.mul_assoc, <- Z.pow_add_r by lia. rewrite F2R_exact by lia. cbn [sgnZ]. now rewrite Z.mul_1_l.
Qed.

Theorem from_uint_spec sz u p : 0 < sz -> 0 <= u < 2 ^ 64 -> prec_up p < P_LIM ->
  (p < sz -> from_uint sz u p = Err InvalidArgument) /\ (sz <= p -> exact_pos p u (from_uint sz u p)).
Proof.
  intros Hs Hu HP. unfold from_uint. split; intros H.
  - now replace (p <? sz) with true by lia.
  - replace (p <? sz) with false by lia. apply from_word_spec; auto; lia.
Qed.

Lemma wf_set_sign x s : wf x -> wf (set_sign x s).
Proof. intros [A B C D E F]. constructor; auto. Qed.

Lemma value_set_sign x s : value (set_sign x s) = (IZR (sgnZ s) * IZR (sgnZ (ns x)) * value x)%R.
Proof.
  unfold value, set_sign, magnitude, wlen. cbn [nm ns ne]. rewrite !F2R_sgn. unfold sgnR. destruct s, (ns x); cbn [sgnZ]; ring.
Qed.

Lemma exact_signed p i res : exact_pos p (Z.abs i) res ->
  exact_int p i (do r <- res; Ok (set_sign r (if i <? 0 then Neg else Pos))).
Proof.
  intros (q & -> & Q1 & Q2 & Q3 & Q4 & Q5). cbn [bind]. eexists. split; [reflexivity|]. split; [now apply wf_set_sign|].
  split; [exact Q2|]. split; [auto|]. split; [|reflexivity]. rewrite value_set_sign, Q3, Q5. cbn [sgnZ]. rewrite Rmult_1_r, <- mult_IZR. f_equal.
  destruct (Z.ltb_spec i 0); cbn [sgnZ]; lia.
Qed.

Theorem from_int_spec sz i p : 0 < sz -> - 2 ^ 63 <= i < 2 ^ 63 -> prec_up p < P_LIM ->
  (p < sz -> from_int sz i p = Err InvalidArgument) /\ (sz <= p -> exact_int p i (from_int sz i p)).
Proof.
  intros Hs Hu HP. unfold from_int. destruct (from_uint_spec sz (Z.abs i) p Hs) as [A B]; [change (2 ^ 64) with (2 * 2 ^ 63); lia|auto|]. split; intros H.
  - rewrite (A H). reflexivity.
  - apply exact_signed. auto.
Qed.

Lemma clz128_spec f : forall v, 0 < v < 2 ^ 128 -> 127 - Z.log2 v < Z.of_nat f -> clz128_loop f v = (127 - Z.log2 v, v * 2 ^ (127 - Z.log2 v)).
Proof.
  induction f as [|f IH]; intros v Hv Hf.
  - assert (Z.log2 v < 128) by (apply Z.log2_lt_pow2; lia). lia.
  - cbn [clz128_loop]. change 170141183460469231731687303715884105727 with (2 ^ 127 - 1).
    change 340282366920938463463374607431768211456 with (2 ^ 128). pose proof (Z.log2_nonneg v).
    destruct (Z.leb_spec v (2 ^ 127 - 1)) as [H1|H1].
    + assert (Z.log2 v < 127) by (apply Z.log2_lt_pow2; lia).
      assert (E : Z.shiftl v 1 mod 2 ^ 128 = v * 2). { rewrite Z.shiftl_mul_pow2 by lia. change (2 ^ 1) with 2. apply Z.mod_small. change (2 ^ 128) with (2 * 2 ^ 127). lia. }
      rewrite E. assert (L : Z.log2 (v * 2) = Z.log2 v + 1). { change 2 with (2 ^ 1) at 1. rewrite Z.log2_mul_pow2 by lia. lia. }
      rewrite IH; [|change (2 ^ 128) with (2 * 2 ^ 127); lia|lia]. rewrite L. f_equal; [lia|].
      replace (127 - Z.log2 v) with (1 + (127 - (Z.log2 v + 1))) by lia. rewrite Z.pow_add_r by lia. change (2 ^ 1) with 2. ring.
    + assert (L : Z.log2 v = 127) by (apply Z.log2_unique; [lia|]; change (Z.succ 127) with 128; lia). rewrite L. change (2 ^ (127 - 127)) with 1. f_equal; lia.
Qed.

Theorem from_u128_spec v p : 0 <= v < 2 ^ 128 -> prec_up p < P_LIM ->
  (p < 128 -> from_u128 v p = Err InvalidArgument) /\ (128 <= p -> exact_pos p v (from_u128 v p)).
Proof.
  intros Hv HP. unfold from_u128. split; intros H; [now replace (p <? 128) with true by lia|]. replace (p <? 128) with false by lia.
  destruct (prec_up_ge p ltac:(lia)) as [A B]. rewrite p_assertion_ok by lia. cbn [bind].
  destruct (Z.eqb_spec v 0) as [->|Nv]; [apply zero_exact; auto; lia|].
  rewrite clz128_spec; [|lia|change (Z.of_nat 128) with 128; pose proof (Z.log2_nonneg v); lia].
  pose proof (Z.log2_nonneg v) as K0. assert (K1 : Z.log2 v < 128) by (apply Z.log2_lt_pow2; lia).
  destruct (Z.log2_spec v ltac:(lia)) as [L1 L2]. rewrite <- Z.add_1_r in L2. set (k := 127 - Z.log2 v) in *. pose proof (pow2_gt0 k ltac:(lia)) as G.
  assert (R : 2 ^ 127 <= v * 2 ^ k < 2 ^ 128).
  { replace (2 ^ 127) with (2 ^ Z.log2 v * 2 ^ k) by (rewrite <- Z.pow_add_r by lia; f_equal; lia).
    replace (2 ^ 128) with (2 ^ (Z.log2 v + 1) * 2 ^ k) by (rewrite <- Z.pow_add_r by lia; f_equal; lia).
    split; [apply Z.mul_le_mono_pos_r; auto|apply Z.mul_lt_mono_pos_r; auto]. }
  set (u := v * 2 ^ k) in *. change WORD_BASE with (2 ^ 64). rewrite Z.shiftr_div_pow2 by lia.
  pose proof (pow2_gt0 64 ltac:(lia)) as G64. pose proof (Z.mod_pos_bound u (2 ^ 64) G64) as M0. pose proof (Z.mod_pos_bound (u / 2 ^ 64) (2 ^ 64) G64) as M1.
  assert (Hu : u / 2 ^ 64 mod 2 ^ 64 = u / 2 ^ 64). { apply Z.mod_small. split; [apply Z.div_pos; lia|]. apply Z.div_lt_upper_bound; [lia|]. change (2 ^ 64 * 2 ^ 64) with (2 ^ 128). lia. }
  rewrite Hu in *. unfold m_from_words. change (zlen [u mod 2 ^ 64; u / 2 ^ 64]) with 2.
  set (l := wlen_of_bits p) in *. replace (l <? 2) with false by lia. cbn [bind].
  set (w := zeros (l - 2) ++ [u mod 2 ^ 64; u / 2 ^ 64]).
  assert (Lw : zlen w = l) by (unfold w; rewrite zlen_app, zlen_zeros by lia; change (zlen [u mod 2 ^ 64; u / 2 ^ 64]) with 2; lia).
  assert (Ow : words_ok w) by (apply ok_app; split; [apply ok_zeros|]; apply ok_cons; split; [lia|]; apply ok_cons; split; [lia|constructor]).
  assert (Vw : val w = u * 2 ^ (64 * (l - 2))).
  { unfold w. rewrite val_zeros_app by lia. rewrite !val_cons, val_nil. pose proof (Z.div_mod u (2 ^ 64) ltac:(lia)).
    replace (u mod 2 ^ 64 + 2 ^ 64 * (u / 2 ^ 64 + 2 ^ 64 * 0)) with u by lia. ring. }
  assert (Tw : top_set w). { unfold top_set. rewrite Lw, Vw. replace (64 * l - 1) with (127 + 64 * (l - 2)) by lia. rewrite Z.pow_add_r by lia.
    apply Z.mul_le_mono_nonneg_r; [|lia]. pose proof (pow2_gt0 (64 * (l - 2)) ltac:(lia)). lia. }
  rewrite find_bit_len_spec by auto. rewrite (top_set_bitlen w Ow ltac:(lia) Tw).
  assert (E1 : EMIN = - 2147483648) by reflexivity. assert (E2 : EMAX = 2147483647) by reflexivity.
  destruct (make_normal w Pos (128 - k) false Ow ltac:(lia) ltac:(lia) Tw ltac:(lia)) as (N1 & N2 & N3 & N4).
  eexists. split; [reflexivity|]. split; [exact N1|]. split; [lia|]. split; [auto|]. split; [auto|]. rewrite N4, Vw, Lw.
  unfold u. rewrite <- Z.mul_assoc, <- Z.pow_add_r by lia. rewrite F2R_exact by lia. cbn [sgnZ]. now rewrite Z.mul_1_l.
Qed.

Theorem from_i128_spec i p : - 2 ^ 127 <= i < 2 ^ 127 -> prec_up p < P_LIM ->
  (p < 128 -> from_i128 i p = Err InvalidArgument) /\ (128 <= p -> exact_int p i (from_i128 i p)).
Proof.
  intros Hu HP. unfold from_i128. destruct (from_u128_spec (Z.abs i) p) as [A B]; [change (2 ^ 128) with (2 * 2 ^ 127); lia|auto|]. split; intros H.
  - rewrite (A H). reflexivity.
  - apply exact_signed. auto.
Qed.

(** ** f64 *)

Lemma f64_fields b : 0 <= b < 2 ^ 64 ->
  f64_sign b = d_neg b /\ f64_exp b = d_exp b /\ f64_frac b = d_frac b /\
  wshl (b mod 9223372036854775808) 12 = d_frac b * 2 ^ 12 /\
  Z.land (wshr (b mod 9223372036854775808) 52) 2047 = d_exp b /\ 0 <= d_exp b < 2 ^ 11 /\ 0 <= d_frac b < 2 ^ 52.
Proof.
  intros Hb. unfold f64_sign, f64_exp, f64_frac, d_neg, d_exp, d_frac.
  change 2047 with (Z.ones 11). change 4503599627370495 with (Z.ones 52). change 9223372036854775808 with (2 ^ 63).
  rewrite !Z.land_ones by lia. unfold wshr, wshl. rewrite !Z.shiftr_div_pow2, Z.shiftl_mul_pow2 by lia. change WORD_BASE with (2 ^ 64).
  split. { destruct (Z.leb_spec (2 ^ 63) b).
    - assert (b / 2 ^ 63 = 1). { symmetry. apply Z.div_unique with (r := b - 2 ^ 63); [left; change (2 ^ 64) with (2 * 2 ^ 63) in Hb; lia|lia]. } now rewrite H0.
    - rewrite Z.div_small by lia. reflexivity. }
  split; [auto|]. split; [auto|]. split.
  { replace (2 ^ 64) with (2 ^ 52 * 2 ^ 12) by reflexivity. rewrite Zmult_mod_distr_r. f_equal. apply mod_mod_pow. lia. }
  split.
  { replace (b mod 2 ^ 63) with (b mod (2 ^ 52 * 2 ^ 11)) by reflexivity. rewrite Z.rem_mul_r by lia.
    replace ((b mod 2 ^ 52 + 2 ^ 52 * (b / 2 ^ 52 mod 2 ^ 11)) / 2 ^ 52) with (b / 2 ^ 52 mod 2 ^ 11); [apply Z.mod_mod; lia|].
    apply Z.div_unique with (r := b mod 2 ^ 52); [left; apply Z.mod_pos_bound; lia|ring]. }
  split; apply Z.mod_pos_bound; lia.
Qed.

Lemma m_from_u64_spec p u : 0 < p -> 0 < u < 2 ^ 64 -> let l := wlen_of_bits p in exists w,
  m_from_u64 p u = Ok (63 - Z.log2 u, mk_m w (64 * l)) /\ words_ok w /\ zlen w = l /\ top_set w /\ 0 < l /\
  val w = u * 2 ^ (64 * (l - 1) + (63 - Z.log2 u)).
Proof.
  intros Hp Hu. cbv zeta. unfold m_from_u64. assert (L0 : 0 < wlen_of_bits p) by (rewrite wlen_of_bits_eq by lia; dlia).
  set (l := wlen_of_bits p) in *. replace (l <? 1) with false by lia.
  assert (Zl : zlen (zeros (l - 1) ++ [u]) = l) by (rewrite zlen_app, zlen_zeros, zlen_single by lia; lia).
  assert (Vl : val (zeros (l - 1) ++ [u]) = u * 2 ^ (64 * (l - 1))) by (rewrite val_zeros_app, val_single by lia; ring).
  assert (Ow : words_ok (zeros (l - 1) ++ [u])) by (apply ok_app; split; [apply ok_zeros|apply ok_cons; split; [lia|constructor]]).
  pose proof (pow2_gt0 (64 * (l - 1)) ltac:(lia)) as G.
  destruct (maximize_spec _ Ow ltac:(rewrite Vl; nia)) as (w & E & K1 & K2 & K3 & K4 & K5). rewrite E. rewrite Zl, Vl in *.
  assert (B : bitlen (u * 2 ^ (64 * (l - 1))) = Z.log2 u + 1 + 64 * (l - 1)).
  { rewrite bitlen_mul_pow2 by lia. unfold bitlen. rewrite (proj2 (Z.eqb_neq u 0)) by lia. reflexivity. }
  rewrite B in *. replace (64 * l - (Z.log2 u + 1 + 64 * (l - 1))) with (63 - Z.log2 u) in * by lia.
  exists w. split; [reflexivity|]. split; [auto|]. split; [auto|]. split; [unfold top_set; rewrite K4; lia|]. split; [auto|].
  rewrite K2, <- Z.mul_assoc, <- Z.pow_add_r by lia. reflexivity.
Qed.

(** Normal doubles are converted exactly, subnormal doubles to half their value. *)
Theorem from_f64_spec b p : 0 <= b < 2 ^ 64 -> 0 < p -> prec_up p < P_LIM ->
  (1 <= d_exp b <= 2046 -> exists q, from_f64 p b = Ok q /\ wf q /\ 64 * wlen q = prec_up p /\ ns q = d_sign b /\ ninexact q = false /\ value q = d_value b) /\
  (d_exp b = 0 -> d_frac b <> 0 -> exists q, from_f64 p b = Ok q /\ wf q /\ 64 * wlen q = prec_up p /\ ns q = d_sign b /\ ninexact q = false /\ value q = (d_value b / 2)%R) /\
  (d_exp b = 0 -> d_frac b = 0 -> exists q, from_f64 p b = Ok q /\ value q = 0%R /\ wlen q = 0 /\ ns q = Pos /\ ninexact q = false) /\
  (d_exp b = 2047 -> d_frac b = 0 -> from_f64 p b = Err (ExponentOverflow (d_sign b))) /\
  (d_exp b = 2047 -> d_frac b <> 0 -> from_f64 p b = Err InvalidArgument).
Proof.
  intros Hb Hp HP. destruct (prec_up_ge p ltac:(lia)) as [A B]. destruct (f64_fields b Hb) as (F1 & F2 & F3 & F4 & F5 & F6 & F7).
  unfold from_f64. rewrite p_assertion_ok by lia. cbn [bind]. unfold n_new at 1 2 3 4 5. rewrite (p_assertion_ok 0) by lia. cbn [bind].
  rewrite F1, F2, F3. cbv zeta. rewrite F4, F5. fold (d_sign b).
  assert (E1 : EMIN = - 2147483648) by reflexivity. assert (E2 : EMAX = 2147483647) by reflexivity.
  assert (Build : forall u e s, 0 < u < 2 ^ 64 -> -2000 <= e <= 4000 -> exists q,
    (do (shift, m) <- m_from_u64 p u; Ok (mk_num m s (e - 1023 - shift) false)) = Ok q /\ wf q /\ 64 * wlen q = prec_up p /\ ns q = s /\ ninexact q = false /\
      value q = F2R (Float radix2 (sgnZ s * u) (e - 1023 - 64))).
  { intros u e s Hu He. destruct (m_from_u64_spec p u Hp Hu) as (w & -> & W1 & W2 & W3 & W4 & W5). cbn [bind]. rewrite <- W2 in *.
    pose proof (Z.log2_nonneg u). assert (Z.log2 u < 64) by (apply Z.log2_lt_pow2; lia).
    destruct (make_normal w s (e - 1023 - (63 - Z.log2 u)) false W1 W4 ltac:(lia) W3 ltac:(lia)) as (N1 & N2 & N3 & N4).
    eexists. split; [reflexivity|]. split; [exact N1|]. split; [lia|]. split; [auto|]. split; [auto|]. rewrite N4, W5, F2R_shift by lia. do 2 f_equal. lia. }
  assert (G52 : 2 ^ 64 = 2 ^ 52 * 2 ^ 12) by reflexivity. assert (G12 : 0 < 2 ^ 12) by reflexivity. assert (G11 : 2 ^ 12 = 2 * 2 ^ 11) by reflexivity.
  split; [|split; [|split; [|split]]].
  - intros He. replace (d_exp b =? 0) with false by lia. replace (d_exp b =? 2047) with false by lia. cbn [andb negb].
    assert (Lo : Z.lor (wshr (d_frac b * 2 ^ 12) 1) WORD_SIG = (2 ^ 52 + d_frac b) * 2 ^ 11).
    { unfold wshr. rewrite Z.shiftr_div_pow2 by lia. change (2 ^ 1) with 2. rewrite G11.
      replace (d_frac b * (2 * 2 ^ 11) / 2) with (d_frac b * 2 ^ 11) by (apply Z.div_unique with (r := 0); [left; lia|ring]).
      rewrite wsig_val. change (2 ^ 63) with (2 ^ 52 * 2 ^ 11). rewrite Z.mul_add_distr_r. set (f := d_frac b) in *. clearbody f. clear - F7.
      assert (Hd : Z.land (f * 2 ^ 11) (2 ^ 52 * 2 ^ 11) = 0).
      { change (2 ^ 52 * 2 ^ 11) with (2 ^ 63). apply Z.bits_inj'. intros k Hk. rewrite Z.land_spec, Z.bits_0, Z.pow2_bits_eqb by lia.
        destruct (Z.eqb_spec 63 k) as [<-|]; [|apply andb_false_r]. rewrite Z.mul_pow2_bits by lia. change (63 - 11) with 52. rewrite andb_true_r.
        destruct (Z.eq_dec f 0) as [->|]; [apply Z.bits_0|]. apply Z.bits_above_log2; [lia|]. apply Z.log2_lt_pow2; lia. }
      rewrite Z.add_comm. rewrite <- Z.lxor_lor by auto. symmetry. apply Z.add_nocarry_lxor. auto. }
    rewrite Lo. destruct (Build ((2 ^ 52 + d_frac b) * 2 ^ 11) (d_exp b + 1) (d_sign b)) as (q & Q1 & Q2 & Q3 & Q4 & Q5 & Q6).
    { change (2 ^ 64) with (2 * 2 ^ 52 * 2 ^ 11). assert (0 < 2 ^ 11) by reflexivity. nia. } { lia. }
    exists q. split; [exact Q1|]. split; [auto|]. split; [auto|]. split; [auto|]. split; [auto|]. rewrite Q6, F2R_shift by lia.
    unfold d_value. replace (d_exp b =? 0) with false by lia. do 2 f_equal. lia.
  - intros He Hf. rewrite He. replace (d_frac b =? 0) with false by lia. change (0 =? 0) with true. change (0 =? 2047) with false. cbn [andb negb].
    destruct (Build (d_frac b * 2 ^ 12) 0 (d_sign b)) as (q & Q1 & Q2 & Q3 & Q4 & Q5 & Q6).
    { rewrite G52. split; [nia|]. apply Z.mul_lt_mono_pos_r; lia. } { lia. }
    exists q. split; [exact Q1|]. split; [auto|]. split; [auto|]. split; [auto|]. split; [auto|]. rewrite Q6, F2R_shift by lia.
    unfold d_value. rewrite He. change (0 =? 0) with true. cbv iota. rewrite !F2R_sgn. change (0 - 1023 - 64 + 12) with (-1074 + -1). rewrite bpow_plus.
    change (bpow radix2 (-1)) with (/ 2)%R. unfold Rdiv. ring.
  - intros He Hf. rewrite He, Hf. change (0 =? 0) with true. cbn [andb]. eexists. split; [reflexivity|]. split; [now apply value_zero|]. auto.
  - intros He Hf. rewrite He, Hf. change (0 =? 0) with true. change (2047 =? 0) with false. change (2047 =? 2047) with true. cbn [andb]. reflexivity.
  - intros He Hf. rewrite He. replace (d_frac b =? 0) with false by lia. change (2047 =? 0) with false. change (2047 =? 2047) with true. cbn [andb]. reflexivity.
Qed.
