(** mul and mul_full_prec on BigFloatNumber. *)

From Coq Require Import ZArith Reals List Bool Lia Lra.
From Flocq Require Import Core.
From Verif Require Import Words IntModel MulModel Mantissa Num SpecZ WordsP WordsP2 RoundP Spec RealP RealP2 NumP CmpP AddP SetP AddNum IntP MulP MulP2.
Import ListNotations.
Open Scope Z_scope.
Ltac Zify.zify_post_hook ::= idtac.
Arguments Z.mul : simpl never.
Arguments Z.add : simpl never.
Arguments Z.pow : simpl never.
Arguments Z.sub : simpl never.
Arguments Z.of_nat : simpl never.

Lemma F2_mult s1 s2 a b e1 e2 : (F2 s1 a e1 * F2 s2 b e2)%R = F2 (sign_mul s1 s2) (a * b) (e1 + e2).
Proof.
  rewrite !F2R_sgn. unfold sgnR. rewrite mult_IZR, bpow_plus. destruct s1, s2; cbn [sign_mul sign_eqb sgnZ]; ring.
Qed.

(** The product after normalisation. *)
Lemma mul_core m1 m2 s e : words_ok (mm m1) -> words_ok (mm m2) -> 0 < zlen (mm m1) -> 0 < zlen (mm m2) ->
  0 < val (mm m1) -> 0 < val (mm m2) ->
  exists w sh m3, mul_unbalanced (mm m1) (mm m2) (mlen m1 + mlen m2) = Ok w /\ maximize w = (sh, m3) /\
    words_ok m3 /\ zlen m3 = zlen (mm m1) + zlen (mm m2) /\ top_set m3 /\
    F2 s (val m3) (e - sh - 64 * zlen m3) = F2 s (val (mm m1) * val (mm m2)) (e - 64 * (zlen (mm m1) + zlen (mm m2))).
Proof.
  intros O1 O2 L1 L2 P1 P2. unfold mlen.
  destruct (mul_unbalanced_spec (mm m1) (mm m2) (zlen (mm m1) + zlen (mm m2)) O1 O2 ltac:(lia)) as (w & -> & Wv & Wo & Wl).
  assert (0 < val w) by (rewrite Wv; apply Z.mul_pos_pos; auto).
  destruct (maximize_spec w Wo H) as (m' & M1 & M2 & M3 & M4 & M5 & M6).
  exists w, (64 * zlen w - bitlen (val w)), m'. split; [reflexivity|]. split; [exact M1|]. split; [auto|]. split; [lia|].
  split; [unfold top_set; rewrite M5; apply M6|]. rewrite M3, F2R_shift by auto. rewrite Wv, M5, Wl. f2eq.
Qed.

Lemma m_mul_spec m1 m2 P rm s ix e : words_ok (mm m1) -> words_ok (mm m2) -> 0 < zlen (mm m1) -> 0 < zlen (mm m2) ->
  0 < val (mm m1) -> 0 < val (mm m2) -> 0 < P ->
  let r := F2 s (val (mm m1) * val (mm m2)) (e - 64 * (zlen (mm m1) + zlen (mm m2))) in
  exists c m3 ix', m_mul m1 m2 (64 * P) rm (is_pos s) false ix = Ok (c, m3, ix') /\
  words_ok (mm m3) /\ zlen (mm m3) = P /\ mn m3 = 64 * P /\ top_set (mm m3) /\
  F2 s (val (mm m3)) (e - c - 64 * P) = rnd_prec (64 * P) rm r /\ (ix' = true <-> ix = true \/ rnd_prec (64 * P) rm r <> r).
Proof.
  intros O1 O2 L1 L2 P1 P2 HP r. unfold m_mul.
  destruct (mul_core m1 m2 s e O1 O2 L1 L2 P1 P2) as (w & sh & m3 & -> & Hm & Mo & Ml & Mt & Mv). fold r in Mv. cbn [bind]. rewrite Hm.
  rewrite wlen_of_bits_64 by lia. pose proof (fit_words_spec m3 P rm s ix (e - sh) Mo ltac:(lia) Mt HP) as F.
  destruct (fit_words m3 P rm (is_pos s) false ix) as [[m4 ovf] ix']. cbv zeta in F. rewrite Mv in F. destruct F as (F1 & F2' & F3 & F4 & F5).
  do 3 eexists. split; [reflexivity|]. cbn [mm mn]. split; [auto|]. split; [auto|]. split; [lia|]. split; [auto|]. split; [|auto].
  rewrite <- F4. destruct ovf; cbn [Z.b2z]; f2eq.
Qed.

Lemma m_mul_full m1 m2 rm s ix e : words_ok (mm m1) -> words_ok (mm m2) -> 0 < zlen (mm m1) -> 0 < zlen (mm m2) ->
  0 < val (mm m1) -> 0 < val (mm m2) ->
  let r := F2 s (val (mm m1) * val (mm m2)) (e - 64 * (zlen (mm m1) + zlen (mm m2))) in
  exists c m3, m_mul m1 m2 0 rm (is_pos s) true ix = Ok (c, m3, ix) /\
  words_ok (mm m3) /\ 0 < zlen (mm m3) /\ mn m3 = 64 * zlen (mm m3) /\ top_set (mm m3) /\ val (mm m3) mod 2 ^ 64 <> 0 /\
  F2 s (val (mm m3)) (e - c - 64 * zlen (mm m3)) = r.
Proof.
  intros O1 O2 L1 L2 P1 P2 r. unfold m_mul.
  destruct (mul_core m1 m2 s e O1 O2 L1 L2 P1 P2) as (w & sh & m3 & -> & Hm & Mo & Ml & Mt & Mv). fold r in Mv. cbn [bind]. rewrite Hm.
  unfold fit_words. destruct (trunc_top_set m3 s (e - sh) Mo ltac:(lia) Mt) as (T1 & T2 & T3 & T5 & T4).
  do 2 eexists. split; [reflexivity|]. cbn [mm mn]. repeat (split; [auto|]). rewrite <- Mv, <- T4. reflexivity.
Qed.

Lemma sign_mul_has x y : wf x -> wf y -> nonzero x -> nonzero y -> has_sign (sign_mul (ns x) (ns y)) (value x * value y)%R.
Proof.
  intros Wx Wy Nx Ny. unfold value. rewrite F2_mult. apply F2_has_sign. destruct (nonzero_bits x Wx Nx). destruct (nonzero_bits y Wy Ny). apply Z.mul_pos_pos; auto.
Qed.

Theorem mul_nonzero x y p rm : wf x -> wf y -> nonzero x -> nonzero y -> 0 < p -> prec_up p < P_LIM ->
  correctly_rounded (prec_up p) rm (value x * value y)%R (sign_mul (ns x) (ns y)) (ninexact x || ninexact y) (n_mul x y p rm).
Proof.
  intros Wx Wy Nx Ny Hp Hlim. unfold n_mul, mul_general_case. rewrite round_p_eq by (auto; lia). unfold prec_up in *. set (P := (p + 63) / 64) in *.
  assert (HP : 0 < P) by (unfold P; dlia). clearbody P. unfold p_assertion. replace (P_LIM <=? 64 * P) with false by lia. cbn [bind].
  rewrite !is_zero_false by auto. cbn [orb].
  destruct (normalize_spec x Wx Nx) as (m1 & -> & Ho1 & Hz1 & Hm1 & Ht1 & V1).
  destruct (normalize_spec y Wy Ny) as (m2 & -> & Ho2 & Hz2 & Hm2 & Ht2 & V2). cbn [bind].
  destruct (nonzero_bits x Wx Nx) as (_ & _ & L1). destruct (nonzero_bits y Wy Ny) as (_ & _ & L2).
  pose proof (top_set_pos (mm m1) ltac:(lia) Ht1) as P1. pose proof (top_set_pos (mm m2) ltac:(lia) Ht2) as P2.
  set (s := sign_mul (ns x) (ns y)). set (ix := ninexact x || ninexact y).
  assert (Hr : (value x * value y)%R = F2 s (val (mm m1) * val (mm m2)) (norm_exp x + norm_exp y - 64 * (zlen (mm m1) + zlen (mm m2)))).
  { rewrite V1, V2, F2_mult. f2eq. }
  destruct (m_mul_spec m1 m2 P rm s ix (norm_exp x + norm_exp y) Ho1 Ho2 ltac:(lia) ltac:(lia) P1 P2 HP) as (c & m3 & ix' & -> & G1 & G2 & G3 & G4 & G5 & G6).
  cbn [bind]. rewrite <- Hr in G5, G6. destruct m3 as [w n]. cbn [mm mn] in *. subst n. apply finish_num_spec; auto.
Qed.

Theorem mul_full x y : wf x -> wf y -> nonzero x -> nonzero y ->
  exact_result (value x * value y)%R (sign_mul (ns x) (ns y)) (ninexact x || ninexact y) (n_mul_full_prec x y).
Proof.
  intros Wx Wy Nx Ny. unfold n_mul_full_prec, mul_general_case. change (round_p 0) with 0. unfold p_assertion. change (P_LIM <=? 0) with false. cbn [bind].
  rewrite !is_zero_false by auto. cbn [orb].
  destruct (normalize_spec x Wx Nx) as (m1 & -> & Ho1 & Hz1 & Hm1 & Ht1 & V1).
  destruct (normalize_spec y Wy Ny) as (m2 & -> & Ho2 & Hz2 & Hm2 & Ht2 & V2). cbn [bind].
  destruct (nonzero_bits x Wx Nx) as (_ & _ & L1). destruct (nonzero_bits y Wy Ny) as (_ & _ & L2).
  pose proof (top_set_pos (mm m1) ltac:(lia) Ht1) as P1. pose proof (top_set_pos (mm m2) ltac:(lia) Ht2) as P2.
  set (s := sign_mul (ns x) (ns y)). set (ix := ninexact x || ninexact y).
  assert (Hr : (value x * value y)%R = F2 s (val (mm m1) * val (mm m2)) (norm_exp x + norm_exp y - 64 * (zlen (mm m1) + zlen (mm m2)))).
  { rewrite V1, V2, F2_mult. f2eq. }
  destruct (m_mul_full m1 m2 RNone s ix (norm_exp x + norm_exp y) Ho1 Ho2 ltac:(lia) ltac:(lia) P1 P2) as (c & m3 & -> & G1 & G2 & G3 & G4 & G7 & G5).
  cbn [bind]. rewrite <- Hr in G5. apply finish_exact; auto.
Qed.

Theorem mul_zero x y p rm : wf x -> wf y -> magnitude x = 0 \/ magnitude y = 0 -> 0 <= p -> prec_up p < P_LIM ->
  n_mul x y p rm = Ok (mk_num (m_new (prec_up p)) (sign_mul (ns x) (ns y)) 0 false).
Proof.
  intros Wx Wy H Hp Hlim. unfold n_mul, mul_general_case. rewrite round_p_eq by auto. unfold p_assertion, prec_up in *.
  replace (P_LIM <=? 64 * ((p + 63) / 64)) with false by lia. cbn [bind]. rewrite !is_zero_spec by auto.
  assert (E : (magnitude x =? 0) || (magnitude y =? 0) = true) by (destruct H as [-> | ->]; cbn; auto using orb_true_r).
  rewrite E. unfold n_new, p_assertion. replace (P_LIM <=? 64 * ((p + 63) / 64)) with false by lia. reflexivity.
Qed.
