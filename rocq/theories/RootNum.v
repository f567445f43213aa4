(** sqrt and cbrt on BigFloatNumber. *)

From Coq Require Import ZArith Reals List Bool Lia Lra.
From Flocq Require Import Core.
From Verif Require Import Words IntModel MulModel DivModel RootModel Mantissa Num SpecZ WordsP WordsP2 RoundP Spec RealP RealP2 NumP CmpP AddP SetP AddNum IntP MulP MulP2 MulNum DivP DivP2 DivNum RootP RootP2.
Import ListNotations.
Open Scope Z_scope.
Ltac Zify.zify_post_hook ::= idtac.
Arguments Z.mul : simpl never.
Arguments Z.add : simpl never.
Arguments Z.pow : simpl never.
Arguments Z.sub : simpl never.
Arguments Z.of_nat : simpl never.

Lemma sticky_top q st rm pos ix : words_ok q -> 0 < zlen q -> top_set q ->
  let '(q', de, ix') := sticky_words q st rm pos ix in words_ok q' /\ zlen q' = zlen q /\ top_set q' /\ 0 <= de <= 1.
Proof.
  intros Hq Hl Ht. unfold sticky_words. destruct st; [|auto with zarith].
  destruct (is_nearest rm).
  - destruct (or1_spec q Hq Hl) as (A & B & C). split; [auto|]. split; [auto|]. split; [|lia]. unfold top_set in *. rewrite C, A.
    assert (E : 2 ^ (64 * zlen q - 1) = 2 * 2 ^ (64 * zlen q - 2)) by (rewrite <- Z.pow_succ_r by lia; f_equal; lia).
    rewrite E in *. clear - Ht. dlia.
  - destruct (rounds_away rm pos); [|auto with zarith].
    pose proof (add_ulp_spec q Hq) as U. destruct (add_ulp q) as [q1 c]. destruct U as (U1 & U2 & U3). unfold top_set in *.
    pose proof (val_bound q Hq) as Vb. pose proof (val_bound q1 U1) as Vb1. rewrite U2 in Vb1. destruct c; cbn [Z.b2z] in U3.
    + assert (Ez : val q1 = 0) by lia.
      assert (Enth : znth (zlen q1 - 1) q1 = 0) by (rewrite znth_val by (auto; lia); rewrite Ez, Z.div_0_l by (pose proof (pow2_gt0 (64 * (zlen q1 - 1))); lia); reflexivity).
      pose proof (zupd_val (zlen q1 - 1) WORD_SIG q1 ltac:(lia)) as ZV. rewrite Enth, Ez in ZV. change WORD_SIG with (2 ^ 63) in *.
      assert (ZV' : val (zupd (zlen q1 - 1) (2 ^ 63) q1) = 2 ^ (64 * zlen q - 1)).
      { rewrite ZV, Z.sub_0_r, Z.add_0_l, <- Z.pow_add_r by lia. f_equal. lia. }
      split; [apply ok_zupd; auto; lia|]. split; [rewrite zlen_zupd; lia|]. split; [|lia]. rewrite ZV', zlen_zupd, U2. lia.
    + split; [auto|]. split; [auto|]. split; [|lia]. rewrite U2. lia.
Qed.

Lemma maximize_top q : words_ok q -> 0 < zlen q -> top_set q -> exists q2, maximize q = (0, q2).
Proof.
  intros Hq Hl Ht. destruct (maximize_spec q Hq (top_set_pos q Hl Ht)) as (q2 & E & _). rewrite top_set_bitlen, Z.sub_diag in E by auto. eauto.
Qed.

Lemma end_words_top q st rm pos ix P de m3 ix' : words_ok q -> 0 < zlen q -> top_set q -> end_words q st rm pos ix P = (de, m3, ix') ->
  (let '(q, e_shift, inexact) := sticky_words q st rm pos ix in
   let '(_, q) := maximize q in
   let '(m3, ovf, inexact) := round_to_words q P rm pos inexact in
   Ok (if ovf : bool then e_shift + 1 else e_shift, mk_m m3 (64 * zlen m3), inexact)) = Ok (de, mk_m m3 (64 * zlen m3), ix') /\ de <= 2.
Proof.
  intros Hq Hl Ht. unfold end_words. pose proof (sticky_top q st rm pos ix Hq Hl Ht) as S.
  destruct (sticky_words q st rm pos ix) as [[q' d] ix1]. destruct S as (S1 & S2 & S3 & S4).
  destruct (maximize_top q' S1 ltac:(lia) S3) as (q2 & ->). destruct (round_to_words q2 P rm pos ix1) as [[mw ovf] ix2].
  intros H. injection H as <- <- <-. rewrite Z.sub_0_r. split; [reflexivity|]. destruct ovf; lia.
Qed.

Lemma end_words_de q st rm pos ix P de m3 ix' : words_ok q -> 0 < val q -> end_words q st rm pos ix P = (de, m3, ix') -> de <= 2.
Proof.
  intros Hq Hv. unfold end_words. unfold sticky_words.
  assert (G : forall q' d ix1, 0 <= d <= 1 -> words_ok q' -> 0 < val q' -> (let '(sh, q2) := maximize q' in let '(m3, ovf, ix) := round_to_words q2 P rm pos ix1 in
     (if ovf : bool then d - sh + 1 else d - sh, m3, ix)) = (de, m3, ix') -> de <= 2).
  { intros q' d ix1 Hd Hq' Hv'. destruct (maximize_spec q' Hq' Hv') as (q2 & E & S0 & _). rewrite E.
    destruct (round_to_words q2 P rm pos ix1) as [[mw ovf] ix2]. intros H. injection H as <- <- <-. destruct ovf; lia. }
  pose proof (val_bound q Hq) as Vb. pose proof (zlen_nonneg q) as Z0.
  assert (Lq : 0 < zlen q). { destruct (Z.eq_dec (zlen q) 0) as [e|]; [|lia]. rewrite e in Vb. change (2 ^ (64 * 0)) with 1 in Vb. lia. }
  destruct st; [|apply G; auto; lia]. destruct (is_nearest rm).
  - destruct (or1_spec q Hq Lq) as (A & B & C). apply G; auto; [lia|]. rewrite A. clear - Hv. dlia.
  - destruct (rounds_away rm pos); [|apply G; auto; lia].
    pose proof (add_ulp_spec q Hq) as U. destruct (add_ulp q) as [q1 c]. destruct U as (U1 & U2 & U3).
    pose proof (val_bound q1 U1) as Vb1. rewrite U2 in Vb1. destruct c; cbn [Z.b2z] in U3.
    + apply G; [lia|apply ok_zupd; auto; change WORD_SIG with (2 ^ 63); lia|].
      assert (Ez : val q1 = 0) by lia.
      assert (Enth : znth (zlen q1 - 1) q1 = 0) by (rewrite znth_val by (auto; lia); rewrite Ez, Z.div_0_l by (pose proof (pow2_gt0 (64 * (zlen q1 - 1))); lia); reflexivity).
      pose proof (zupd_val (zlen q1 - 1) WORD_SIG q1 ltac:(lia)) as ZV. rewrite Enth, Ez in ZV. rewrite ZV. change WORD_SIG with (2 ^ 63).
      pose proof (pow2_gt0 (64 * (zlen q1 - 1)) ltac:(lia)). nia.
    + apply G; auto; lia.
Qed.

(** Square root of the scaled mantissa. *)
Lemma sqrt_real M q r : 0 <= q -> q * q <= M < (q + 1) * (q + 1) -> r = M - q * q ->
  if negb (r =? 0) then (IZR q < sqrt (IZR M) < IZR (q + 1))%R else sqrt (IZR M) = IZR q.
Proof.
  intros Hq HM ->. assert (H0 : (0 <= IZR q)%R) by now apply IZR_le.
  destruct (Z.eqb_spec (M - q * q) 0) as [E|E]; cbn [negb].
  - replace M with (q * q) by lia. rewrite mult_IZR. now apply sqrt_square.
  - split.
    + rewrite <- (sqrt_square (IZR q)) by auto. rewrite <- mult_IZR. apply sqrt_lt_1; apply IZR_le || apply IZR_lt; lia.
    + assert (H1 : (0 <= IZR (q + 1))%R) by (apply IZR_le; lia).
      rewrite <- (sqrt_square (IZR (q + 1))) by auto. rewrite <- mult_IZR. apply sqrt_lt_1; apply IZR_le || apply IZR_lt; lia.
Qed.

Lemma sqrt_scale M j : 0 <= M -> sqrt (IZR M * bpow radix2 (2 * j)) = (sqrt (IZR M) * bpow radix2 j)%R.
Proof.
  intros HM. rewrite sqrt_mult; [|apply IZR_le; auto|apply bpow_ge_0]. f_equal.
  replace (2 * j) with (j + j) by lia. rewrite bpow_plus. apply sqrt_square, bpow_ge_0.
Qed.

(** The operand of sqrt_rem. *)
Lemma shift_operand w K a : words_ok w -> 0 < zlen w -> top_set w -> zlen w + 1 <= K -> 0 <= a <= 3 ->
  let m1 := shift_slice_right (zeros (K - zlen w) ++ w) a in
  words_ok m1 /\ zlen m1 = K /\ val m1 * 2 ^ a = 2 ^ (64 * (K - zlen w)) * val w /\ 2 ^ (64 * K - 1 - a) <= val m1.
Proof.
  intros Hw Hl Ht HK Ha m1. unfold m1.
  assert (Ow : words_ok (zeros (K - zlen w) ++ w)) by (apply ok_app; auto using ok_zeros).
  assert (Lw : zlen (zeros (K - zlen w) ++ w) = K) by (rewrite zlen_app, zlen_zeros; lia).
  assert (Vw : val (zeros (K - zlen w) ++ w) = 2 ^ (64 * (K - zlen w)) * val w) by (apply val_zeros_app; lia).
  destruct (shift_slice_right_spec _ a Ow ltac:(lia)) as (A & B & C). rewrite A, Vw.
  assert (E : 2 ^ (64 * (K - zlen w)) = 2 ^ (64 * (K - zlen w) - a) * 2 ^ a) by (rewrite <- Z.pow_add_r by lia; f_equal; lia).
  assert (P : 0 < 2 ^ a) by (apply pow2_gt0; lia).
  assert (D : 2 ^ (64 * (K - zlen w)) * val w / 2 ^ a = 2 ^ (64 * (K - zlen w) - a) * val w).
  { rewrite E. replace (2 ^ (64 * (K - zlen w) - a) * 2 ^ a * val w) with (2 ^ (64 * (K - zlen w) - a) * val w * 2 ^ a) by ring. apply Z.div_mul. lia. }
  rewrite D. split; [auto|]. split; [lia|]. split; [rewrite E; ring|].
  replace (64 * K - 1 - a) with (64 * (K - zlen w) - a + (64 * zlen w - 1)) by lia. rewrite Z.pow_add_r by lia.
  apply Z.mul_le_mono_nonneg_l; [apply pow2_nonneg|exact Ht].
Qed.

Lemma m_sqrt_spec m P rm ix e odd : words_ok (mm m) -> 0 < zlen (mm m) -> top_set (mm m) -> 0 < P -> 
  let a := Z.b2z odd in Z.Even (e + a) ->
  let r := sqrt (IZR (val (mm m)) * bpow radix2 (e - 64 * zlen (mm m))) in
  exists c m3 ix', m_sqrt m (64 * P) rm true ix odd = Ok (c, m3, ix') /\ c <= 2 /\
  words_ok (mm m3) /\ zlen (mm m3) = P /\ mn m3 = 64 * P /\ top_set (mm m3) /\
  F2 Pos (val (mm m3)) ((e + a) / 2 + c - 64 * P) = rnd_prec (64 * P) rm r /\ (ix' = true <-> ix = true \/ rnd_prec (64 * P) rm r <> r).
Proof.
  intros Hw Hl Ht HP a [h Hh] r. unfold m_sqrt. cbv zeta. rewrite wlen_of_bits_64. unfold mlen. destruct m as [w n]. cbn [mm] in *.
  set (j := Z.max P (zlen w) + 1). assert (Hj : P + 1 <= j /\ zlen w + 1 <= j) by (unfold j; lia). clearbody j.
  assert (Em : (if odd then shift_slice_right (zeros (j * 2 - zlen w) ++ w) 1 else zeros (j * 2 - zlen w) ++ w) = 
    if odd then shift_slice_right (zeros (j * 2 - zlen w) ++ w) a else zeros (j * 2 - zlen w) ++ w) by (unfold a; destruct odd; reflexivity).
  rewrite Em. clear Em.
  assert (M1 : exists m1, (if odd then shift_slice_right (zeros (j * 2 - zlen w) ++ w) a else zeros (j * 2 - zlen w) ++ w) = m1 /\
     words_ok m1 /\ zlen m1 = j * 2 /\ val m1 * 2 ^ a = 2 ^ (64 * (j * 2 - zlen w)) * val w /\ 2 ^ (64 * (j * 2) - 2) <= val m1).
  { eexists. split; [reflexivity|]. unfold a in *. destruct odd; cbn [Z.b2z] in *.
    - destruct (shift_operand w (j * 2) 1 Hw Hl Ht ltac:(lia) ltac:(lia)) as (A & B & C & D). split; [auto|]. split; [auto|]. split; [auto|].
      replace (64 * (j * 2) - 2) with (64 * (j * 2) - 1 - 1) by lia. exact D.
    - assert (Vw : val (zeros (j * 2 - zlen w) ++ w) = 2 ^ (64 * (j * 2 - zlen w)) * val w) by (apply val_zeros_app; lia).
      split; [apply ok_app; auto using ok_zeros|]. split; [rewrite zlen_app, zlen_zeros; lia|]. rewrite Vw. split; [change (2 ^ 0) with 1; lia|].
      apply Z.le_trans with (2 ^ (64 * (j * 2 - zlen w)) * 2 ^ (64 * zlen w - 1)); [|apply Z.mul_le_mono_nonneg_l; [apply pow2_nonneg|exact Ht]].
      rewrite <- Z.pow_add_r by lia. apply Z.pow_le_mono_r; lia. }
  destruct M1 as (m1 & -> & O1 & L1 & V1 & G1).
  assert (T1 : top_nz m1). { split; [lia|]. rewrite L1. eapply Z.le_trans; [|exact G1]. apply Z.pow_le_mono_r; lia. }
  destruct (sqrt_rem_spec m1 O1 T1) as (q & rr & -> & Q1 & Q2 & Q3 & Q4 & Q5 & Q6 & _). cbn [bind].
  assert (Lq : zlen q = j) by (rewrite Q5, L1; clear; dlia). rewrite all_zero_spec by auto.
  assert (Tq : top_set q).
  { unfold top_set. rewrite Lq. apply Z.lt_succ_r. unfold Z.succ. apply Z.square_lt_simpl_nonneg; [pose proof (val_nonneg q Q1); lia|].
    rewrite <- Z.pow_add_r by lia. replace (64 * j - 1 + (64 * j - 1)) with (64 * (j * 2) - 2) by lia. lia. }
  assert (Bq : bitlen (val q) = 64 * j) by (rewrite top_set_bitlen; auto; lia).
  pose proof (end_words_spec q (negb (val rr =? 0)) P rm Pos ix (sqrt (IZR (val m1))) ((e + a) / 2) Q1 HP ltac:(lia)
    (sqrt_real _ _ _ (val_nonneg _ Q1) Q3 Q4)) as EW. cbv zeta in EW.
  assert (Er : (sgnR Pos * sqrt (IZR (val m1)) * bpow radix2 ((e + a) / 2 - 64 * zlen q))%R = r).
  { unfold sgnR. cbn [sgnZ]. rewrite Rmult_1_l, Lq. unfold r. rewrite Hh. replace (2 * h / 2) with h by (rewrite Z.mul_comm, Z.div_mul; lia).
    rewrite <- sqrt_scale by (apply val_nonneg; auto). f_equal.
    apply (f_equal IZR) in V1. rewrite !mult_IZR, <- !bpow_IZR in V1 by (unfold a; destruct odd; cbn; lia).
    replace (IZR (val w)) with (IZR (val m1) * bpow radix2 a * bpow radix2 (- (64 * (j * 2 - zlen w))))%R.
    2:{ rewrite V1. rewrite Rmult_comm, <- Rmult_assoc, <- bpow_plus, Z.add_opp_diag_l. apply Rmult_1_l. }
    rewrite !Rmult_assoc, <- !bpow_plus. do 2 f_equal. lia. }
  rewrite Er in EW. change (is_pos Pos) with true in EW.
  destruct (end_words q (negb (val rr =? 0)) rm true ix P) as [[de m3] ix'] eqn:EE.
  destruct (end_words_top _ _ _ _ _ _ _ _ _ Q1 ltac:(lia) Tq EE) as [EE2 Hde]. destruct EW as (W1 & W2 & W3 & W4 & W5).
  exists de, (mk_m m3 (64 * zlen m3)), ix'. split; [exact EE2|]. cbn [mm mn]. split; [auto|]. split; [auto|]. split; [auto|]. split; [lia|]. split; [auto|]. split; [|auto].
  exact W4.
Qed.

Lemma land1_odd e : Z.land e 1 = Z.b2z (Z.land e 1 =? 1) /\ Z.Even (e + Z.land e 1).
Proof.
  assert (E : Z.land e 1 = e mod 2) by (change 1 with (Z.ones 1); rewrite Z.land_ones by lia; reflexivity). rewrite E.
  pose proof (Z.mod_pos_bound e 2 ltac:(lia)). split.
  - assert (e mod 2 = 0 \/ e mod 2 = 1) as [-> | ->] by lia; reflexivity.
  - exists ((e + e mod 2) / 2). dlia.
Qed.

Theorem sqrt_nonzero x p rm : wf x -> nonzero x -> ns x = Pos -> 0 < p -> prec_up p < P_LIM ->
  correctly_rounded (prec_up p) rm (sqrt (value x)) Pos (ninexact x) (n_sqrt x p rm).
Proof.
  intros W N Hs Hp Hlim. unfold n_sqrt. rewrite is_zero_false by auto. rewrite round_p_eq by (auto; lia).
  unfold prec_up in *. set (P := (p + 63) / 64) in *.
  assert (HP : 0 < P) by (unfold P; dlia). clearbody P. unfold p_assertion. replace (P_LIM <=? 64 * P) with false by lia. cbn [bind].
  unfold is_negative. rewrite Hs. cbn [sign_eqb].
  destruct (normalize_spec x W N) as (m1 & -> & Ho & Hz & Hm & Ht & V). cbn [bind]. rewrite Hs in V.
  destruct (nonzero_bits x W N) as (_ & HB & L). destruct (land1_odd (norm_exp x)) as [Lo Ev]. rewrite Lo in Ev.
  destruct (m_sqrt_spec m1 P rm (ninexact x) (norm_exp x) _ Ho ltac:(lia) Ht HP Ev) as (c & m3 & ix' & E & Hc & A1 & A2 & A3 & A4 & A5 & A6). rewrite E. cbn [bind].
  assert (Er : sqrt (IZR (val (mm m1)) * bpow radix2 (norm_exp x - 64 * zlen (mm m1))) = sqrt (value x)).
  { f_equal. rewrite V, F2R_sgn, Hz. unfold sgnR. cbn [sgnZ]. ring. }
  rewrite Er in A5, A6. rewrite <- Lo in A5.
  pose proof (finish_num_spec (mm m3) Pos _ ix' (ninexact x) rm P (sqrt (value x)) A1 A2 HP Hlim A4 A5 A6) as F.
  unfold finish_num in F. replace (EXPONENT_MAX <? (norm_exp x + Z.land (norm_exp x) 1) / 2 + c) with false in F.
  2:{ symmetry. apply Z.ltb_ge. pose proof (wf_exp x W) as We. unfold norm_exp in *. change EXPONENT_MAX with (2 ^ 31 - 1).
      assert (Z.land (ne x - (64 * wlen x - mn (nm x))) 1 <= 1) by (rewrite Lo; destruct (_ =? 1); cbn; lia).
      assert (mn (nm x) <= 64 * wlen x). { rewrite (wf_bits x W). apply bitlen_le; [lia|]. pose proof (val_bound _ (wf_words x W)). unfold magnitude, wlen in *. split; [|apply H0]. apply H0. }
      clear - We H H0 Hc. change (2 ^ 31) with 2147483648 in *. set (y := Z.land _ 1) in *. clearbody y. dlia. }
  destruct m3 as [w3 n3]. cbn [mm mn] in *. subst n3. change (is_zero x) with (is_zero x) in *.
  destruct (_ <? EXPONENT_MIN); exact F.
Qed.

(** ** Cube root *)
Lemma cube_le_R a b : (0 <= a <= b)%R -> (a * a * a <= b * b * b)%R.
Proof.
  intros H. assert (0 <= a * a)%R by (apply Rmult_le_pos; lra).
  apply Rmult_le_compat; try lra. apply Rmult_le_compat; lra.
Qed.
Lemma cube_lt_R a b : (0 <= b)%R -> (a * a * a < b * b * b)%R -> (a < b)%R.
Proof. intros Hb H. destruct (Rlt_le_dec a b) as [|L]; auto. exfalso. pose proof (cube_le_R b a ltac:(lra)). lra. Qed.
Lemma cube_inj_R a b : (0 <= a)%R -> (0 <= b)%R -> (a * a * a = b * b * b)%R -> a = b.
Proof.
  intros Ha Hb H. destruct (Rtotal_order a b) as [L|[E|L]]; auto; exfalso.
  - pose proof (cube_le_R a b). destruct (Req_dec a 0) as [->|N].
    + assert (0 < b * b * b)%R by (apply Rmult_lt_0_compat; [apply Rmult_lt_0_compat|]; lra). lra.
    + assert (a * a * a < b * b * b)%R; [|lra]. apply Rmult_le_0_lt_compat; try lra; [apply Rmult_le_pos; lra|]. apply Rmult_le_0_lt_compat; lra.
  - destruct (Req_dec b 0) as [->|N].
    + assert (0 < a * a * a)%R by (apply Rmult_lt_0_compat; [apply Rmult_lt_0_compat|]; lra). lra.
    + assert (b * b * b < a * a * a)%R; [|lra]. apply Rmult_le_0_lt_compat; try lra; [apply Rmult_le_pos; lra|]. apply Rmult_le_0_lt_compat; lra.
Qed.

Lemma cbrt_real M q r t : 0 <= q -> q * q * q <= M < (q + 1) * (q + 1) * (q + 1) -> r = M - q * q * q -> (0 <= t)%R -> (t * t * t = IZR M)%R ->
  if negb (r =? 0) then (IZR q < t < IZR (q + 1))%R else t = IZR q.
Proof.
  intros Hq HM -> Ht Et. assert (H0 : (0 <= IZR q)%R) by now apply IZR_le. assert (H1 : (0 <= IZR (q + 1))%R) by (apply IZR_le; lia).
  destruct (Z.eqb_spec (M - q * q * q) 0) as [E|E]; cbn [negb].
  - apply cube_inj_R; auto. rewrite Et, <- !mult_IZR. f_equal. lia.
  - split; apply cube_lt_R; auto; rewrite Et, <- !mult_IZR; apply IZR_lt; lia.
Qed.

Lemma m_cbrt_unfold m p rm pos ix a : m_cbrt m p rm pos ix a =
  (let P := wlen_of_bits p in
   let k := Z.max P (mlen m) + 1 in
   do (q, r) <- cbrt_rem (shift_slice_right (zeros (k * 3 - mlen m) ++ mm m) a);
   let '(de, m3, ix') := end_words q (negb (all_zero r)) rm pos ix P in
   Ok (- (k * 64) + zlen q * 64 + de, mk_m m3 (64 * zlen m3), ix')).
Proof.
  unfold m_cbrt, end_words. cbv zeta. destruct (cbrt_rem _) as [[q r]| |]; auto. cbn [bind].
  assert (L : forall x y z, zlen (fst (fst (sticky_words q x rm y z))) = zlen q).
  { intros x y z. unfold sticky_words. destruct x; [|reflexivity]. destruct (is_nearest rm); [cbn [fst]; apply zlen_zupd|]. destruct (rounds_away rm y); [|reflexivity].
    assert (G : forall q, zlen (fst (add_ulp q)) = zlen q).
    { clear. induction q as [|v t IH]; [reflexivity|]. cbn [add_ulp]. destruct (add_carry v 0 1) as [r c]. destruct (c =? 0); [reflexivity|]. destruct (add_ulp t) as [t' b]. cbn [fst] in *. rewrite !zlen_cons. lia. }
    specialize (G q). destruct (add_ulp q) as [q1 c]. cbn [fst] in G. destruct c; cbn [fst]; [rewrite zlen_zupd|]; auto. }
  specialize (L (negb (all_zero r)) pos ix).
  destruct (sticky_words _ _ _ _ _) as [[q' de] ix1]. cbn [fst] in L. destruct (maximize q') as [sh q2].
  destruct (round_to_words _ _ _ _ _) as [[m3 ovf] ix2]. do 2 f_equal. f_equal. destruct ovf; lia.
Qed.

Lemma m_cbrt_spec m P rm s ix e a c : words_ok (mm m) -> 0 < zlen (mm m) -> top_set (mm m) -> 0 < P -> 0 <= a <= 3 -> (exists h, e + a = 3 * h) ->
  (c * c * c = F2 s (val (mm m)) (e - 64 * zlen (mm m)))%R ->
  exists d m3 ix', m_cbrt m (64 * P) rm (is_pos s) ix a = Ok (d, m3, ix') /\ d <= 2 /\
  words_ok (mm m3) /\ zlen (mm m3) = P /\ mn m3 = 64 * P /\ top_set (mm m3) /\
  F2 s (val (mm m3)) (Z.quot (e + a) 3 + d - 64 * P) = rnd_prec (64 * P) rm c /\ (ix' = true <-> ix = true \/ rnd_prec (64 * P) rm c <> c).
Proof.
  intros Hw Hl Ht HP Ha [h Hh] Hc. rewrite m_cbrt_unfold. cbv zeta. rewrite wlen_of_bits_64. unfold mlen. destruct m as [w n]. cbn [mm] in *.
  set (j := Z.max P (zlen w) + 1). assert (Hj : P + 1 <= j /\ zlen w + 1 <= j) by (unfold j; lia). clearbody j.
  destruct (shift_operand w (j * 3) a Hw Hl Ht ltac:(lia) Ha) as (O1 & L1 & V1 & G1). set (m1 := shift_slice_right _ a) in *. clearbody m1.
  assert (T1 : top_nz m1). { split; [lia|]. rewrite L1. eapply Z.le_trans; [|exact G1]. apply Z.pow_le_mono_r; lia. }
  destruct (cbrt_rem_spec m1 j O1 T1 ltac:(lia)) as (q & rr & -> & Q1 & Q2 & Q3 & Q4 & Lq & _). cbn [bind].
  rewrite all_zero_spec by auto. pose proof (val_nonneg q Q1) as Q0.
  assert (Gq : 2 ^ (64 * j - 2) <= val q).
  { apply Z.lt_succ_r. unfold Z.succ. apply cube_lt_simpl; [lia|]. eapply Z.le_lt_trans; [|apply Q3]. eapply Z.le_trans; [|exact G1].
    rewrite <- !Z.pow_add_r by lia. apply Z.pow_le_mono_r; lia. }
  assert (Pq : 0 < val q) by (pose proof (pow2_gt0 (64 * j - 2) ltac:(lia)); lia).
  assert (Bq : 64 * P + 2 <= bitlen (val q)).
  { destruct (Z_le_gt_dec (64 * P + 2) (bitlen (val q))); auto. exfalso. pose proof (bitlen_spec (val q) Pq) as [_ B].
    assert (2 ^ bitlen (val q) <= 2 ^ (64 * j - 2)) by (apply Z.pow_le_mono_r; lia). lia. }
  set (t := (sgnR s * c * bpow radix2 (- (h - 64 * j)))%R).
  assert (Et : (t * t * t = IZR (val m1))%R).
  { assert (E1 : (t * t * t = sgnR s * sgnR s * sgnR s * (c * c * c) * bpow radix2 (3 * - (h - 64 * j)))%R).
    { unfold t. replace (3 * - (h - 64 * j)) with (- (h - 64 * j) + - (h - 64 * j) + - (h - 64 * j)) by lia. rewrite !bpow_plus. ring. }
    rewrite E1, Hc, F2R_sgn. apply (f_equal IZR) in V1. rewrite !mult_IZR, <- !bpow_IZR in V1 by lia.
    replace (IZR (val m1)) with (IZR (val w) * bpow radix2 (64 * (j * 3 - zlen w)) * bpow radix2 (- a))%R.
    2:{ rewrite (Rmult_comm (IZR (val w))), <- V1, Rmult_assoc, <- bpow_plus, Z.add_opp_diag_r. apply Rmult_1_r. }
    replace (sgnR s * sgnR s * sgnR s * (sgnR s * IZR (val w) * bpow radix2 (e - 64 * zlen w)) * bpow radix2 (3 * - (h - 64 * j)))%R
      with ((sgnR s * sgnR s) * (sgnR s * sgnR s) * (IZR (val w) * (bpow radix2 (e - 64 * zlen w) * bpow radix2 (3 * - (h - 64 * j)))))%R by ring.
    rewrite <- bpow_plus. replace (sgnR s * sgnR s)%R with 1%R by (destruct (sgnR_cases s) as [-> | ->]; ring).
    rewrite !Rmult_1_l. rewrite Rmult_assoc, <- bpow_plus. do 2 f_equal. lia. }
  assert (Pm1 : 0 < val m1) by (apply top_nz_pos; auto).
  assert (Ht0 : (0 <= t)%R).
  { destruct (Rle_lt_dec 0 t); auto. exfalso. assert (0 < (- t) * (- t) * (- t))%R by (apply Rmult_lt_0_compat; [apply Rmult_lt_0_compat|]; lra).
    apply IZR_lt in Pm1. lra. }
  pose proof (end_words_spec q (negb (val rr =? 0)) P rm s ix t h Q1 HP Bq (cbrt_real _ _ _ t Q0 Q3 Q4 Ht0 Et)) as EW. cbv zeta in EW.
  assert (Er : (sgnR s * t * bpow radix2 (h - 64 * zlen q))%R = c).
  { rewrite Lq. unfold t. replace (sgnR s * (sgnR s * c * bpow radix2 (- (h - 64 * j))) * bpow radix2 (h - 64 * j))%R
      with (sgnR s * sgnR s * c * (bpow radix2 (- (h - 64 * j)) * bpow radix2 (h - 64 * j)))%R by ring.
    rewrite <- bpow_plus, Z.add_opp_diag_l. change (bpow radix2 0) with 1%R. destruct (sgnR_cases s) as [-> | ->]; ring. }
  rewrite Er in EW.
  destruct (end_words q (negb (val rr =? 0)) rm (is_pos s) ix P) as [[de m3] ix'] eqn:EE.
  pose proof (end_words_de _ _ _ _ _ _ _ _ _ Q1 Pq EE) as Hde. destruct EW as (W1 & W2 & W3 & W4 & W5).
  assert (Eq : Z.quot (e + a) 3 = h) by (rewrite Hh, Z.mul_comm; apply Z.quot_mul; lia).
  do 3 eexists. split; [reflexivity|]. cbn [mm mn]. split; [lia|]. split; [auto|]. split; [auto|]. split; [lia|]. split; [auto|]. split; [|auto].
  rewrite <- W4, Eq, Lq. f2eq.
Qed.

Lemma exp_add_spec e : let a := if e <? 0 then Z.rem (- e) 3 else if 0 <? e then 3 - Z.rem e 3 else 0 in
  0 <= a <= 3 /\ exists h, e + a = 3 * h.
Proof.
  cbv zeta. destruct (Z.ltb_spec e 0) as [H|H].
  - rewrite Z.rem_mod_nonneg by lia. pose proof (Z.mod_pos_bound (- e) 3 ltac:(lia)). split; [lia|]. exists (- ((- e) / 3)). dlia.
  - destruct (Z.ltb_spec 0 e) as [H2|H2].
    + rewrite Z.rem_mod_nonneg by lia. pose proof (Z.mod_pos_bound e 3 ltac:(lia)). split; [lia|]. exists (e / 3 + 1). dlia.
    + split; [lia|]. exists 0. lia.
Qed.

Lemma norm_exp_max x : wf x -> norm_exp x <= EMAX.
Proof.
  intros W. pose proof (wf_exp x W) as We. unfold norm_exp.
  assert (mn (nm x) <= 64 * wlen x); [|lia]. rewrite (wf_bits x W). pose proof (val_bound _ (wf_words x W)) as H. pose proof (zlen_nonneg (mm (nm x))).
  unfold magnitude, wlen. apply bitlen_le; lia.
Qed.

Theorem cbrt_nonzero x p rm c : wf x -> nonzero x -> (c * c * c = value x)%R -> 0 < p -> prec_up p < P_LIM ->
  correctly_rounded (prec_up p) rm c (ns x) (ninexact x) (n_cbrt x p rm).
Proof.
  intros W N Hc Hp Hlim. unfold n_cbrt. rewrite is_zero_false by auto. rewrite round_p_eq by (auto; lia).
  unfold prec_up in *. set (P := (p + 63) / 64) in *.
  assert (HP : 0 < P) by (unfold P; dlia). clearbody P. unfold p_assertion. replace (P_LIM <=? 64 * P) with false by lia. cbn [bind].
  destruct (normalize_spec x W N) as (m1 & -> & Ho & Hz & Hm & Ht & V). cbn [bind].
  destruct (nonzero_bits x W N) as (_ & HB & L). destruct (exp_add_spec (norm_exp x)) as [Ha Hh]. set (a := if norm_exp x <? 0 then _ else _) in *. clearbody a.
  replace (is_positive x) with (is_pos (ns x)) by (unfold is_positive, is_pos; destruct (ns x); reflexivity).
  rewrite V in Hc. rewrite <- Hz in Hc.
  destruct (m_cbrt_spec m1 P rm (ns x) (ninexact x) (norm_exp x) a c Ho ltac:(lia) Ht HP Ha Hh Hc) as (d & m3 & ix' & E & Hd & A1 & A2 & A3 & A4 & A5 & A6). rewrite E. cbn [bind].
  pose proof (finish_num_spec (mm m3) (ns x) _ ix' (ninexact x) rm P c A1 A2 HP Hlim A4 A5 A6) as F.
  unfold finish_num in F. replace (EXPONENT_MAX <? Z.quot (norm_exp x + a) 3 + d) with false in F.
  2:{ symmetry. apply Z.ltb_ge. pose proof (norm_exp_max x W) as We. change EXPONENT_MAX with (2147483647) in *.
      destruct Hh as [h Hh]. rewrite Hh, Z.mul_comm, Z.quot_mul by lia. lia. }
  destruct m3 as [w3 n3]. cbn [mm mn] in *. subst n3.
  destruct (_ <? EXPONENT_MIN); exact F.
Qed.
