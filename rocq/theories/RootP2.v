(** Integer cube root of word slices. *)

From Coq Require Import ZArith List Bool Lia.
From Verif Require Import Words IntModel MulModel DivModel RootModel SpecZ WordsP WordsP2 IntP MulP MulP2 DivP DivP2 RootP.
Import ListNotations.
Open Scope Z_scope.
Ltac Zify.zify_post_hook ::= idtac.
Arguments Z.mul : simpl never.
Arguments Z.add : simpl never.
Arguments Z.pow : simpl never.
Arguments Z.sub : simpl never.
Arguments Z.of_nat : simpl never.

Lemma cube_lt_simpl a b : 0 <= b -> a * a * a < b * b * b -> a < b.
Proof. intros Hb H. destruct (Z_lt_le_dec a b); auto. exfalso. assert (b * b <= a * a) by nia. nia. Qed.
Lemma cube_le_mono a b : 0 <= a <= b -> a * a * a <= b * b * b.
Proof. intros H. assert (a * a <= b * b) by nia. nia. Qed.

Lemma icbrt_div m s C : 0 < s -> 0 <= C -> m < (C + 1) * (C + 1) * (C + 1) -> C + 1 <= s -> m / (s * s) <= C.
Proof.
  intros Hs HC Hm L. apply Z.lt_succ_r. apply Z.div_lt_upper_bound; [nia|]. unfold Z.succ.
  assert ((C + 1) * (C + 1) <= s * s) by nia. nia.
Qed.

Lemma newton3_ge m s C : 0 < s -> 0 <= C -> C * C * C <= m -> C <= (2 * s + m / (s * s)) / 3.
Proof.
  intros Hs HC Hm. apply Z.div_le_lower_bound; [lia|]. assert (Hss : 0 < s * s) by nia.
  pose proof (Z.div_mod m (s * s) ltac:(lia)) as D. pose proof (Z.mod_pos_bound m (s * s) Hss) as Mb.
  set (q := m / (s * s)) in *. clearbody q. set (w := m mod (s * s)) in *. clearbody w.
  assert (K : 0 <= (s - C) * (s - C) * (2 * s + C)) by (apply Z.mul_nonneg_nonneg; [apply Z.square_nonneg|lia]).
  assert (E : s * s * (2 * s + q + 1 - 3 * C) = (s - C) * (s - C) * (2 * s + C) + (s * s * q + s * s - C * C * C)) by ring.
  assert (P : 0 < s * s * (2 * s + q + 1 - 3 * C)).
  { rewrite E. clear E. set (k := (s - C) * (s - C) * (2 * s + C)) in *. clearbody k. lia. }
  apply Z.lt_0_mul in P. destruct P as [[_ P]|[_ P]]; lia.
Qed.

Lemma newton3_conv s C q e : C + 1 <= s -> 0 <= C -> q <= C -> C <= (2 * s + q) / 3 -> (s - C) * (s - C) < 2 * e ->
  (2 * s + q) / 3 < s /\ ((2 * s + q) / 3 - C) * ((2 * s + q) / 3 - C) < e.
Proof.
  intros Hs HC Hq Hge He. pose proof (Z.div_mod (2 * s + q) 3 ltac:(lia)) as D. pose proof (Z.mod_pos_bound (2 * s + q) 3 ltac:(lia)) as M.
  set (t := (2 * s + q) / 3) in *. clearbody t. split; [lia|].
  assert (3 * (t - C) <= 2 * (s - C)) by lia.
  set (x := t - C) in *. set (y := s - C) in *. assert (0 <= x) by (unfold x; lia). clearbody x y. nia.
Qed.

(** Normalising the square and rescaling the dividend. *)
Lemma cbrt_norm_spec m mc sq sh K : words_ok mc -> words_ok sq -> 0 <= m < 2 ^ (64 * K) -> 0 <= K -> zlen mc = K + 2 -> 0 <= sh <= 127 -> val mc = m * 2 ^ sh ->
  2 <= zlen sq -> 2 ^ (64 * (zlen sq - 2)) <= val sq ->
  exists mc' sq' sh', crbt_normalize_div mc sq sh = (mc', sq', sh') /\ words_ok mc' /\ words_ok sq' /\ zlen mc' = K + 2 /\ zlen sq' = zlen sq /\
    0 <= sh' <= 127 /\ val mc' = m * 2 ^ sh' /\ val sq' = val sq * 2 ^ sh' /\ 2 ^ (64 * (zlen sq - 1)) <= val sq'.
Proof.
  intros Hm Hs Bm HK Lm Hsh Vm Ls Ts. unfold crbt_normalize_div. rewrite (find_one_from_spec sq 0 Hs ltac:(lia)). cbv zeta. rewrite Z.sub_0_r.
  pose proof (val_bound sq Hs) as Bs. pose proof (pow2_gt0 (64 * (zlen sq - 2)) ltac:(lia)) as P0. rewrite Z.mod_small by lia.
  replace ((64 * zlen sq <=? 0) || (val sq =? 0)) with false by lia.
  set (pos := 64 * zlen sq - 1 - Z.log2 (val sq)).
  assert (L1 : 64 * (zlen sq - 2) <= Z.log2 (val sq)) by (apply Z.log2_le_pow2; lia).
  assert (L2 : Z.log2 (val sq) < 64 * zlen sq) by (apply Z.log2_lt_pow2; lia).
  assert (Hpos : 0 <= pos <= 127) by (unfold pos; lia).
  destruct (shift_slice_left_spec sq pos Hs ltac:(lia)) as (A & B & C).
  destruct (Z.log2_spec (val sq) ltac:(lia)) as [L3 L4]. unfold Z.succ in L4.
  pose proof (pow2_gt0 pos ltac:(lia)) as Pp.
  assert (E1 : 2 ^ (Z.log2 (val sq)) * 2 ^ pos = 2 ^ (64 * zlen sq - 1)) by (rewrite <- Z.pow_add_r by lia; f_equal; lia).
  assert (E2 : 2 ^ (Z.log2 (val sq) + 1) * 2 ^ pos = 2 ^ (64 * zlen sq)) by (rewrite <- Z.pow_add_r by lia; f_equal; lia).
  rewrite Z.mod_small in A by (split; [apply Z.mul_nonneg_nonneg; lia|rewrite <- E2; apply Z.mul_lt_mono_pos_r; lia]).
  assert (Fit : forall x, 0 <= x <= 127 -> 0 <= m * 2 ^ x < 2 ^ (64 * (K + 2))).
  { intros x Hx. pose proof (pow2_gt0 x ltac:(lia)). split; [apply Z.mul_nonneg_nonneg; lia|].
    apply Z.lt_le_trans with (2 ^ (64 * K) * 2 ^ x); [apply Z.mul_lt_mono_pos_r; lia|]. rewrite <- Z.pow_add_r by lia. apply Z.pow_le_mono_r; lia. }
  exists (if pos <? sh then shift_slice_right mc (sh - pos) else if sh <? pos then shift_slice_left mc (pos - sh) else mc), (shift_slice_left sq pos), pos.
  split; [reflexivity|].
  assert (G : let mc' := if pos <? sh then shift_slice_right mc (sh - pos) else if sh <? pos then shift_slice_left mc (pos - sh) else mc in
    words_ok mc' /\ zlen mc' = K + 2 /\ val mc' = m * 2 ^ pos).
  { cbv zeta. destruct (Z.ltb_spec pos sh) as [H|H].
    - destruct (shift_slice_right_spec mc (sh - pos) Hm ltac:(lia)) as (X & Y & Z). split; [auto|]. split; [lia|]. rewrite X, Vm.
      replace (2 ^ sh) with (2 ^ pos * 2 ^ (sh - pos)) by (rewrite <- Z.pow_add_r by lia; f_equal; lia).
      rewrite Z.mul_assoc. apply Z.div_mul. pose proof (pow2_gt0 (sh - pos)). lia.
    - destruct (Z.ltb_spec sh pos) as [H2|H2].
      + destruct (shift_slice_left_spec mc (pos - sh) Hm ltac:(lia)) as (X & Y & Z). split; [auto|]. split; [lia|]. rewrite X, Vm, Lm.
        replace (m * 2 ^ sh * 2 ^ (pos - sh)) with (m * 2 ^ pos).
        * apply Z.mod_small. apply Fit. lia.
        * rewrite <- Z.mul_assoc, <- Z.pow_add_r by lia. do 2 f_equal. lia.
      + assert (pos = sh) by lia. split; [auto|]. split; [lia|]. congruence. }
  destruct G as (G1 & G2 & G3). split; [exact G1|]. split; [exact B|]. split; [exact G2|]. split; [exact C|]. split; [lia|]. split; [exact G3|]. split; [exact A|].
  rewrite A. apply Z.le_trans with (2 ^ (64 * zlen sq - 1)); [apply Z.pow_le_mono_r; lia|]. rewrite <- E1. apply Z.mul_le_mono_nonneg_r; lia.
Qed.

Lemma top_nz_sq s sq : words_ok s -> top_nz s -> val sq = val s * val s -> zlen sq = zlen s * 2 -> 2 <= zlen sq /\ 2 ^ (64 * (zlen sq - 2)) <= val sq.
Proof.
  intros Hs [L T] V Z. split; [lia|]. rewrite V, Z. replace (64 * (zlen s * 2 - 2)) with (64 * (zlen s - 1) + 64 * (zlen s - 1)) by lia. rewrite Z.pow_add_r by lia.
  apply Z.mul_le_mono_nonneg; auto; apply pow2_nonneg.
Qed.

(** One Newton step of the cube root. *)
Definition cbrt_step (m sbuf : words) (wl m_shift : Z) : result (words * Z * sws) :=
  do sq <- mul_unbalanced sbuf sbuf (zlen sbuf * 2);
  let '(m, sq, m_shift) := crbt_normalize_div m sq m_shift in
  do (qbuf, _) <- div_unbalanced m sq;
  let wb := right_shifted sbuf 63 1 wl in
  let qbuf := try_extend_2 qbuf ((Z.max (zlen qbuf) wl + 1) * 64) in
  let q := sws_add_assign (mk_sws qbuf 1) (mk_sws wb 1) in
  Ok (m, m_shift, mk_sws (div_by_word (sw q) 3) (sg q)).

Lemma cbrt_loop_unfold f m sbuf wl m_shift : cbrt_loop (S f) m sbuf wl m_shift =
  do (mm, q) <- cbrt_step m sbuf wl m_shift;
  let '(m, m_shift) := mm in
  if 0 <=? sws_cmp q (mk_sws sbuf 1) then
    let m := shift_slice_right m m_shift in
    let r := ztake (zlen m - 2) m in
    do sq <- mul_unbalanced sbuf sbuf (zlen sbuf * 2);
    do sc <- mul_unbalanced sq sbuf (zlen sbuf * 3);
    Ok (sbuf, sw (sws_sub_assign (mk_sws r 1) (mk_sws sc 1)))
  else cbrt_loop f m (trunc_leading_zeroes (sw q)) wl m_shift.
Proof.
  cbn [cbrt_loop]. unfold cbrt_step. destruct (mul_unbalanced sbuf sbuf (zlen sbuf * 2)) as [sq| |]; auto. cbn [bind].
  destruct (crbt_normalize_div m sq m_shift) as [[m' sq'] sh']. destruct (div_unbalanced m' sq') as [[q u]| |]; reflexivity.
Qed.

Lemma cbrt_step_spec M K mc s wl sh : words_ok mc -> words_ok s -> top_nz s -> 0 <= M < 2 ^ (64 * K) -> 0 <= K -> zlen mc = K + 2 -> 0 <= sh <= 127 -> val mc = M * 2 ^ sh ->
  zlen s + 1 <= wl ->
  exists mc' sh' q, cbrt_step mc s wl sh = Ok (mc', sh', q) /\ words_ok mc' /\ zlen mc' = K + 2 /\ 0 <= sh' <= 127 /\ val mc' = M * 2 ^ sh' /\ sok q /\
    sval q = (2 * val s + M / (val s * val s)) / 3 /\ val (sw q) = sval q.
Proof.
  intros Hm Hs Ts BM HK Lm Hsh Vm Hwl. unfold cbrt_step. pose proof (top_nz_pos s Ts) as Ps.
  destruct (mul_unbalanced_spec s s (zlen s * 2) Hs Hs ltac:(lia)) as (sq & E1 & V1 & O1 & L1). rewrite E1. cbn [bind]. clear E1.
  destruct (top_nz_sq s sq Hs Ts V1 L1) as [T1 T2].
  destruct (cbrt_norm_spec M mc sq sh K Hm O1 BM HK Lm Hsh Vm T1 T2) as (mc' & sq' & sh' & E2 & N1 & N2 & N3 & N4 & N5 & N6 & N7 & N8). rewrite E2. clear E2.
  destruct (div_unbalanced_spec mc' sq' N1 N2 ltac:(lia) ltac:(rewrite N4; exact N8)) as (q & u & E3 & D1 & D2 & D3 & D4 & D5 & _). rewrite E3. cbn [bind]. clear E3.
  pose proof (pow2_gt0 sh' ltac:(lia)) as Psh. pose proof (val_nonneg u D4) as U0. pose proof (val_nonneg q D3) as Q0.
  assert (Vq : val q = M / (val s * val s)).
  { rewrite <- (Z.div_mul_cancel_r M (val s * val s) (2 ^ sh')) by nia. rewrite <- N6, <- V1, <- N7. apply Z.div_unique with (val u); lia. }
  destruct (right_shifted_spec s 63 1 wl Hs ltac:(lia) ltac:(lia) ltac:(lia)) as (W1 & W2 & W3).
  assert (Vw : val (right_shifted s 63 1 wl) = 2 * val s).
  { rewrite W1. change (2 ^ (64 * 1)) with (2 * 2 ^ 63). rewrite Z.mul_assoc, Z.div_mul by lia. lia. }
  set (wb := right_shifted s 63 1 wl) in *. clearbody wb. clear W1.
  destruct (try_extend_2_spec q ((Z.max (zlen q) wl + 1) * 64) D3) as (X1 & X2 & X3).
  assert (X3' : zlen (try_extend_2 q ((Z.max (zlen q) wl + 1) * 64)) = Z.max (zlen q) wl + 1).
  { rewrite X3. replace (((Z.max (zlen q) wl + 1) * 64 + 63) / 64) with (Z.max (zlen q) wl + 1); [lia|]. clear. Z.div_mod_to_equations. lia. }
  set (qb := try_extend_2 q _) in *. clearbody qb. set (Lq := Z.max (zlen q) wl) in *.
  pose proof (val_bound q D3) as Bq. pose proof (val_bound wb W2) as Bw. rewrite W3 in Bw. pose proof (zlen_nonneg q) as Lq0.
  assert (P1 : 2 ^ (64 * zlen q) <= 2 ^ (64 * Lq)) by (apply Z.pow_le_mono_r; lia).
  assert (P2 : 2 ^ (64 * wl) <= 2 ^ (64 * Lq)) by (apply Z.pow_le_mono_r; lia).
  assert (P3 : 2 ^ (64 * (Lq + 1)) = 2 ^ 64 * 2 ^ (64 * Lq)) by (rewrite <- Z.pow_add_r by lia; f_equal; lia).
  destruct (sws_add_ok (mk_sws qb 1) (mk_sws wb 1)) as (A1 & A2 & A3); try (now apply sok_pos); cbn [sw]; rewrite ?sval_pos, ?X3', ?P3, ?X1; [clear - P1 P2 Bq Bw; lia|clear - P1 P2 Bq Bw; lia|].
  rewrite !sval_pos, X1, Vw, Vq in A3. set (t := sws_add_assign _ _) in *. clearbody t.
  assert (T0 : 0 <= sval t) by (rewrite A3, <- Vq; clear - Q0 Ps; lia).
  pose proof (sval_val t A1 T0) as Vt. destruct (div_by_word_spec (sw t) 3 (sok_w _ A1) ltac:(lia)) as (F1 & F2 & F3).
  eexists _, _, _. split; [reflexivity|]. split; [exact N1|]. split; [exact N3|]. split; [exact N5|]. split; [exact N6|].
  split; [constructor; [exact F2|apply (sok_s _ A1)]|]. cbn [sw]. rewrite F1, Vt, A3. rewrite Z.add_comm.
  assert (G : sval (mk_sws (div_by_word (sw t) 3) (sg t)) = val (div_by_word (sw t) 3)).
  { unfold sval. cbn [sw sg]. destruct (sok_s _ A1) as [-> | Es]; [lia|]. exfalso. unfold sval in A3. rewrite Es in A3. rewrite <- Vq in A3.
    pose proof (val_nonneg _ (sok_w _ A1)). lia. }
  rewrite G, F1, Vt, A3, Z.add_comm. split; reflexivity.
Qed.

Lemma cbrt_loop_spec M K C wl : 0 <= K -> 0 < M < 2 ^ (64 * K) -> 1 <= C -> C * C * C <= M < (C + 1) * (C + 1) * (C + 1) ->
  forall f mc s sh, words_ok mc -> words_ok s -> top_nz s -> zlen mc = K + 2 -> 0 <= sh <= 127 -> val mc = M * 2 ^ sh -> zlen s + 1 <= wl ->
    C <= val s -> (val s - C) * (val s - C) < 2 ^ Z.of_nat f ->
  exists s' r, cbrt_loop (S f) mc s wl sh = Ok (s', r) /\ words_ok s' /\ words_ok r /\ top_nz s' /\ val s' = C /\ val r = M - C * C * C /\ zlen r = K.
Proof.
  intros HK BM HC HCM. 
  assert (Done : forall f mc s sh mc' sh' q, cbrt_step mc s wl sh = Ok (mc', sh', q) -> words_ok mc' -> words_ok s -> top_nz s -> zlen mc' = K + 2 -> 0 <= sh' <= 127 -> val mc' = M * 2 ^ sh' ->
     0 <= sws_cmp q (mk_sws s 1) -> val s = C ->
     exists s' r, cbrt_loop (S f) mc s wl sh = Ok (s', r) /\ words_ok s' /\ words_ok r /\ top_nz s' /\ val s' = C /\ val r = M - C * C * C /\ zlen r = K).
  { intros f mc s sh mc' sh' q E Om Os Ts Lm Hsh Vm Hc Es. rewrite cbrt_loop_unfold, E. cbn [bind]. apply Z.leb_le in Hc. rewrite Hc. cbv zeta.
    destruct (shift_slice_right_spec mc' sh' Om ltac:(lia)) as (A & B & D). rewrite Vm, Z.div_mul in A by (pose proof (pow2_gt0 sh'); lia).
    set (m2 := shift_slice_right mc' sh') in *. clearbody m2. rewrite D, Lm. replace (K + 2 - 2) with K by lia.
    assert (Vt : val (ztake K m2) = M) by (rewrite val_ztake_fit; auto; lia).
    assert (Lt : zlen (ztake K m2) = K) by (apply zlen_ztake; lia).
    assert (Ot : words_ok (ztake K m2)) by (apply ok_ztake; auto).
    destruct (mul_unbalanced_spec s s (zlen s * 2) Os Os ltac:(lia)) as (sq & E1 & V1 & O1 & L1). rewrite E1. cbn [bind].
    destruct (mul_unbalanced_spec sq s (zlen s * 3) O1 Os ltac:(lia)) as (sc & E2 & V2 & O2 & L2). rewrite E2. cbn [bind].
    rewrite V1, Es in V2.
    destruct (sws_sub_ok (mk_sws (ztake K m2) 1) (mk_sws sc 1)) as (S1 & S2 & S3); try (now apply sok_pos); cbn [sw]; rewrite ?sval_pos, ?Vt, ?V2, ?Lt; [lia| |].
    { assert (0 <= C * C * C) by nia. lia. }
    rewrite !sval_pos, Vt, V2 in S3. cbn [sw] in S2. rewrite Lt in S2.
    eexists _, _. split; [reflexivity|]. split; [exact Os|]. split; [apply (sok_w _ S1)|]. split; [exact Ts|]. split; [exact Es|]. split; [|exact S2].
    rewrite sval_val by (auto; lia). exact S3. }
  induction f as [|f IH]; intros mc s sh Om Os Ts Lm Hsh Vm Hwl HCs He.
  - change (2 ^ Z.of_nat 0) with 1 in He. assert (Es : val s = C) by nia.
    destruct (cbrt_step_spec M K mc s wl sh Om Os Ts ltac:(lia) HK Lm Hsh Vm Hwl) as (mc' & sh' & q & E & R1 & R2 & R3 & R4 & R5 & R6 & R7).
    eapply Done; eauto. pose proof (sws_cmp_spec q (mk_sws s 1) R5 (sok_pos _ Os)) as Cm. rewrite sval_pos, R6 in Cm.
    pose proof (newton3_ge M (val s) C ltac:(lia) ltac:(lia) ltac:(lia)) as G.
    destruct (Z_lt_le_dec (sws_cmp q (mk_sws s 1)) 0) as [L|]; auto. rewrite (Z.sgn_neg (sws_cmp _ _)) in Cm by auto. symmetry in Cm. apply Z.sgn_neg_iff in Cm. lia.
  - destruct (cbrt_step_spec M K mc s wl sh Om Os Ts ltac:(lia) HK Lm Hsh Vm Hwl) as (mc' & sh' & q & E & R1 & R2 & R3 & R4 & R5 & R6 & R7).
    pose proof (sws_cmp_spec q (mk_sws s 1) R5 (sok_pos _ Os)) as Cm. rewrite sval_pos, R6 in Cm.
    pose proof (newton3_ge M (val s) C ltac:(lia) ltac:(lia) ltac:(lia)) as G.
    assert (Conv : C + 1 <= val s -> (2 * val s + M / (val s * val s)) / 3 < val s /\
      ((2 * val s + M / (val s * val s)) / 3 - C) * ((2 * val s + M / (val s * val s)) / 3 - C) < 2 ^ Z.of_nat f).
    { intros L. apply newton3_conv; auto; [lia|apply icbrt_div; lia|]. replace (Z.of_nat (S f)) with (1 + Z.of_nat f) in He by lia. rewrite Z.pow_add_r in He by lia. exact He. }
    destruct (Z_lt_le_dec (sws_cmp q (mk_sws s 1)) 0) as [L|L].
    + rewrite (Z.sgn_neg (sws_cmp _ _)) in Cm by auto. symmetry in Cm. apply Z.sgn_neg_iff in Cm.
      destruct (Conv ltac:(lia)) as [Lt Le]. rewrite cbrt_loop_unfold, E. cbn [bind]. replace (0 <=? sws_cmp q (mk_sws s 1)) with false by lia.
      assert (Wq : words_ok (sw q)) by apply (sok_w _ R5).
      destruct (trunc_leading_zeroes_spec (sw q) Wq) as (T1 & T2 & T3 & T4 & _). destruct T4 as [T4 T5]; [lia|].
      assert (Tn : top_nz (trunc_leading_zeroes (sw q))) by (split; [lia|rewrite T1; exact T4]).
      rewrite R7, R6 in T1.
      apply IH; auto.
      * assert (zlen (trunc_leading_zeroes (sw q)) <= zlen s); [|lia]. apply top_nz_len; auto; [apply zlen_nonneg|]. rewrite T1. eapply Z.lt_trans; [exact Lt|apply val_bound; auto].
      * rewrite T1. exact G.
      * rewrite T1. exact Le.
    + assert (Es : val s = C).
      { destruct (Z_lt_le_dec C (val s)) as [Lc|]; [|lia]. exfalso. destruct (Conv ltac:(lia)) as [Lt _].
        rewrite (Z.sgn_neg (_ / 3 - _)) in Cm by lia. apply Z.sgn_neg_iff in Cm. lia. }
      eapply Done; eauto.
Qed.

(** Existence of the integer cube root. *)
Lemma icbrt_ex M : 0 <= M -> exists C, 0 <= C /\ C * C * C <= M < (C + 1) * (C + 1) * (C + 1).
Proof.
  intros HM. assert (G : forall n : nat, forall M, 0 <= M <= Z.of_nat n -> exists C, 0 <= C /\ C * C * C <= M < (C + 1) * (C + 1) * (C + 1)).
  { clear. induction n as [|n IH]; intros M H.
    - exists 0. lia.
    - destruct (Z.eq_dec M 0) as [->|]; [exists 0; lia|]. destruct (IH (M - 1) ltac:(lia)) as (C & HC & H1 & H2).
      destruct (Z_lt_le_dec M ((C + 1) * (C + 1) * (C + 1))) as [L|L]; [exists C; lia|].
      exists (C + 1). split; [lia|]. split; [lia|]. nia. }
  apply (G (Z.to_nat M)). lia.
Qed.

Lemma icbrt_len k M C : 1 <= k -> 2 ^ (64 * (3 * k - 1)) <= M < 2 ^ (64 * (3 * k)) -> 0 <= C -> C * C * C <= M < (C + 1) * (C + 1) * (C + 1) ->
  2 ^ (64 * (k - 1)) <= C < 2 ^ (64 * k).
Proof.
  intros Hk HM HC HCM. 
  assert (E1 : 2 ^ (64 * k) * 2 ^ (64 * k) * 2 ^ (64 * k) = 2 ^ (64 * (3 * k))) by (rewrite <- !Z.pow_add_r by lia; f_equal; lia).
  assert (E2 : 2 ^ (64 * (k - 1)) * 2 ^ (64 * (k - 1)) * 2 ^ (64 * (k - 1)) = 2 ^ (64 * (3 * k - 3))) by (rewrite <- !Z.pow_add_r by lia; f_equal; lia).
  assert (L2 : 2 ^ (64 * (3 * k - 3)) <= 2 ^ (64 * (3 * k - 1))) by (apply Z.pow_le_mono_r; lia).
  split.
  - apply Z.lt_succ_r. unfold Z.succ. apply cube_lt_simpl; lia.
  - apply cube_lt_simpl; [apply pow2_nonneg|lia].
Qed.

Lemma cbrt_rem_spec m k : words_ok m -> top_nz m -> zlen m = 3 * k ->
  exists s r, cbrt_rem m = Ok (s, r) /\ words_ok s /\ words_ok r /\ val s * val s * val s <= val m < (val s + 1) * (val s + 1) * (val s + 1) /\
    val r = val m - val s * val s * val s /\ zlen s = k /\ top_nz s.
Proof.
  intros Hok Ht Hk. unfold cbrt_rem. pose proof Ht as [Hl Hv]. pose proof (val_bound m Hok) as Hb.
  destruct (root_estimate_spec m 3 Hok Ht ltac:(lia)) as (s0 & E0 & So & St & Sl & Sv). rewrite E0. cbn [bind]. clear E0.
  pose proof (top_nz_pos m Ht) as Hpos. destruct (icbrt_ex (val m) ltac:(lia)) as (C & C0 & HC).
  assert (C1 : 1 <= C) by nia.
  assert (E3 : zlen m / 3 = k) by (rewrite Hk, Z.mul_comm; apply Z.div_mul; lia).
  set (top := val m / 2 ^ (64 * (zlen m - 1))) in *.
  pose proof (pow2_gt0 (64 * (zlen m - 1)) ltac:(lia)) as Hp.
  assert (Htop : 0 < top) by (apply Z.div_str_pos; lia).
  assert (Htop2 : top < 2 ^ 64).
  { apply Z.div_lt_upper_bound; [auto|]. rewrite <- Z.pow_add_r by lia. replace (64 * (zlen m - 1) + 64) with (64 * zlen m) by lia. apply Hb. }
  assert (Hlog : 0 <= Z.log2 top / 3 <= 21).
  { assert (0 <= Z.log2 top < 64) by (split; [apply Z.log2_nonneg|apply Z.log2_lt_pow2; lia]). clear - H. Z.div_mod_to_equations. lia. }
  rewrite E3 in *. rewrite Hk in Hv, Hb.
  pose proof (icbrt_len k (val m) C ltac:(lia) ltac:(lia) C0 HC) as HL.
  assert (Hs0 : 2 ^ (64 * k) <= val s0 <= 2 ^ (64 * k + 22)) by (rewrite Sv; split; apply Z.pow_le_mono_r; lia).
  replace (Z.to_nat (128 * zlen m + 400)) with (S (Z.to_nat (128 * zlen m + 399))) by lia.
  destruct (try_extend_2_spec m ((zlen m + 2) * 64) Hok) as (X1 & X2 & X3).
  assert (X3' : zlen (try_extend_2 m ((zlen m + 2) * 64)) = 3 * k + 2).
  { rewrite X3. clear - Hk. Z.div_mod_to_equations. lia. }
  destruct (cbrt_loop_spec (val m) (3 * k) C (zlen s0 + 1) ltac:(lia) ltac:(lia) C1 HC (Z.to_nat (128 * zlen m + 399)) _ s0 0 X2 So St X3' ltac:(lia)) as (s & r & E & R1 & R2 & R3 & R4 & R5 & R6).
  { rewrite X1. change (2 ^ 0) with 1. lia. } { lia. } { lia. }
  { rewrite Z2Nat.id by lia. assert ((val s0 - C) * (val s0 - C) < 2 ^ (64 * k + 22) * 2 ^ (64 * k + 22)).
    { apply Z.mul_lt_mono_nonneg; lia. }
    rewrite <- Z.pow_add_r in H by lia. eapply Z.lt_le_trans; [exact H|]. apply Z.pow_le_mono_r; lia. }
  exists s, r. rewrite E, R4. split; [reflexivity|]. split; [auto|]. split; [auto|]. split; [auto|]. split; [auto|]. split; [|auto].
  apply Z.le_antisymm.
  - apply top_nz_len; auto; [lia|]. rewrite R4. apply HL.
  - pose proof (val_bound s R1) as Bs. rewrite R4 in Bs. assert (L : 2 ^ (64 * (k - 1)) < 2 ^ (64 * zlen s)) by lia.
    pose proof (zlen_nonneg s). apply Z.pow_lt_mono_r_iff in L; lia.
Qed.
