(** Integer square root of word slices. *)

From Coq Require Import ZArith List Bool Lia.
From Verif Require Import Words IntModel MulModel DivModel RootModel SpecZ WordsP WordsP2 IntP MulP MulP2 DivP DivP2.
Import ListNotations.
Open Scope Z_scope.
Ltac Zify.zify_post_hook ::= idtac.
Arguments Z.mul : simpl never.
Arguments Z.add : simpl never.
Arguments Z.pow : simpl never.
Arguments Z.sub : simpl never.
Arguments Z.of_nat : simpl never.

Lemma log2_floor_loop_spec f : forall n r, 0 < n < 2 ^ (Z.of_nat f + 1) -> log2_floor_loop f n r = r + Z.log2 n.
Proof.
  induction f as [|f IH]; intros n r Hn; cbn [log2_floor_loop].
  - change (2 ^ (Z.of_nat 0 + 1)) with 2 in Hn. replace n with 1 by lia. change (Z.log2 1) with 0. lia.
  - destruct (Z.ltb_spec 1 n) as [H1|H1].
    + rewrite Z.shiftr_div_pow2 by lia. change (2 ^ 1) with 2.
      assert (E : Z.log2 n = 1 + Z.log2 (n / 2)).
      { pose proof (Z.log2_shiftr n 1 ltac:(lia)) as L. rewrite Z.shiftr_div_pow2 in L by lia. change (2 ^ 1) with 2 in L.
        pose proof (Z.log2_le_mono 2 n ltac:(lia)) as L2. change (Z.log2 2) with 1 in L2. lia. }
      rewrite IH; [lia|]. replace (Z.of_nat (S f) + 1) with (1 + (Z.of_nat f + 1)) in Hn by lia. rewrite Z.pow_add_r in Hn by lia. change (2 ^ 1) with 2 in Hn.
      clear - Hn H1. Z.div_mod_to_equations. lia.
    + replace n with 1 by lia. change (Z.log2 1) with 0. lia.
Qed.

Lemma log2_floor_spec n : 0 < n < 2 ^ 64 -> log2_floor n = Z.log2 n.
Proof.
  intros Hn. unfold log2_floor. rewrite log2_floor_loop_spec; [lia|]. change (Z.of_nat 64 + 1) with 65. change (2 ^ 65) with (2 * 2 ^ 64). lia.
Qed.

(** A nonzero top word. *)
Definition top_nz (m : words) : Prop := 1 <= zlen m /\ 2 ^ (64 * (zlen m - 1)) <= val m.

Lemma top_nz_len m k : words_ok m -> top_nz m -> 0 <= k -> val m < 2 ^ (64 * k) -> zlen m <= k.
Proof.
  intros Hok [H1 H2] Hk H. assert (2 ^ (64 * (zlen m - 1)) < 2 ^ (64 * k)) as L by lia. apply Z.pow_lt_mono_r_iff in L; lia.
Qed.

Lemma top_nz_count m : words_ok m -> top_nz m -> count_zero_words (rev m) = 0.
Proof.
  intros Hok Ht. pose proof (effective_len_spec m Hok) as (A & B & _). pose proof (top_nz_len m _ Hok Ht (proj1 A) B). unfold effective_len in *.
  destruct (count_zero_words_spec (rev m) (ok_rev _ Hok)) as (Hn & _). rewrite zlen_rev in Hn. lia.
Qed.

Lemma top_nz_pos m : top_nz m -> 0 < val m.
Proof. intros [H1 H2]. pose proof (pow2_gt0 (64 * (zlen m - 1)) ltac:(lia)). lia. Qed.

Lemma root_estimate_spec m n : words_ok m -> top_nz m -> 2 <= n <= 3 -> exists s, root_estimate m n = Ok s /\ words_ok s /\ top_nz s /\
  zlen s = zlen m / n + 1 /\ val s = 2 ^ (64 * (zlen m / n) + Z.log2 (val m / 2 ^ (64 * (zlen m - 1))) / n + 1).
Proof.
  intros Hok Ht Hn. destruct Ht as [Hl Ht]. unfold root_estimate. pose proof (znth_top m Hok ltac:(lia)) as Htop.
  destruct (rev m) as [|top t] eqn:E.
  { apply (f_equal zlen) in E. rewrite zlen_rev, zlen_nil in E. lia. }
  assert (Etop : top = znth (zlen m - 1) m).
  { assert (Em : m = rev t ++ [top]) by (rewrite <- (rev_involutive m), E; reflexivity). rewrite Em. unfold znth.
    rewrite zlen_app. change (zlen [top]) with 1. rewrite zlen_rev. rewrite app_nth2; unfold zlen; rewrite rev_length; [|lia].
    replace (_ - _)%nat with 0%nat by lia. reflexivity. }
  rewrite Htop in Etop. pose proof (val_bound m Hok) as Hb. pose proof (pow2_gt0 (64 * (zlen m - 1)) ltac:(lia)) as Hp.
  assert (Htb : 0 < top < 2 ^ 64).
  { rewrite Etop. split.
    - apply Z.div_str_pos. lia.
    - apply Z.div_lt_upper_bound; [auto|]. rewrite <- Z.pow_add_r by lia. replace (64 * (zlen m - 1) + 64) with (64 * zlen m) by lia. apply Hb. }
  rewrite log2_floor_spec by auto. rewrite <- Etop.
  assert (Hlog : 0 <= Z.log2 top / n <= 31).
  { pose proof (Z.log2_nonneg top). pose proof (Z.log2_lt_pow2 top 64 ltac:(lia)) as L. assert (Z.log2 top < 64) by (apply L; lia). split.
    - apply Z.div_pos; lia.
    - assert (Z.log2 top / n < 32); [|lia]. apply Z.div_lt_upper_bound; lia. }
  set (k := Z.log2 top / n + 1) in *.
  assert (Hw : wshl 1 k = 2 ^ k).
  { unfold wshl. rewrite Z.shiftl_1_l. apply Z.mod_small. split; [apply pow2_nonneg|]. change WORD_BASE with (2 ^ 64). apply Z.pow_lt_mono_r; lia. }
  assert (Hk : 0 < 2 ^ k < 2 ^ 64) by (split; [apply pow2_gt0; lia|apply Z.pow_lt_mono_r; lia]).
  rewrite Hw. eexists. split; [reflexivity|].
  assert (Hq : 0 <= zlen m / n) by (apply Z.div_pos; lia).
  assert (Hl2 : zlen (zeros (zlen m / n) ++ [2 ^ k]) = zlen m / n + 1) by (rewrite zlen_app, zlen_zeros by auto; reflexivity).
  assert (Hv : val (zeros (zlen m / n) ++ [2 ^ k]) = 2 ^ (64 * (zlen m / n) + k)).
  { rewrite val_app, val_zeros, val_single, zlen_zeros, Z.pow_add_r by lia. lia. }
  split. { apply ok_app. split; [apply ok_zeros|]. apply ok_cons. split; [lia|constructor]. }
  split. { split; [lia|]. rewrite Hl2, Hv. apply Z.pow_le_mono_r; lia. }
  split; [exact Hl2|]. rewrite Hv. f_equal. unfold k. lia.
Qed.

Lemma isqrt_div m s R : 0 < s -> 0 <= R -> R * R <= m < (R + 1) * (R + 1) -> R + 1 <= s -> m / s <= R.
Proof. intros. apply Z.lt_succ_r. apply Z.div_lt_upper_bound; nia. Qed.

(** AM-GM: the next iterate is not below the root. *)
Lemma newton_ge m s R : 0 < s -> 0 <= R -> R * R <= m -> R <= (s + m / s) / 2.
Proof.
  intros Hs HR Hm. apply Z.div_le_lower_bound; [lia|].
  pose proof (Z.div_mod m s ltac:(lia)) as D. pose proof (Z.mod_pos_bound m s Hs) as Mb.
  pose proof (Z.square_nonneg (R - s)) as Sq.
  assert (s * (m / s + s + 1 - 2 * R) > 0).
  { replace (s * (m / s + s + 1 - 2 * R)) with ((s * (m / s) + s - R * R) + (R - s) * (R - s)) by ring. lia. }
  assert (m / s + s + 1 - 2 * R > 0) by nia. lia.
Qed.

Lemma sqrt_loop_spec m R : words_ok m -> top_nz m -> 1 <= R -> R * R <= val m < (R + 1) * (R + 1) ->
  forall f sbuf, words_ok sbuf -> top_nz sbuf -> zlen sbuf <= zlen m -> R <= val sbuf < R + 2 ^ Z.of_nat f ->
  exists s r, sqrt_loop (S f) m sbuf = Ok (s, r) /\ words_ok s /\ words_ok r /\ top_nz s /\ val s = R /\ val r = val m - R * R /\ zlen r = zlen m.
Proof.
  intros Hok Ht HR1 HR. pose proof (val_bound m Hok) as Hmb. pose proof Ht as [Hl1 _].
  assert (Htail : forall sbuf, words_ok sbuf -> top_nz sbuf -> zlen sbuf <= zlen m -> R <= val sbuf ->
    exists q, div_basic m sbuf = Ok q /\
      let q1 := sws_add_assign (mk_sws (try_extend_2 (fst q) ((zlen m + 1) * 64)) 1) (mk_sws sbuf 1) in
      let q2 := mk_sws (shift_slice_right (sw q1) 1) (sg q1) in
      words_ok (sw q2) /\ sok q2 /\ val (sw q2) = (val sbuf + val m / val sbuf) / 2 /\ sval q2 = val (sw q2)).
  { intros sbuf So [Sl St] Sle HRs. destruct (div_basic_spec m sbuf Hok So ltac:(lia) St) as (q & r & E & D1 & D2 & D3 & D4 & D5 & D6).
    exists (q, r). split; [exact E|]. cbn [fst]. destruct (try_extend_2_spec q ((zlen m + 1) * 64) D3) as (T1 & T2 & T3).
    assert (T3' : zlen (try_extend_2 q ((zlen m + 1) * 64)) = zlen m + 1) by (rewrite T3; clear -D5 Sl Sle; Z.div_mod_to_equations; lia).
    pose proof (val_bound sbuf So) as Hsb. pose proof (pow2_gt0 (64 * zlen m) ltac:(lia)) as Hpm.
    assert (Hsm : val sbuf < 2 ^ (64 * zlen m)) by (eapply Z.lt_le_trans; [apply Hsb|apply Z.pow_le_mono_r; lia]).
    pose proof (val_nonneg q D3) as Hq0. pose proof (val_nonneg r D4) as Hr0.
    assert (Eq : val q = val m / val sbuf) by (apply Z.div_unique with (val r); lia).
    assert (Hqm : val q <= val m) by nia.
    assert (P1 : 2 ^ (64 * (zlen m + 1)) = 2 ^ 64 * 2 ^ (64 * zlen m)) by (rewrite <- Z.pow_add_r by lia; f_equal; lia).
    cbv zeta. unfold sws_add_assign.
    destruct (sws_add_sub_assign_spec (mk_sws (try_extend_2 q ((zlen m + 1) * 64)) 1) (mk_sws sbuf 1) 1) as (A1 & A2 & A3).
    { now apply sok_pos. } { now apply sok_pos. } { auto. } { cbn [sw]. rewrite T3', P1. lia. } { cbn [sw]. rewrite !sval_pos, T3', P1, T1. lia. }
    rewrite !sval_pos, T1 in A3. set (q1 := sws_add_sub_assign _ _ _) in *.
    pose proof (sval_val q1 A1 ltac:(lia)) as A4.
    destruct (shift_slice_right_spec (sw q1) 1 (sok_w _ A1) ltac:(lia)) as (B1 & B2 & B3).
    cbn [sw sg]. split; [exact B2|]. split; [constructor; [exact B2|apply (sok_s _ A1)]|]. change (2 ^ 1) with 2 in B1.
    assert (V : val (shift_slice_right (sw q1) 1) = (val sbuf + val m / val sbuf) / 2) by (rewrite B1, A4, A3, Eq; f_equal; lia).
    split; [exact V|]. unfold sval. cbn [sw sg]. destruct (sok_s _ A1) as [-> | Es]; [lia|].
    exfalso. unfold sval in A3. rewrite Es in A3. pose proof (val_nonneg _ (sok_w _ A1)). pose proof (top_nz_pos sbuf (conj Sl St)). lia. }
  induction f as [|f IH]; intros sbuf So St Sle HRs.
  - change (2 ^ Z.of_nat 0) with 1 in HRs. assert (Es : val sbuf = R) by lia.
    destruct (Htail sbuf So St Sle ltac:(lia)) as ([q r] & E & K). cbn [sqrt_loop]. rewrite E. cbn [bind fst] in *. cbv zeta in *. destruct K as (K1 & K2 & K3 & K4).
    set (q2 := mk_sws (shift_slice_right _ _) _) in *.
    pose proof (sws_cmp_spec q2 (mk_sws sbuf 1) K2 (sok_pos _ So)) as C. rewrite sval_pos, K4, K3, Es in C.
    assert (R <= (R + val m / R) / 2) as Hge by (apply newton_ge; lia).
    assert (Hc : 0 <=? sws_cmp q2 (mk_sws sbuf 1) = true). { apply Z.leb_le. destruct (Z_lt_le_dec (sws_cmp q2 (mk_sws sbuf 1)) 0) as [L|]; auto. rewrite Z.sgn_neg in C by auto. symmetry in C. apply Z.sgn_neg_iff in C. lia. }
    rewrite Hc. destruct (mul_basic_spec sbuf sbuf (zlen sbuf * 2) So So ltac:(lia)) as (sq & Esq & V1 & V2 & V3). injection Esq as Esq. rewrite <- Esq in *.
    destruct (sws_add_sub_assign_spec (mk_sws m 1) (mk_sws (mul_basic sbuf sbuf (zlen sbuf * 2)) 1) (-1)) as (A1 & A2 & A3).
    { now apply sok_pos. } { now apply sok_pos. } { auto. } { cbn [sw]. rewrite V1, Es. lia. } { cbn [sw]. rewrite !sval_pos, V1, Es. nia. }
    rewrite !sval_pos, V1, Es in A3. unfold sws_sub_assign.
    eexists _, _. split; [reflexivity|]. split; [auto|]. split; [apply (sok_w _ A1)|]. split; [auto|]. split; [auto|]. split; [|exact A2].
    rewrite sval_val; auto; lia.
  - destruct (Htail sbuf So St Sle ltac:(lia)) as ([q r] & E & K). cbn [sqrt_loop]. rewrite E. cbn [bind fst] in *. cbv zeta in *. destruct K as (K1 & K2 & K3 & K4).
    set (q2 := mk_sws (shift_slice_right _ _) _) in *.
    pose proof (sws_cmp_spec q2 (mk_sws sbuf 1) K2 (sok_pos _ So)) as C. rewrite sval_pos, K4, K3 in C.
    assert (R <= (val sbuf + val m / val sbuf) / 2) as Hge by (apply newton_ge; lia).
    destruct (Z.leb_spec 0 (sws_cmp q2 (mk_sws sbuf 1))) as [Hc|Hc].
    + assert (Es : val sbuf = R).
      { destruct (Z_lt_le_dec R (val sbuf)) as [L|L]; [|lia]. exfalso.
        pose proof (isqrt_div (val m) (val sbuf) R ltac:(lia) ltac:(lia) HR ltac:(lia)) as D.
        assert (0 <= (val sbuf + val m / val sbuf) / 2 - val sbuf). { destruct (Z_lt_le_dec ((val sbuf + val m / val sbuf) / 2 - val sbuf) 0) as [L2|]; auto. rewrite (Z.sgn_neg (_ / 2 - _)) in C by auto. apply Z.sgn_neg_iff in C. lia. }
        assert ((val sbuf + val m / val sbuf) / 2 < val sbuf) by (apply Z.div_lt_upper_bound; lia). lia. }
      rewrite Es in *. destruct (mul_basic_spec sbuf sbuf (zlen sbuf * 2) So So ltac:(lia)) as (sq & Esq & V1 & V2 & V3). injection Esq as Esq. rewrite <- Esq in *.
      destruct (sws_add_sub_assign_spec (mk_sws m 1) (mk_sws (mul_basic sbuf sbuf (zlen sbuf * 2)) 1) (-1)) as (A1 & A2 & A3).
      { now apply sok_pos. } { now apply sok_pos. } { auto. } { cbn [sw]. rewrite V1, Es. lia. } { cbn [sw]. rewrite !sval_pos, V1, Es. nia. }
      rewrite !sval_pos, V1, Es in A3. unfold sws_sub_assign.
      eexists _, _. split; [reflexivity|]. split; [auto|]. split; [apply (sok_w _ A1)|]. split; [auto|]. split; [auto|]. split; [|exact A2].
      rewrite sval_val; auto; lia.
    + assert (L : (val sbuf + val m / val sbuf) / 2 < val sbuf).
      { rewrite (Z.sgn_neg (sws_cmp _ _)) in C by auto. symmetry in C. apply Z.sgn_neg_iff in C. lia. }
      assert (LR : R < val sbuf) by lia.
      pose proof (isqrt_div (val m) (val sbuf) R ltac:(lia) ltac:(lia) HR ltac:(lia)) as D.
      assert (U : (val sbuf + val m / val sbuf) / 2 < R + 2 ^ Z.of_nat f).
      { apply Z.div_lt_upper_bound; [lia|]. replace (Z.of_nat (S f)) with (1 + Z.of_nat f) in HRs by lia. rewrite Z.pow_add_r in HRs by lia. change (2 ^ 1) with 2 in HRs. lia. }
      destruct (trunc_leading_zeroes_spec (sw q2) K1) as (T1 & T2 & T3 & T4 & _). destruct T4 as [T4 T5]; [lia|].
      assert (Tn : top_nz (trunc_leading_zeroes (sw q2))) by (split; [lia|rewrite T1; exact T4]).
      apply IH; auto.
      * etransitivity; [|exact Sle]. apply top_nz_len; auto; [apply zlen_nonneg|]. rewrite T1, K3. eapply Z.lt_trans; [exact L|apply val_bound; auto].
      * rewrite T1, K3. lia.
Qed.

(** * Length of the root *)
Lemma isqrt_len n M R : 1 <= n -> 2 ^ (64 * (n - 1)) <= M < 2 ^ (64 * n) -> 0 <= R -> R * R <= M < (R + 1) * (R + 1) ->
  2 ^ (64 * ((n + 1) / 2 - 1)) <= R < 2 ^ (64 * ((n + 1) / 2)).
Proof.
  intros Hn HM HR HRM. set (k := (n + 1) / 2).
  assert (Hk : 2 * k - 1 <= n <= 2 * k) by (unfold k; clear; Z.div_mod_to_equations; lia). clearbody k.
  pose proof (pow2_gt0 (64 * k) ltac:(lia)) as P1. pose proof (pow2_gt0 (64 * (k - 1)) ltac:(lia)) as P2.
  assert (E1 : 2 ^ (64 * k) * 2 ^ (64 * k) = 2 ^ (64 * (2 * k))) by (rewrite <- Z.pow_add_r by lia; f_equal; lia).
  assert (E2 : 2 ^ (64 * (k - 1)) * 2 ^ (64 * (k - 1)) = 2 ^ (64 * (2 * k - 2))) by (rewrite <- Z.pow_add_r by lia; f_equal; lia).
  assert (L1 : 2 ^ (64 * n) <= 2 ^ (64 * (2 * k))) by (apply Z.pow_le_mono_r; lia).
  assert (L2 : 2 ^ (64 * (2 * k - 2)) <= 2 ^ (64 * (n - 1))) by (apply Z.pow_le_mono_r; lia).
  split.
  - apply Z.lt_succ_r. unfold Z.succ. apply Z.square_lt_simpl_nonneg; lia.
  - apply Z.square_lt_simpl_nonneg; lia.
Qed.

Definition sqrt_spec (f : words -> result (words * words)) (m : words) : Prop :=
  exists s r, f m = Ok (s, r) /\ words_ok s /\ words_ok r /\ val s * val s <= val m < (val s + 1) * (val s + 1) /\ val r = val m - val s * val s /\
    zlen s = (zlen m + 1) / 2 /\ top_nz s /\ zlen s <= zlen r.

Lemma sqrt_rem_basic_spec m : words_ok m -> top_nz m -> sqrt_spec sqrt_rem_basic m.
Proof.
  intros Hok Ht. unfold sqrt_spec, sqrt_rem_basic. pose proof Ht as [Hl Hv]. pose proof (val_bound m Hok) as Hb.
  rewrite top_nz_count by auto. replace (0 =? zlen m) with false by lia. rewrite Z.sub_0_r, ztake_all by lia.
  destruct (root_estimate_spec m 2 Hok Ht ltac:(lia)) as (s0 & E0 & So & St & Sl & Sv). rewrite E0. cbn [bind].
  pose proof (top_nz_pos m Ht) as Hpos.
  pose proof (Z.sqrt_spec (val m) ltac:(lia)) as HR. cbv zeta in HR. unfold Z.succ in HR. pose proof (Z.sqrt_nonneg (val m)) as HR0. set (R := Z.sqrt (val m)) in *. clearbody R.
  assert (HR1 : 1 <= R) by nia.
  set (top := val m / 2 ^ (64 * (zlen m - 1))) in *.
  pose proof (pow2_gt0 (64 * (zlen m - 1)) ltac:(lia)) as Hp.
  assert (Htop : 0 < top) by (apply Z.div_str_pos; lia).
  assert (Htop2 : top < 2 ^ 64).
  { apply Z.div_lt_upper_bound; [auto|]. rewrite <- Z.pow_add_r by lia. replace (64 * (zlen m - 1) + 64) with (64 * zlen m) by lia. apply Hb. }
  assert (Hlog : 0 <= Z.log2 top < 64) by (split; [apply Z.log2_nonneg|apply Z.log2_lt_pow2; lia]).
  assert (Hm2 : val m < 2 ^ (64 * (zlen m - 1) + Z.log2 top + 1)).
  { destruct (Z.log2_spec top Htop) as [_ L]. unfold Z.succ in L. rewrite <- Z.add_assoc, Z.pow_add_r by lia.
    pose proof (Z.mul_succ_div_gt (val m) (2 ^ (64 * (zlen m - 1))) ltac:(lia)) as G. fold top in G. unfold Z.succ in G. nia. }
  assert (Hsq : R < val s0).
  { apply Z.square_lt_simpl_nonneg; [rewrite Sv; apply pow2_nonneg|]. eapply Z.le_lt_trans; [apply HR|]. eapply Z.lt_le_trans; [exact Hm2|].
    rewrite Sv, <- Z.pow_add_r.
    - apply Z.pow_le_mono_r; [lia|]. clear -Hl Hlog. Z.div_mod_to_equations. lia.
    - clear -Hl Hlog. Z.div_mod_to_equations. lia.
    - clear -Hl Hlog. Z.div_mod_to_equations. lia. }
  replace (Z.to_nat (64 * zlen m + 200)) with (S (Z.to_nat (64 * zlen m + 199))) by lia.
  destruct (sqrt_loop_spec m R Hok Ht HR1 HR (Z.to_nat (64 * zlen m + 199)) s0 So St) as (s & r & E & R1 & R2 & R3 & R4 & R5 & R6).
  { rewrite Sl. clear -Hl. Z.div_mod_to_equations. lia. }
  { split; [lia|]. rewrite Z2Nat.id by lia. assert (val s0 <= 2 ^ (64 * zlen m + 199)); [|lia]. rewrite Sv. apply Z.pow_le_mono_r; [lia|]. clear -Hl Hlog. Z.div_mod_to_equations. lia. }
  exists s, r. rewrite E, R4. pose proof (isqrt_len (zlen m) (val m) R Hl ltac:(lia) ltac:(lia) HR) as HL.
  split; [reflexivity|]. split; [auto|]. split; [auto|]. split; [auto|]. split; [auto|].
  assert (Hsl : zlen s = (zlen m + 1) / 2).
  { apply Z.le_antisymm.
    - apply top_nz_len; auto; [clear -Hl; Z.div_mod_to_equations; lia|]. rewrite R4. apply HL.
    - pose proof (val_bound s R1) as Bs. rewrite R4 in Bs. assert (L : 2 ^ (64 * ((zlen m + 1) / 2 - 1)) < 2 ^ (64 * zlen s)) by lia.
      pose proof (zlen_nonneg s). apply Z.pow_lt_mono_r_iff in L; lia. }
  split; [exact Hsl|]. split; [auto|]. rewrite R6, Hsl. clear -Hl. Z.div_mod_to_equations. lia.
Qed.

(** Zimmermann's step (Karatsuba square root), on numbers. *)
Lemma karatsuba_sqrt_math B m0 m1 m2 s r q u : 1 <= B -> 0 <= m0 < B -> 0 <= m1 < B -> B <= s -> s * s + r = m2 -> 0 <= r <= 2 * s ->
  r * B + m1 = q * (2 * s) + u -> 0 <= u < 2 * s -> 0 <= q ->
  q <= B /\ (s * B + q) * (s * B + q) + (u * B + m0 - q * q) = (m2 * B + m1) * B + m0 /\
  u * B + m0 - q * q <= 2 * (s * B + q) /\
  (u * B + m0 - q * q < 0 -> 0 <= u * B + m0 - q * q + 2 * (s * B + q) - 1 <= 2 * (s * B + q - 1)).
Proof.
  intros HB H0 H1 Hs Hm Hr Hq Hu Hq0.
  assert (Q : q <= B).
  { destruct (Z_le_gt_dec q B); [auto|exfalso]. assert (q * (2 * s) >= (B + 1) * (2 * s)) by nia.
    assert (r * B <= 2 * s * B) by nia. lia. }
  split; [exact Q|].
  assert (E : (s * B + q) * (s * B + q) + (u * B + m0 - q * q) = (m2 * B + m1) * B + m0).
  { replace u with (r * B + m1 - q * (2 * s)) by lia. rewrite <- Hm. ring. }
  split; [exact E|].
  assert (U : u * B <= 2 * s * B - B) by nia.
  assert (QQ : q * q <= B * B) by nia.
  assert (SB : B * B <= s * B) by nia.
  split; [|intros N; split]; nia.
Qed.

Lemma sws_add_ok a b : sok a -> sok b -> val (sw b) < 2 ^ (64 * zlen (sw a)) -> Z.abs (sval a + sval b) < 2 ^ (64 * zlen (sw a)) ->
  sok (sws_add_assign a b) /\ zlen (sw (sws_add_assign a b)) = zlen (sw a) /\ sval (sws_add_assign a b) = sval a + sval b.
Proof.
  intros A B F1 F2. destruct (sws_add_sub_assign_spec a b 1 A B ltac:(auto) F1) as (C & D & E); [rewrite Z.mul_1_l; auto|].
  rewrite Z.mul_1_l in E. auto.
Qed.
Lemma sws_sub_ok a b : sok a -> sok b -> val (sw b) < 2 ^ (64 * zlen (sw a)) -> Z.abs (sval a - sval b) < 2 ^ (64 * zlen (sw a)) ->
  sok (sws_sub_assign a b) /\ zlen (sw (sws_sub_assign a b)) = zlen (sw a) /\ sval (sws_sub_assign a b) = sval a - sval b.
Proof.
  intros A B F1 F2. destruct (sws_add_sub_assign_spec a b (-1) A B ltac:(auto) F1) as (C & D & E).
  { replace (sval a + -1 * sval b) with (sval a - sval b) by ring. auto. }
  replace (sval a + -1 * sval b) with (sval a - sval b) in E by ring. auto.
Qed.

Lemma ext_words m k : words_ok m -> 0 <= k -> let m' := try_extend m ((zlen m + k) * 64) in
  val m' = val m * 2 ^ (64 * k) /\ words_ok m' /\ zlen m' = zlen m + k.
Proof.
  intros Hok Hk. cbv zeta. assert (E : ((zlen m + k) * 64 + 63) / 64 = zlen m + k) by (clear; Z.div_mod_to_equations; lia).
  destruct (try_extend_spec m ((zlen m + k) * 64) Hok ltac:(lia)) as (A & B & C). rewrite E in *.
  replace (zlen m + k - zlen m) with k in A by lia. auto.
Qed.
Lemma ext2_words m k : words_ok m -> 0 <= k -> let m' := try_extend_2 m ((zlen m + k) * 64) in
  val m' = val m /\ words_ok m' /\ zlen m' = zlen m + k.
Proof.
  intros Hok Hk. cbv zeta. assert (E : ((zlen m + k) * 64 + 63) / 64 = zlen m + k) by (clear; Z.div_mod_to_equations; lia).
  destruct (try_extend_2_spec m ((zlen m + k) * 64) Hok) as (A & B & C). rewrite E in *. repeat split; auto. lia.
Qed.

(** Normalising the divisor [s ++ [0]]. *)
Lemma norm_s s : words_ok s -> 0 < val s -> exists pos, find_one_from (s ++ [0]) 0 = Some pos /\ 64 <= pos <= 64 * (zlen s + 1) - 1 /\
  let s2 := shift_slice_left (s ++ [0]) pos in
  words_ok s2 /\ zlen s2 = zlen s + 1 /\ val s2 = val s * 2 ^ pos /\ 2 ^ (64 * zlen s) <= val s2 <= 2 ^ (64 * (zlen s + 1)) - 2 ^ pos.
Proof.
  intros Hok Hp. assert (Ho : words_ok (s ++ [0])) by (apply ok_app; split; auto; apply ok_cons; split; [lia|constructor]).
  assert (Hl : zlen (s ++ [0]) = zlen s + 1) by (rewrite zlen_app; reflexivity).
  assert (Hv : val (s ++ [0]) = val s) by (rewrite val_app, val_single; lia).
  pose proof (val_bound s Hok) as Hb. pose proof (zlen_nonneg s) as Hl0.
  assert (Pm : 2 ^ (64 * zlen s) < 2 ^ (64 * (zlen s + 1))) by (apply Z.pow_lt_mono_r; lia).
  rewrite (find_one_from_spec _ 0 Ho ltac:(lia)). rewrite Z.sub_0_r, Hl, Hv. cbv zeta. rewrite Z.mod_small by lia.
  replace ((64 * (zlen s + 1) <=? 0) || (val s =? 0)) with false by lia.
  assert (HL : 0 <= Z.log2 (val s) < 64 * zlen s) by (split; [apply Z.log2_nonneg|apply Z.log2_lt_pow2; lia]).
  set (pos := 64 * (zlen s + 1) - 1 - Z.log2 (val s)). exists pos. split; [reflexivity|]. split; [unfold pos; lia|].
  destruct (shift_slice_left_spec (s ++ [0]) pos Ho ltac:(lia)) as (A & B & C). rewrite Hl, Hv in *.
  destruct (Z.log2_spec (val s) Hp) as [L1 L2]. unfold Z.succ in L2.
  assert (E1 : 2 ^ (Z.log2 (val s)) * 2 ^ pos = 2 ^ (64 * (zlen s + 1) - 1)) by (rewrite <- Z.pow_add_r by lia; f_equal; lia).
  assert (E2 : 2 ^ (Z.log2 (val s) + 1) * 2 ^ pos = 2 ^ (64 * (zlen s + 1))) by (rewrite <- Z.pow_add_r by lia; f_equal; lia).
  pose proof (pow2_gt0 pos ltac:(lia)) as Ppos.
  assert (U : val s * 2 ^ pos <= 2 ^ (64 * (zlen s + 1)) - 2 ^ pos) by (rewrite <- E2; nia).
  assert (L : 2 ^ (64 * zlen s) <= val s * 2 ^ pos).
  { apply Z.le_trans with (2 ^ (64 * (zlen s + 1) - 1)); [apply Z.pow_le_mono_r; lia|]. rewrite <- E1. apply Z.mul_le_mono_nonneg_r; lia. }
  rewrite Z.mod_small in A by lia. rewrite A. split; [auto|]. split; [auto|]. split; [reflexivity|]. lia.
Qed.

Lemma divmod_scale a s q t P : 0 < P -> 0 < s -> 0 <= t -> a * P = q * (s * (2 * P)) + t -> t < s * (2 * P) -> 0 <= t / P < 2 * s /\ a = q * (2 * s) + t / P.
Proof.
  intros HP Hs Ht E Hlt. assert (T : t = P * (a - q * (2 * s))) by nia.
  assert (D : t / P = a - q * (2 * s)) by (rewrite T, Z.mul_comm; apply Z.div_mul; lia).
  rewrite D. split; [split|]; [nia|nia|lia].
Qed.

Definition sqrt_finish (s q u qs m0 : words) (l : Z) : words * words :=
  let sbuf := try_extend s ((zlen s + l) * 64) in
  let sbuf := try_extend_2 sbuf ((zlen sbuf + 1) * 64) in
  let ubuf := try_extend u ((zlen u + l) * 64) in
  let s := sws_add_assign (mk_sws sbuf 1) (mk_sws q 1) in
  let r := sws_add_assign (mk_sws ubuf 1) (mk_sws m0 1) in
  let r := sws_sub_assign r (mk_sws qs 1) in
  let one := mk_sws [1] 1 in
  let '(s, r) :=
    if (sg r <? 0) && negb (all_zero (sw r)) then
      let r := sws_add_assign r s in
      let r := sws_add_assign r s in
      let r := sws_sub_assign r one in
      (sws_sub_assign s one, r)
    else (s, r) in
  (ztake (zlen (sw s) - 1) (sw s), sw r).

Lemma sqrt_finish_spec M n m0 l s q u qs : words_ok s -> words_ok q -> words_ok u -> words_ok qs -> words_ok m0 -> 1 <= l -> l + 1 <= zlen s ->
  zlen s + 1 <= zlen u -> val qs = val q * val q -> 2 ^ (64 * l) <= val s -> val m0 < 2 ^ (64 * l) -> val q <= 2 ^ (64 * l) ->
  (val s * 2 ^ (64 * l) + val q) * (val s * 2 ^ (64 * l) + val q) + (val u * 2 ^ (64 * l) + val m0 - val q * val q) = M ->
  val u * 2 ^ (64 * l) + val m0 - val q * val q <= 2 * (val s * 2 ^ (64 * l) + val q) ->
  (val u * 2 ^ (64 * l) + val m0 - val q * val q < 0 -> 0 <= val u * 2 ^ (64 * l) + val m0 - val q * val q + 2 * (val s * 2 ^ (64 * l) + val q) - 1 <= 2 * (val s * 2 ^ (64 * l) + val q - 1)) ->
  1 <= n -> 2 ^ (64 * (n - 1)) <= M < 2 ^ (64 * n) -> zlen s + l = (n + 1) / 2 ->
  exists s0 r0, sqrt_finish s q u qs m0 l = (s0, r0) /\ words_ok s0 /\ words_ok r0 /\ val s0 * val s0 <= M < (val s0 + 1) * (val s0 + 1) /\
       val r0 = M - val s0 * val s0 /\ zlen s0 = (n + 1) / 2 /\ top_nz s0 /\ zlen s0 <= zlen r0.
Proof.
  intros Hs D3 W2 Q2 Ok0 Hl1 HS1 Hu Q1 HsB B0 K1 K2 K3 K4 Hl Hb HSl. unfold sqrt_finish. cbv zeta.
  remember (2 ^ (64 * l)) as B eqn:EB.
  assert (HB : 1 <= B) by (rewrite EB; pose proof (pow2_gt0 (64 * l)); lia).
  pose proof (val_nonneg q D3) as Q0. pose proof (val_nonneg u W2) as U0. pose proof (val_nonneg m0 Ok0) as M0.
  destruct (ext_words s l Hs ltac:(llia)) as (X1 & X2 & X3). set (sb := try_extend s _) in *. clearbody sb. rewrite <- EB in X1.
  destruct (ext2_words sb 1 X2 ltac:(llia)) as (Y1 & Y2 & Y3). set (sb2 := try_extend_2 sb _) in *. clearbody sb2. rewrite X1 in Y1. rewrite X3 in Y3. clear X1 X2 X3 sb.
  destruct (ext_words u l W2 ltac:(llia)) as (X1 & X2 & X3). set (ub := try_extend u _) in *. clearbody ub. rewrite <- EB in X1.
  pose proof (val_bound s Hs) as Bs.
  assert (PW : 2 ^ (64 * zlen s) * B * 4 <= 2 ^ (64 * (zlen s + l + 1))).
  { rewrite EB. replace (64 * (zlen s + l + 1)) with (64 * zlen s + 64 * l + 64) by llia. rewrite !Z.pow_add_r by llia. apply Z.mul_le_mono_nonneg_l; [apply Z.mul_nonneg_nonneg; apply pow2_nonneg|lia]. }
  assert (PU : 2 ^ (64 * (zlen s + l + 1)) <= 2 ^ (64 * (zlen u + l))) by (apply Z.pow_le_mono_r; llia).
  assert (BU : 0 <= val u * B /\ val u * B + val m0 < 2 ^ (64 * (zlen u + l))).
  { pose proof (val_bound u W2) as Bu. split; [apply Z.mul_nonneg_nonneg; lia|]. rewrite pow64_add by llia. rewrite <- EB. clear -Bu B0 HB. nia. }
  remember (2 ^ (64 * (zlen u + l))) as WU eqn:EWU.
  remember (2 ^ (64 * (zlen s + l + 1))) as W eqn:EW.
  assert (BB : B * B <= val s * B) by (apply Z.mul_le_mono_nonneg_r; lia).
  assert (QQ : 0 <= val q * val q <= B * B) by (clear -Q0 K1; nia).
  assert (SB : val s * B + B <= 2 ^ (64 * zlen s) * B) by (clear -Bs HB; nia).
  assert (Hs0 : 0 <= val s * B) by (apply Z.mul_nonneg_nonneg; lia).
  assert (SW : 2 * (val s * B + val q) + 1 < W) by (clear - PW SB K1 HB BB; nia).
  assert (BsB : B <= val s * B) by (clear -HsB HB; nia). clear PW SB Bs EB.
  destruct (sws_add_ok (mk_sws sb2 1) (mk_sws q 1)) as (A1 & A2' & A3); try (now apply sok_pos); cbn [sw]; rewrite ?sval_pos, ?Y1, ?Y3, <- ?EW; [clear - SW Hs0 Q0; lia|clear - SW Hs0 Q0; lia|].
  cbn [sw] in A2'. rewrite !sval_pos, Y1 in A3. rewrite Y3 in A2'. set (sA := sws_add_assign (mk_sws sb2 1) (mk_sws q 1)) in *. clearbody sA. clear Y1 Y2 Y3 sb2.
  destruct (sws_add_ok (mk_sws ub 1) (mk_sws m0 1)) as (C1 & C2 & C3); try (now apply sok_pos); cbn [sw]; rewrite ?sval_pos, ?X1, ?X3, <- ?EWU; [clear - BU M0; lia|clear - BU M0; lia|].
  cbn [sw] in C2. rewrite !sval_pos, X1 in C3. rewrite X3 in C2. set (r1 := sws_add_assign (mk_sws ub 1) (mk_sws m0 1)) in *. clearbody r1. clear X1 X2 X3 ub.
  destruct (sws_sub_ok r1 (mk_sws qs 1)) as (F1 & F2 & F3); auto; try (now apply sok_pos); cbn [sw]; rewrite ?sval_pos, ?C2, ?C3, ?Q1, <- ?EWU; [clear - QQ BB SW PU Q0; lia|clear - QQ BB SW PU Q0 BU M0; lia|].
  rewrite sval_pos, C3, Q1 in F3. rewrite C2 in F2. set (r2 := sws_sub_assign r1 (mk_sws qs 1)) in *. clearbody r2. clear C1 C2 C3 r1 Q1 Q2 qs.
  rewrite (sneg_test r2 F1), F3.
  set (rv := val u * B + val m0 - val q * val q) in *. set (sv := val s * B + val q) in *.
  assert (One : words_ok [1]) by (apply ok_cons; split; [lia|constructor]).
  assert (Fin : forall S' R' RV, sok S' -> sok R' -> zlen (sw S') = zlen s + l + 1 -> zlen (sw R') = zlen u + l -> 0 <= sval S' -> sval R' = RV ->
     sval S' * sval S' + RV = M -> 0 <= RV <= 2 * sval S' ->
     exists s0 r0, (ztake (zlen (sw S') - 1) (sw S'), sw R') = (s0, r0) /\ words_ok s0 /\ words_ok r0 /\ val s0 * val s0 <= M < (val s0 + 1) * (val s0 + 1) /\
       val r0 = M - val s0 * val s0 /\ zlen s0 = (n + 1) / 2 /\ top_nz s0 /\ zlen s0 <= zlen r0).
  { intros S' R' RV J1 J2 J3 J4 J5 J6 J7 J8. eexists _, _. split; [reflexivity|].
    pose proof (isqrt_len n M (sval S') Hl Hb J5 ltac:(clear - J7 J8; lia)) as IL.
    assert (VS : val (ztake (zlen (sw S') - 1) (sw S')) = sval S').
    { rewrite <- (sval_val S') by auto. apply val_ztake_fit; [apply (sok_w _ J1)|lia|]. rewrite sval_val by auto. rewrite J3.
      replace (zlen s + l + 1 - 1) with (zlen s + l) by lia. rewrite HSl. apply IL. }
    assert (ZS : zlen (ztake (zlen (sw S') - 1) (sw S')) = (n + 1) / 2) by (rewrite zlen_ztake; lia).
    rewrite VS, ZS. rewrite sval_val by (auto; lia). rewrite J6.
    split; [apply ok_ztake, (sok_w _ J1)|]. split; [apply (sok_w _ J2)|]. split; [lia|]. split; [lia|]. split; [auto|].
    split; [|lia]. split; [lia|]. rewrite VS, ZS. apply IL. }
  assert (Hsv : 0 <= sv /\ 2 * sv + 1 < W /\ - W < rv /\ 1 <= sv) by (unfold sv, rv; clear - SW Hs0 Q0 BU M0 QQ BB BsB HB; lia).
  clearbody rv sv. clear SW Hs0 Q0 BU M0 QQ BB B0 HsB K1 HB BsB U0.
  destruct (Z.ltb_spec rv 0) as [Hneg|Hpos'].
  - specialize (K4 Hneg). assert (VsA : val (sw sA) = sv) by (rewrite sval_val, A3; auto; lia).
    destruct (sws_add_ok r2 sA F1 A1) as (G1 & G2 & G3); rewrite ?F2, ?F3, ?A3, <- ?EWU; [lia|lia|]. rewrite F2 in G2. rewrite F3, A3 in G3.
    destruct (sws_add_ok (sws_add_assign r2 sA) sA G1 A1) as (H1 & H2 & H3); rewrite ?G2, ?G3, ?A3, <- ?EWU; [lia|lia|]. rewrite G2 in H2. rewrite G3, A3 in H3.
    destruct (sws_sub_ok _ (mk_sws [1] 1) H1 (sok_pos _ One)) as (I1 & I2 & I3); rewrite ?sval_pos, ?H2, ?H3, <- ?EWU; [cbn [sw]; change (val [1]) with 1; lia|change (val [1]) with 1; lia|]. rewrite H2 in I2. rewrite sval_pos, H3 in I3. change (val [1]) with 1 in I3.
    destruct (sws_sub_ok sA (mk_sws [1] 1) A1 (sok_pos _ One)) as (J1 & J2 & J3); rewrite ?sval_pos, ?A2', ?A3, <- ?EW; [cbn [sw]; change (val [1]) with 1; lia|change (val [1]) with 1; lia|]. rewrite A2' in J2. rewrite sval_pos, A3 in J3. change (val [1]) with 1 in J3.
    eapply Fin; [exact J1|exact I1|exact J2|exact I2| |exact I3| |].
    + rewrite J3. lia.
    + rewrite J3. rewrite <- K2. ring.
    + rewrite J3. lia.
  - eapply Fin; [exact A1|exact F1|exact A2'|exact F2|rewrite A3; lia|exact F3| |]; rewrite A3; lia.
Qed.

Lemma sqrt_rem_fuel_spec : forall f m, words_ok m -> top_nz m -> zlen m < Z.of_nat f -> sqrt_spec (sqrt_rem_fuel f) m.
Proof.
  induction f as [|f IH]; intros m Hok Ht Hf; [pose proof (zlen_nonneg m); lia|].
  pose proof Ht as [Hl Hv]. pose proof (val_bound m Hok) as Hb. unfold sqrt_spec. cbn [sqrt_rem_fuel].
  replace (zlen m =? 0) with false by lia. rewrite top_nz_count by auto. replace (0 =? zlen m) with false by lia. rewrite Z.sub_0_r, ztake_all by lia.
  destruct (Z.eqb_spec ((zlen m - 1) / 4) 0) as [E0|E0]; [apply sqrt_rem_basic_spec; auto|].
  set (l := (zlen m - 1) / 4) in *. assert (Hl4 : 1 <= l /\ 4 * l + 1 <= zlen m <= 4 * l + 4) by (unfold l in *; clear -Hl E0; Z.div_mod_to_equations; lia). clearbody l.
  replace (zlen m <? 2 * l) with false by lia.
  assert (Zm2 : zlen (zdrop (2 * l) m) = zlen m - 2 * l) by (apply zlen_zdrop; lia).
  assert (Zt : zlen (ztake (2 * l) m) = 2 * l) by (apply zlen_ztake; lia).
  assert (Zm1 : zlen (zdrop l (ztake (2 * l) m)) = l) by (rewrite zlen_zdrop; lia).
  assert (Zm0 : zlen (ztake l m) = l) by (apply zlen_ztake; lia).
  pose proof (val_take_drop (2 * l) m ltac:(lia)) as V1. pose proof (val_take_drop l (ztake (2 * l) m) ltac:(lia)) as V2.
  assert (Et : ztake l (ztake (2 * l) m) = ztake l m) by (unfold ztake; rewrite firstn_firstn; f_equal; lia). rewrite Et in V2.
  assert (V3 : val (zdrop (2 * l) m) = val m / 2 ^ (64 * (2 * l))) by (apply val_zdrop; auto; lia).
  assert (Ok2 : words_ok (zdrop (2 * l) m)) by (apply ok_zdrop; auto).
  assert (Ok1 : words_ok (zdrop l (ztake (2 * l) m))) by (apply ok_zdrop, ok_ztake; auto).
  assert (Ok0 : words_ok (ztake l m)) by (apply ok_ztake; auto).
  assert (T2 : top_nz (zdrop (2 * l) m)).
  { split; [lia|]. rewrite Zm2, V3. apply Z.div_le_lower_bound; [apply pow2_gt0; lia|]. rewrite <- Z.pow_add_r by lia.
    etransitivity; [|exact Hv]. apply Z.pow_le_mono_r; lia. }
  pose proof (val_bound _ Ok1) as B1. rewrite Zm1 in B1. pose proof (val_bound _ Ok0) as B0. rewrite Zm0 in B0. clear V3 Et Zt.
  set (m2 := zdrop (2 * l) m) in *. set (m1 := zdrop l (ztake (2 * l) m)) in *. set (m0 := ztake l m) in *. 
  replace (64 * (2 * l)) with (64 * (l + l)) in V1 by lia. rewrite pow64_add in V1 by lia.
  assert (VM : val m = (val m2 * 2 ^ (64 * l) + val m1) * 2 ^ (64 * l) + val m0) by (rewrite V1, V2; ring).
  clearbody m0 m1 m2. clear V1 V2.
  destruct (IH m2 Ok2 T2 ltac:(lia)) as (s & r & E & Hs & Hr & R1 & R2 & R3 & R4 & R5). rewrite E. cbn [bind]. clear E IH.
  rewrite Zm2 in R3. set (n := zlen m) in *.
  assert (HSl : zlen s + l = (n + 1) / 2) by (rewrite R3; clear; Z.div_mod_to_equations; lia).
  assert (HS1 : l + 1 <= zlen s) by (rewrite R3; clear -Hl4; Z.div_mod_to_equations; lia). clear R3.
  pose proof (top_nz_pos s R4) as Ps. destruct R4 as [_ R4].
  set (B := 2 ^ (64 * l)) in *.
  assert (HB : 1 <= B) by (unfold B; pose proof (pow2_gt0 (64 * l)); lia).
  assert (HsB : B <= val s) by (etransitivity; [|exact R4]; apply Z.pow_le_mono_r; lia).
  assert (Rr : 0 <= val r <= 2 * val s) by (split; [apply val_nonneg; auto|rewrite R2; lia]).
  (* r' * B + m1 *)
  destruct (ext_words r l Hr ltac:(lia)) as (X1 & X2 & X3). set (rb := try_extend r _) in *. clearbody rb. fold B in X1.
  pose proof (val_bound r Hr) as Br.
  assert (PrB : 2 ^ (64 * (zlen r + l)) = 2 ^ (64 * zlen r) * B) by (apply pow64_add; [apply zlen_nonneg|lia]).
  assert (A0 : val r * B + val m1 < 2 ^ (64 * (zlen r + l))) by (rewrite PrB; clear -B1 Br HB; nia).
  assert (rB0 : 0 <= val r * B) by (apply Z.mul_nonneg_nonneg; lia).
  destruct (sws_add_ok (mk_sws rb 1) (mk_sws m1 1)) as (A1 & A2 & A3); try (now apply sok_pos); cbn [sw]; rewrite ?sval_pos, ?X3, ?X1; [lia|lia|].
  cbn [sw] in A2. rewrite !sval_pos, X1 in A3. pose proof (sval_val _ A1 ltac:(lia)) as A4. rewrite A3 in A4.
  set (rb1 := sw (sws_add_assign _ _)) in *. assert (Ok_rb1 : words_ok rb1) by apply (sok_w _ A1). rewrite X3 in A2. clearbody rb1. clear A1 A3 X1 X2 X3 rb.
  destruct (norm_s s Hs Ps) as (pos & Fp & Hpos & Ns). rewrite Fp. cbv zeta in Ns. destruct Ns as (N1 & N2 & N3 & N4).
  set (s2 := shift_slice_left (s ++ [0]) pos) in *. clearbody s2. clear Fp.
  destruct (ext2_words rb1 1 Ok_rb1 ltac:(lia)) as (Y1 & Y2 & Y3). set (rb2 := try_extend_2 rb1 _) in *. clearbody rb2.
  destruct (shift_slice_left_spec rb2 (pos - 1) Y2 ltac:(lia)) as (S1 & S2 & S3). rewrite Y1, Y3, A2, A4 in *.
  pose proof (pow2_gt0 (pos - 1) ltac:(lia)) as Pp. 
  assert (E2 : 2 ^ pos = 2 * 2 ^ (pos - 1)) by (rewrite <- Z.pow_succ_r by lia; f_equal; lia). rewrite E2 in *. remember (2 ^ (pos - 1)) as P eqn:HP.
  assert (PS : 2 ^ (64 * (zlen s + 1)) * B <= 2 ^ (64 * (zlen r + l + 1))).
  { unfold B. rewrite <- Z.pow_add_r by llia. apply Z.pow_le_mono_r; llia. }
  assert (NoOv : (val r * B + val m1) * P < 2 ^ (64 * (zlen r + l + 1))).
  { eapply Z.lt_le_trans; [|exact PS]. rewrite N3 in N4. clear - N4 B1 Rr Pp HB rB0. 
    assert (val r * B + val m1 < (2 * val s + 1) * B) by nia.
    assert ((val r * B + val m1) * P < (2 * val s + 1) * B * P) by (apply Z.mul_lt_mono_pos_r; auto).
    assert ((2 * val s + 1) * B * P = (val s * (2 * P) + P) * B) by ring.
    assert ((val s * (2 * P) + P) * B <= 2 ^ (64 * (zlen s + 1)) * B) by (apply Z.mul_le_mono_nonneg_r; lia). lia. }
  rewrite Z.mod_small in S1 by (split; [apply Z.mul_nonneg_nonneg; clear -rB0 B1 Pp; lia|exact NoOv]).
  set (rb3 := shift_slice_left rb2 (pos - 1)) in *. clearbody rb3.
  destruct (div_unbalanced_spec rb3 s2 S2 N1 ltac:(llia)) as (q & u & Ed & D1 & D2 & D3 & D4 & D5 & D6 & D7).
  { rewrite N2. replace (zlen s + 1 - 1) with (zlen s) by llia. apply N4. }
  rewrite Ed. cbn [bind]. clear Ed. rewrite S1, N3 in D1. rewrite N3 in D2. rewrite N2, S3 in D7.
  destruct (divmod_scale (val r * B + val m1) (val s) (val q) (val u) P Pp Ps (val_nonneg _ D4) D1 D2) as (U1 & U2).
  destruct (shift_slice_right_spec u (pos - 1) D4 ltac:(lia)) as (W1 & W2 & W3).
  set (u1 := shift_slice_right u (pos - 1)) in *. clearbody u1.
  assert (Hu : zlen s + 1 <= zlen u1) by (rewrite W3; apply D7; clear -R5 Hl4; lia).
  rewrite <- HP in W1. rewrite <- W1 in U1, U2. clear W1 W3 D1 D2 D4 D6 D7 u S1 S2 S3 NoOv PS Y1 Y2 Y3.
  destruct (mul_unbalanced_spec q q (zlen q * 2) D3 D3 ltac:(llia)) as (qs & Eq & Q1 & Q2 & Q3). rewrite Eq. cbn [bind]. clear Eq.
  destruct (karatsuba_sqrt_math B (val m0) (val m1) (val m2) (val s) (val r) (val q) (val u1) HB B0 B1 HsB ltac:(rewrite R2; ring) Rr U2 U1 (val_nonneg _ D3)) as (K1 & K2 & K3 & K4).
  rewrite <- VM in K2.
  destruct (sqrt_finish_spec (val m) n m0 l s q u1 qs) as (s0 & r0 & J1 & J2); auto; try (clear -Hl4 HS1 Hu; lia).
  { apply B0. } { split; [exact Hv|apply Hb]. }
  exists s0, r0. rewrite <- J1. split; [unfold sqrt_finish; cbv zeta; destruct (_ && _); reflexivity|exact J2].
Qed.

Lemma sqrt_rem_spec m : words_ok m -> top_nz m -> sqrt_spec sqrt_rem m.
Proof. intros. unfold sqrt_spec, sqrt_rem. apply sqrt_rem_fuel_spec; auto. unfold zlen. lia. Qed.
