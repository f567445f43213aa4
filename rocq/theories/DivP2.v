(** Division of word slices: the recursive and the unbalanced algorithms. *)

From Coq Require Import ZArith List Bool Lia.
From Verif Require Import Words IntModel MulModel DivModel SpecZ WordsP WordsP2 IntP MulP MulP2 DivP.
Import ListNotations.
Open Scope Z_scope.
Ltac Zify.zify_post_hook ::= idtac.
Arguments Z.mul : simpl never.
Arguments Z.add : simpl never.
Arguments Z.pow : simpl never.
Arguments Z.sub : simpl never.
Arguments Z.of_nat : simpl never.

Lemma sval_val a : sok a -> 0 <= sval a -> val (sw a) = sval a.
Proof. intros H P. pose proof (sval_abs a H). lia. Qed.

Lemma sneg_test a : sok a -> (sg a <? 0) && negb (all_zero (sw a)) = (sval a <? 0).
Proof.
  intros [W S]. rewrite all_zero_spec by auto. pose proof (val_nonneg _ W). unfold sval.
  destruct S as [-> | ->]; destruct (Z.eqb_spec (val (sw a)) 0); cbn [negb andb]; symmetry; lia.
Qed.

(** ** The correction loop *)
Lemma div_corr_n_spec step : sok step -> 0 < sval step -> forall n a q, sok a -> words_ok q -> 0 <= sval a + val q * sval step ->
  sval step < 2 ^ (64 * zlen (sw a)) ->
  exists fin a' q' t, div_corr_n n a q step = Ok (fin, a', q') /\ sok a' /\ words_ok q' /\ zlen (sw a') = zlen (sw a) /\ zlen q' = zlen q /\
    0 <= t /\ sval a' = sval a + t * sval step /\ val q' = val q - t /\ (0 < t -> sval a' < sval step) /\
    (if fin : bool then 0 <= sval a' else 2 ^ Z.of_nat n <= t).
Proof.
  intros Hs Hsp. set (S := sval step) in *. induction n as [|n IH]; intros a q Ha Hq Hinv Hfit; cbn [div_corr_n].
  - rewrite sneg_test by auto. destruct (Z.ltb_spec (sval a) 0) as [Hn|Hn].
    + assert (Hqp : 0 < val q). { pose proof (val_nonneg q Hq). destruct (Z.eq_dec (val q) 0) as [E|]; [rewrite E in Hinv|]; lia. }
      destruct (decrement_abs_spec q Hq Hqp) as (q' & -> & Q1 & Q2 & Q3). cbn [bind].
      assert (Hv : val (sw step) = S) by (apply sval_val; auto; unfold S in *; lia).
      pose proof (sval_abs a Ha) as Hab. pose proof (val_bound _ (sok_w _ Ha)) as Hvb.
      destruct (sws_add_sub_assign_spec a step 1 Ha Hs ltac:(auto)) as (A1 & A2 & A3); [lia|fold S; lia|]. fold S in A3.
      exists false, (sws_add_assign a step), q', 1. split; [reflexivity|]. unfold sws_add_assign. rewrite A3. change (2 ^ Z.of_nat 0) with 1.
      repeat split; auto; try lia; now destruct A1.
    + exists true, a, q, 0. repeat split; auto; try lia; now destruct Ha.
  - destruct (IH a q Ha Hq Hinv Hfit) as (fin & a' & q' & t & -> & A1 & A2 & A3 & A4 & A5 & A6 & A7 & A8 & A9). cbn [bind].
    destruct fin.
    + exists true, a', q', t. auto 12.
    + destruct (IH a' q' A1 A2) as (fin2 & a2 & q2 & t2 & -> & B1 & B2 & B3 & B4 & B5 & B6 & B7 & B8 & B9).
      { rewrite A6, A7. replace (sval a + t * S + (val q - t) * S) with (sval a + val q * S) by ring. lia. } { rewrite A3. lia. }
      exists fin2, a2, q2, (t + t2). split; [reflexivity|]. split; [auto|]. split; [auto|]. split; [lia|]. split; [lia|]. split; [lia|].
      split; [rewrite B6, A6; ring|]. split; [lia|]. split.
      * intros _. destruct (Z.eq_dec t2 0) as [E|E]; [|apply B8; lia]. rewrite B6, E. pose proof (pow2_gt0 (Z.of_nat n) ltac:(lia)). lia.
      * destruct fin2; auto. rewrite Nat2Z.inj_succ, Z.pow_succ_r by lia. lia.
Qed.

Lemma div_correction_spec a q step : sok step -> 0 < sval step -> sok a -> words_ok q -> 0 <= sval a + val q * sval step ->
  sval step < 2 ^ (64 * zlen (sw a)) ->
  exists a' q' t, div_correction a q step = Ok (a', q') /\ sok a' /\ words_ok q' /\ zlen (sw a') = zlen (sw a) /\ zlen q' = zlen q /\
    0 <= t /\ sval a' = sval a + t * sval step /\ val q' = val q - t /\ (0 < t -> sval a' < sval step) /\ 0 <= sval a'.
Proof.
  intros Hs Hsp Ha Hq Hi Hf. unfold div_correction.
  destruct (div_corr_n_spec step Hs Hsp (S (64 * length q)) a q Ha Hq Hi Hf) as (fin & a' & q' & t & -> & A1 & A2 & A3 & A4 & A5 & A6 & A7 & A8 & A9).
  cbn [bind]. destruct fin.
  - exists a', q', t. auto 12.
  - exfalso. pose proof (val_bound q Hq). pose proof (val_nonneg q' A2).
    assert (2 ^ (64 * zlen q) <= 2 ^ Z.of_nat (S (64 * length q))) by (apply Z.pow_le_mono_r; [lia|]; unfold zlen; lia). lia.
Qed.

(** both calls: the loop is entered only when the sign is negative *)
Lemma maybe_correct a q step V : sok step -> sval step = V -> 0 < V -> sok a -> words_ok q -> 0 <= sval a + val q * V ->
  V < 2 ^ (64 * zlen (sw a)) -> sval a < V ->
  exists a' q' t, (if sg a <? 0 then div_correction a q step else Ok (a, q)) = Ok (a', q') /\ words_ok (sw a') /\ words_ok q' /\
    zlen (sw a') = zlen (sw a) /\ zlen q' = zlen q /\ val (sw a') = sval a + t * V /\ val q' = val q - t /\ val (sw a') < V.
Proof.
  intros Hs <- HV Ha Hq Hi Hf Hlt. destruct (Z.ltb_spec (sg a) 0) as [N|N].
  - destruct (div_correction_spec a q step Hs HV Ha Hq Hi Hf) as (a' & q' & t & -> & A1 & A2 & A3 & A4 & A5 & A6 & A7 & A8 & A9).
    exists a', q', t. rewrite sval_val by auto. repeat split; auto; [apply sok_w; auto|].
    destruct (Z.eq_dec t 0) as [E|E]; [rewrite E in A6; lia|apply A8; lia].
  - exists a, q, 0. assert (sg a = 1) by (destruct (sok_s _ Ha); lia).
    assert (val (sw a) = sval a) by (unfold sval; rewrite H; lia).
    repeat split; auto; try lia. apply sok_w; auto.
Qed.

Lemma effective_len_spec m : words_ok m -> 0 <= effective_len m <= zlen m /\ val m < 2 ^ (64 * effective_len m) /\
  (0 < effective_len m -> 2 ^ (64 * (effective_len m - 1)) <= val m).
Proof.
  intros Hm. unfold effective_len. destruct (count_zero_words_spec (rev m) (ok_rev _ Hm)) as (Hn & t & Ht & Hd). set (n := count_zero_words (rev m)) in *.
  rewrite zlen_rev in Hn. assert (E : m = rev t ++ zeros n) by (rewrite <- (rev_involutive m), Ht, rev_app_distr, rev_zeros; reflexivity).
  assert (El : zlen m = zlen t + n) by (rewrite E, zlen_app, zlen_rev, zlen_zeros; lia).
  assert (Ev : val m = val (rev t)) by (rewrite E at 1; apply val_app_zeros).
  assert (Okt : words_ok (rev t)) by (rewrite E in Hm; now apply ok_app in Hm).
  split; [lia|]. replace (zlen m - n) with (zlen t) by lia. split.
  - rewrite Ev, <- (zlen_rev t). now apply val_bound.
  - intros Hp. destruct Hd as [->|(a & t' & -> & Ha)]; [rewrite zlen_nil in Hp; lia|].
    rewrite Ev, val_rev_cons, zlen_cons. replace (1 + zlen t' - 1) with (zlen t') by lia.
    cbn [rev] in Okt. apply ok_app in Okt as [O1 O2]. apply ok_cons in O2 as [O2 _]. pose proof (val_nonneg _ O1).
    assert (2 ^ (64 * zlen t') * 1 <= 2 ^ (64 * zlen t') * a) by (apply Z.mul_le_mono_nonneg_l; [apply pow2_nonneg|lia]). lia.
Qed.

(** ** One recursive level, on the values *)
Definition rec_spec (f : words -> words -> result (words * words)) (m1 m2 : words) : Prop :=
  exists q r, f m1 m2 = Ok (q, r) /\ val m1 = val q * val m2 + val r /\ val r < val m2 /\ words_ok q /\ words_ok r /\
    zlen q = Z.max 1 (zlen m1 - zlen m2 + 1) /\ zlen r <= zlen m1 /\ (zlen m2 <= zlen m1 -> zlen m2 <= zlen r).

Definition rec_pre (m1 m2 : words) : Prop :=
  words_ok m1 /\ words_ok m2 /\ 1 <= zlen m2 /\ zlen m1 - zlen m2 <= zlen m2 /\ 2 ^ (64 * (zlen m2 - 1)) <= val m2.

(** subtract [q * b0 * B^s] from the partial remainder *)
Lemma sub_part rembuf q b0 s l t : words_ok rembuf -> words_ok t -> 0 <= s -> 0 <= l -> val t = val q * val b0 -> val t < 2 ^ (64 * (l - s)) ->
  s <= l -> l <= zlen rembuf ->
  let a := sws_sub_assign (mk_sws rembuf 1) (mk_sws (ztake l (zeros s ++ t)) 1) in
  sok a /\ zlen (sw a) = zlen rembuf /\ sval a = val rembuf - 2 ^ (64 * s) * (val q * val b0).
Proof.
  intros Hr Ht Hs Hl Hv Hf Hsl Hle a. unfold a, sws_sub_assign.
  assert (Hz : words_ok (zeros s ++ t)) by (apply ok_app; auto using ok_zeros).
  assert (E : val (ztake l (zeros s ++ t)) = 2 ^ (64 * s) * val t).
  { rewrite <- val_zeros_app by lia. apply val_ztake_fit; auto. rewrite val_zeros_app by lia.
    replace l with (s + (l - s)) by lia. rewrite pow64_add by lia. apply Z.mul_lt_mono_pos_l; [apply pow2_gt0; lia|auto]. }
  pose proof (val_bound _ (ok_ztake l _ Hz)) as B1. pose proof (val_bound _ Hr) as B2.
  pose proof (zlen_ztake_le l (zeros s ++ t) Hl) as B3.
  assert (2 ^ (64 * zlen (ztake l (zeros s ++ t))) <= 2 ^ (64 * zlen rembuf)) by (apply Z.pow_le_mono_r; lia).
  destruct (sws_add_sub_assign_spec (mk_sws rembuf 1) (mk_sws (ztake l (zeros s ++ t)) 1) (-1)) as (A1 & A2 & A3);
    rewrite ?sval_pos; cbn [sw sg]; auto using sok_pos, ok_ztake; try lia.
  rewrite !sval_pos, E, Hv in A3. cbn [sw] in A2. split; [auto|]. split; [auto|]. lia.
Qed.

Lemma half_step m2 k lo hi q r t j L step : words_ok m2 -> 0 <= k <= zlen m2 -> words_ok lo -> words_ok q -> words_ok r -> words_ok t ->
  0 <= j -> zlen lo = j + k -> val hi = val q * val (zdrop k m2) + val r -> val r < val (zdrop k m2) ->
  zlen lo + zlen r <= L -> zlen q + k + j <= L -> val t = val q * val (ztake k m2) -> 0 <= val hi ->
  sok step -> sval step = val m2 * 2 ^ (64 * j) -> 0 < val m2 -> val m2 * 2 ^ (64 * j) < 2 ^ (64 * L) ->
  let a := sws_sub_assign (mk_sws (lo ++ r ++ zeros (L - zlen lo - zlen r)) 1) (mk_sws (ztake (zlen q + k + j) (zeros j ++ t)) 1) in
  exists a' q', (if sg a <? 0 then div_correction a q step else Ok (a, q)) = Ok (a', q') /\ words_ok (sw a') /\ words_ok q' /\
    zlen (sw a') = L /\ zlen q' = zlen q /\ val (sw a') < val m2 * 2 ^ (64 * j) /\
    val lo + 2 ^ (64 * (j + k)) * val hi = val q' * (val m2 * 2 ^ (64 * j)) + val (sw a').
Proof.
  intros H2 Hk Hlo Hq Hr Ht Hj Llo Ehi Hrb HL1 HL2 Et Hhi0 Hs Es Hm2 Hfit a.
  pose proof (zlen_nonneg r) as Zr. pose proof (zlen_nonneg q) as Zq.
  assert (Okr : words_ok (lo ++ r ++ zeros (L - zlen lo - zlen r))) by (apply ok_app; split; auto; apply ok_app; auto using ok_zeros).
  assert (Lr : zlen (lo ++ r ++ zeros (L - zlen lo - zlen r)) = L) by (rewrite !zlen_app, zlen_zeros; lia).
  assert (Vr : val (lo ++ r ++ zeros (L - zlen lo - zlen r)) = val lo + 2 ^ (64 * (j + k)) * val r) by (rewrite val_app, val_app_zeros, Llo; reflexivity).
  assert (Hb0 := ok_ztake k _ H2). assert (Hb1 := ok_zdrop k _ H2).
  pose proof (val_bound _ Hb0) as Vb0. rewrite zlen_ztake in Vb0 by lia. pose proof (val_bound _ Hq) as Vq. pose proof (val_bound _ Hlo) as Vlo. rewrite Llo in Vlo.
  pose proof (val_take_drop k m2 Hk) as TD.
  assert (Vt : val t < 2 ^ (64 * (zlen q + k + j - j))).
  { replace (zlen q + k + j - j) with (zlen q + k) by lia. rewrite Et, pow64_add by lia. apply prod_lt; lia. }
  destruct (sub_part _ q (ztake k m2) j (zlen q + k + j) t Okr Ht Hj ltac:(lia) Et Vt ltac:(lia) ltac:(lia)) as (A1 & A2 & A3).
  fold a in A1, A2, A3. clearbody a. rewrite Vr in A3. rewrite Lr in A2.
  rewrite pow64_add in * by lia.
  remember (val (zdrop k m2)) as b1 eqn:Eb1. remember (val (ztake k m2)) as b0 eqn:Eb0.
  remember (2 ^ (64 * k)) as K eqn:EK. remember (2 ^ (64 * j)) as J eqn:EJ.
  assert (HJ : 0 < J) by (subst J; apply pow2_gt0; lia). assert (HK : 0 < K) by (subst K; apply pow2_gt0; lia).
  assert (Hid : val lo + J * K * val hi = val q * (val m2 * J) + sval a) by (rewrite A3, Ehi, TD; ring).
  assert (Hlo' : sval a < val m2 * J).
  { assert (0 <= J * (val q * b0)) by (apply Z.mul_nonneg_nonneg; [lia|apply Z.mul_nonneg_nonneg; lia]).
    assert (J * K * (val r + 1) <= J * K * b1) by (apply Z.mul_le_mono_nonneg_l; [apply Z.mul_nonneg_nonneg; lia|lia]).
    assert (0 <= J * b0) by (apply Z.mul_nonneg_nonneg; lia).
    rewrite A3, TD. lia. }
  destruct (maybe_correct a q step (val m2 * J) Hs Es ltac:(apply Z.mul_pos_pos; lia) A1 Hq) as (a' & q' & tt & HC & C1 & C2 & C3 & C4 & C5 & C6 & C7).
  { assert (0 <= J * K * val hi) by (apply Z.mul_nonneg_nonneg; [apply Z.mul_nonneg_nonneg; lia|lia]). lia. }
  { rewrite A2. exact Hfit. }
  { exact Hlo'. }
  rewrite HC.
  exists a', q'. split; [reflexivity|]. repeat split; auto; lia.
Qed.

(** the quotient words are put together *)
Lemma merge_quot q1e q0 k : words_ok q1e -> words_ok q0 -> 0 <= k <= zlen q1e -> val (ztake k q1e) = 0 -> val q0 < 2 ^ (64 * k) ->
  let q := if k <? zlen q0 then ztake k q0 ++ sws_abs_add_assign (zdrop k q1e) (zdrop k q0) else q0 ++ zdrop (zlen q0) q1e in
  val q = val q1e + val q0 /\ words_ok q /\ zlen q = zlen q1e.
Proof.
  intros H1 H0 Hk Hz Hf q. unfold q. pose proof (zlen_nonneg q0). destruct (Z.ltb_spec k (zlen q0)).
  - assert (E0 : val (zdrop k q0) = 0) by (apply val_zdrop_fit; auto; lia).
    pose proof (val_bound _ (ok_zdrop k _ H1)) as B. destruct (add_assign_fit (zdrop k q1e) (zdrop k q0)) as (A1 & A2 & A3); auto using ok_zdrop; [lia|].
    rewrite val_app, zlen_app, A1, A3, E0, !zlen_ztake, zlen_zdrop by lia. rewrite val_ztake_fit by (auto; lia).
    rewrite (val_take_drop k q1e Hk), Hz. split; [ring|]. split; [|lia]. apply ok_app; auto using ok_ztake.
  - rewrite val_app, zlen_app, zlen_zdrop by lia.
    assert (Ez : val (ztake (zlen q0) q1e) = 0).
    { rewrite <- (Z.min_l (zlen q0) k), <- ztake_ztake by lia. rewrite val_ztake; auto using ok_ztake; [|rewrite zlen_ztake; lia].
      rewrite Hz. apply Z.mod_0_l. pose proof (pow2_gt0 (64 * zlen q0)). lia. }
    rewrite (val_take_drop (zlen q0) q1e) by lia. rewrite Ez. split; [ring|]. split; [|lia]. apply ok_app; auto using ok_zdrop.
Qed.

Ltac llia := repeat match goal with H : context[val _] |- _ => clear H | H : context[Z.pow _ _] |- _ => clear H end; lia.

Lemma div_recursive_good : forall f m1 m2, rec_pre m1 m2 -> zlen m1 < Z.of_nat f -> rec_spec (div_recursive_fuel f) m1 m2.
Proof.
  induction f as [|f IH]; intros m1 m2 (H1 & H2 & L2 & Lm & Ht) Hf; [pose proof (zlen_nonneg m1); lia|].
  unfold rec_spec. cbn [div_recursive_fuel]. pose proof (val_bound m1 H1) as V1. pose proof (val_bound m2 H2) as V2.
  destruct (Z.ltb_spec (zlen m1) (zlen m2)) as [Hlt|Hge].
  { exists [0], m1. split; [reflexivity|]. rewrite val_single, zlen_single.
    assert (2 ^ (64 * zlen m1) <= 2 ^ (64 * (zlen m2 - 1))) by (apply Z.pow_le_mono_r; llia).
    split; [lia|]. split; [lia|]. split; [apply ok_cons; split; [lia|constructor]|]. split; [auto|]. lia. }
  set (m := zlen m1 - zlen m2) in *.
  destruct (Z.ltb_spec m 70) as [H70|H70].
  { destruct (div_basic_spec m1 m2 H1 H2 ltac:(llia) Ht) as (q & r & -> & A1 & A2 & A3 & A4 & A5 & A6).
    exists q, r. repeat split; auto; lia. }
  assert (Ek2 : Z.shiftl (m / 2) 1 = 2 * (m / 2)) by (rewrite Z.shiftl_mul_pow2 by llia; change (2 ^ 1) with 2; ring). rewrite Ek2. clear Ek2.
  set (k := m / 2). assert (Hk : 2 * k <= m /\ 35 <= k) by (unfold k; Z.div_mod_to_equations; lia). clearbody k.
  assert (La1 : zlen (zdrop (2 * k) m1) = zlen m1 - 2 * k) by (apply zlen_zdrop; llia).
  assert (Lb1 : zlen (zdrop k m2) = zlen m2 - k) by (apply zlen_zdrop; llia).
  assert (Lb0 : zlen (ztake k m2) = k) by (apply zlen_ztake; llia).
  assert (La0 : zlen (ztake (2 * k) m1) = 2 * k) by (apply zlen_ztake; llia).
  assert (Hb1t : 2 ^ (64 * (zlen (zdrop k m2) - 1)) <= val (zdrop k m2)).
  { rewrite Lb1, val_zdrop by (auto; llia). apply Z.div_le_lower_bound; [apply pow2_gt0; llia|].
    rewrite <- pow64_add by llia. replace (k + (zlen m2 - k - 1)) with (zlen m2 - 1) by llia. exact Ht. }
  destruct (IH (zdrop (2 * k) m1) (zdrop k m2)) as (q1 & r1 & -> & A1 & A2 & A3 & A4 & A5 & A6 & A7).
  { repeat split; auto using ok_zdrop; lia. } { llia. }
  cbn [bind]. rewrite La1, Lb1 in A5, A7. rewrite La1 in A6. specialize (A7 ltac:(llia)).
  assert (Lq1 : zlen q1 = m - k + 1) by llia.
  destruct (mul_unbalanced_spec q1 (ztake k m2) (zlen m1 - k) A3 (ok_ztake _ _ H2) ltac:(llia)) as (t & -> & T1 & T2 & T3). cbn [bind].
  assert (Okb : words_ok (zeros k ++ m2 ++ zeros (zlen m1 - k - zlen m2))) by (apply ok_app; split; [apply ok_zeros|apply ok_app; auto using ok_zeros]).
  assert (M20 : 0 < val m2) by (pose proof (pow2_gt0 (64 * (zlen m2 - 1)) ltac:(llia)); lia).
  assert (Hfit : val m2 * 2 ^ (64 * k) < 2 ^ (64 * zlen m1)).
  { apply Z.lt_le_trans with (2 ^ (64 * (zlen m2 + k))); [|apply Z.pow_le_mono_r; llia].
    rewrite pow64_add by llia. apply Z.mul_lt_mono_pos_r; [apply pow2_gt0; llia|lia]. }
  destruct (half_step m2 k (ztake (2 * k) m1) (zdrop (2 * k) m1) q1 r1 t k (zlen m1) (mk_sws (zeros k ++ m2 ++ zeros (zlen m1 - k - zlen m2)) 1))
    as (a3 & q1' & HS & B1 & B2 & B3 & B4 & B5 & B6); auto using ok_ztake, ok_zdrop, sok_pos; try llia.
  { apply val_nonneg, ok_zdrop, H1. }
  { rewrite sval_pos, val_zeros_app, val_app_zeros by llia. ring. }
  rewrite La0 in HS. rewrite Lb0. rewrite HS. clear HS. cbn [bind].
  replace (k + k) with (2 * k) in B6 by llia. rewrite <- (val_take_drop (2 * k) m1) in B6 by llia.
  destruct (effective_len_spec (sw a3) B1) as (U1 & U2 & U3). set (ub := effective_len (sw a3)) in *. rewrite B3 in U1.
  destruct (try_extend_words q1' (m + 1) B2 ltac:(llia)) as (E1 & E2 & E3).
  rewrite B4, Lq1 in E1. replace (m + 1 - (m - k + 1)) with k in E1 by llia.
  set (q1e := try_extend q1' ((m + 1) * 64)) in *.
  assert (Pk : 0 < 2 ^ (64 * k)) by (apply pow2_gt0; llia).
  destruct (Z.ltb_spec k ub) as [Hku|Hku].
  - assert (Hub : ub <= zlen m2 + k).
    { specialize (U3 ltac:(llia)). destruct (Z_le_gt_dec ub (zlen m2 + k)); auto. exfalso.
      assert (2 ^ (64 * (zlen m2 + k)) <= 2 ^ (64 * (ub - 1))) by (apply Z.pow_le_mono_r; llia).
      rewrite pow64_add in H by llia. assert (val m2 * 2 ^ (64 * k) <= 2 ^ (64 * zlen m2) * 2 ^ (64 * k)) by (apply Z.mul_le_mono_nonneg_r; lia). lia. }
    assert (La31 : zlen (ztake (ub - k) (zdrop k (sw a3))) = ub - k) by (apply zlen_ztake; rewrite zlen_zdrop by llia; llia).
    assert (Va31 : val (ztake (ub - k) (zdrop k (sw a3))) = val (zdrop k (sw a3))).
    { apply val_ztake_fit; auto using ok_zdrop; [lia|]. rewrite val_zdrop by (auto; llia). apply Z.div_lt_upper_bound; [lia|].
      rewrite <- pow64_add by llia. replace (k + (ub - k)) with ub by llia. exact U2. }
    destruct (IH (ztake (ub - k) (zdrop k (sw a3))) (zdrop k m2)) as (q0 & r0 & -> & C1 & C2 & C3 & C4 & C5 & C6 & C7).
    { repeat split; auto using ok_zdrop, ok_ztake; llia. } { llia. }
    cbn [bind]. rewrite La31, Lb1 in C5, C7. rewrite La31 in C6. rewrite Va31 in C1.
    destruct (mul_unbalanced_spec q0 (ztake k m2) (zlen m1) C3 (ok_ztake _ _ H2) ltac:(llia)) as (t0 & -> & T1' & T2' & T3'). cbn [bind].
    assert (Llo : zlen (ztake k (sw a3)) = k) by (apply zlen_ztake; llia).
    destruct (half_step m2 k (ztake k (sw a3)) (zdrop k (sw a3)) q0 r0 t0 0 (zlen m1) (mk_sws m2 1))
      as (a4 & q0' & HS & D1 & D2 & D3 & D4 & D5 & D6); auto using ok_ztake, ok_zdrop, sok_pos; try llia.
    { apply val_nonneg, ok_zdrop, B1. }
    { rewrite sval_pos. change (2 ^ (64 * 0)) with 1. ring. }
    { change (2 ^ (64 * 0)) with 1. rewrite Z.mul_1_r. apply Z.lt_le_trans with (1 := proj2 V2). apply Z.pow_le_mono_r; llia. }
    rewrite Llo in HS. change (zeros 0) with (@nil Z) in HS. cbn [app] in HS. rewrite Z.add_0_r in HS.
    rewrite HS. clear HS. cbn [bind].
    change (2 ^ (64 * 0)) with 1 in D5, D6. rewrite Z.mul_1_r in D5, D6. rewrite Z.add_0_l in D6.
    rewrite <- (val_take_drop k (sw a3)) in D6 by llia.
    assert (Hq0 : val q0' < 2 ^ (64 * k)).
    { pose proof (val_nonneg _ D1). apply Z.mul_lt_mono_pos_r with (val m2); [exact M20|]. clear - D5 D6 H B5. lia. }
    assert (Ez : val (ztake k q1e) = 0). { rewrite val_ztake by (auto; llia). rewrite E1. apply Z.mod_mul. lia. }
    destruct (merge_quot q1e q0' k E2 D2 ltac:(llia) Ez Hq0) as (G1 & G2 & G3).
    eexists _, (sw a4). split; [reflexivity|].
    split; [rewrite G1, E1; rewrite B6, D6; ring|]. split; [exact D5|]. split; [exact G2|]. split; [exact D1|]. split; [llia|]. llia.
  - exists q1e, (sw a3). split; [reflexivity|]. split; [rewrite B6, E1; ring|]. split.
    { apply Z.lt_le_trans with (1 := U2). apply Z.le_trans with (2 := Ht). apply Z.pow_le_mono_r; llia. }
    split; [auto|]. split; [auto|]. llia.
Qed.

Lemma div_recursive_spec m1 m2 : rec_pre m1 m2 -> rec_spec div_recursive m1 m2.
Proof. intros H. unfold rec_spec, div_recursive. apply (div_recursive_good (S (length m1))); auto. unfold zlen. lia. Qed.

(** ** Long quotients *)
Lemma div_unb_loop_spec M1 m2 n m0 L : words_ok m2 -> zlen m2 = n -> 1 <= n -> 2 ^ (64 * (n - 1)) <= val m2 -> M1 < 2 ^ (64 * (m0 + 1)) * val m2 ->
  forall f m ub buf1 buf3, 1 <= m <= m0 -> m < Z.of_nat f -> ub = m + n -> words_ok buf1 -> words_ok buf3 -> zlen buf1 = m0 + 1 -> zlen buf3 = L -> ub <= L ->
    val (ztake m buf1) = 0 -> M1 = val buf1 * val m2 + val buf3 -> val buf3 < 2 ^ (64 * ub) ->
  exists m' buf1' buf3', div_unb_loop f m2 n m ub buf1 buf3 = Ok (m', m' + n, buf1', buf3') /\ 1 <= m' <= n /\ m' <= m0 /\
    words_ok buf1' /\ words_ok buf3' /\ zlen buf1' = m0 + 1 /\ zlen buf3' = L /\ m' + n <= L /\
    val (ztake m' buf1') = 0 /\ M1 = val buf1' * val m2 + val buf3' /\ val buf3' < 2 ^ (64 * (m' + n)).
Proof.
  intros H2 L2 Hn Ht HM. assert (M20 : 0 < val m2) by (pose proof (pow2_gt0 (64 * (n - 1)) ltac:(lia)); lia).
  induction f as [|f IH]; intros m ub buf1 buf3 Hm Hf Hub O1 O3 Ll1 Ll3 HubL Z1 EM Hb3; [lia|]. cbn [div_unb_loop].
  destruct (Z.ltb_spec n m) as [Hnm|Hnm].
  2: { exists m, buf1, buf3. rewrite Hub in *. repeat split; auto; llia. }
  set (mn := m - n) in *. replace (ub - mn) with (2 * n) by llia.
  set (w := ztake (2 * n) (zdrop mn buf3)).
  assert (Ow : words_ok w) by (apply ok_ztake, ok_zdrop, O3).
  assert (Lw : zlen w = 2 * n) by (apply zlen_ztake; rewrite zlen_zdrop by llia; llia).
  assert (Vw : val w = val (zdrop mn buf3)).
  { apply val_ztake_fit; auto using ok_zdrop; [llia|]. rewrite val_zdrop by (auto; llia). apply Z.div_lt_upper_bound; [apply pow2_gt0; llia|].
    rewrite <- pow64_add by llia. replace (mn + 2 * n) with ub by llia. exact Hb3. }
  destruct (div_recursive_spec w m2) as (q & r & -> & A1 & A2 & A3 & A4 & A5 & A6 & A7).
  { repeat split; auto; try llia. rewrite L2. exact Ht. }
  cbn [bind]. rewrite Lw, L2 in A5, A7. specialize (A7 ltac:(llia)). rewrite Z.min_r by llia.
  assert (Lq : zlen q = n + 1) by llia.
  pose proof (val_bound m2 H2) as V2. rewrite L2 in V2.
  replace (mn + n - mn) with n by lia. replace (ub - (mn + n)) with n by llia.
  assert (Vr : val (ztake n r) = val r) by (apply val_ztake_fit; auto; [llia|]; lia).
  assert (Vhi : val (zdrop ub buf3) = 0) by (apply val_zdrop_fit; auto; llia).
  set (buf3' := ztake mn buf3 ++ ztake n r ++ zeros n ++ zdrop ub buf3).
  assert (O3' : words_ok buf3') by (unfold buf3'; repeat (apply ok_app; split); auto using ok_ztake, ok_zdrop, ok_zeros).
  assert (L3' : zlen buf3' = L) by (unfold buf3'; rewrite !zlen_app, !zlen_ztake, zlen_zeros, zlen_zdrop by llia; llia).
  assert (V3' : val buf3' = val (ztake mn buf3) + 2 ^ (64 * mn) * val r).
  { unfold buf3'. rewrite val_app, val_app, val_zeros_app, Vhi, Vr, zlen_ztake by llia. ring. }
  pose proof (val_take_drop mn buf3 ltac:(llia)) as TD3. pose proof (val_take_drop m buf1 ltac:(llia)) as TD1. rewrite Z1 in TD1.
  pose proof (val_take_drop n q ltac:(llia)) as TDq.
  assert (Pmn : 0 < 2 ^ (64 * mn)) by (apply pow2_gt0; llia).
  pose proof (val_bound _ (ok_ztake mn _ O3)) as Bl. rewrite zlen_ztake in Bl by llia.
  pose proof (val_nonneg q A3) as Nq. pose proof (val_nonneg r A4) as Nr.
  assert (EPm : 2 ^ (64 * m) = 2 ^ (64 * mn) * 2 ^ (64 * n)) by (rewrite <- pow64_add by llia; f_equal; llia).
  (* the new quotient *)
  assert (EM' : M1 = (val buf1 + 2 ^ (64 * mn) * val q) * val m2 + val buf3') by (rewrite EM, TD3, <- Vw, A1, V3'; ring).
  assert (N3 : 0 <= val buf3') by (apply val_nonneg, O3').
  assert (HQ : val buf1 + 2 ^ (64 * mn) * val q < 2 ^ (64 * (m0 + 1))).
  { apply Z.mul_lt_mono_pos_r with (val m2); [exact M20|]. clear - EM' HM N3. lia. }
  assert (EPm0 : 2 ^ (64 * (m0 + 1)) = 2 ^ (64 * m) * 2 ^ (64 * (m0 + 1 - m))) by (rewrite <- pow64_add by llia; f_equal; llia).
  pose proof (val_bound _ (ok_ztake n _ A3)) as Bq. rewrite zlen_ztake in Bq by llia.
  assert (Hhi : val (zdrop m buf1) + val (zdrop n q) < 2 ^ (64 * zlen (zdrop m buf1))).
  { rewrite zlen_zdrop, Ll1 by llia. apply Z.mul_lt_mono_pos_l with (2 ^ (64 * m)); [apply pow2_gt0; llia|]. rewrite <- EPm0.
    apply Z.le_lt_trans with (2 := HQ). rewrite TD1, EPm, TDq.
    assert (0 <= 2 ^ (64 * mn) * val (ztake n q)) by (apply Z.mul_nonneg_nonneg; lia). clear - H. lia. }
  destruct (add_assign_fit _ _ (ok_zdrop m _ O1) (ok_zdrop n _ A3) Hhi) as (G1 & G2 & G3).
  set (hi := sws_abs_add_assign (zdrop m buf1) (zdrop n q)) in *.
  rewrite zlen_zdrop, Ll1 in G3 by llia.
  assert (Zmn : val (ztake mn buf1) = 0).
  { replace mn with (Z.min mn m) by llia. rewrite <- ztake_ztake. rewrite val_ztake; auto using ok_ztake; [|rewrite zlen_ztake; llia].
    rewrite Z1. apply Z.mod_0_l. lia. }
  assert (Lt1 : zlen (ztake mn buf1) = mn) by (apply zlen_ztake; llia).
  set (buf1' := ztake mn buf1 ++ ztake n q ++ hi).
  assert (V1' : val buf1' = val buf1 + 2 ^ (64 * mn) * val q).
  { unfold buf1'. rewrite !val_app, Lt1, Zmn, G1, zlen_ztake by llia. rewrite TD1, TDq, EPm. ring. }
  destruct (IH mn (mn + n) buf1' buf3') as (m' & b1 & b3 & -> & J1 & J2 & J3 & J4 & J5 & J6 & J7 & J8 & J9 & J10); auto; try llia.
  - unfold buf1'. repeat (apply ok_app; split); auto using ok_ztake.
  - unfold buf1'. rewrite !zlen_app, Lt1, zlen_ztake, G3 by llia. llia.
  - unfold buf1'. rewrite ztake_app_exact' by auto. exact Zmn.
  - rewrite V1'. exact EM'.
  - rewrite V3', pow64_add by llia. assert (2 ^ (64 * mn) * (val r + 1) <= 2 ^ (64 * mn) * 2 ^ (64 * n)) by (apply Z.mul_le_mono_nonneg_l; lia). clear - H Bl. lia.
  - exists m', b1, b3. auto 12.
Qed.

Lemma div_unbalanced_spec m1 m2 : words_ok m1 -> words_ok m2 -> 1 <= zlen m2 -> 2 ^ (64 * (zlen m2 - 1)) <= val m2 ->
  rec_spec div_unbalanced m1 m2.
Proof.
  intros H1 H2 L2 Ht. unfold rec_spec, div_unbalanced. pose proof (val_bound m1 H1) as V1. pose proof (val_bound m2 H2) as V2.
  destruct (Z.ltb_spec (zlen m1) (zlen m2)) as [Hlt|Hge].
  { exists [0], m1. split; [reflexivity|]. rewrite val_single, zlen_single.
    assert (2 ^ (64 * zlen m1) <= 2 ^ (64 * (zlen m2 - 1))) by (apply Z.pow_le_mono_r; lia).
    split; [lia|]. split; [lia|]. split; [apply ok_cons; split; [lia|constructor]|]. split; [auto|]. lia. }
  set (m := zlen m1 - zlen m2) in *. set (n := zlen m2) in *.
  destruct (Z.leb_spec m n) as [Hmn|Hmn].
  { apply div_recursive_spec. repeat split; auto. }
  destruct (div_basic_prefer n m).
  { destruct (div_basic_spec m1 m2 H1 H2 ltac:(lia) Ht) as (q & r & -> & A1 & A2 & A3 & A4 & A5 & A6).
    exists q, r. repeat split; auto; lia. }
  assert (HM : val m1 < 2 ^ (64 * (m + 1)) * val m2).
  { apply Z.lt_le_trans with (2 ^ (64 * zlen m1)); [lia|]. replace (zlen m1) with ((m + 1) + (n - 1)) by lia.
    rewrite pow64_add by lia. apply Z.mul_le_mono_nonneg_l; [apply pow2_nonneg|auto]. }
  assert (M20 : 0 < val m2) by (pose proof (pow2_gt0 (64 * (n - 1)) ltac:(lia)); lia).
  destruct (div_unb_loop_spec (val m1) m2 n m (zlen m1) H2 eq_refl L2 Ht HM (S (length m1)) m (zlen m1) (zeros (m + 1)) m1)
    as (m' & buf1 & buf3 & -> & J1 & J2 & J3 & J4 & J5 & J6 & J7 & J8 & J9 & J10); auto using ok_zeros; try (unfold zlen in *; lia).
  { apply zlen_zeros. lia. }
  { rewrite val_ztake by (rewrite ?zlen_zeros; auto using ok_zeros; lia). rewrite val_zeros. apply Z.mod_0_l. pose proof (pow2_gt0 (64 * m)). lia. }
  { rewrite val_zeros. lia. }
  cbn [bind].
  assert (Lt : zlen (ztake (m' + n) buf3) = m' + n) by (apply zlen_ztake; llia).
  destruct (div_recursive_spec (ztake (m' + n) buf3) m2) as (q & r & -> & A1 & A2 & A3 & A4 & A5 & A6 & A7).
  { repeat split; auto using ok_ztake; llia. }
  cbn [bind]. rewrite Lt in A5, A6, A7. rewrite val_ztake_fit in A1 by (auto; llia). fold n in A5, A7. specialize (A7 ltac:(llia)).
  assert (Lq : zlen q = m' + 1) by llia.
  assert (EM : val m1 = (val buf1 + val q) * val m2 + val r) by (rewrite J9, A1; ring).
  pose proof (val_nonneg r A4) as Nr. pose proof (val_nonneg q A3) as Nq.
  assert (HQ : val buf1 + val q < 2 ^ (64 * (m + 1))) by (apply Z.mul_lt_mono_pos_r with (val m2); [exact M20|]; clear - EM HM Nr; lia).
  pose proof (val_take_drop m' buf1 ltac:(llia)) as TD1. rewrite J8 in TD1. pose proof (val_take_drop m' q ltac:(llia)) as TDq.
  pose proof (val_nonneg _ (ok_ztake m' _ A3)) as Nl.
  assert (EPm : 2 ^ (64 * (m + 1)) = 2 ^ (64 * m') * 2 ^ (64 * (m + 1 - m'))) by (rewrite <- pow64_add by llia; f_equal; llia).
  assert (Hhi : val (zdrop m' buf1) + val (zdrop m' q) < 2 ^ (64 * zlen (zdrop m' buf1))).
  { rewrite zlen_zdrop, J5 by llia. apply Z.mul_lt_mono_pos_l with (2 ^ (64 * m')); [apply pow2_gt0; llia|]. rewrite <- EPm.
    apply Z.le_lt_trans with (2 := HQ). rewrite TD1, TDq. clear - Nl. lia. }
  destruct (add_assign_fit _ _ (ok_zdrop m' _ J3) (ok_zdrop m' _ A3) Hhi) as (G1 & G2 & G3). rewrite zlen_zdrop, J5 in G3 by llia.
  eexists _, r. split; [reflexivity|].
  rewrite val_app, zlen_app, G1, G3, zlen_ztake by llia. split; [rewrite EM, TD1, TDq; ring|]. split; [auto|].
  split; [apply ok_app; auto using ok_ztake|]. split; [auto|]. split; [llia|]. split; [llia|]. intros _; llia.
Qed.
