(** Toom-3 multiplication. *)

From Coq Require Import ZArith List Bool Lia.
From Verif Require Import Words IntModel MulModel SpecZ WordsP WordsP2 IntP MulP.
Import ListNotations.
Open Scope Z_scope.
Ltac Zify.zify_post_hook ::= idtac.
Arguments Z.mul : simpl never.
Arguments Z.add : simpl never.
Arguments Z.pow : simpl never.
Arguments Z.sub : simpl never.
Arguments Z.of_nat : simpl never.

Lemma shift_slice_left_copy_spec m l2 n : words_ok m -> 0 <= n -> 0 <= l2 ->
  val (shift_slice_left_copy m l2 n) = (val m * 2 ^ n) mod 2 ^ (64 * l2) /\
  words_ok (shift_slice_left_copy m l2 n) /\ zlen (shift_slice_left_copy m l2 n) = l2.
Proof.
  intros Hm Hn Hl. unfold shift_slice_left_copy.
  assert (Hd : n = 64 * (n / 64) + n mod 64) by (apply Z.div_mod; lia). pose proof (Z.mod_pos_bound n 64 ltac:(lia)) as Hs.
  assert (Hi : 0 <= n / 64) by (apply Z.div_pos; lia). set (idx := n / 64) in *. set (s := n mod 64) in *. clearbody idx s. subst n.
  pose proof (zlen_nonneg m) as Zm.
  assert (HP : 2 ^ (64 * idx + s) = 2 ^ (64 * idx) * 2 ^ s) by (apply Z.pow_add_r; lia).
  destruct (Z.leb_spec l2 idx).
  - rewrite val_zeros, zlen_zeros by auto. split; [|split; auto using ok_zeros]. symmetry.
    rewrite HP. replace (64 * idx) with (64 * (idx - l2) + 64 * l2) by ring. rewrite Z.pow_add_r by lia.
    replace (val m * (2 ^ (64 * (idx - l2)) * 2 ^ (64 * l2) * 2 ^ s)) with (val m * 2 ^ (64 * (idx - l2)) * 2 ^ s * 2 ^ (64 * l2)) by ring.
    apply Z_mod_mult.
  - assert (G : forall t, words_ok t -> val t = val m * 2 ^ s -> val (ztake l2 (zeros idx ++ t ++ zeros l2)) = (val m * 2 ^ (64 * idx + s)) mod 2 ^ (64 * l2)
       /\ words_ok (ztake l2 (zeros idx ++ t ++ zeros l2)) /\ zlen (ztake l2 (zeros idx ++ t ++ zeros l2)) = l2).
    { intros t Ht Hv. pose proof (zlen_nonneg t).
      assert (Ho : words_ok (zeros idx ++ t ++ zeros l2)) by (apply ok_app; split; [apply ok_zeros|apply ok_app; auto using ok_zeros]).
      assert (Hz : l2 <= zlen (zeros idx ++ t ++ zeros l2)) by (rewrite !zlen_app, !zlen_zeros by lia; lia).
      rewrite val_ztake, zlen_ztake by (auto; lia). split; [|auto using ok_ztake].
      rewrite val_zeros_app, val_app_zeros, Hv by lia. f_equal. rewrite HP. ring. }
    destruct (Z.ltb_spec 0 s).
    + apply G.
      * apply shl_go_val; [lia|apply ok_app; split; auto; apply ok_cons; split; [lia|constructor]|lia].
      * destruct (shl_go_val s (m ++ [0]) 0) as (Hv & _); [lia|apply ok_app; split; auto; apply ok_cons; split; [lia|constructor]|lia|].
        rewrite Hv. replace (wshr 0 (64 - s)) with 0 by (rewrite wshr_val by lia; now rewrite Z.div_0_l by (pose proof (pow2_gt0 (64 - s)); lia)).
        rewrite val_app, val_single, Z.mul_0_r, !Z.add_0_r. apply Z.mod_small.
        rewrite zlen_app, zlen_single. pose proof (val_bound m Hm) as Bm. rewrite pow64_add by lia. change (64 * 1) with 64.
        pose proof (Z.pow_lt_mono_r 2 s 64 ltac:(lia) ltac:(lia) ltac:(lia)). pose proof (pow2_gt0 s ltac:(lia)).
        split; [apply Z.mul_nonneg_nonneg; lia|]. apply prod_lt; lia.
    + assert (s = 0) by lia. subst s. apply G; auto. change (2 ^ 0) with 1. lia.
Qed.

Lemma skipn_skipn_add A (x y : nat) : forall l : list A, skipn x (skipn y l) = skipn (x + y) l.
Proof. induction y as [|y IH]; intros l; [now rewrite Nat.add_0_r|]. destruct l; [now rewrite !skipn_nil|]. rewrite Nat.add_succ_r. cbn [skipn]. apply IH. Qed.
Lemma zdrop_zdrop a b m : 0 <= a -> 0 <= b -> zdrop a (zdrop b m) = zdrop (a + b) m.
Proof. intros. unfold zdrop. rewrite skipn_skipn_add. f_equal. lia. Qed.

Lemma sval_abs a : sok a -> Z.abs (sval a) = val (sw a).
Proof. intros [W S]. unfold sval. pose proof (val_nonneg _ W). destruct S as [-> | ->]; lia. Qed.

Lemma get_splits_spec m l : words_ok m -> 0 <= l -> zlen m <= 3 * l ->
  let '(a0, a1, a2) := toom3_get_splits m l in
  words_ok a0 /\ words_ok a1 /\ words_ok a2 /\ zlen a0 <= l /\ zlen a1 <= l /\ zlen a2 <= l /\ zlen a0 <= zlen m /\
  (zlen a2 = 0 \/ zlen a2 = zlen m - 2 * l) /\
  val m = val a0 + 2 ^ (64 * l) * val a1 + 2 ^ (64 * l) * 2 ^ (64 * l) * val a2.
Proof.
  intros Hm Hl Hlen. unfold toom3_get_splits. pose proof (zlen_nonneg m) as Zm.
  destruct (Z_le_gt_dec l (zlen m)) as [C1|C1].
  - rewrite (Z.min_l l (zlen m)) by lia. destruct (Z_le_gt_dec l (zlen m - l)) as [C2|C2].
    + rewrite (Z.min_l l (zlen m - l)) by lia. rewrite Z.min_r by lia.
      replace (l + l - l) with l by lia. replace (zlen m - (l + l) + (l + l) - (l + l)) with (zlen m - 2 * l) by lia.
      rewrite (ztake_all _ (zdrop (l + l) m)) by (rewrite zlen_zdrop; lia).
      rewrite !zlen_ztake, !zlen_zdrop by (rewrite ?zlen_zdrop; lia).
      repeat (split; auto using ok_ztake, ok_zdrop; try lia).
      rewrite (val_take_drop l m) by lia. rewrite (val_take_drop l (zdrop l m)) by (rewrite zlen_zdrop; lia).
      replace (zdrop l (zdrop l m)) with (zdrop (l + l) m). ring.
      symmetry. apply zdrop_zdrop; lia.
    + rewrite (Z.min_r l (zlen m - l)) by lia. replace (zlen m - l + l) with (zlen m) by lia. rewrite (Z.min_r l (zlen m - zlen m)) by lia.
      replace (zlen m - zlen m + zlen m - zlen m) with 0 by lia. change (ztake 0 (zdrop (zlen m) m)) with (@nil Z).
      rewrite (ztake_all _ (zdrop l m)) by (rewrite zlen_zdrop; lia).
      rewrite !zlen_ztake, !zlen_zdrop, !zlen_nil by lia.
      repeat (split; auto using ok_ztake, ok_zdrop, ok_nil; try lia).
      rewrite val_nil, (val_take_drop l m) by lia. ring.
  - rewrite (Z.min_r l (zlen m)) by lia. rewrite (Z.min_r l (zlen m - zlen m)) by lia.
    replace (zlen m - zlen m + zlen m) with (zlen m) by lia. rewrite (Z.min_r l (zlen m - zlen m)) by lia.
    replace (zlen m - zlen m + zlen m - zlen m) with 0 by lia. replace (zlen m - zlen m) with 0 by lia.
    change (ztake 0 (zdrop (zlen m) m)) with (@nil Z). rewrite ztake_all by lia. rewrite !zlen_nil.
    repeat (split; auto using ok_nil; try lia). rewrite val_nil. ring.
Qed.

Lemma sok_pos m : words_ok m -> sok (mk_sws m 1).
Proof. constructor; cbn [sw sg]; auto. Qed.
Lemma sval_pos m : sval (mk_sws m 1) = val m.
Proof. unfold sval; cbn [sw sg]; lia. Qed.

Lemma toom3_factors_spec a0 a1 a2 s l : words_ok a0 -> words_ok a1 -> words_ok a2 ->
  zlen a0 <= l -> zlen a1 <= l -> zlen a2 <= l -> (s = 1 \/ s = -1) ->
  exists p1 p2 p3 s', toom3_factors a0 a1 a2 s l = Ok (p1, p2, p3, s') /\ (s' = 1 \/ s' = -1) /\
  sok p1 /\ sok p2 /\ sok p3 /\ zlen (sw p1) = l + 1 /\ zlen (sw p2) = l + 1 /\ zlen (sw p3) = l + 1 /\
  sval p1 = val a0 + val a1 + val a2 /\ sval p2 = val a0 - val a1 + val a2 /\ sval p3 = val a0 - 2 * val a1 + 4 * val a2.
Proof.
  intros H0 H1 H2 L0 L1 L2 Hs. unfold toom3_factors. pose proof (zlen_nonneg a0) as Z0. pose proof (zlen_nonneg a1) as Z1. pose proof (zlen_nonneg a2) as Z2.
  assert (Hfit : forall a, words_ok a -> zlen a <= l -> 0 <= val a < 2 ^ (64 * l)).
  { intros a Ha Hl. pose proof (val_bound a Ha). pose proof (zlen_nonneg a). pose proof (Z.pow_le_mono_r 2 (64 * zlen a) (64 * l) ltac:(lia) ltac:(lia)). lia. }
  pose proof (Hfit a0 H0 L0) as B0. pose proof (Hfit a1 H1 L1) as B1. pose proof (Hfit a2 H2 L2) as B2. clear Hfit.
  assert (HM : 2 ^ (64 * (l + 1)) = 2 ^ (64 * l) * 2 ^ 64) by (rewrite pow64_add by lia; reflexivity).
  remember (2 ^ (64 * l)) as D eqn:ED.
  destruct (sws_add_sub_spec (mk_sws a0 1) (mk_sws a2 1) (l + 1) s 1) as (x1 & -> & x1o & x1l & x1v);
    try rewrite !sval_pos; cbn [sw sg]; try rewrite HM; auto using sok_pos; try lia.
  cbn [bind]. rewrite !sval_pos in x1v. pose proof (sval_abs _ x1o) as x1a.
  destruct (sws_add_sub_spec x1 (mk_sws a1 1) (l + 1) 1 1) as (p1 & -> & p1o & p1l & p1v);
    try rewrite !sval_pos; cbn [sw sg]; try rewrite HM; auto using sok_pos; try lia.
  cbn [bind]. rewrite !sval_pos in p1v.
  destruct (sws_add_sub_spec x1 (mk_sws a1 1) (l + 1) 1 (-1)) as (p2 & -> & p2o & p2l & p2v);
    try rewrite !sval_pos; cbn [sw sg]; try rewrite HM; auto using sok_pos; try lia.
  cbn [bind]. rewrite !sval_pos in p2v. pose proof (sval_abs _ p2o) as p2a.
  destruct (sws_add_sub_spec p2 (mk_sws a2 1) (l + 1) 1 1) as (p3 & -> & p3o & p3l & p3v);
    try rewrite !sval_pos; cbn [sw sg]; try rewrite HM; auto using sok_pos; try lia.
  cbn [bind]. rewrite !sval_pos in p3v. pose proof (sval_abs _ p3o) as p3a.
  destruct (shift_slice_left_spec (sw p3) 1 (sok_w _ p3o) ltac:(lia)) as (_ & So & Sl).
  assert (Sv : val (shift_slice_left (sw p3) 1) = 2 * val (sw p3)).
  { rewrite shift_slice_left_exact; [change (2 ^ 1) with 2; lia|apply p3o|lia|]. rewrite p3l, HM. change (2 ^ 1) with 2. lia. }
  set (p3' := mk_sws (shift_slice_left (sw p3) 1) (sg p3)).
  assert (p3o' : sok p3') by (constructor; [exact So|apply p3o]).
  assert (p3v' : sval p3' = 2 * sval p3) by (unfold sval, p3'; cbn [sw sg]; rewrite Sv; ring).
  assert (p3l' : zlen (sw p3') = l + 1) by (unfold p3'; cbn [sw]; lia). clearbody p3'.
  destruct (sws_add_sub_assign_spec p3' (mk_sws a0 1) (-1) p3o' (sok_pos _ H0)) as (q1 & q2 & q3);
    try rewrite !sval_pos; cbn [sw]; try rewrite p3l', HM; try lia.
  rewrite sval_pos in q3. change (sws_add_sub_assign p3' (mk_sws a0 1) (-1)) with (sws_sub_assign p3' (mk_sws a0 1)) in *.
  do 4 eexists. split; [reflexivity|]. split; [apply x1o|]. repeat (split; [solve [auto|lia]|]). lia.
Qed.

Lemma add_part_spec d3 start w : words_ok d3 -> sok w -> 0 <= start -> 0 <= sval w ->
  val d3 + 2 ^ (64 * start) * sval w < 2 ^ (64 * zlen d3) ->
  let r := toom3_add_part d3 (start, w) in
  val r = val d3 + 2 ^ (64 * start) * sval w /\ words_ok r /\ zlen r = zlen d3.
Proof.
  intros Hd Hw Hst Hc Hf r. unfold r, toom3_add_part. pose proof (sval_abs w Hw) as Ha. rewrite Z.abs_eq in Ha by auto.
  pose proof (val_nonneg _ Hd) as Pd.
  destruct (Z.ltb_spec start (zlen d3)).
  - pose proof (val_take_drop start d3 ltac:(lia)) as V. replace (64 * zlen d3) with (64 * (start + (zlen d3 - start))) in Hf by ring. rewrite pow64_add in Hf by lia.
    assert (LD : zlen (zdrop start d3) = zlen d3 - start) by (rewrite zlen_zdrop; lia).
    assert (LT : zlen (ztake start d3) = start) by (apply zlen_ztake; lia).
    pose proof (pow2_gt0 (64 * start) ltac:(lia)) as PB. pose proof (val_nonneg _ (ok_ztake start _ Hd)) as PT. pose proof (val_nonneg _ (ok_zdrop start _ Hd)) as PD.
    assert (Hfit : val (zdrop start d3) + sval w < 2 ^ (64 * (zlen d3 - start))).
    { apply Z.mul_lt_mono_pos_l with (2 ^ (64 * start)); auto. lia. }
    destruct (sws_add_sub_assign_spec (mk_sws (zdrop start d3) 1) w 1 (sok_pos _ (ok_zdrop start _ Hd)) Hw) as (q1 & q2 & q3); auto;
      try rewrite sval_pos; cbn [sw]; try rewrite LD; try lia.
    rewrite sval_pos in q3. change (sws_add_sub_assign (mk_sws (zdrop start d3) 1) w 1) with (sws_add_assign (mk_sws (zdrop start d3) 1) w) in *.
    set (x := sws_add_assign (mk_sws (zdrop start d3) 1) w) in *. clearbody x. cbn [sw] in q2.
    pose proof (sval_abs x q1) as Hx. rewrite q3 in Hx. rewrite Z.abs_eq in Hx by lia.
    rewrite val_app, zlen_app, LT, q2, LD, <- Hx. split; [lia|]. split; [|lia]. apply ok_app; split; [auto using ok_ztake|apply q1].
  - assert (sval w = 0).
    { assert (2 ^ (64 * zlen d3) <= 2 ^ (64 * start)) by (apply Z.pow_le_mono_r; pose proof (zlen_nonneg d3); lia).
      pose proof (pow2_gt0 (64 * start) ltac:(lia)). destruct (Z.eq_dec (sval w) 0); auto. exfalso.
      assert (2 ^ (64 * start) * 1 <= 2 ^ (64 * start) * sval w) by (apply Z.mul_le_mono_nonneg_l; lia). lia. }
    rewrite H0. split; [lia|auto].
Qed.

(** The coefficients of the product polynomial. *)
Lemma coeff_bounds D a0 a1 a2 b0 b1 b2 : 0 <= a0 < D -> 0 <= a1 < D -> 0 <= a2 < D -> 0 <= b0 < D -> 0 <= b1 < D -> 0 <= b2 < D ->
  0 <= a0 * b0 <= D * D /\ 0 <= a0 * b1 + a1 * b0 <= 2 * (D * D) /\ 0 <= a0 * b2 + a1 * b1 + a2 * b0 <= 3 * (D * D) /\
  0 <= a1 * b2 + a2 * b1 <= 2 * (D * D) /\ 0 <= a2 * b2 <= D * D.
Proof.
  intros.
  assert (G : forall x y, 0 <= x < D -> 0 <= y < D -> 0 <= x * y <= D * D) by (intros; split; [apply Z.mul_nonneg_nonneg; lia|apply Z.mul_le_mono_nonneg; lia]).
  pose proof (G a0 b0). pose proof (G a0 b1). pose proof (G a0 b2). pose proof (G a1 b0). pose proof (G a1 b1). pose proof (G a1 b2).
  pose proof (G a2 b0). pose proof (G a2 b1). pose proof (G a2 b2). lia.
Qed.

Lemma sok_mul a b r : sok a -> sok b -> words_ok r -> val r = val (sw a) * val (sw b) ->
  sok (mk_sws r (sg a * sg b)) /\ sval (mk_sws r (sg a * sg b)) = sval a * sval b.
Proof.
  intros [Wa Sa] [Wb Sb] Wr Hv. split.
  - constructor; cbn [sw sg]; auto. destruct Sa as [-> | ->], Sb as [-> | ->]; lia.
  - unfold sval; cbn [sw sg]. rewrite Hv. ring.
Qed.

Lemma div_exact_word a d c : sok a -> 0 < d < 2 ^ 64 -> sval a = d * c ->
  let r := mk_sws (div_by_word (sw a) d) (sg a) in sok r /\ sval r = c /\ zlen (sw r) = zlen (sw a).
Proof.
  intros [W S] Hd Hv r. destruct (div_by_word_spec (sw a) d W Hd) as (D1 & D2 & D3). unfold r, sval in *. cbn [sw sg].
  split; [constructor; auto|]. split; [|auto]. rewrite D1.
  assert (E : val (sw a) = (sg a * c) * d). { destruct S as [S|S]; rewrite S in *; lia. }
  rewrite E, Z.div_mul by lia. destruct S as [-> | ->]; lia.
Qed.

Lemma shr_exact a c : sok a -> sval a = 2 * c ->
  let r := mk_sws (shift_slice_right (sw a) 1) (sg a) in sok r /\ sval r = c /\ zlen (sw r) = zlen (sw a).
Proof.
  intros [W S] Hv r. destruct (shift_slice_right_spec (sw a) 1 W ltac:(lia)) as (D1 & D2 & D3). unfold r, sval in *. cbn [sw sg].
  split; [constructor; auto|]. split; [|auto]. rewrite D1. change (2 ^ 1) with 2.
  assert (E : val (sw a) = (sg a * c) * 2). { destruct S as [S|S]; rewrite S in *; lia. }
  rewrite E, Z.div_mul by lia. destruct S as [-> | ->]; lia.
Qed.

Lemma neg_sok a : sok a -> sok (mk_sws (sw a) (- sg a)) /\ sval (mk_sws (sw a) (- sg a)) = - sval a.
Proof. intros [W S]. unfold sval; cbn [sw sg]. split; [constructor; cbn [sw sg]; auto; lia|ring]. Qed.

(** The interpolation of toom3.rs 110-140 recovers the coefficients. *)
Definition interp (s0 s1 s2 s3 s4 : sws) (l : Z) : result (sws * sws * sws) :=
  do w3 <- sws_add_sub s3 s1 ((l + 1) * 2) 1 (-1);
  let w3 := mk_sws (div_by_word (sw w3) 3) (sg w3) in
  do w1 <- sws_add_sub s1 s2 ((l + 1) * 2) 1 (-1);
  let w1 := mk_sws (shift_slice_right (sw w1) 1) (sg w1) in
  do w2 <- sws_add_sub s2 s0 ((l + 1) * 2) 1 (-1);
  let w3 := sws_sub_assign w3 w2 in
  let w3 := mk_sws (sw w3) (- sg w3) in
  let x3 := mk_sws (shift_slice_left_copy (sw s4) (2 * (l + 1)) 2) 1 in
  let w3 := sws_add_assign w3 x3 in
  let w3 := mk_sws (shift_slice_right (sw w3) 1) (sg w3) in
  let w2 := sws_add_assign w2 w1 in
  let w2 := sws_sub_assign w2 s4 in
  let w1 := sws_sub_assign w1 w3 in
  Ok (w1, w2, w3).

Lemma sval_le a K : sok a -> - K <= sval a <= K -> val (sw a) <= K.
Proof. intros Ha Hk. pose proof (sval_abs a Ha). lia. Qed.

Lemma op_new a b d op va vb K : sok a -> sok b -> 0 <= d -> (op = 1 \/ op = -1) -> 2 * K < 2 ^ (64 * d) ->
  sval a = va -> sval b = vb -> - K <= va <= K -> - K <= vb <= K ->
  exists r, sws_add_sub a b d 1 op = Ok r /\ sok r /\ zlen (sw r) = d /\ sval r = va + op * vb.
Proof.
  intros Ha Hb Hd Hop HK Va Vb Ka Kb. subst va vb. pose proof (sval_le a K Ha Ka). pose proof (sval_le b K Hb Kb).
  apply sws_add_sub_spec; auto; try lia; destruct Hop as [-> | ->]; lia.
Qed.

Lemma op_assign a b d op va vb K : sok a -> sok b -> (op = 1 \/ op = -1) -> 2 * K < 2 ^ (64 * d) -> zlen (sw a) = d ->
  sval a = va -> sval b = vb -> - K <= va <= K -> - K <= vb <= K ->
  let r := sws_add_sub_assign a b op in sok r /\ zlen (sw r) = d /\ sval r = va + op * vb.
Proof.
  intros Ha Hb Hop HK Hd Va Vb Ka Kb. subst va vb d. pose proof (sval_le a K Ha Ka). pose proof (sval_le b K Hb Kb).
  apply sws_add_sub_assign_spec; auto; try lia; destruct Hop as [-> | ->]; lia.
Qed.

Lemma interp_spec s0 s1 s2 s3 s4 l D c0 c1 c2 c3 c4 : 0 <= l ->
  2 * (100 * D) < 2 ^ (64 * ((l + 1) * 2)) ->
  0 <= c0 <= D -> 0 <= c1 <= 2 * D -> 0 <= c2 <= 3 * D -> 0 <= c3 <= 2 * D -> 0 <= c4 <= D -> 0 < D ->
  sok s0 -> sok s1 -> sok s2 -> sok s3 -> sok s4 ->
  sval s0 = c0 -> sval s1 = c0 + c1 + c2 + c3 + c4 -> sval s2 = c0 - c1 + c2 - c3 + c4 ->
  sval s3 = c0 - 2 * c1 + 4 * c2 - 8 * c3 + 16 * c4 -> sval s4 = c4 ->
  exists w1 w2 w3, interp s0 s1 s2 s3 s4 l = Ok (w1, w2, w3) /\ sok w1 /\ sok w2 /\ sok w3 /\
  sval w1 = c1 /\ sval w2 = c2 /\ sval w3 = c3.
Proof.
  intros Hl HM B0 B1 B2 B3 B4 PD O0 O1 O2 O3 O4 V0 V1 V2 V3 V4. unfold interp.
  Ltac bnd := match goal with B0 : 0 <= ?c0 <= ?D, B1 : 0 <= ?c1 <= 2 * ?D, B2 : 0 <= ?c2 <= 3 * ?D, B3 : 0 <= ?c3 <= 2 * ?D, B4 : 0 <= ?c4 <= ?D |- _ =>
     clear -B0 B1 B2 B3 B4; lia end.
  destruct (op_new s3 s1 ((l + 1) * 2) (-1) _ _ (100 * D) O3 O1 ltac:(clear -Hl; lia) (or_intror eq_refl) HM V3 V1) as (w3 & -> & w3o & w3l & w3v); [bnd|bnd|].
  cbn [bind]. destruct (div_exact_word w3 3 (- c1 + c2 - 3 * c3 + 5 * c4) w3o) as (o3 & v3 & l3); [lia|rewrite w3v; ring|]. rewrite w3l in l3.
  set (w3' := mk_sws (div_by_word (sw w3) 3) (sg w3)) in *. clearbody w3'. clear w3 w3o w3l w3v.
  destruct (op_new s1 s2 ((l + 1) * 2) (-1) _ _ (100 * D) O1 O2 ltac:(clear -Hl; lia) (or_intror eq_refl) HM V1 V2) as (w1 & -> & w1o & w1l & w1v); [bnd|bnd|].
  cbn [bind]. destruct (shr_exact w1 (c1 + c3) w1o) as (o1 & v1 & l1); [rewrite w1v; ring|]. rewrite w1l in l1.
  set (w1' := mk_sws (shift_slice_right (sw w1) 1) (sg w1)) in *. clearbody w1'. clear w1 w1o w1l w1v.
  destruct (op_new s2 s0 ((l + 1) * 2) (-1) _ _ (100 * D) O2 O0 ltac:(clear -Hl; lia) (or_intror eq_refl) HM V2 V0) as (w2 & -> & w2o & w2l & w2v); [bnd|bnd|].
  cbn [bind].
  destruct (op_assign w3' w2 _ (-1) _ _ (100 * D) o3 w2o (or_intror eq_refl) HM l3 v3 w2v) as (x1 & x2 & x3); [bnd|bnd|].
  change (sws_add_sub_assign w3' w2 (-1)) with (sws_sub_assign w3' w2) in *. set (u := sws_sub_assign w3' w2) in *. clearbody u.
  destruct (neg_sok u x1) as (y1 & y2). set (u' := mk_sws (sw u) (- sg u)) in *.
  assert (lu' : zlen (sw u') = (l + 1) * 2) by exact x2. clearbody u'. rewrite x3 in y2.
  destruct (shift_slice_left_copy_spec (sw s4) (2 * (l + 1)) 2 (sok_w _ O4) ltac:(lia) ltac:(clear -Hl; lia)) as (t1 & t2 & t3).
  replace (64 * (2 * (l + 1))) with (64 * ((l + 1) * 2)) in t1 by ring.
  assert (A4 : val (sw s4) = c4). { rewrite <- (sval_abs _ O4), V4. apply Z.abs_eq. bnd. }
  rewrite A4 in t1. change (2 ^ 2) with 4 in t1. rewrite Z.mod_small in t1 by (clear -B4 HM PD; lia).
  set (x4 := shift_slice_left_copy (sw s4) (2 * (l + 1)) 2) in *. clearbody x4. rewrite <- sval_pos in t1.
  destruct (op_assign u' (mk_sws x4 1) _ 1 _ _ (100 * D) y1 (sok_pos _ t2) (or_introl eq_refl) HM lu' y2 t1) as (z1 & z2 & z3); [bnd|bnd|].
  change (sws_add_sub_assign u' (mk_sws x4 1) 1) with (sws_add_assign u' (mk_sws x4 1)) in *.
  set (u2 := sws_add_assign u' (mk_sws x4 1)) in *. clearbody u2.
  destruct (shr_exact u2 c3 z1) as (o3' & v3' & l3'); [rewrite z3; ring|]. rewrite z2 in l3'.
  set (w3'' := mk_sws (shift_slice_right (sw u2) 1) (sg u2)) in *. clearbody w3''.
  destruct (op_assign w2 w1' _ 1 _ _ (100 * D) w2o o1 (or_introl eq_refl) HM w2l w2v v1) as (e1 & e2 & e3); [bnd|bnd|].
  change (sws_add_sub_assign w2 w1' 1) with (sws_add_assign w2 w1') in *. set (w2' := sws_add_assign w2 w1') in *. clearbody w2'.
  destruct (op_assign w2' s4 _ (-1) _ _ (100 * D) e1 O4 (or_intror eq_refl) HM e2 e3 V4) as (f1 & f2 & f3); [bnd|bnd|].
  change (sws_add_sub_assign w2' s4 (-1)) with (sws_sub_assign w2' s4) in *. set (w2'' := sws_sub_assign w2' s4) in *. clearbody w2''.
  destruct (op_assign w1' w3'' _ (-1) _ _ (100 * D) o1 o3' (or_intror eq_refl) HM l1 v1 v3') as (g1 & g2 & g3); [bnd|bnd|].
  change (sws_add_sub_assign w1' w3'' (-1)) with (sws_sub_assign w1' w3'') in *.
  do 3 eexists. split; [reflexivity|]. split; [exact g1|]. split; [exact f1|]. split; [exact o3'|].
  split; [rewrite g3; ring|]. split; [rewrite f3; ring|]. exact v3'.
Qed.

Lemma toom3_unfold f d1 d2 l3 : toom3 f d1 d2 l3 =
  (let l := (Z.max (zlen d1) (zlen d2) + 2) / 3 in
  let '(a0, a1, a2) := toom3_get_splits d1 l in
  let '(b0, b1, b2) := toom3_get_splits d2 l in
  do (p1, p2, p3, x1s) <- toom3_factors a0 a1 a2 1 l;
  do (q1, q2, q3, _) <- toom3_factors b0 b1 b2 x1s l;
  do s0 <- f a0 b0 (zlen a0 + zlen b0);
  do s1 <- f (sw p1) (sw q1) ((l + 1) * 2);
  do s2 <- f (sw p2) (sw q2) ((l + 1) * 2);
  do s3 <- f (sw p3) (sw q3) ((l + 1) * 2);
  do s4 <- f a2 b2 (zlen a2 + zlen b2);
  do (w1, w2, w3) <- interp (mk_sws s0 1) (mk_sws s1 (sg p1 * sg q1)) (mk_sws s2 (sg p2 * sg q2)) (mk_sws s3 (sg p3 * sg q3)) (mk_sws s4 1) l;
  let l4 := 4 * l in
  let d3 :=
    if l4 <? l3 then
      if l3 <? l4 + zlen s4 then s0 ++ zeros (l4 - zlen s0) ++ ztake (l3 - l4) s4
      else s0 ++ zeros (l4 - zlen s0) ++ s4 ++ zeros (l3 - l4 - zlen s4)
    else s0 ++ zeros (l3 - zlen s0) in
  let parts :=
    if sg w1 <? 0 then [(3 * l, w3); (l, w1); (2 * l, w2)]
    else [(l, w1); (2 * l, w2); (3 * l, w3)] in
  Ok (fold_left toom3_add_part parts d3)).
Proof.
  unfold toom3, interp. cbv zeta.
  repeat first [reflexivity | match goal with
    | |- (let '(_, _) := ?x in _) = _ => destruct x
    | |- bind ?x _ = bind ?x _ => destruct x; cbn [bind sw sg]
    | |- bind ?x _ = bind (bind ?x _) _ => destruct x; cbn [bind sw sg]
    | |- match ?x with pair _ _ => _ end = _ => destruct x
    end].
Qed.

Lemma toom3_init l l3 s0 s4 : words_ok s0 -> words_ok s4 -> 0 <= l -> zlen s0 <= l3 -> zlen s0 <= 4 * l ->
  val s0 + 2 ^ (64 * (4 * l)) * val s4 < 2 ^ (64 * l3) ->
  let d3 := if 4 * l <? l3 then
      if l3 <? 4 * l + zlen s4 then s0 ++ zeros (4 * l - zlen s0) ++ ztake (l3 - 4 * l) s4
      else s0 ++ zeros (4 * l - zlen s0) ++ s4 ++ zeros (l3 - 4 * l - zlen s4)
    else s0 ++ zeros (l3 - zlen s0) in
  val d3 = val s0 + 2 ^ (64 * (4 * l)) * val s4 /\ words_ok d3 /\ zlen d3 = l3.
Proof.
  intros O0 O4 Hl L0 L0' Hf. pose proof (val_nonneg _ O0) as P0. pose proof (val_nonneg _ O4) as P4. pose proof (pow2_gt0 (64 * (4 * l)) ltac:(lia)) as PB.
  pose proof (zlen_nonneg s0) as Z0. pose proof (zlen_nonneg s4) as Z4.
  assert (E : 2 ^ (64 * (4 * l)) = 2 ^ (64 * zlen s0) * 2 ^ (64 * (4 * l - zlen s0))) by (rewrite <- pow64_add by lia; f_equal; lia).
  destruct (Z.ltb_spec (4 * l) l3) as [C|C].
  - assert (Hs : val s4 < 2 ^ (64 * (l3 - 4 * l))).
    { apply Z.mul_lt_mono_pos_l with (2 ^ (64 * (4 * l))); auto. rewrite <- pow64_add by lia. replace (4 * l + (l3 - 4 * l)) with l3 by lia. lia. }
    destruct (Z.ltb_spec l3 (4 * l + zlen s4)) as [C'|C']; cbv zeta.
    + rewrite val_app, val_zeros_app, val_ztake_fit, !zlen_app, zlen_zeros, zlen_ztake by (auto; lia).
      split; [rewrite E; ring|]. split; [|lia]. apply ok_app; split; auto. apply ok_app; auto using ok_zeros, ok_ztake.
    + rewrite val_app, val_zeros_app, val_app_zeros, !zlen_app, !zlen_zeros by lia.
      split; [rewrite E; ring|]. split; [|lia]. apply ok_app; split; auto. apply ok_app; split; auto using ok_zeros. apply ok_app; auto using ok_zeros.
  - assert (val s4 = 0).
    { destruct (Z.eq_dec (val s4) 0); auto. exfalso.
      assert (2 ^ (64 * l3) <= 2 ^ (64 * (4 * l))) by (apply Z.pow_le_mono_r; lia).
      assert (2 ^ (64 * (4 * l)) * 1 <= 2 ^ (64 * (4 * l)) * val s4) by (apply Z.mul_le_mono_nonneg_l; lia). lia. }
    cbv zeta. rewrite val_app_zeros, zlen_app, zlen_zeros by lia. split; [rewrite H; ring|]. split; [|lia]. apply ok_app; auto using ok_zeros.
Qed.

Lemma add_parts3 d3 x1 x2 x3 w1 w2 w3 tot : words_ok d3 -> sok w1 -> sok w2 -> sok w3 -> 0 <= x1 -> 0 <= x2 -> 0 <= x3 ->
  0 <= sval w1 -> 0 <= sval w2 -> 0 <= sval w3 ->
  val d3 + 2 ^ (64 * x1) * sval w1 + 2 ^ (64 * x2) * sval w2 + 2 ^ (64 * x3) * sval w3 = tot -> tot < 2 ^ (64 * zlen d3) ->
  let r := fold_left toom3_add_part [(x1, w1); (x2, w2); (x3, w3)] d3 in
  val r = tot /\ words_ok r /\ zlen r = zlen d3.
Proof.
  intros Od O1 O2 O3 X1 X2 X3 P1 P2 P3 Ht Hf. cbn [fold_left].
  assert (Q1 : 0 <= 2 ^ (64 * x1) * sval w1) by (apply Z.mul_nonneg_nonneg; auto using pow2_nonneg).
  assert (Q2 : 0 <= 2 ^ (64 * x2) * sval w2) by (apply Z.mul_nonneg_nonneg; auto using pow2_nonneg).
  assert (Q3 : 0 <= 2 ^ (64 * x3) * sval w3) by (apply Z.mul_nonneg_nonneg; auto using pow2_nonneg).
  destruct (add_part_spec d3 x1 w1 Od O1 X1 P1 ltac:(lia)) as (A1 & A2 & A3). set (r1 := toom3_add_part d3 (x1, w1)) in *. clearbody r1.
  destruct (add_part_spec r1 x2 w2 A2 O2 X2 P2 ltac:(rewrite A3; lia)) as (B1 & B2 & B3). set (r2 := toom3_add_part r1 (x2, w2)) in *. clearbody r2.
  destruct (add_part_spec r2 x3 w3 B2 O3 X3 P3 ltac:(rewrite B3, A3; lia)) as (C1 & C2 & C3).
  cbv zeta. split; [lia|]. split; [auto|lia].
Qed.

Lemma pow64_mult l : 0 <= l -> 2 ^ (64 * (2 * l)) = 2 ^ (64 * l) * 2 ^ (64 * l) /\
  2 ^ (64 * (3 * l)) = 2 ^ (64 * l) * 2 ^ (64 * l) * 2 ^ (64 * l) /\
  2 ^ (64 * (4 * l)) = 2 ^ (64 * l) * 2 ^ (64 * l) * 2 ^ (64 * l) * 2 ^ (64 * l).
Proof.
  intros. rewrite <- !pow64_add by lia. repeat split; f_equal; ring.
Qed.

Lemma toom3_final m1 m2 l l3 s0 s4 w1 w2 w3 :
  0 <= val m1 * val m2 < 2 ^ (64 * l3) -> 0 <= l -> words_ok s0 -> words_ok s4 -> sok w1 -> sok w2 -> sok w3 ->
  0 <= sval w1 -> 0 <= sval w2 -> 0 <= sval w3 -> zlen s0 <= l3 -> zlen s0 <= 4 * l ->
  (let D := 2 ^ (64 * l) in val s0 + (D * D * D * D) * val s4 + D * sval w1 + (D * D) * sval w2 + (D * D * D) * sval w3 = val m1 * val m2) ->
  mul_res m1 m2 l3 (
  let l4 := 4 * l in
  let d3 :=
    if l4 <? l3 then
      if l3 <? l4 + zlen s4 then s0 ++ zeros (l4 - zlen s0) ++ ztake (l3 - l4) s4
      else s0 ++ zeros (l4 - zlen s0) ++ s4 ++ zeros (l3 - l4 - zlen s4)
    else s0 ++ zeros (l3 - zlen s0) in
  let parts :=
    if sg w1 <? 0 then [(3 * l, w3); (l, w1); (2 * l, w2)]
    else [(l, w1); (2 * l, w2); (3 * l, w3)] in
  Ok (fold_left toom3_add_part parts d3)).
Proof.
  intros HB Hl s0o s4o wo1 wo2 wo3 Pw1 Pw2 Pw3 L0 L0' Etot. cbv zeta in *.
  destruct (pow64_mult l Hl) as (P2 & P3 & P4).
  assert (PD : 0 <= 2 ^ (64 * l)) by apply pow2_nonneg.
  assert (P2' : 0 <= 2 ^ (64 * (2 * l))) by apply pow2_nonneg.
  assert (P3' : 0 <= 2 ^ (64 * (3 * l))) by apply pow2_nonneg.
  rewrite <- P4, <- P3, <- P2 in Etot. clear P2 P3 P4.
  assert (N1' : 0 <= 2 ^ (64 * l) * sval w1) by (apply Z.mul_nonneg_nonneg; auto).
  assert (N2' : 0 <= 2 ^ (64 * (2 * l)) * sval w2) by (apply Z.mul_nonneg_nonneg; auto).
  assert (N3' : 0 <= 2 ^ (64 * (3 * l)) * sval w3) by (apply Z.mul_nonneg_nonneg; auto).
  destruct (toom3_init l l3 s0 s4 s0o s4o Hl L0 L0') as (I1 & I2 & I3). { clear - Etot HB N1' N2' N3'. lia. }
  set (d3 := if _ <? _ then _ else _) in *. clearbody d3.
  set (parts := if sg w1 <? 0 then _ else _).
  assert (G : val (fold_left toom3_add_part parts d3) = val m1 * val m2 /\ words_ok (fold_left toom3_add_part parts d3) /\ zlen (fold_left toom3_add_part parts d3) = zlen d3).
  { unfold parts. destruct (sg w1 <? 0); apply add_parts3; auto; rewrite ?I3; try (clear - Hl; lia); try apply HB; rewrite I1, <- Etot; ring. }
  destruct G as (G1 & G2 & G3). eexists. split; [reflexivity|]. split; [exact G1|]. split; [exact G2|]. now rewrite G3.
Qed.

Lemma toom3_spec f k m1 m2 l3 : mul_good f k -> words_ok m1 -> words_ok m2 ->
  220 < zlen m1 -> 220 < zlen m2 -> zlen m1 + zlen m2 <= k + 1 -> zlen m1 + zlen m2 <= l3 ->
  mul_res m1 m2 l3 (toom3 f m1 m2 l3).
Proof.
  intros Hf H1 H2 L1 L2 Hk Hl. rewrite toom3_unfold. cbv zeta. pose proof (mul_bound m1 m2 l3 H1 H2 Hl) as HB.
  set (l := (Z.max (zlen m1) (zlen m2) + 2) / 3).
  assert (Hlb : 74 <= l /\ zlen m1 <= 3 * l /\ zlen m2 <= 3 * l /\ 2 * (l + 1) < zlen m1 + zlen m2) by (unfold l; dlia).
  clearbody l. destruct Hlb as (N1 & N2 & N3 & N4).
  pose proof (get_splits_spec m1 l H1 ltac:(lia) N2) as S1. destruct (toom3_get_splits m1 l) as [[a0 a1] a2].
  pose proof (get_splits_spec m2 l H2 ltac:(lia) N3) as S2. destruct (toom3_get_splits m2 l) as [[b0 b1] b2].
  destruct S1 as (A0 & A1 & A2 & LA0 & LA1 & LA2 & LA0' & LA2' & VA). destruct S2 as (B0 & B1 & B2 & LB0 & LB1 & LB2 & LB0' & LB2' & VB).
  pose proof (zlen_nonneg a0). pose proof (zlen_nonneg b0). pose proof (zlen_nonneg a2). pose proof (zlen_nonneg b2).
  destruct (toom3_factors_spec a0 a1 a2 1 l A0 A1 A2 LA0 LA1 LA2 (or_introl eq_refl)) as (p1 & p2 & p3 & xs & -> & Hxs & po1 & po2 & po3 & pl1 & pl2 & pl3 & pv1 & pv2 & pv3).
  cbn [bind].
  destruct (toom3_factors_spec b0 b1 b2 xs l B0 B1 B2 LB0 LB1 LB2 Hxs) as (q1 & q2 & q3 & xs' & -> & _ & qo1 & qo2 & qo3 & ql1 & ql2 & ql3 & qv1 & qv2 & qv3).
  cbn [bind].
  destruct (Hf a0 b0 (zlen a0 + zlen b0)) as (s0 & -> & s0v & s0o & s0l); auto; [lia|lia|]. cbn [bind].
  destruct (Hf (sw p1) (sw q1) ((l + 1) * 2)) as (s1 & -> & s1v & s1o & s1l); [apply po1|apply qo1|lia|lia|]. cbn [bind].
  destruct (Hf (sw p2) (sw q2) ((l + 1) * 2)) as (s2 & -> & s2v & s2o & s2l); [apply po2|apply qo2|lia|lia|]. cbn [bind].
  destruct (Hf (sw p3) (sw q3) ((l + 1) * 2)) as (s3 & -> & s3v & s3o & s3l); [apply po3|apply qo3|lia|lia|]. cbn [bind].
  destruct (Hf a2 b2 (zlen a2 + zlen b2)) as (s4 & -> & s4v & s4o & s4l); auto; [lia|lia|]. cbn [bind].
  destruct (sok_mul p1 q1 s1 po1 qo1 s1o s1v) as (so1 & sv1). destruct (sok_mul p2 q2 s2 po2 qo2 s2o s2v) as (so2 & sv2). destruct (sok_mul p3 q3 s3 po3 qo3 s3o s3v) as (so3 & sv3).
  assert (Hfit : forall a, words_ok a -> zlen a <= l -> 0 <= val a < 2 ^ (64 * l)).
  { clear. intros a Ha Hl. pose proof (val_bound a Ha). pose proof (zlen_nonneg a). pose proof (Z.pow_le_mono_r 2 (64 * zlen a) (64 * l) ltac:(lia) ltac:(lia)). lia. }
  set (D := 2 ^ (64 * l)) in *.
  assert (HM : 2 * (100 * (D * D)) < 2 ^ (64 * ((l + 1) * 2))).
  { replace (64 * ((l + 1) * 2)) with (64 * l + (64 * l + 128)) by ring. rewrite !Z.pow_add_r by lia. fold D. assert (0 < D) by (apply pow2_gt0; lia).
    clearbody D. assert (0 < D * D) by (apply Z.mul_pos_pos; auto). replace (D * (D * 2 ^ 128)) with (2 ^ 128 * (D * D)) by ring. lia. }
  assert (PD : 0 < D) by (apply pow2_gt0; lia).
  destruct (coeff_bounds D (val a0) (val a1) (val a2) (val b0) (val b1) (val b2)) as (c0 & c1 & c2 & c3 & c4); auto.
  destruct (interp_spec (mk_sws s0 1) (mk_sws s1 (sg p1 * sg q1)) (mk_sws s2 (sg p2 * sg q2)) (mk_sws s3 (sg p3 * sg q3)) (mk_sws s4 1) l (D * D)
     _ _ _ _ _ ltac:(lia) HM c0 c1 c2 c3 c4 ltac:(apply Z.mul_pos_pos; auto)) as (w1 & w2 & w3 & -> & wo1 & wo2 & wo3 & wv1 & wv2 & wv3); auto using sok_pos.
  { rewrite sval_pos; auto. } { rewrite sv1, pv1, qv1. ring. } { rewrite sv2, pv2, qv2. ring. } { rewrite sv3, pv3, qv3. ring. } { rewrite sval_pos; auto. }
  cbn [bind].
  assert (Pw1 : 0 <= sval w1) by (rewrite wv1; apply c1). assert (Pw2 : 0 <= sval w2) by (rewrite wv2; apply c2). assert (Pw3 : 0 <= sval w3) by (rewrite wv3; apply c3).
  assert (L0 : zlen s0 <= l3) by lia. assert (L0' : zlen s0 <= 4 * l) by lia.
  assert (Etot : val s0 + (D * D * D * D) * val s4 + D * sval w1 + (D * D) * sval w2 + (D * D * D) * sval w3 = val m1 * val m2).
  { rewrite s0v, s4v, wv1, wv2, wv3, VA, VB. ring. }
  clear - HB s0o s4o wo1 wo2 wo3 Pw1 Pw2 Pw3 L0 L0' Etot N1.
  apply (toom3_final m1 m2 l l3 s0 s4 w1 w2 w3); auto; lia.
Qed.
