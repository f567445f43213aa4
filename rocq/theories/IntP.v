(** The signed slice integer (IntModel.v). *)

From Coq Require Import ZArith List Bool Lia.
From Verif Require Import Words IntModel SpecZ WordsP WordsP2.
Import ListNotations.
Open Scope Z_scope.
Ltac Zify.zify_post_hook ::= idtac.
Ltac dlia := Z.div_mod_to_equations; lia.
Arguments Z.mul : simpl never.
Arguments Z.add : simpl never.
Arguments Z.pow : simpl never.
Arguments Z.sub : simpl never.
Arguments Z.of_nat : simpl never.

Definition sval (a : sws) : Z := sg a * val (sw a).
Record sok (a : sws) : Prop := { sok_w : words_ok (sw a); sok_s : sg a = 1 \/ sg a = -1 }.

(** ** Values that fit *)
Lemma val_ztake_fit n m : words_ok m -> 0 <= n -> val m < 2 ^ (64 * n) -> val (ztake n m) = val m.
Proof.
  intros Hok Hn Hf. destruct (Z_le_gt_dec n (zlen m)).
  - rewrite val_ztake by (auto; lia). apply Z.mod_small. pose proof (val_nonneg m Hok). lia.
  - rewrite ztake_all by lia. reflexivity.
Qed.

Lemma val_zdrop_fit n m : words_ok m -> 0 <= n -> val m < 2 ^ (64 * n) -> val (zdrop n m) = 0.
Proof.
  intros Hok Hn Hf. destruct (Z_le_gt_dec n (zlen m)).
  - rewrite val_zdrop by (auto; lia). apply Z.div_small. pose proof (val_nonneg m Hok). lia.
  - rewrite zdrop_all by lia. reflexivity.
Qed.

Lemma add_ext_take b : forall a c, add_ext b a c = add_ext b (ztake (zlen b) a) c.
Proof.
  induction b as [|y b IH]; intros a c; [reflexivity|]. cbn [add_ext].
  assert (E1 : hd 0 (ztake (zlen (y :: b)) a) = hd 0 a).
  { unfold ztake. rewrite zlen_cons. pose proof (zlen_nonneg b). replace (Z.to_nat (1 + zlen b)) with (S (Z.to_nat (zlen b))) by lia. destruct a; reflexivity. }
  assert (E2 : tl (ztake (zlen (y :: b)) a) = ztake (zlen b) (tl a)).
  { unfold ztake. rewrite zlen_cons. pose proof (zlen_nonneg b). replace (Z.to_nat (1 + zlen b)) with (S (Z.to_nat (zlen b))) by lia. destruct a; cbn [tl firstn]; auto. now rewrite firstn_nil. }
  rewrite E1, E2. destruct (add_carry _ _ _). rewrite <- IH. reflexivity.
Qed.

Lemma sub_ext_take b : forall a c, sub_ext b a c = sub_ext b (ztake (zlen b) a) c.
Proof.
  induction b as [|y b IH]; intros a c; [reflexivity|]. cbn [sub_ext].
  assert (E1 : hd 0 (ztake (zlen (y :: b)) a) = hd 0 a).
  { unfold ztake. rewrite zlen_cons. pose proof (zlen_nonneg b). replace (Z.to_nat (1 + zlen b)) with (S (Z.to_nat (zlen b))) by lia. destruct a; reflexivity. }
  assert (E2 : tl (ztake (zlen (y :: b)) a) = ztake (zlen b) (tl a)).
  { unfold ztake. rewrite zlen_cons. pose proof (zlen_nonneg b). replace (Z.to_nat (1 + zlen b)) with (S (Z.to_nat (zlen b))) by lia. destruct a; cbn [tl firstn]; auto. now rewrite firstn_nil. }
  rewrite E1, E2. destruct (sub_borrow _ _ _). rewrite <- IH. reflexivity.
Qed.

Lemma zlen_ztake_le n m : 0 <= n -> zlen (ztake n m) <= n.
Proof. intros. rewrite zlen_ztake_min by auto. lia. Qed.

(** Addition into a buffer that can hold the sum. *)
Lemma add_ext_fit b a : words_ok b -> words_ok a -> val a < 2 ^ (64 * zlen b) ->
  forall r c, add_ext b a 0 = (r, c) ->
  val r + 2 ^ (64 * zlen b) * c = val b + val a /\ words_ok r /\ zlen r = zlen b /\ 0 <= c <= 1.
Proof.
  intros Hb Ha Hf r c E. rewrite add_ext_take in E. pose proof (zlen_nonneg b).
  apply add_ext_spec in E; auto using ok_ztake; [|apply zlen_ztake_le; lia|lia]. rewrite val_ztake_fit in E by (auto; lia).
  rewrite Z.add_0_r in E. exact E.
Qed.

Lemma add_assign_fit b a : words_ok b -> words_ok a -> val b + val a < 2 ^ (64 * zlen b) ->
  val (sws_abs_add_assign b a) = val b + val a /\ words_ok (sws_abs_add_assign b a) /\ zlen (sws_abs_add_assign b a) = zlen b.
Proof.
  intros Hb Ha Hf. unfold sws_abs_add_assign. destruct (add_ext b a 0) as [r c] eqn:E. cbn [fst].
  pose proof (val_nonneg b Hb). pose proof (val_nonneg a Ha).
  apply add_ext_fit in E; auto; [|lia]. destruct E as (E1 & E2 & E3 & E4). pose proof (val_nonneg r E2).
  assert (c = 0). { destruct (Z.eq_dec c 1) as [->|]; lia. } subst c. split; [lia|auto].
Qed.

Lemma sub_ext_fit b a : words_ok b -> words_ok a -> val a <= val b ->
  forall r c, sub_ext b a 0 = (r, c) -> val r = val b - val a /\ words_ok r /\ zlen r = zlen b /\ c = 0.
Proof.
  intros Hb Ha Hf r c E. rewrite sub_ext_take in E. pose proof (zlen_nonneg b). pose proof (val_bound b Hb).
  pose proof (val_nonneg a Ha).
  apply sub_ext_spec in E; auto using ok_ztake; [|apply zlen_ztake_le; lia|lia]. rewrite val_ztake_fit in E by (auto; lia).
  destruct E as (E1 & E2 & E3 & E4). pose proof (val_bound r E2) as Hr. rewrite E3 in Hr.
  assert (c = 0). { destruct (Z.eq_dec c 1) as [->|]; lia. } subst c. repeat split; auto. lia.
Qed.

Lemma sgn_eq_pos x y : Z.sgn x = Z.sgn y -> 0 < x -> 0 < y.
Proof. intros H Hx. apply Z.sgn_pos_iff. rewrite <- H. now apply Z.sgn_pos_iff. Qed.
Lemma sgn_eq_neg x y : Z.sgn x = Z.sgn y -> x < 0 -> y < 0.
Proof. intros H Hx. apply Z.sgn_neg_iff. rewrite <- H. now apply Z.sgn_neg_iff. Qed.
Lemma sgn_eq_zero x y : Z.sgn x = Z.sgn y -> x = 0 -> y = 0.
Proof. intros H Hx. apply Z.sgn_null_iff. rewrite <- H. now apply Z.sgn_null_iff. Qed.

(** ** Comparison *)
Lemma cmp_top_down_spec a : forall b, words_ok a -> words_ok b -> length a = length b ->
  Z.sgn (cmp_top_down a b) = Z.sgn (val (rev a) - val (rev b)).
Proof.
  induction a as [|x a IH]; intros [|y b] Ha Hb Hl; cbn [length] in Hl; try lia; [reflexivity|]. cbn [cmp_top_down].
  apply ok_cons in Ha as [Hx Ha]. apply ok_cons in Hb as [Hy Hb]. rewrite !val_rev_cons.
  assert (El : zlen a = zlen b) by (unfold zlen; lia).
  pose proof (val_bound _ (ok_rev _ Ha)) as Ba. pose proof (val_bound _ (ok_rev _ Hb)) as Bb. rewrite zlen_rev in Ba, Bb. rewrite El in *.
  pose proof (pow2_gt0 (64 * zlen b) ltac:(pose proof (zlen_nonneg b); lia)) as Hp.
  destruct (Z.eqb_spec (x - y) 0) as [E|E].
  - rewrite IH by (auto; lia). f_equal. assert (x = y) as -> by lia. lia.
  - destruct (Z_lt_le_dec x y).
    + rewrite !Z.sgn_neg; auto; [|lia]. assert (x + 1 <= y) by lia.
      assert (2 ^ (64 * zlen b) * x + 2 ^ (64 * zlen b) <= 2 ^ (64 * zlen b) * y) by nia. lia.
    + rewrite !Z.sgn_pos; auto; [|lia]. assert (y + 1 <= x) by lia.
      assert (2 ^ (64 * zlen b) * y + 2 ^ (64 * zlen b) <= 2 ^ (64 * zlen b) * x) by nia. lia.
Qed.

Lemma sws_abs_cmp_spec a b : words_ok a -> words_ok b -> Z.sgn (sws_abs_cmp a b) = Z.sgn (val a - val b).
Proof.
  intros Ha Hb. unfold sws_abs_cmp. set (n := Z.min (zlen a) (zlen b)).
  pose proof (zlen_nonneg a). pose proof (zlen_nonneg b).
  pose proof (val_take_drop n a ltac:(lia)) as Va. pose proof (val_take_drop n b ltac:(lia)) as Vb.
  pose proof (val_nonneg _ (ok_zdrop n a Ha)) as Da. pose proof (val_nonneg _ (ok_zdrop n b Hb)) as Db.
  pose proof (val_bound _ (ok_ztake n a Ha)) as Ta. pose proof (val_bound _ (ok_ztake n b Hb)) as Tb. rewrite zlen_ztake in Ta, Tb by lia.
  pose proof (pow2_gt0 (64 * n) ltac:(lia)) as Hp.
  rewrite !all_zero_spec by auto using ok_zdrop.
  destruct (Z.eqb_spec (val (zdrop n a)) 0) as [Ea|Ea]; cbn [negb].
  - destruct (Z.eqb_spec (val (zdrop n b)) 0) as [Eb|Eb]; cbn [negb].
    + rewrite cmp_top_down_spec; auto using ok_rev, ok_ztake.
      * rewrite !rev_involutive. f_equal. rewrite Va, Vb, Ea, Eb. lia.
      * rewrite !rev_length. pose proof (zlen_ztake n a ltac:(lia)). pose proof (zlen_ztake n b ltac:(lia)). unfold zlen in *. lia.
    + symmetry. rewrite Z.sgn_neg; [reflexivity|]. rewrite Va, Vb, Ea. nia.
  - symmetry. rewrite Z.sgn_pos; [reflexivity|]. assert (val (zdrop n b) = 0).
    { assert (zlen b <= n). { destruct (Z_le_gt_dec (zlen a) (zlen b)); [|lia]. exfalso. apply Ea. rewrite zdrop_all by lia. reflexivity. }
      rewrite zdrop_all by lia. reflexivity. }
    rewrite Va, Vb, H1. nia.
Qed.

(** ** Addition and subtraction *)
Lemma app_zeros_spec r d : words_ok r -> zlen r <= d -> val (r ++ zeros (d - zlen r)) = val r /\ words_ok (r ++ zeros (d - zlen r)) /\ zlen (r ++ zeros (d - zlen r)) = d.
Proof.
  intros. rewrite val_app_zeros, zlen_app, zlen_zeros by lia. split; [auto|]. split; [apply ok_app; auto using ok_zeros|lia].
Qed.

Lemma sws_abs_add_spec a b d : words_ok a -> words_ok b -> 0 <= d -> val a + val b < 2 ^ (64 * d) ->
  exists r, sws_abs_add a b d = Ok r /\ val r = val a + val b /\ words_ok r /\ zlen r = d.
Proof.
  intros Ha Hb Hd Hf. unfold sws_abs_add.
  pose proof (val_nonneg a Ha) as Pa. pose proof (val_nonneg b Hb) as Pb.
  assert (Hgen : forall sh lg, words_ok sh -> words_ok lg -> val sh < 2 ^ (64 * zlen lg) -> val lg + val sh < 2 ^ (64 * d) ->
    exists r, (let '(r, c) := add_ext (ztake d lg) sh 0 in
      if 0 <? c then if zlen r <? d then Ok (r ++ [c] ++ zeros (d - zlen r - 1)) else Panic else Ok (r ++ zeros (d - zlen r))) = Ok r
      /\ val r = val lg + val sh /\ words_ok r /\ zlen r = d).
  { intros sh lg Hs Hl Hsl Hsum. pose proof (val_nonneg sh Hs). pose proof (val_nonneg lg Hl). pose proof (zlen_nonneg lg).
    assert (Hz : zlen (ztake d lg) = Z.min d (zlen lg)) by (apply zlen_ztake_min; auto).
    assert (Hfs : val sh < 2 ^ (64 * zlen (ztake d lg))).
    { rewrite Hz. destruct (Z.min_spec d (zlen lg)) as [[_ ->]|[_ ->]]; lia. }
    destruct (add_ext (ztake d lg) sh 0) as [r c] eqn:E. apply add_ext_fit in E; auto using ok_ztake.
    rewrite val_ztake_fit in E by (auto; lia). destruct E as (E1 & E2 & E3 & E4). pose proof (val_nonneg r E2).
    pose proof (zlen_ztake_le d lg Hd).
    destruct (Z.ltb_spec 0 c).
    - assert (c = 1) as -> by lia. destruct (Z.ltb_spec (zlen r) d).
      + destruct (app_zeros_spec (r ++ [1]) d) as (Q1 & Q2 & Q3).
        { apply ok_app; split; auto. apply ok_cons; split; [lia|constructor]. } { rewrite zlen_app, zlen_single. lia. }
        replace (d - zlen r - 1) with (d - zlen (r ++ [1])) by (rewrite zlen_app, zlen_single; lia). rewrite <- app_assoc in Q1, Q2, Q3.
        eexists. split; [reflexivity|]. split; [|auto]. rewrite Q1, val_app, val_single, E3. lia.
      + exfalso. assert (Hrd : zlen (ztake d lg) = d) by lia. rewrite Hrd in E1. lia.
    - assert (c = 0) as -> by lia. destruct (app_zeros_spec r d E2 ltac:(lia)) as (Q1 & Q2 & Q3).
      eexists. split; [reflexivity|]. split; [lia|auto]. }
  pose proof (val_bound a Ha) as Ba. pose proof (val_bound b Hb) as Bb.
  destruct (Z.ltb_spec (zlen a) (zlen b)) as [H|H].
  - destruct (Hgen a b Ha Hb) as (r & R1 & R2 & R3 & R4); [|lia|].
    { pose proof (Z.pow_le_mono_r 2 (64 * zlen a) (64 * zlen b) ltac:(lia) ltac:(lia)). lia. }
    exists r. split; [exact R1|]. split; [lia|auto].
  - destruct (Hgen b a Hb Ha) as (r & R1 & R2 & R3 & R4); [|lia|].
    { pose proof (Z.pow_le_mono_r 2 (64 * zlen b) (64 * zlen a) ltac:(lia) ltac:(lia)). lia. }
    exists r. split; [exact R1|]. split; [lia|auto].
Qed.

Lemma sws_abs_sub_spec a b d : words_ok a -> words_ok b -> 0 <= d -> val b <= val a -> val a < 2 ^ (64 * d) ->
  val (sws_abs_sub a b d) = val a - val b /\ words_ok (sws_abs_sub a b d) /\ zlen (sws_abs_sub a b d) = d.
Proof.
  intros Ha Hb Hd Hle Hf. unfold sws_abs_sub. destruct (sub_ext (ztake d a) b 0) as [r c] eqn:E. cbn [fst].
  apply sub_ext_fit in E; auto using ok_ztake; [|rewrite val_ztake_fit by auto; lia]. rewrite val_ztake_fit in E by auto.
  destruct E as (E1 & E2 & E3 & _). pose proof (zlen_ztake_le d a Hd).
  destruct (app_zeros_spec r d E2 ltac:(lia)) as (Q1 & Q2 & Q3). cbv zeta. split; [lia|auto].
Qed.

Ltac sign_cases := repeat match goal with H : sg _ = 1 \/ sg _ = -1 |- _ => destruct H end.

Lemma sws_add_sub_spec a b d ds op : sok a -> sok b -> 0 <= d -> (ds = 1 \/ ds = -1) -> (op = 1 \/ op = -1) ->
  val (sw a) < 2 ^ (64 * d) -> val (sw b) < 2 ^ (64 * d) -> Z.abs (sval a + op * sval b) < 2 ^ (64 * d) ->
  exists r, sws_add_sub a b d ds op = Ok r /\ sok r /\ zlen (sw r) = d /\ sval r = sval a + op * sval b.
Proof.
  intros [Wa Sa] [Wb Sb] Hd Hds Hop Fa Fb Hf. unfold sws_add_sub, sval in *.
  pose proof (val_nonneg _ Wa) as Pa. pose proof (val_nonneg _ Wb) as Pb. pose proof (sws_abs_cmp_spec _ _ Wa Wb) as Hc.
  set (diff := _ || _).
  assert (Hdiff : (diff = true /\ op * sg b = - sg a) \/ (diff = false /\ op * sg b = sg a)).
  { unfold diff. destruct Hop as [-> | ->], Sa as [-> | ->], Sb as [-> | ->]; cbn; lia. }
  destruct Hdiff as [[-> Hs]|[-> Hs]].
  - assert (E : sg a * val (sw a) + op * (sg b * val (sw b)) = sg a * (val (sw a) - val (sw b))).
    { rewrite Z.mul_assoc, Hs. ring. }
    rewrite E in *. destruct (Z.ltb_spec 0 (sws_abs_cmp (sw a) (sw b))) as [C|C].
    + apply (sgn_eq_pos _ _ Hc) in C.
      destruct (sws_abs_sub_spec (sw a) (sw b) d Wa Wb Hd ltac:(lia) Fa) as (Q1 & Q2 & Q3).
      eexists. split; [reflexivity|]. cbn [sw sg]. split; [constructor; auto|]. split; [auto|]. rewrite Q1. reflexivity.
    + destruct (Z.ltb_spec (sws_abs_cmp (sw a) (sw b)) 0) as [C'|C'].
      * apply (sgn_eq_neg _ _ Hc) in C'.
        destruct (sws_abs_sub_spec (sw b) (sw a) d Wb Wa Hd ltac:(lia) Fb) as (Q1 & Q2 & Q3).
        eexists. split; [reflexivity|]. cbn [sw sg]. split; [constructor; cbn [sw sg]; auto; lia|]. split; [auto|]. rewrite Q1.
        replace (sg b * op) with (- sg a) by lia. ring.
      * assert (C0 : sws_abs_cmp (sw a) (sw b) = 0) by lia. apply (sgn_eq_zero _ _ Hc) in C0.
        eexists. split; [reflexivity|]. cbn [sw sg]. split; [constructor; cbn [sw sg]; auto using ok_zeros|].
        split; [now apply zlen_zeros|]. rewrite val_zeros, C0. ring.
  - assert (E : sg a * val (sw a) + op * (sg b * val (sw b)) = sg a * (val (sw a) + val (sw b))).
    { rewrite Z.mul_assoc, Hs. ring. }
    rewrite E in *. destruct (sws_abs_add_spec (sw a) (sw b) d Wa Wb Hd) as (r & R1 & R2 & R3 & R4).
    { destruct Sa as [Sa|Sa]; rewrite Sa in Hf; lia. }
    rewrite R1. cbn [bind]. eexists. split; [reflexivity|]. cbn [sw sg]. split; [constructor; auto|]. split; [auto|]. rewrite R2. reflexivity.
Qed.

Lemma sub_assign_2_spec a b : words_ok a -> words_ok b -> val a <= val b -> val b < 2 ^ (64 * zlen a) ->
  val (sws_abs_sub_assign_2 a b) = val b - val a /\ words_ok (sws_abs_sub_assign_2 a b) /\ zlen (sws_abs_sub_assign_2 a b) = zlen a.
Proof.
  intros Ha Hb Hle Hf. unfold sws_abs_sub_assign_2. set (n := Z.min (zlen a) (zlen b)).
  pose proof (zlen_nonneg a). pose proof (zlen_nonneg b). pose proof (val_bound b Hb). pose proof (val_nonneg a Ha).
  assert (Hfb : val b < 2 ^ (64 * n)) by (unfold n; destruct (Z.min_spec (zlen a) (zlen b)) as [[_ ->]|[_ ->]]; lia).
  destruct (sub_words (ztake n b) (ztake n a) 0) as [r c] eqn:E. cbn [fst].
  apply sub_words_spec in E; auto using ok_ztake; [|pose proof (zlen_ztake n a ltac:(lia)); pose proof (zlen_ztake n b ltac:(lia)); unfold zlen in *; lia|lia].
  rewrite !val_ztake_fit in E by (auto; lia). rewrite zlen_ztake in E by lia. destruct E as (E1 & E2 & E3 & E4).
  pose proof (val_bound r E2) as Br. rewrite E3 in Br.
  assert (c = 0). { destruct (Z.eq_dec c 1) as [->|]; lia. } subst c.
  rewrite val_app, val_zdrop_fit by (auto; lia). rewrite zlen_app, zlen_zdrop by lia.
  split; [lia|]. split; [apply ok_app; auto using ok_zdrop|lia].
Qed.

Lemma sws_add_sub_assign_spec a b op : sok a -> sok b -> (op = 1 \/ op = -1) ->
  val (sw b) < 2 ^ (64 * zlen (sw a)) -> Z.abs (sval a + op * sval b) < 2 ^ (64 * zlen (sw a)) ->
  let r := sws_add_sub_assign a b op in sok r /\ zlen (sw r) = zlen (sw a) /\ sval r = sval a + op * sval b.
Proof.
  intros [Wa Sa] [Wb Sb] Hop Fb Hf r. unfold r, sws_add_sub_assign, sval in *.
  pose proof (val_nonneg _ Wa) as Pa. pose proof (val_nonneg _ Wb) as Pb. pose proof (sws_abs_cmp_spec _ _ Wa Wb) as Hc.
  set (diff := _ || _).
  assert (Hdiff : (diff = true /\ op * sg b = - sg a) \/ (diff = false /\ op * sg b = sg a)).
  { unfold diff. destruct Hop as [-> | ->], Sa as [-> | ->], Sb as [-> | ->]; cbn; lia. }
  destruct Hdiff as [[-> Hs]|[-> Hs]].
  - assert (E : sg a * val (sw a) + op * (sg b * val (sw b)) = sg a * (val (sw a) - val (sw b))).
    { rewrite Z.mul_assoc, Hs. ring. }
    rewrite E in *. destruct (Z.ltb_spec 0 (sws_abs_cmp (sw a) (sw b))) as [C|C].
    + apply (sgn_eq_pos _ _ Hc) in C.
      unfold sws_abs_sub_assign_1. destruct (sub_ext (sw a) (sw b) 0) as [r' c] eqn:Es. cbn [fst].
      apply sub_ext_fit in Es; auto; [|lia]. destruct Es as (E1 & E2 & E3 & _).
      cbn [sw sg]. split; [constructor; auto|]. split; [auto|]. rewrite E1. reflexivity.
    + destruct (Z.ltb_spec (sws_abs_cmp (sw a) (sw b)) 0) as [C'|C'].
      * apply (sgn_eq_neg _ _ Hc) in C'.
        destruct (sub_assign_2_spec (sw a) (sw b) Wa Wb ltac:(lia) Fb) as (Q1 & Q2 & Q3).
        cbn [sw sg]. split; [constructor; cbn [sw sg]; auto; lia|]. split; [auto|]. rewrite Q1.
        replace (sg b * op) with (- sg a) by lia. ring.
      * assert (C0 : sws_abs_cmp (sw a) (sw b) = 0) by lia. apply (sgn_eq_zero _ _ Hc) in C0.
        cbn [sw sg]. split; [constructor; cbn [sw sg]; auto using ok_zeros|].
        split; [apply zlen_zeros; apply zlen_nonneg|]. rewrite val_zeros, C0. ring.
  - assert (E : sg a * val (sw a) + op * (sg b * val (sw b)) = sg a * (val (sw a) + val (sw b))).
    { rewrite Z.mul_assoc, Hs. ring. }
    rewrite E in *. destruct (add_assign_fit (sw a) (sw b) Wa Wb) as (R2 & R3 & R4).
    { destruct Sa as [Sa|Sa]; rewrite Sa in Hf; lia. }
    cbn [sw sg]. split; [constructor; auto|]. split; [auto|]. rewrite R2. reflexivity.
Qed.

(** ** Division by one word *)
Lemma divw_go_spec d : 0 < d < 2 ^ 64 -> forall t rh, words_ok t -> 0 <= rh < d ->
  let '(q, r) := divw_go d rh t in
  words_ok q /\ zlen q = zlen t /\ 0 <= r < d /\ rh * 2 ^ (64 * zlen t) + val (rev t) = val (rev q) * d + r.
Proof.
  intros Hd. induction t as [|v t IH]; intros rh Ht Hr; cbn [divw_go].
  - rewrite zlen_nil. change (2 ^ (64 * 0)) with 1. cbn [rev]. rewrite val_nil. repeat split; auto; lia.
  - apply ok_cons in Ht as [Hv Ht]. change WORD_BASE with (2 ^ 64).
    set (qh := rh * 2 ^ 64 + v). pose proof (Z.div_mod qh d ltac:(lia)) as Hdm. pose proof (Z.mod_pos_bound qh d ltac:(lia)) as Hmb.
    specialize (IH (qh mod d) Ht Hmb). destruct (divw_go d (qh mod d) t) as [q r]. destruct IH as (I1 & I2 & I3 & I4).
    rewrite !val_rev_cons, !zlen_cons. rewrite I2. rewrite pow64_succ by apply zlen_nonneg.
    split; [|split; [lia|split; [auto|]]].
    + apply ok_cons; split; auto. split; [apply Z.div_pos; lia|]. apply Z.div_lt_upper_bound; [lia|]. unfold qh. nia.
    + set (b := 2 ^ (64 * zlen t)) in *. clearbody b.
      replace (rh * (2 ^ 64 * b) + (val (rev t) + b * v)) with (b * qh + val (rev t)) by (unfold qh; ring).
      clearbody qh. set (A := qh / d) in *. set (C := qh mod d) in *. clearbody A C. subst qh.
      transitivity (b * d * A + (C * b + val (rev t))); [ring|]. rewrite I4. ring.
Qed.

Lemma div_by_word_spec m d : words_ok m -> 0 < d < 2 ^ 64 ->
  val (div_by_word m d) = val m / d /\ words_ok (div_by_word m d) /\ zlen (div_by_word m d) = zlen m.
Proof.
  intros Hok Hd. unfold div_by_word. pose proof (divw_go_spec d Hd (rev m) 0 (ok_rev _ Hok) ltac:(lia)) as H.
  destruct (divw_go d 0 (rev m)) as [q r]. destruct H as (A & B & C & D). cbn [fst]. rewrite rev_involutive in D. rewrite zlen_rev in *.
  split; [|split; [now apply ok_rev|auto]]. apply Z.div_unique with r; lia.
Qed.

Lemma decrement_abs_spec m : words_ok m -> 0 < val m ->
  exists r, decrement_abs m = Ok r /\ val r = val m - 1 /\ words_ok r /\ zlen r = zlen m.
Proof.
  induction m as [|a t IH]; intros Hok Hv. { rewrite val_nil in Hv; lia. }
  apply ok_cons in Hok as [Ha Ht]. rewrite val_cons in Hv. pose proof (val_nonneg t Ht). cbn [decrement_abs].
  destruct (Z.eqb_spec a 0) as [->|Hne].
  - destruct IH as (r & -> & I1 & I2 & I3); auto; [lia|]. cbn [bind]. eexists. split; [reflexivity|].
    rewrite !val_cons, !zlen_cons, I1, I3. change WORD_MAX with (2 ^ 64 - 1).
    split; [lia|]. split; [|lia]. apply ok_cons; split; auto; lia.
  - eexists. split; [reflexivity|]. rewrite !val_cons, !zlen_cons. split; [lia|]. split; [|lia]. apply ok_cons; split; auto; lia.
Qed.

Lemma sws_cmp_spec a b : sok a -> sok b -> Z.sgn (sws_cmp a b) = Z.sgn (sval a - sval b).
Proof.
  intros [Wa Sa] [Wb Sb]. unfold sws_cmp, sval. rewrite !all_zero_spec by auto.
  pose proof (val_nonneg _ Wa) as Pa. pose proof (val_nonneg _ Wb) as Pb. pose proof (sws_abs_cmp_spec _ _ Wa Wb) as Hc.
  destruct (Z.eqb_spec (val (sw a)) 0) as [Ea|Ea], (Z.eqb_spec (val (sw b)) 0) as [Eb|Eb]; cbn [andb].
  1: now rewrite Ea, Eb, !Z.mul_0_r.
  all: destruct Sa as [Sa|Sa], Sb as [Sb|Sb]; rewrite Sa, Sb; cbn [Z.eqb Pos.eqb negb]; try (rewrite ?Z.mul_1_l, ?Z.mul_1_r; rewrite ?Z.sgn_mul, Hc, <- ?Z.sgn_mul; f_equal; ring).
  all: try (symmetry; first [rewrite Z.sgn_pos by lia|rewrite Z.sgn_neg by lia]; reflexivity).
Qed.
