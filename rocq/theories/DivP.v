(** Division of word slices: Knuth's algorithm D. *)

From Coq Require Import ZArith List Bool Lia.
From Verif Require Import Words IntModel MulModel DivModel SpecZ WordsP WordsP2 IntP MulP MulP2.
Import ListNotations.
Open Scope Z_scope.
Ltac Zify.zify_post_hook ::= idtac.
Arguments Z.mul : simpl never.
Arguments Z.add : simpl never.
Arguments Z.pow : simpl never.
Arguments Z.sub : simpl never.
Arguments Z.of_nat : simpl never.

Notation BB := (2 ^ 64).

(** ** Scaling by a word *)
Lemma mul_by_word_go_spec d : 0 <= d < BB -> forall m k, words_ok m -> 0 <= k < BB * BB ->
  let r := mul_by_word_go m d k in
  val r = d * val m + k / BB /\ words_ok r /\ zlen r = zlen m + 1.
Proof.
  intros Hd. induction m as [|v t IH]; intros k Hm Hk; cbn [mul_by_word_go]; change WORD_BASE with BB; cbv zeta.
  - assert (0 <= k / BB < BB) by (split; [apply Z.div_pos; lia|apply Z.div_lt_upper_bound; lia]).
    rewrite Z.mod_small by auto. rewrite val_single, val_nil. split; [lia|]. split; [apply ok_cons; split; [auto|constructor]|reflexivity].
  - apply ok_cons in Hm as [Hv Ht]. assert (Hq : 0 <= k / BB < BB) by (split; [apply Z.div_pos; lia|apply Z.div_lt_upper_bound; lia]).
    set (q := k / BB) in *. clearbody q. clear Hk k.
    assert (Hvd : 0 <= v * d <= (BB - 1) * (BB - 1)) by (split; [apply Z.mul_nonneg_nonneg; lia|apply Z.mul_le_mono_nonneg; lia]).
    destruct (IH (v * d + q) Ht ltac:(lia)) as (I1 & I2 & I3).
    pose proof (Z.div_mod (v * d + q) BB ltac:(lia)) as D. pose proof (Z.mod_pos_bound (v * d + q) BB ltac:(lia)) as M.
    rewrite !val_cons, !zlen_cons, I1, I3. split; [|split; [apply ok_cons; auto|lia]].
    set (A := (v * d + q) / BB) in *. set (C := (v * d + q) mod BB) in *. clearbody A C. lia.
Qed.
Lemma mul_by_word_spec m d : words_ok m -> 0 <= d < BB ->
  val (mul_by_word m d) = d * val m /\ words_ok (mul_by_word m d) /\ zlen (mul_by_word m d) = zlen m + 1.
Proof.
  intros Hm Hd. unfold mul_by_word. destruct (mul_by_word_go_spec d Hd m 0 Hm ltac:(lia)) as (A & B & C). rewrite Z.div_0_l, Z.add_0_r in A by lia. auto.
Qed.

(** ** The quotient digit *)
Definition qtest (qh rh v2 u0 : Z) : bool := (BB <=? qh) || (BB * rh + u0 <? qh * v2).

Lemma qhat_spec u2 u1 u0 v1 v2 : 0 <= u2 <= v1 -> 0 <= u1 < BB -> 0 <= u0 < BB -> BB <= 2 * v1 -> v1 < BB -> 0 <= v2 < BB ->
  let qh := qhat u2 u1 u0 v1 v2 in
  0 <= qh < BB + 2 /\
  exists rh, u2 * BB + u1 = qh * v1 + rh /\ 0 <= rh /\ qh < BB /\ qh * v2 <= BB * rh + u0 /\
    (qh = (u2 * BB + u1) / v1 \/ exists q' r', qh < q' /\ q' = qh + 1 /\ u2 * BB + u1 = q' * v1 + r' /\ (BB <= q' \/ BB * r' + u0 < q' * v2)).
Proof.
  intros Hu2 Hu1 Hu0 Hv1 Hv1' Hv2 qh. unfold qh, qhat. change WORD_BASE with BB. set (num := u2 * BB + u1).
  pose proof (Z.div_mod num v1 ltac:(lia)) as D. pose proof (Z.mod_pos_bound num v1 ltac:(lia)) as M.
  assert (Hnum : 0 <= num) by (unfold num; lia).
  pose proof (Z.div_pos num v1 Hnum ltac:(lia)) as Q0.
  set (q := num / v1) in *. set (r := num mod v1) in *. clearbody q r.
  assert (Hq : q <= BB + 1).
  { destruct (Z_le_gt_dec q (BB + 1)); auto. exfalso. assert (v1 * (BB + 2) <= v1 * q) by (apply Z.mul_le_mono_nonneg_l; lia).
    assert (u2 * BB <= v1 * BB) by (apply Z.mul_le_mono_nonneg_r; lia). unfold num in D. lia. }
  assert (Hbig : forall q r, num = q * v1 + r -> BB <= r -> q < BB).
  { intros q' r' E Hr. destruct (Z_lt_le_dec q' BB); auto. exfalso. assert (BB * v1 <= q' * v1) by (apply Z.mul_le_mono_nonneg_r; lia).
    assert (u2 * BB <= v1 * BB) by (apply Z.mul_le_mono_nonneg_r; lia). unfold num in E. lia. }
  assert (Hsmall : forall q r, 0 <= q < BB -> BB <= r -> q * v2 <= BB * r + u0).
  { intros q' r' H1 H2. assert (q' * v2 <= BB * BB) by (apply Z.mul_le_mono_nonneg; lia). assert (BB * BB <= BB * r') by (apply Z.mul_le_mono_nonneg_l; lia). lia. }
  assert (Hq1 : (BB <= q \/ BB * r + u0 < q * v2) -> 0 < q).
  { intros [H|H]; [lia|]. destruct (Z.eq_dec q 0) as [E|]; [|lia]. rewrite E in H. lia. }
  assert (T : forall q r, (BB <=? q) || (BB * r + u0 <? q * v2) = true -> BB <= q \/ BB * r + u0 < q * v2) by (intros; lia).
  assert (F : forall q r, (BB <=? q) || (BB * r + u0 <? q * v2) = false -> q < BB /\ q * v2 <= BB * r + u0) by (intros; lia).
  destruct ((BB <=? q) || (BB * r + u0 <? q * v2)) eqn:E1.
  - apply T in E1. pose proof (Hq1 E1) as Hqp. destruct (Z.ltb_spec (r + v1) BB) as [L|L]; cbn [andb].
    + destruct ((BB <=? q - 1) || (BB * (r + v1) + u0 <? (q - 1) * v2)) eqn:E2.
      * apply T in E2.
        assert (Hq2 : 0 < q - 1). { destruct E2 as [H|H]; [lia|]. destruct (Z.eq_dec (q - 1) 0) as [E|]; [|lia]. rewrite E in H. lia. }
        split; [lia|]. exists (r + v1 + v1). assert (En : num = (q - 1 - 1) * v1 + (r + v1 + v1)) by lia.
        split; [exact En|]. split; [lia|]. split; [apply (Hbig _ _ En); lia|]. split; [apply Hsmall; [split; [lia|apply (Hbig _ _ En); lia]|lia]|].
        right. exists (q - 1), (r + v1). repeat split; auto; lia.
      * apply F in E2 as [E2 E3]. split; [lia|]. exists (r + v1). split; [lia|]. split; [lia|]. split; [auto|]. split; [auto|].
        right. exists q, r. repeat split; auto; lia.
    + split; [lia|]. exists (r + v1). assert (En : num = (q - 1) * v1 + (r + v1)) by lia. split; [exact En|]. split; [lia|].
      split; [apply (Hbig _ _ En); lia|]. split; [apply Hsmall; [split; [lia|apply (Hbig _ _ En); lia]|lia]|].
      right. exists q, r. repeat split; auto; lia.
  - apply F in E1 as [E1 E2]. split; [lia|]. exists r. split; [lia|]. split; [lia|]. split; [auto|]. split; [auto|]. now left.
Qed.

(** The estimate is the digit or one more.  [T] is the power of the base below
    the three leading words. *)
Lemma qhat_bounds u V T u2 u1 u0 ul v1 v2 vl : 0 < T ->
  u = ((u2 * BB + u1) * BB + u0) * T + ul -> 0 <= ul < T -> V = (v1 * BB + v2) * T + vl -> 0 <= vl < T ->
  0 <= u2 -> 0 <= u1 < BB -> 0 <= u0 < BB -> BB <= 2 * v1 -> v1 < BB -> 0 <= v2 < BB -> u < BB * V ->
  let qh := qhat u2 u1 u0 v1 v2 in u / V <= qh <= u / V + 1 /\ 0 <= qh < BB.
Proof.
  intros HT Hu Hul HV Hvl P2 P1 P0 N1 N1' N2 Hlt qh.
  assert (HVp : BB * (BB * T) <= 2 * V).
  { rewrite HV. assert (BB * BB * T <= 2 * v1 * BB * T) by (apply Z.mul_le_mono_nonneg_r; [lia|]; apply Z.mul_le_mono_nonneg_r; lia).
    assert (0 <= v2 * T) by (apply Z.mul_nonneg_nonneg; lia). lia. }
  assert (V0 : 0 < V) by (assert (0 < BB * (BB * T)) by (repeat apply Z.mul_pos_pos; lia); lia).
  assert (Hu2 : u2 <= v1).
  { destruct (Z_le_gt_dec u2 v1); auto. exfalso.
    (* V < (v1 + 1) B T *)
    assert (HVu : V < (v1 + 1) * (BB * T)).
    { rewrite HV. assert (v2 * T + T <= BB * T) by (assert ((v2 + 1) * T <= BB * T) by (apply Z.mul_le_mono_nonneg_r; lia); lia). lia. }
    assert (Hul2 : (v1 + 1) * BB * BB * T <= u).
    { rewrite Hu. assert ((v1 + 1) * (BB * BB * T) <= u2 * (BB * BB * T)) by (apply Z.mul_le_mono_nonneg_r; [apply Z.mul_nonneg_nonneg; lia|lia]).
      assert (0 <= u1 * BB * T) by (apply Z.mul_nonneg_nonneg; [apply Z.mul_nonneg_nonneg|]; lia).
      assert (0 <= u0 * T) by (apply Z.mul_nonneg_nonneg; lia). lia. }
    assert (BB * V < BB * ((v1 + 1) * (BB * T))) by (apply Z.mul_lt_mono_pos_l; lia). lia. }
  destruct (qhat_spec u2 u1 u0 v1 v2 ltac:(lia) P1 P0 N1 N1' N2) as (Q1 & rh & E1 & R0 & Q2 & Q3 & Q4). fold qh in Q1, E1, Q2, Q3, Q4.
  clearbody qh. set (num := u2 * BB + u1) in *.
  pose proof (Z.div_mod u V ltac:(lia)) as D. pose proof (Z.mod_pos_bound u V V0) as M. set (q := u / V) in *.
  assert (Hq0 : 0 <= u). { rewrite Hu. assert (0 <= num) by (unfold num; lia). assert (0 <= num * BB + u0) by lia. assert (0 <= (num * BB + u0) * T) by (apply Z.mul_nonneg_nonneg; lia). lia. }
  assert (Hqb : q < BB) by (apply Z.div_lt_upper_bound; lia).
  assert (Hq1 : 0 <= q) by (apply Z.div_pos; lia).
  clearbody q num.
  (* strictness of a failed test *)
  assert (Hstrict : forall q' r', num = q' * v1 + r' -> (BB <= q' \/ BB * r' + u0 < q' * v2) -> q < q').
  { intros q' r' En [H|H]; [lia|]. destruct (Z_lt_le_dec q q'); auto. exfalso.
    assert (H1 : (num * BB + u0 + 1) * T <= q' * (v1 * BB + v2) * T) by (apply Z.mul_le_mono_nonneg_r; [lia|]; rewrite En; lia).
    assert (Hq' : 0 <= q').
    { destruct (Z_lt_le_dec q' 0); auto. exfalso.
      assert (q' * (v1 * BB + v2) <= 0) by (apply Z.mul_nonpos_nonneg; lia).
      assert (q' * (v1 * BB + v2) * T <= 0) by (apply Z.mul_nonpos_nonneg; lia).
      assert (0 < (num * BB + u0 + 1) * T) by (apply Z.mul_pos_pos; [|lia]; lia). lia. }
    assert (H2 : q' * V <= q * V) by (apply Z.mul_le_mono_nonneg_r; lia).
    assert (H3 : q' * ((v1 * BB + v2) * T) <= q' * V) by (apply Z.mul_le_mono_nonneg_l; lia). lia. }
  split; [split|lia].
  - destruct Q4 as [->|(q' & r' & _ & -> & En & Ht)].
    + apply Z.div_le_lower_bound; [lia|]. 
      (* v1 * q <= num *)
      destruct (Z_le_gt_dec (v1 * q) num); auto. exfalso.
      assert (H1 : (num + 1) * (BB * T) <= v1 * q * (BB * T)) by (apply Z.mul_le_mono_nonneg_r; [apply Z.mul_nonneg_nonneg; lia|lia]).
      assert (H2 : q * (v1 * BB * T) <= q * V) by (apply Z.mul_le_mono_nonneg_l; [lia|]; assert (0 <= v2 * T) by (apply Z.mul_nonneg_nonneg; lia); lia).
      assert (H3 : u0 * T + T <= BB * T) by (assert ((u0 + 1) * T <= BB * T) by (apply Z.mul_le_mono_nonneg_r; lia); lia). lia.
    + pose proof (Hstrict _ _ En Ht). lia.
  - destruct (Z_le_gt_dec qh (q + 1)); auto. exfalso.
    (* qh (v1 B + v2) T <= u and V - (v1 B + v2) T < T *)
    assert (H1 : qh * (v1 * BB + v2) * T <= (num * BB + u0) * T) by (apply Z.mul_le_mono_nonneg_r; [lia|]; rewrite E1; lia).
    assert (H2 : qh * vl <= BB * T) by (apply Z.mul_le_mono_nonneg; lia).
    assert (H3 : (q + 2) * V <= qh * V) by (apply Z.mul_le_mono_nonneg_r; lia).
    assert (H4 : qh * V = qh * (v1 * BB + v2) * T + qh * vl) by (rewrite HV; ring).
    assert (H5 : 0 < BB * T) by (apply Z.mul_pos_pos; lia). lia.
Qed.

(** ** Multiply and subtract *)
Lemma mulsub_spec qh : 0 <= qh < BB -> forall a b k c, words_ok a -> words_ok b -> zlen a = zlen b -> 0 <= k < BB * BB -> 0 <= c <= 1 ->
  let '(r, c') := mulsub_go a b qh k c in
  exists L kf, qh * val a + k / BB = L + 2 ^ (64 * zlen a) * kf /\ 0 <= L < 2 ^ (64 * zlen a) /\ 0 <= kf /\
    val r = val b - L - c + 2 ^ (64 * zlen a) * c' /\ 0 <= c' <= 1 /\ words_ok r /\ zlen r = zlen a.
Proof.
  intros Hq. induction a as [|x a IH]; intros b k c Ha Hb Hl Hk Hc; cbn [mulsub_go].
  - symmetry in Hl. apply zlen_0_nil in Hl. subst b. exists 0, (k / BB). rewrite val_nil, zlen_nil. change (2 ^ (64 * 0)) with 1.
    assert (0 <= k / BB) by (apply Z.div_pos; lia). repeat split; try lia; constructor.
  - destruct b as [|y b]. { rewrite zlen_cons, zlen_nil in Hl. pose proof (zlen_nonneg a). lia. }
    apply ok_cons in Ha as [Hx Ha]. apply ok_cons in Hb as [Hy Hb]. rewrite !zlen_cons in Hl. change WORD_BASE with BB. cbv zeta.
    assert (HK : 0 <= k / BB < BB) by (split; [apply Z.div_pos; lia|apply Z.div_lt_upper_bound; lia]).
    set (K := k / BB) in *. clearbody K. clear Hk k.
    assert (Hxq : 0 <= x * qh <= (BB - 1) * (BB - 1)) by (split; [apply Z.mul_nonneg_nonneg; lia|apply Z.mul_le_mono_nonneg; lia]).
    set (k' := x * qh + K). assert (Hk' : 0 <= k' < BB * BB) by (unfold k'; lia).
    pose proof (Z.div_mod k' BB ltac:(lia)) as D. pose proof (Z.mod_pos_bound k' BB ltac:(lia)) as M.
    assert (Hrc : exists r1 c1, (if y <? k' mod BB + c then (y + (BB - (k' mod BB + c)), 1) else (y - (k' mod BB + c), 0)) = (r1, c1)
      /\ 0 <= r1 < BB /\ 0 <= c1 <= 1 /\ r1 = y - k' mod BB - c + BB * c1).
    { destruct (Z.ltb_spec y (k' mod BB + c)); eexists _, _; (split; [reflexivity|]); lia. }
    destruct Hrc as (r1 & c1 & -> & R1 & R2 & R3).
    specialize (IH b k' c1 Ha Hb ltac:(lia) Hk' R2). destruct (mulsub_go a b qh k' c1) as [t c2].
    destruct IH as (L & kf & I1 & I2 & I3 & I4 & I5 & I6 & I7).
    rewrite !val_cons, !zlen_cons, pow64_succ by apply zlen_nonneg. rewrite I7, I4.
    remember (2 ^ (64 * zlen a)) as P. exists (k' mod BB + BB * L), kf.
    split; [|split; [|split; [auto|split; [rewrite R3; ring|split; [auto|split; [apply ok_cons; auto|lia]]]]]].
    + replace (qh * (x + BB * val a) + K) with (k' + BB * (qh * val a)) by (unfold k'; ring).
      replace (qh * val a) with (L + P * kf - k' / BB) by lia. lia.
    + split; [lia|]. assert (BB * (L + 1) <= BB * P) by (apply Z.mul_le_mono_nonneg_l; lia). lia.
Qed.

Lemma split3 w n : 1 <= n -> zlen w = n + 2 -> exists L u0 u1 u2, w = L ++ [u0; u1; u2] /\ zlen L = n - 1.
Proof.
  intros Hn Hw. exists (ztake (n - 1) w). pose proof (zlen_zdrop (n - 1) w ltac:(lia)) as Hz. pose proof (ztake_zdrop (n - 1) w) as E.
  destruct (zdrop (n - 1) w) as [|a [|b [|c [|d t]]]]; rewrite ?zlen_cons, ?zlen_nil in Hz; try lia.
  - exists a, b, c. split; [congruence|]. apply zlen_ztake. lia.
  - pose proof (zlen_nonneg t). lia.
Qed.
Lemma split3_nth L u0 u1 u2 n : zlen L = n - 1 ->
  znth (n - 1) (L ++ [u0; u1; u2]) = u0 /\ znth n (L ++ [u0; u1; u2]) = u1 /\ znth (n + 1) (L ++ [u0; u1; u2]) = u2.
Proof.
  intros HL. split; [now apply znth_split|]. split.
  - replace (L ++ [u0; u1; u2]) with ((L ++ [u0]) ++ [u1; u2]) by (rewrite <- app_assoc; reflexivity). apply znth_split. rewrite zlen_app, zlen_single. lia.
  - replace (L ++ [u0; u1; u2]) with ((L ++ [u0; u1]) ++ [u2]) by (rewrite <- app_assoc; reflexivity). apply znth_split. rewrite zlen_app, !zlen_cons, zlen_nil. lia.
Qed.
Lemma split3_val L u0 u1 u2 : val (L ++ [u0; u1; u2]) = ((u2 * BB + u1) * BB + u0) * 2 ^ (64 * zlen L) + val L.
Proof. rewrite val_app, !val_cons, val_nil. ring. Qed.

Definition div_inv (buf2 : words) (n : Z) : Prop :=
  1 <= n /\ words_ok buf2 /\ zlen buf2 = n + 2 /\ val buf2 < 2 ^ (64 * (n + 1)) /\ BB <= 2 * znth n buf2.

Lemma div_step_spec buf2 w n : div_inv buf2 n -> words_ok w -> zlen w = n + 2 -> val w < BB * val buf2 ->
  let '(q, w') := div_step buf2 w n (znth n buf2) (znth (n - 1) buf2) in
  q = val w / val buf2 /\ 0 <= q < BB /\ val w' = val w mod val buf2 /\ words_ok w' /\ zlen w' = n + 2 /\ 0 < val buf2.
Proof.
  intros (Hn & Hb & Lb & Vb & N) Hw Lw Hlt. unfold div_step.
  rewrite (ztake_all (n + 2) buf2) by lia.
  destruct (split3 w n Hn Lw) as (L & u0 & u1 & u2 & Ew & LL). destruct (split3 buf2 n Hn Lb) as (H & v0 & v1 & v2 & Eb & LH).
  pose proof (split3_nth L u0 u1 u2 n LL) as (W0 & W1 & W2). pose proof (split3_nth H v0 v1 v2 n LH) as (B0 & B1 & B2).
  rewrite <- Ew in W0, W1, W2. rewrite <- Eb in B0, B1, B2. rewrite B0, B1, W0, W1, W2. rewrite B1 in N.
  assert (Okw := Hw). assert (Okb := Hb). rewrite Ew in Okw. rewrite Eb in Okb.
  apply ok_app in Okw as [OL O2]. apply ok_app in Okb as [OH O3].
  apply ok_cons in O2 as [A0 O2]. apply ok_cons in O2 as [A1 O2]. apply ok_cons in O2 as [A2 _].
  apply ok_cons in O3 as [C0 O3]. apply ok_cons in O3 as [C1 O3]. apply ok_cons in O3 as [C2 _].
  assert (EV : val buf2 = ((v2 * BB + v1) * BB + v0) * 2 ^ (64 * (n - 1)) + val H) by (rewrite Eb, split3_val, LH; reflexivity).
  assert (EU : val w = ((u2 * BB + u1) * BB + u0) * 2 ^ (64 * (n - 1)) + val L) by (rewrite Ew, split3_val, LL; reflexivity).
  pose proof (val_bound L OL) as VL. pose proof (val_bound H OH) as VH. rewrite LL in VL. rewrite LH in VH.
  assert (EP1 : 2 ^ (64 * (n + 1)) = BB * BB * 2 ^ (64 * (n - 1))).
  { replace (n + 1) with (1 + (1 + (n - 1))) by lia. rewrite !pow64_succ by lia. ring. }
  assert (EP2 : 2 ^ (64 * (n + 2)) = BB * 2 ^ (64 * (n + 1))).
  { replace (n + 2) with (1 + (n + 1)) by lia. now rewrite !pow64_succ by lia. }
  remember (2 ^ (64 * (n - 1))) as T eqn:ET. remember (2 ^ (64 * (n + 1))) as T1 eqn:ET1.
  assert (HT : 0 < T) by lia.
  assert (v2 = 0) as ->.
  { destruct (Z_le_gt_dec v2 0); [lia|]. exfalso.
    assert (1 * (BB * BB * T) <= v2 * (BB * BB * T)) by (apply Z.mul_le_mono_nonneg_r; lia).
    assert (0 <= v1 * (BB * T)) by (apply Z.mul_nonneg_nonneg; lia). assert (0 <= v0 * T) by (apply Z.mul_nonneg_nonneg; lia). lia. }
  destruct (qhat_bounds (val w) (val buf2) T u2 u1 u0 (val L) v1 v0 (val H) HT EU VL ltac:(rewrite EV; ring) VH ltac:(lia) A1 A0 N ltac:(lia) C0 Hlt) as [Q1 Q2].
  set (qh := qhat u2 u1 u0 v1 v0) in *. clearbody qh.
  assert (HV0 : 0 < val buf2).
  { rewrite EV. assert (0 < v1 * (BB * T)) by (apply Z.mul_pos_pos; lia). assert (0 <= v0 * T) by (apply Z.mul_nonneg_nonneg; lia). lia. }
  assert (Hqv : qh * val buf2 < 2 ^ (64 * (n + 2))).
  { rewrite EP2. apply Z.le_lt_trans with ((BB - 1) * T1); [apply Z.mul_le_mono_nonneg; lia|]. lia. }
  pose proof (Z.div_mod (val w) (val buf2) ltac:(lia)) as D. pose proof (Z.mod_pos_bound (val w) (val buf2) HV0) as M.
  pose proof (mulsub_spec qh Q2 buf2 w 0 0 Hb Hw ltac:(lia) ltac:(lia) ltac:(lia)) as S. rewrite Lb in S.
  destruct (mulsub_go buf2 w qh 0 0) as [w1 c]. destruct S as (LL0 & kf & S1 & S2 & S3 & S4 & S5 & S6 & S7).
  rewrite Z.div_0_l, Z.add_0_r in S1 by lia.
  assert (Hqv0 : 0 <= qh * val buf2) by (apply Z.mul_nonneg_nonneg; lia).
  remember (2 ^ (64 * (n + 2))) as T2 eqn:ET2.
  assert (kf = 0) as ->.
  { destruct (Z.eq_dec kf 0); auto. exfalso. assert (T2 * 1 <= T2 * kf) by (apply Z.mul_le_mono_nonneg_l; lia). lia. }
  assert (EL : LL0 = qh * val buf2) by lia. rewrite EL in *. clear EL S1 S2 S3.
  pose proof (val_bound w1 S6) as Vw1. rewrite S7, <- ET2 in Vw1.
  pose proof (val_bound w Hw) as Vw. rewrite Lw, <- ET2 in Vw.
  pose proof (Z.div_pos (val w) (val buf2) ltac:(lia) HV0) as Hq0.
  remember (val w / val buf2) as q eqn:Eq. remember (val w mod val buf2) as r eqn:Er.
  destruct (Z.ltb_spec 0 c) as [Hc|Hc].
  - assert (c = 1) as -> by lia.
    destruct (add_words buf2 w1 0) as [w2 c'] eqn:EA. apply add_words_spec in EA; auto; [|unfold zlen in *; lia|lia].
    destruct EA as (F1 & F2 & F3 & F4). rewrite Lb, <- ET2 in F1. pose proof (val_bound w2 F2) as Vw2.
    assert (zlen w2 = n + 2) as Lw2 by (unfold zlen in *; lia). rewrite Lw2, <- ET2 in Vw2.
    assert (qh = q + 1) as ->.
    { destruct (Z.eq_dec qh q) as [->|]; [|lia]. exfalso. lia. }
    rewrite Z.mod_small by lia. assert (Hr : r - val buf2 + T2 < T2) by lia.
    assert (c' = 1) by (destruct (Z.eq_dec c' 0) as [->|]; [exfalso|]; lia). subst c'.
    repeat split; auto; try lia.
  - assert (c = 0) as -> by lia. 
    assert (qh = q) as ->.
    { destruct (Z.eq_dec qh q) as [->|]; [auto|]. exfalso. assert (qh = q + 1) by lia. subst qh. lia. }
    rewrite Z.mod_small by lia. repeat split; auto; try lia.
Qed.

Lemma ztake_firstn j l : ztake (Z.of_nat j) l = firstn j l.
Proof. unfold ztake. now rewrite Nat2Z.id. Qed.
Lemma zdrop_skipn j l : zdrop (Z.of_nat j) l = skipn j l.
Proof. unfold zdrop. now rewrite Nat2Z.id. Qed.

Lemma div_loop_spec buf2 n : div_inv buf2 n -> forall j buf1, words_ok buf1 -> Z.of_nat j + n + 2 <= zlen buf1 ->
  val buf1 < 2 ^ (64 * (Z.of_nat j + 1)) * val buf2 ->
  let '(q, b) := div_loop j buf1 buf2 n (znth n buf2) (znth (n - 1) buf2) in
  val buf1 = val q * val buf2 + val b /\ 0 <= val b < val buf2 /\ words_ok q /\ words_ok b /\ zlen q = Z.of_nat j + 1 /\ zlen b = zlen buf1.
Proof.
  intros Hinv. assert (Hinv' := Hinv). destruct Hinv' as (Hn & Hb2 & Lb2 & Vb2 & _). induction j as [|j IH]; intros buf1 Hb Lb Hlt.
  1: set (J := Z.of_nat 0) in *. 2: set (J := Z.of_nat (S j)) in *.
  all: assert (HJ : 0 <= J) by (unfold J; lia).
  all: assert (Hw : words_ok (ztake (n + 2) (zdrop J buf1))) by (apply ok_ztake, ok_zdrop, Hb).
  all: assert (Lw : zlen (ztake (n + 2) (zdrop J buf1)) = n + 2) by (rewrite zlen_ztake; [reflexivity|rewrite zlen_zdrop by lia; lia]).
  all: assert (PJ : 0 < 2 ^ (64 * J)) by (apply pow2_gt0; lia).
  all: assert (EPJ : 2 ^ (64 * (J + 1)) = BB * 2 ^ (64 * J)) by (rewrite (Z.add_comm J 1); apply pow64_succ; lia).
  all: pose proof (val_take_drop J buf1 ltac:(lia)) as TD.
  all: pose proof (val_bound _ (ok_ztake J _ Hb)) as Blo; rewrite zlen_ztake in Blo by lia.
  all: assert (EPn : 2 ^ (64 * (n + 2)) = BB * 2 ^ (64 * (n + 1))) by (replace (n + 2) with (1 + (n + 1)) by lia; apply pow64_succ; lia).
  all: assert (Hhi : val (zdrop J buf1) < BB * val buf2) by (apply Z.mul_lt_mono_pos_l with (2 ^ (64 * J)); [auto|]; rewrite EPJ in Hlt; lia).
  all: assert (Hhi2 : val (zdrop J buf1) < 2 ^ (64 * (n + 2))) by (rewrite EPn; apply Z.lt_le_trans with (1 := Hhi); apply Z.mul_le_mono_nonneg_l; lia).
  all: assert (Ew : val (ztake (n + 2) (zdrop J buf1)) = val (zdrop J buf1)) by (apply val_ztake_fit; auto using ok_zdrop; lia).
  all: assert (Er : val (zdrop (J + (n + 2)) buf1) = 0) by (rewrite Z.add_comm, <- zdrop_zdrop by lia; apply val_zdrop_fit; auto using ok_zdrop; lia).
  all: cbn [div_loop]; rewrite <- !zdrop_skipn, <- !ztake_firstn, Nat2Z.inj_add, Z2Nat.id by lia; fold J.
  all: pose proof (div_step_spec buf2 _ n Hinv Hw Lw ltac:(rewrite Ew; exact Hhi)) as S.
  all: destruct (div_step buf2 (ztake (n + 2) (zdrop J buf1)) n (znth n buf2) (znth (n - 1) buf2)) as [q w'].
  all: destruct S as (S1 & S2 & S3 & S4 & S5 & S6); rewrite Ew in S1, S3.
  all: pose proof (Z.div_mod (val (zdrop J buf1)) (val buf2) ltac:(lia)) as D; pose proof (Z.mod_pos_bound (val (zdrop J buf1)) (val buf2) S6) as M.
  all: rewrite <- S1, <- S3 in D; rewrite <- S3 in M.
  all: assert (Eb1 : val (ztake J buf1 ++ w' ++ zdrop (J + (n + 2)) buf1) = val (ztake J buf1) + 2 ^ (64 * J) * val w')
    by (rewrite !val_app, zlen_ztake, Er by lia; ring).
  all: assert (Ok1 : words_ok (ztake J buf1 ++ w' ++ zdrop (J + (n + 2)) buf1)) by (apply ok_app; split; [auto using ok_ztake|]; apply ok_app; auto using ok_zdrop).
  all: assert (Ln1 : zlen (ztake J buf1 ++ w' ++ zdrop (J + (n + 2)) buf1) = zlen buf1) by (rewrite !zlen_app, zlen_ztake, S5, zlen_zdrop by lia; lia).
  - change (64 * J) with 0 in *. change (2 ^ 0) with 1 in *. rewrite Eb1. assert (val (ztake J buf1) = 0) by lia. rewrite val_single.
    split; [lia|]. split; [lia|]. split; [apply ok_cons; split; [auto|constructor]|]. split; [auto|]. split; [reflexivity|auto].
  - assert (EJ : J = Z.of_nat j + 1) by (unfold J; lia).
    specialize (IH (ztake J buf1 ++ w' ++ zdrop (J + (n + 2)) buf1) Ok1 ltac:(lia)).
    destruct (div_loop j (ztake J buf1 ++ w' ++ zdrop (J + (n + 2)) buf1) buf2 n (znth n buf2) (znth (n - 1) buf2)) as [qs b].
    rewrite <- EJ in IH. rewrite Eb1, Ln1 in IH.
    destruct IH as (I1 & I2 & I3 & I4 & I5 & I6).
    { assert (2 ^ (64 * J) * (val w' + 1) <= 2 ^ (64 * J) * val buf2) by (apply Z.mul_le_mono_nonneg_l; lia). lia. }
    rewrite val_app, val_single, zlen_app, zlen_single, I5. split; [|split; [auto|split; [apply ok_app; split; [auto|apply ok_cons; split; [auto|constructor]]|split; [auto|split; [lia|auto]]]]].
    rewrite TD, D. clear - I1. lia.
Qed.

(** ** Normalisation of the divisor *)
Lemma norm_factor v : 1 <= v < BB -> let d := BB / (v + 1) in 1 <= d < BB /\ d * (v + 1) <= BB /\ BB <= 2 * (d * v) \/ (d = 1 /\ BB <= 2 * v).
Proof.
  intros Hv d. pose proof (Z.div_mod BB (v + 1) ltac:(lia)) as D. pose proof (Z.mod_pos_bound BB (v + 1) ltac:(lia)) as M. fold d in D.
  set (r := BB mod (v + 1)) in *. clearbody r.
  assert (Hd1 : 1 <= d) by (apply Z.div_le_lower_bound; lia).
  assert (Hd2 : d < BB) by (apply Z.div_lt_upper_bound; lia). clearbody d.
  left. split; [lia|]. split; [lia|].
  destruct (Z_le_gt_dec BB (2 * v)) as [H|H].
  - assert (1 * v <= d * v) by (apply Z.mul_le_mono_nonneg_r; lia). lia.
  - (* 2 v (B - v) > (B - 2)(v + 1) *)
    destruct (Z_le_gt_dec BB (2 * (d * v))); auto. exfalso.
    assert (H1 : (d * v) <= 2 ^ 63 - 1) by lia.
    assert (H2 : (d * v) * (v + 1) <= (2 ^ 63 - 1) * (v + 1)) by (apply Z.mul_le_mono_nonneg_r; lia).
    assert (H3 : v * (BB - v) <= v * (d * (v + 1))) by (apply Z.mul_le_mono_nonneg_l; lia).
    assert (H4 : 0 <= (v - 1) * (2 ^ 63 - v)) by (apply Z.mul_nonneg_nonneg; lia).
    lia.
Qed.

Lemma div_basic_spec m1 m2 : words_ok m1 -> words_ok m2 -> 1 <= zlen m2 <= zlen m1 -> 2 ^ (64 * (zlen m2 - 1)) <= val m2 ->
  exists q r, div_basic m1 m2 = Ok (q, r) /\ val m1 = val q * val m2 + val r /\ val r < val m2 /\
    words_ok q /\ words_ok r /\ zlen q = zlen m1 - zlen m2 + 1 /\ zlen r = zlen m2.
Proof.
  intros H1 H2 Hl Ht. unfold div_basic.
  replace ((zlen m2 =? 0) || (zlen m1 <? zlen m2)) with false by lia. set (n := zlen m2 - 1) in *.
  assert (Htop : znth n m2 = val m2 / 2 ^ (64 * n)) by (apply znth_top; auto; lia).
  pose proof (val_bound m1 H1) as V1. pose proof (val_bound m2 H2) as V2.
  destruct (Z.eqb_spec n 0) as [En|En].
  - rewrite En in *. change (2 ^ (64 * 0)) with 1 in *. rewrite Z.div_1_r in Htop. rewrite Htop.
    replace (val m2 =? 0) with false by lia. assert (El2 : zlen m2 = 1) by lia. rewrite El2 in V2. change (64 * 1) with 64 in V2.
    pose proof (divw_go_spec (val m2) ltac:(lia) (rev m1) 0 (ok_rev _ H1) ltac:(lia)) as D.
    destruct (divw_go (val m2) 0 (rev m1)) as [q r]. destruct D as (D1 & D2 & D3 & D4). rewrite rev_involutive in D4. rewrite zlen_rev in D2.
    exists (rev q), [r]. split; [reflexivity|]. rewrite val_single, zlen_rev, zlen_single. split; [lia|]. split; [lia|].
    split; [now apply ok_rev|]. split; [apply ok_cons; split; [lia|constructor]|lia].
  - set (vt := znth n m2) in *.
    assert (EPn : 2 ^ (64 * zlen m2) = BB * 2 ^ (64 * n)) by (replace (zlen m2) with (1 + n) by lia; apply pow64_succ; lia).
    assert (Pn : 0 < 2 ^ (64 * n)) by (apply pow2_gt0; lia).
    assert (Hvt : 1 <= vt < BB).
    { rewrite Htop. split; [apply Z.div_le_lower_bound; lia|apply Z.div_lt_upper_bound; lia]. }
    set (d := WORD_BASE / (vt + 1)). change WORD_BASE with BB in d.
    assert (HN : (1 <= d < BB /\ d * (vt + 1) <= BB /\ BB <= 2 * (d * vt))).
    { destruct (norm_factor vt Hvt) as [?|[E1 E2]]; auto. fold d in E1. rewrite E1. lia. }
    destruct HN as (Hd & Hd2 & Hd3).
    assert (Hbuf : exists buf1 buf2, (if d =? 1 then (m1 ++ [0], m2 ++ [0]) else (mul_by_word m1 d, mul_by_word m2 d)) = (buf1, buf2) /\
      val buf1 = d * val m1 /\ words_ok buf1 /\ zlen buf1 = zlen m1 + 1 /\ val buf2 = d * val m2 /\ words_ok buf2 /\ zlen buf2 = zlen m2 + 1).
    { assert (Hz : forall m, words_ok m -> val (m ++ [0]) = val m /\ words_ok (m ++ [0]) /\ zlen (m ++ [0]) = zlen m + 1).
      { intros m Hm. rewrite val_app, val_single, zlen_app, zlen_single. split; [lia|]. split; [|lia]. apply ok_app; split; auto. apply ok_cons; split; [lia|constructor]. }
      destruct (Z.eqb_spec d 1) as [E|E]; eexists _, _; (split; [reflexivity|]).
      - rewrite E. destruct (Hz m1 H1) as (A & B & C). destruct (Hz m2 H2) as (A' & B' & C'). repeat split; auto; lia.
      - destruct (mul_by_word_spec m1 d H1 ltac:(lia)) as (A & B & C). destruct (mul_by_word_spec m2 d H2 ltac:(lia)) as (A' & B' & C'). repeat split; auto. }
    destruct Hbuf as (buf1 & buf2 & -> & A1 & A2 & A3 & B1 & B2 & B3).
    assert (Hm2lt : val m2 < (vt + 1) * 2 ^ (64 * n)).
    { rewrite Htop. pose proof (Z.div_mod (val m2) (2 ^ (64 * n)) ltac:(lia)). pose proof (Z.mod_pos_bound (val m2) (2 ^ (64 * n)) Pn). lia. }
    assert (Hm2ge : vt * 2 ^ (64 * n) <= val m2).
    { rewrite Htop. pose proof (Z.div_mod (val m2) (2 ^ (64 * n)) ltac:(lia)). pose proof (Z.mod_pos_bound (val m2) (2 ^ (64 * n)) Pn). lia. }
    assert (Hb2lt : val buf2 < 2 ^ (64 * (n + 1))).
    { replace (n + 1) with (zlen m2) by lia. rewrite B1, EPn.
      apply Z.lt_le_trans with (d * ((vt + 1) * 2 ^ (64 * n))); [apply Z.mul_lt_mono_pos_l; lia|].
      rewrite Z.mul_assoc. apply Z.mul_le_mono_nonneg_r; lia. }
    assert (Hb2ge : (d * vt) * 2 ^ (64 * n) <= val buf2).
    { rewrite B1, <- Z.mul_assoc. apply Z.mul_le_mono_nonneg_l; lia. }
    assert (Hv1 : znth n buf2 = val buf2 / 2 ^ (64 * n)).
    { rewrite znth_val by (auto; lia). apply Z.mod_small. split; [apply Z.div_pos; lia|]. apply Z.div_lt_upper_bound; [lia|].
      replace (2 ^ (64 * n) * BB) with (2 ^ (64 * (n + 1))); [lia|]. rewrite (Z.add_comm n 1), pow64_succ by lia. ring. }
    assert (Hv1' : d * vt <= znth n buf2) by (rewrite Hv1; apply Z.div_le_lower_bound; lia).
    replace (znth n buf2 =? 0) with false by lia.
    assert (Hinv : div_inv buf2 n) by (repeat split; auto; lia).
    replace (zlen m1 - 1 - n) with (zlen m1 - zlen m2) by lia. set (j := zlen m1 - zlen m2).
    pose proof (div_loop_spec buf2 n Hinv (Z.to_nat j) buf1 A2) as S. rewrite Z2Nat.id in S by lia.
    destruct (div_loop (Z.to_nat j) buf1 buf2 n (znth n buf2) (znth (n - 1) buf2)) as [q b].
    destruct S as (S1 & S2 & S3 & S4 & S5 & S6); [lia| |].
    { rewrite A1, B1. replace (2 ^ (64 * (j + 1)) * (d * val m2)) with (d * (2 ^ (64 * (j + 1)) * val m2)) by ring.
      apply Z.mul_lt_mono_pos_l; [lia|]. apply Z.lt_le_trans with (2 ^ (64 * zlen m1)); [lia|].
      replace (zlen m1) with ((j + 1) + n) by lia. rewrite pow64_add by lia. apply Z.mul_le_mono_nonneg_l; [apply pow2_nonneg|lia]. }
    assert (Hbt : val (ztake (zlen m2) b) = val b). { apply val_ztake_fit; auto; [lia|]. replace (zlen m2) with (n + 1) by lia. lia. }
    assert (Er : val b = d * (val m1 - val q * val m2)) by (rewrite A1, B1 in S1; lia).
    assert (Hlb : zlen (ztake (zlen m2) b) = zlen m2) by (apply zlen_ztake; lia).
    set (r := val m1 - val q * val m2) in *. rewrite B1 in S2.
    assert (Hr : 0 <= r < val m2) by (split; [apply Z.mul_le_mono_pos_l with d|apply Z.mul_lt_mono_pos_l with d]; lia).
    eexists q, _. split; [reflexivity|].
    assert (HR : let rr := if 1 <? d then rev (fst (divw_go d 0 (rev (ztake (zlen m2) b)))) else ztake (zlen m2) b in
      val rr = r /\ words_ok rr /\ zlen rr = zlen m2).
    { cbv zeta. destruct (Z.ltb_spec 1 d).
      - pose proof (divw_go_spec d ltac:(lia) (rev (ztake (zlen m2) b)) 0 (ok_rev _ (ok_ztake _ _ S4)) ltac:(lia)) as D.
        destruct (divw_go d 0 (rev (ztake (zlen m2) b))) as [q' r']. cbn [fst]. destruct D as (D1 & D2 & D3 & D4).
        rewrite rev_involutive, Hbt, Er in D4. rewrite zlen_rev in D2. rewrite zlen_rev.
        split; [|split; [now apply ok_rev|lia]].
        assert (HQ : r = (d * r) / d) by (rewrite Z.mul_comm, Z.div_mul; lia). rewrite HQ. apply Z.div_unique with r'; [left; lia|]. lia.
      - assert (d = 1) by lia. split; [|split; [now apply ok_ztake|auto]]. rewrite Hbt, Er. subst d. lia. }
    destruct HR as (R1 & R2 & R3). split; [unfold r in R1; lia|]. split; [lia|]. split; [auto|]. split; [auto|]. split; [lia|auto].
Qed.
