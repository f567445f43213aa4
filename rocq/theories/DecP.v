(** Decimal conversion of mantissas: the cache of powers of ten, digits to words,
    words to digits. *)

From Coq Require Import ZArith List Bool Lia.
From Verif Require Import Words IntModel MulModel DivModel Mantissa Dec SpecZ WordsP WordsP2 SpecText SpecDec IntP MulP MulP2 DivP DivP2.
From Verif Require Export UtilP.
Import ListNotations.
Open Scope Z_scope.
Ltac Zify.zify_post_hook ::= idtac.
Arguments Z.mul : simpl never.
Arguments Z.add : simpl never.
Arguments Z.pow : simpl never.
Arguments Z.sub : simpl never.
Arguments Z.of_nat : simpl never.
Ltac dlia := Z.div_mod_to_equations; lia.

(** ** Powers of ten *)

Lemma ten_pos a : 0 <= a -> 0 < 10 ^ a.
Proof. intros. apply Z.pow_pos_nonneg; lia. Qed.
Lemma two_pos a : 0 <= a -> 0 < 2 ^ a.
Proof. intros. apply Z.pow_pos_nonneg; lia. Qed.
Lemma sq_ten i : 10 ^ 2 ^ Z.of_nat (S i) = 10 ^ 2 ^ Z.of_nat i * 10 ^ 2 ^ Z.of_nat i.
Proof.
  rewrite Nat2Z.inj_succ, Z.pow_succ_r by lia. pose proof (two_pos (Z.of_nat i)).
  rewrite <- Z.pow_add_r by lia. f_equal. lia.
Qed.

Lemma first_tenpower_ok : tp_ok 0 first_tenpower.
Proof.
  assert (E: first_tenpower = mk_tp [11529215046068469760] [10] 60) by (vm_compute; reflexivity). rewrite E.
  assert (A: words_ok [10]) by (constructor; [lia|constructor]).
  assert (B: words_ok [11529215046068469760]) by (constructor; [lia|constructor]).
  constructor; cbn [tp_val tp_norm tp_shift]; auto; try (vm_compute; congruence).
Qed.

Lemma next_tenpower_ok i t : tp_ok i t -> exists t', next_tenpower t = Ok t' /\ tp_ok (S i) t'.
Proof.
  intros [W _ P _ _ _ _]. unfold next_tenpower.
  destruct (mul_unbalanced_spec (tp_val t) (tp_val t) (zlen (tp_val t) * 2) W W ltac:(lia)) as (r & E & V & Wr & L).
  rewrite E. cbn [bind]. destruct (trunc_leading_zeroes_spec r Wr) as (V2 & W2 & _ & N2 & _).
  assert (H: 0 < val (tp_val t)) by (rewrite P; apply ten_pos; apply Z.pow_nonneg; lia).
  assert (H2: 0 < val r) by (rewrite V; nia).
  specialize (N2 ltac:(lia)). destruct N2 as [N2 N3].
  destruct (maximize_spec (trunc_leading_zeroes r) W2 ltac:(lia)) as (m' & E' & S0 & V3 & W3 & L3 & B3).
  rewrite E'. eexists. split; [reflexivity|].
  assert (Q: val r = 10 ^ 2 ^ Z.of_nat (S i)) by (rewrite V, P, sq_ten; reflexivity).
  constructor; cbn [tp_val tp_norm tp_shift]; auto; try congruence; try lia.
  - rewrite L3. lia.
Qed.

Lemma tps_app tp r : tps_ok tp -> (forall i t, nth_error r i = Some t -> tp_ok (length tp + i) t) -> tps_ok (tp ++ r).
Proof.
  intros A B i t H. destruct (Nat.lt_ge_cases i (length tp)).
  - rewrite nth_error_app1 in H by auto. auto.
  - rewrite nth_error_app2 in H by auto. apply B in H. replace i with (length tp + (i - length tp))%nat by lia. auto.
Qed.

Lemma tenpowers_loop_ok n : forall i t, tp_ok i t ->
  exists r, tenpowers_loop n t = Ok r /\ length r = n /\ forall j u, nth_error r j = Some u -> tp_ok (S i + j) u.
Proof.
  induction n; intros i t H; cbn [tenpowers_loop].
  - exists []. split; [reflexivity|]. split; [reflexivity|]. intros j u Hj. destruct j; discriminate.
  - destruct (next_tenpower_ok i t H) as (t' & E & H'). rewrite E. cbn [bind].
    destruct (IHn _ _ H') as (r & E2 & L & H2). rewrite E2. cbn [bind]. eexists. split; [reflexivity|].
    split; [cbn; lia|]. intros j u. destruct j; cbn [nth_error].
    + intros [= <-]. rewrite Nat.add_0_r. auto.
    + intros. apply H2 in H0. replace (S i + S j)%nat with (S (S i) + j)%nat by lia. auto.
Qed.

Lemma last_nth {A} (l : list A) d : l <> [] -> nth_error l (length l - 1) = Some (last l d).
Proof.
  intros H. destruct (exists_last H) as (l' & a & ->). rewrite last_last, app_length. cbn [length].
  replace (length l' + 1 - 1)%nat with (length l') by lia. rewrite nth_error_app2 by lia. rewrite Nat.sub_diag. reflexivity.
Qed.

Lemma compute_tenpowers_ok tp p : tps_ok tp ->
  exists r, compute_tenpowers tp p = Ok (tp ++ r) /\ tps_ok (tp ++ r) /\ p <= Z.of_nat (length (tp ++ r)).
Proof.
  intros H. unfold compute_tenpowers.
  set (tp' := match tp with [] => [first_tenpower] | _ => tp end).
  assert (N: tp' <> [] /\ tps_ok tp' /\ exists r0, tp' = tp ++ r0).
  { subst tp'. destruct tp.
    - split; [discriminate|]. split; [|exists [first_tenpower]; auto].
      intros i u. generalize first_tenpower_ok. generalize first_tenpower. intros ft Hft. destruct i as [|[|i]]; cbn; try discriminate. intros [= <-]. exact Hft.
    - split; [discriminate|]. split; auto. exists []. rewrite app_nil_r. reflexivity. }
  destruct N as (N & Hok & r0 & Hr0).
  pose proof (last_nth tp' first_tenpower N) as La. apply Hok in La.
  destruct (tenpowers_loop_ok (Z.to_nat (p - Z.of_nat (length tp'))) _ _ La) as (r & E & L & Hr).
  rewrite E. cbn [bind]. assert (LN: (0 < length tp')%nat) by (destruct tp'; [congruence|cbn; lia]).
  assert (Q: tps_ok (tp' ++ r)).
  { apply tps_app; auto. intros j u Hj. apply Hr in Hj. replace (S (length tp' - 1) + j)%nat with (length tp' + j)%nat in Hj by lia. auto. }
  exists (r0 ++ r). rewrite app_assoc, <- Hr0. split; [reflexivity|]. split; [exact Q|]. rewrite app_length. rewrite L. lia.
Qed.

Lemma cc_tenpowers_ok tp p : tps_ok tp ->
  exists r, cc_tenpowers tp p = Ok (tp ++ r) /\ tps_ok (tp ++ r) /\ p <= Z.of_nat (length (tp ++ r)).
Proof.
  intros H. unfold cc_tenpowers. destruct (Z.leb_spec (Z.of_nat (length tp)) p).
  - apply compute_tenpowers_ok; auto.
  - exists []. rewrite app_nil_r. split; [reflexivity|]. split; [assumption|]. lia.
Qed.

Lemma tps_nil : tps_ok [].
Proof. intros i t. destruct i; discriminate. Qed.

(** ** Digit strings *)

Lemma dig_app b x y : dig_val b (x ++ y) = dig_val b x * b ^ Z.of_nat (length y) + dig_val b y.
Proof.
  unfold dig_val. rewrite fold_left_app. generalize (fold_left (fun a d => a * b + d) x 0). clear x.
  assert (G: forall y a, fold_left (fun a d => a * b + d) y a = a * b ^ Z.of_nat (length y) + fold_left (fun a d => a * b + d) y 0).
  { induction y0 as [|d y0 IH]; intros a; cbn [fold_left length].
    - change (b ^ Z.of_nat 0) with 1. lia.
    - rewrite IH. rewrite (IH (0 * b + d)). rewrite Nat2Z.inj_succ, Z.pow_succ_r by lia. ring. }
  intros a. apply G.
Qed.
Lemma dig_cons b d y : dig_val b (d :: y) = d * b ^ Z.of_nat (length y) + dig_val b y.
Proof. change (d :: y) with ([d] ++ y). rewrite dig_app. unfold dig_val at 1. cbn. ring. Qed.
Lemma dig_bound b ds : 0 < b -> digits_ok b ds -> 0 <= dig_val b ds < b ^ Z.of_nat (length ds).
Proof.
  intros B. induction ds as [|d ds IH]; intros H.
  - cbn. lia.
  - inversion H; subst. specialize (IH H3). rewrite dig_cons. cbn [length]. rewrite Nat2Z.inj_succ, Z.pow_succ_r by lia. nia.
Qed.
Lemma dig_zeros n : dig_val 10 (repeat 0 n) = 0 /\ digits_ok 10 (repeat 0 n).
Proof. induction n; cbn [repeat]; [split; [reflexivity|constructor]|]. destruct IHn. rewrite dig_cons. split; [lia|]. constructor; auto; lia. Qed.
Lemma dig_lead ds : digits_ok 10 ds -> ds <> [] -> hd 0 ds <> 0 -> 10 ^ (Z.of_nat (length ds) - 1) <= dig_val 10 ds.
Proof.
  destruct ds as [|d ds]; [congruence|]. cbn [hd]. intros H _ N. inversion H; subst. rewrite dig_cons. cbn [length].
  replace (Z.of_nat (S (length ds)) - 1) with (Z.of_nat (length ds)) by lia. pose proof (dig_bound 10 ds ltac:(lia) H3).
  pose proof (ten_pos (Z.of_nat (length ds))). nia.
Qed.

Lemma pad_digits_spec l : forall v acc, 0 <= v < 10 ^ Z.of_nat l ->
  exists ds, pad_digits l v acc = ds ++ acc /\ length ds = l /\ digits_ok 10 ds /\ dig_val 10 ds = v.
Proof.
  induction l; intros v acc H; cbn [pad_digits].
  - exists []. change (10 ^ Z.of_nat 0) with 1 in H. repeat split; auto; [constructor|]. cbn. lia.
  - rewrite Nat2Z.inj_succ, Z.pow_succ_r in H by lia.
    destruct (IHl (v / 10) (v mod 10 :: acc)) as (ds & E & L & D & V). { split; [apply Z.div_pos; lia|apply Z.div_lt_upper_bound; lia]. }
    exists (ds ++ [v mod 10]). rewrite E, <- app_assoc. repeat split; auto.
    + rewrite app_length; cbn; lia.
    + apply Forall_app. split; auto. constructor; auto. apply Z.mod_pos_bound; lia.
    + rewrite dig_app, V. cbn [length]. change (10 ^ Z.of_nat 1) with 10. rewrite dig_cons. cbn [length]. change (10 ^ Z.of_nat 0) with 1. change (dig_val 10 []) with 0.
      pose proof (Z.div_mod v 10). lia.
Qed.
Lemma word_digits_spec f : forall v acc, 0 <= v < 10 ^ Z.of_nat f ->
  exists ds, word_digits f v acc = ds ++ acc /\ digits_ok 10 ds /\ dig_val 10 ds = v /\ (v = 0 -> ds = []) /\ (v <> 0 -> hd 0 ds <> 0).
Proof.
  induction f; intros v acc H; cbn [word_digits].
  - exists []. change (10 ^ Z.of_nat 0) with 1 in H. repeat split; auto; try lia; [constructor|]. cbn. lia.
  - rewrite Nat2Z.inj_succ, Z.pow_succ_r in H by lia. destruct (Z.eqb_spec v 0) as [->|N].
    + exists []. repeat split; auto; try lia. constructor.
    + destruct (IHf (v / 10) (v mod 10 :: acc)) as (ds & E & D & V & Z0 & NZ). { split; [apply Z.div_pos; lia|apply Z.div_lt_upper_bound; lia]. }
      exists (ds ++ [v mod 10]). rewrite E, <- app_assoc. pose proof (Z.div_mod v 10 ltac:(lia)). pose proof (Z.mod_pos_bound v 10 ltac:(lia)).
      repeat split; auto; try lia.
      * apply Forall_app. split; auto.
      * rewrite dig_app, V. cbn [length]. change (10 ^ Z.of_nat 1) with 10. rewrite dig_cons. cbn [length]. change (10 ^ Z.of_nat 0) with 1. change (dig_val 10 []) with 0. lia.
      * intros _. destruct (Z.eq_dec (v / 10) 0) as [Q|Q].
        -- rewrite (Z0 Q). cbn. lia.
        -- specialize (NZ Q). destruct ds; [cbn in NZ; congruence|]. exact NZ.
Qed.

(** ** One division *)

Lemma mant_bound m : nat_mant m -> 0 <= val (mm m) < 2 ^ mn m /\ 0 <= mn m.
Proof.
  intros [W E]. pose proof (val_nonneg _ W). rewrite E. unfold bitlen. destruct (Z.eqb_spec (val (mm m)) 0).
  - rewrite e. change (2 ^ 0) with 1. lia.
  - pose proof (Z.log2_spec (val (mm m)) ltac:(lia)). pose proof (Z.log2_nonneg (val (mm m))). replace (Z.log2 (val (mm m)) + 1) with (Z.succ (Z.log2 (val (mm m)))) by lia. lia.
Qed.

Lemma val_app_zeros m n : 0 <= n -> words_ok m -> val (m ++ zeros n) = val m /\ words_ok (m ++ zeros n) /\ zlen (m ++ zeros n) = zlen m + n.
Proof.
  intros N W. rewrite val_app, val_zeros. split; [lia|]. split.
  - apply Forall_app. split; auto. apply ok_zeros.
  - unfold zlen, zeros. rewrite app_length, repeat_length. lia.
Qed.

Lemma slr_spec m s : nat_mant m -> 0 <= s ->
  val (mm (m_shift_left_resize m s)) = val (mm m) * 2 ^ s /\ words_ok (mm (m_shift_left_resize m s)).
Proof.
  intros H S0. destruct (mant_bound m H) as [B B2]. destruct H as [W E]. unfold m_shift_left_resize. cbn [mm].
  pose proof (two_pos s S0). destruct (Z.leb_spec (mn m + s) (max_bit_len m)) as [L|L]; unfold max_bit_len, mlen in L.
  - destruct (shift_slice_left_spec (mm m) s W S0) as (_ & W2 & _).
    destruct (trunc_leading_zeroes_spec _ W2) as (V3 & W3 & _). rewrite V3. split; auto. apply shift_slice_left_exact; auto.
    apply Z.lt_le_trans with (2 ^ (mn m + s)). { rewrite Z.pow_add_r by lia. nia. } apply Z.pow_le_mono_r; lia.
  - unfold try_extend_3. set (n := (mn m + s + 63) / 64). assert (N: zlen (mm m) <= n /\ mn m + s <= 64 * n) by (subst n; dlia).
    destruct (val_app_zeros (mm m) (n - zlen (mm m)) ltac:(lia) W) as (V1 & W1 & L1).
    destruct (shift_slice_left_spec _ s W1 S0) as (_ & W2 & _). split; auto. rewrite shift_slice_left_exact; auto.
    + rewrite V1. reflexivity.
    + rewrite V1, L1. apply Z.lt_le_trans with (2 ^ (mn m + s)). { rewrite Z.pow_add_r by lia. nia. } apply Z.pow_le_mono_r; lia.
Qed.

Lemma from_word_buf_ok w : words_ok w -> nat_mant (m_from_word_buf w).
Proof. intros. split; auto. apply find_bit_len_spec; auto. Qed.
Lemma nat_mant_zero m : nat_mant m -> m_is_zero m = (val (mm m) =? 0).
Proof.
  intros H. pose proof (mant_bound m H). destruct H as [W E]. unfold m_is_zero. rewrite E. unfold bitlen.
  destruct (Z.eqb_spec (val (mm m)) 0); auto. pose proof (Z.log2_nonneg (val (mm m))). destruct (Z.eqb_spec (Z.log2 (val (mm m)) + 1) 0); auto; lia.
Qed.
Lemma nat_mant_word m : nat_mant m -> val (mm m) <> 0 -> (mn m <=? 64) = (val (mm m) <? 2 ^ 64) /\ (val (mm m) < 2 ^ 64 -> znth 0 (mm m) = val (mm m)).
Proof.
  intros [W E] N. pose proof (val_nonneg _ W). split.
  - rewrite E. unfold bitlen. destruct (Z.eqb_spec (val (mm m)) 0); [congruence|].
    pose proof (Z.log2_spec (val (mm m)) ltac:(lia)) as [A B]. destruct (Z.ltb_spec (val (mm m)) (2 ^ 64)).
    + apply Z.leb_le. apply Z.log2_lt_pow2 in H0; lia.
    + apply Z.leb_gt. apply Z.log2_le_pow2 in H0; lia.
  - destruct (mm m) as [|a t]; [cbn in N; congruence|]. intros L. cbn [val] in *. inversion W; subst. pose proof (val_nonneg _ H3).
    assert (val t = 0) by nia. unfold znth. cbn. lia.
Qed.

Lemma one_division m t i : nat_mant m -> tp_ok i t ->
  exists q r, div_unbalanced (mm (m_shift_left_resize m (tp_shift t))) (tp_norm t) = Ok (q, r) /\
    words_ok q /\ words_ok (shift_slice_right r (tp_shift t)) /\
    val q = val (mm m) / 10 ^ 2 ^ Z.of_nat i /\ val (shift_slice_right r (tp_shift t)) = val (mm m) mod 10 ^ 2 ^ Z.of_nat i.
Proof.
  intros H [W1 W2 P Sc S0 T N]. destruct (slr_spec m _ H S0) as [V Wm].
  pose proof (ten_pos (2 ^ Z.of_nat i) ltac:(apply Z.pow_nonneg; lia)) as T0. pose proof (two_pos _ S0) as P0.
  destruct (div_unbalanced_spec _ _ Wm W2 N) as (q & r & E & D & R & Wq & Wr & _).
  { eapply Z.le_trans; [|exact T]. apply Z.pow_le_mono_r; lia. }
  exists q, r. destruct (shift_slice_right_spec r _ Wr S0) as (Vr & Wr2 & _). pose proof (val_nonneg _ Wr). pose proof (val_nonneg _ Wq).
  rewrite V, Sc in D. rewrite Sc in R. set (T1 := 10 ^ 2 ^ Z.of_nat i) in *. set (s2 := 2 ^ tp_shift t) in *. clearbody T1 s2.
  assert (D2: val r = (val (mm m) - val q * T1) * s2) by lia.
  assert (0 <= val (mm m) - val q * T1 < T1) by nia.
  repeat split; auto.
  - apply Z.div_unique with (val (mm m) - val q * T1); lia.
  - rewrite Vr, D2, Z.div_mul by lia. apply Z.mod_unique with (val q); lia.
Qed.

(** ** Groups of digits *)

Lemma pow2_split j p : 0 <= j <= p -> 2 ^ p = 2 ^ (p - j) * 2 ^ j.
Proof. intros. rewrite <- Z.pow_add_r by lia. f_equal. lia. Qed.

(** groups of the remainder *)
Lemma group_low v p j i : 0 <= v -> 0 <= j <= p -> 0 <= i < 2 ^ (p - j) -> digit_group (v mod 10 ^ 2 ^ p) j i = digit_group v j i.
Proof.
  intros V J I. unfold digit_group. pose proof (two_pos j ltac:(lia)). pose proof (pow2_split j p J) as E.
  set (a := i * 2 ^ j). set (b := 2 ^ j). set (c := 2 ^ p) in *. assert (0 <= a /\ 0 <= b /\ a + b <= c) by (subst a b; nia).
  assert (Ec: 10 ^ c = 10 ^ a * (10 ^ b * 10 ^ (c - a - b))). { rewrite <- !Z.pow_add_r by lia. f_equal. lia. }
  pose proof (ten_pos a ltac:(lia)). pose proof (ten_pos b ltac:(lia)). pose proof (ten_pos (c - a - b) ltac:(lia)).
  rewrite Ec. rewrite Z.rem_mul_r by nia.
  rewrite Z.mul_comm, Z.div_add by lia. rewrite (Z.div_small (v mod 10 ^ a)) by (apply Z.mod_pos_bound; lia). rewrite Z.add_0_l.
  rewrite Z.rem_mul_r by nia. rewrite Z.mul_comm, Z.mod_add by lia. apply Z.mod_mod. lia.
Qed.
(** groups of the quotient *)
Lemma group_high v p j i : 0 <= v -> 0 <= j <= p -> 0 <= i -> digit_group (v / 10 ^ 2 ^ p) j i = digit_group v j (i + 2 ^ (p - j)).
Proof.
  intros V J I. unfold digit_group. pose proof (two_pos j ltac:(lia)). pose proof (two_pos (p - j) ltac:(lia)).
  pose proof (pow2_split j p J) as E. rewrite Z.div_div.
  - rewrite <- Z.pow_add_r by nia. do 3 f_equal. rewrite E. ring.
  - apply Z.pow_nonzero; lia.
  - apply ten_pos. nia.
Qed.
Lemma group_self v p : 0 <= p -> 0 <= v < 10 ^ 2 ^ p -> digit_group v p 0 = v.
Proof. intros P V. unfold digit_group. rewrite Z.mul_0_l. change (10 ^ 0) with 1. rewrite Z.div_1_r. apply Z.mod_small; auto. Qed.
Lemma group_le v j i : 0 <= v -> 0 <= j -> 0 <= i -> 0 <= digit_group v j i <= v.
Proof.
  intros. unfold digit_group. pose proof (two_pos j ltac:(lia)). pose proof (ten_pos (2 ^ j) ltac:(lia)). pose proof (ten_pos (i * 2 ^ j) ltac:(nia)).
  pose proof (Z.mod_pos_bound (v / 10 ^ (i * 2 ^ j)) (10 ^ 2 ^ j) ltac:(lia)).
  pose proof (Z.div_pos v (10 ^ (i * 2 ^ j)) ltac:(lia) ltac:(lia)).
  pose proof (Z.mod_le (v / 10 ^ (i * 2 ^ j)) (10 ^ 2 ^ j) ltac:(lia) ltac:(lia)).
  pose proof (Z.div_le_upper_bound v (10 ^ (i * 2 ^ j)) v ltac:(lia) ltac:(nia)). lia.
Qed.

Definition group_ok (B j : Z) : Prop := B < 2 ^ 64 \/ 10 ^ 2 ^ (j - 1) <= B.
(** [v] of [2^p] digits that are not the leading ones *)
Definition solid (p v : Z) : Prop := forall j i, 6 <= j <= p -> 0 <= i < 2 ^ (p - j) -> group_ok (digit_group v j i) j.

Lemma solid_small p v : 0 <= v < 2 ^ 64 -> solid p v.
Proof. intros V j i J I. left. pose proof (group_le v j i ltac:(lia) ltac:(lia) ltac:(lia)). lia. Qed.

Lemma small_group j : 0 <= j <= 5 -> 10 ^ 2 ^ (j - 1) <= 2 ^ 64.
Proof.
  intros. assert (C: j = 0 \/ j = 1 \/ j = 2 \/ j = 3 \/ j = 4 \/ j = 5) by lia.
  destruct C as [-> | [-> | [-> | [-> | [-> | ->]]]]]; vm_compute; congruence.
Qed.

Lemma solid_split p v : 0 <= p -> 0 <= v < 10 ^ 2 ^ (p + 1) ->
  solid (p + 1) v <-> group_ok v (p + 1) /\ solid p (v / 10 ^ 2 ^ p) /\ solid p (v mod 10 ^ 2 ^ p).
Proof.
  intros P V. pose proof (ten_pos (2 ^ p) ltac:(apply Z.pow_nonneg; lia)). split.
  - intros H1. split; [|split].
    + destruct (Z_le_gt_dec 5 p).
      * specialize (H1 (p + 1) 0 ltac:(lia)). rewrite group_self in H1 by lia. apply H1. rewrite Z.sub_diag. change (2 ^ 0) with 1. lia.
      * unfold group_ok. pose proof (small_group (p + 1)). destruct (Z_lt_ge_dec v (2 ^ 64)); [left; auto|right]. lia.
    + intros j i J I. rewrite group_high by lia. apply H1; [lia|]. replace (p + 1 - j) with (Z.succ (p - j)) by lia.
      rewrite Z.pow_succ_r by lia. lia.
    + intros j i J I. rewrite group_low by lia. apply H1; [lia|]. replace (p + 1 - j) with (Z.succ (p - j)) by lia.
      rewrite Z.pow_succ_r by lia. lia.
  - intros (A & B & C) j i J I. destruct (Z.eq_dec j (p + 1)) as [->|N].
    + rewrite Z.sub_diag in I. change (2 ^ 0) with 1 in I. replace i with 0 by lia. rewrite group_self by lia. exact A.
    + replace (p + 1 - j) with (Z.succ (p - j)) in I by lia. rewrite Z.pow_succ_r in I by lia.
      destruct (Z_lt_ge_dec i (2 ^ (p - j))).
      * rewrite <- (group_low v p) by lia. apply C; lia.
      * replace i with (i - 2 ^ (p - j) + 2 ^ (p - j)) by lia. rewrite <- group_high by lia. apply B; lia.
Qed.

Lemma no_gap_small v : 0 <= v < 2 ^ 64 -> no_gap v.
Proof. intros V j i J I _. left. pose proof (group_le v j i ltac:(lia) ltac:(lia) ltac:(lia)). lia. Qed.

Lemma ten_le_inj a b : 0 <= b -> 10 ^ a <= 10 ^ b -> a <= b.
Proof. intros B H. apply Z.pow_le_mono_r_iff in H; lia. Qed.

Lemma no_gap_split p v : 0 <= p -> 10 ^ 2 ^ p <= v < 10 ^ 2 ^ (p + 1) ->
  no_gap v <-> no_gap (v / 10 ^ 2 ^ p) /\ solid p (v mod 10 ^ 2 ^ p).
Proof.
  intros P V. pose proof (ten_pos (2 ^ p) ltac:(apply Z.pow_nonneg; lia)) as T0. split.
  - intros H1. split.
    + intros j i J I Hq.
      assert (Q: v / 10 ^ 2 ^ p < 10 ^ 2 ^ p). { apply Z.div_lt_upper_bound; [lia|]. rewrite <- Z.pow_add_r by (apply Z.pow_nonneg; lia). replace (2 ^ p + 2 ^ p) with (2 ^ (p + 1)). lia. rewrite Z.pow_add_r by lia. change (2 ^ 1) with 2. lia. }
      pose proof (two_pos j ltac:(lia)). pose proof (two_pos p ltac:(lia)).
      assert (LP: (i + 1) * 2 ^ j < 2 ^ p). { apply (Z.pow_lt_mono_r_iff 10); lia. }
      assert (JP: j <= p). { destruct (Z_le_gt_dec j p); auto. assert (2 ^ p <= 2 ^ j) by (apply Z.pow_le_mono_r; lia). nia. }
      rewrite group_high by lia. apply H1; auto. { pose proof (two_pos (p - j) ltac:(lia)). lia. }
      assert (M: 10 ^ 2 ^ p * 10 ^ ((i + 1) * 2 ^ j) <= v). { pose proof (Z.mul_div_le v (10 ^ 2 ^ p) ltac:(lia)). nia. }
      rewrite <- Z.pow_add_r in M by nia. replace ((i + 2 ^ (p - j) + 1) * 2 ^ j) with (2 ^ p + (i + 1) * 2 ^ j); auto.
      rewrite (pow2_split j p) by lia. ring.
    + intros j i J I. rewrite group_low by lia. apply H1; try lia.
      eapply Z.le_trans; [|apply V]. apply Z.pow_le_mono_r; [lia|]. rewrite (pow2_split j p) by lia. pose proof (two_pos j). nia.
  - intros [A B] j i J I Hv. pose proof (two_pos j ltac:(lia)). pose proof (two_pos p ltac:(lia)).
    assert (LP: (i + 1) * 2 ^ j < 2 ^ (p + 1)). { apply (Z.pow_lt_mono_r_iff 10); [lia|apply Z.pow_nonneg; lia|lia]. }
    assert (JP: j <= p). { destruct (Z_le_gt_dec j p); auto. assert (2 ^ (p + 1) <= 2 ^ j) by (apply Z.pow_le_mono_r; lia). nia. }
    destruct (Z_lt_ge_dec i (2 ^ (p - j))) as [L|L].
    + rewrite <- (group_low v p) by lia. apply B; lia.
    + replace i with (i - 2 ^ (p - j) + 2 ^ (p - j)) in Hv |- * by lia. rewrite <- group_high by lia. apply A; try lia.
      apply Z.div_le_lower_bound; [lia|]. rewrite <- Z.pow_add_r by nia. replace (2 ^ p + (i - 2 ^ (p - j) + 1) * 2 ^ j) with ((i - 2 ^ (p - j) + 2 ^ (p - j) + 1) * 2 ^ j); auto.
      rewrite (pow2_split j p) by lia. ring.
Qed.

(** ** Words to digits *)

Lemma half_pow p : 0 <= p -> 2 ^ (p + 1) / 2 = 2 ^ p.
Proof. intros. rewrite Z.pow_add_r by lia. change (2 ^ 1) with 2. apply Z.div_mul. lia. Qed.

Lemma to_dec_inner tp p : tps_ok tp -> (p < length tp)%nat -> forall m, nat_mant m -> val (mm m) < 10 ^ 2 ^ (Z.of_nat p + 1) ->
  exists ds, m_conv_to_dec p m (2 ^ (Z.of_nat p + 1)) tp false = Ok ds /\ digits_ok 10 ds /\
    ((solid (Z.of_nat p + 1) (val (mm m)) /\ Z.of_nat (length ds) = 2 ^ (Z.of_nat p + 1) /\ dig_val 10 ds = val (mm m)) \/
     (~ solid (Z.of_nat p + 1) (val (mm m)) /\ Z.of_nat (length ds) < 2 ^ (Z.of_nat p + 1))).
Proof.
  intros Htp. induction p as [|p IH]; intros Lp m Hm B.
  - assert (V: val (mm m) < 2 ^ 64). { eapply Z.lt_trans; [exact B|]. vm_compute. reflexivity. }
    cbn [m_conv_to_dec]. rewrite nat_mant_zero by auto. pose proof (mant_bound m Hm) as [MB _]. destruct (Z.eqb_spec (val (mm m)) 0) as [E|E].
    + destruct (dig_zeros (Z.to_nat (2 ^ (Z.of_nat 0 + 1)))). eexists. split; [reflexivity|]. split; auto. left. rewrite repeat_length.
      split; [apply solid_small; lia|]. split; [reflexivity|lia].
    + destruct (nat_mant_word m Hm E) as [W1 W2]. rewrite W1. destruct (Z.ltb_spec (val (mm m)) (2 ^ 64)); [|lia]. rewrite W2 by auto.
      destruct (pad_digits_spec (Z.to_nat (2 ^ (Z.of_nat 0 + 1))) (val (mm m)) []) as (ds & E1 & E2 & E3 & E4).
      { rewrite Z2Nat.id by (apply Z.pow_nonneg; lia). lia. }
      rewrite app_nil_r in E1. eexists. split; [reflexivity|]. rewrite E1. split; auto. left. split; [apply solid_small; lia|]. rewrite E2. split; auto.
  - set (P := Z.of_nat p) in *. replace (Z.of_nat (S p)) with (P + 1) in * by (subst P; lia).
    pose proof (mant_bound m Hm) as [MB _].
    assert (L0: 0 <= 2 ^ (P + 1 + 1)) by (apply Z.pow_nonneg; lia).
    cbn [m_conv_to_dec]. rewrite nat_mant_zero by auto. destruct (Z.eqb_spec (val (mm m)) 0) as [E|E].
    { destruct (dig_zeros (Z.to_nat (2 ^ (P + 1 + 1)))). eexists. split; [reflexivity|]. split; auto. left. rewrite repeat_length, Z2Nat.id by auto.
      split; [apply solid_small; lia|]. split; lia. }
    destruct (nat_mant_word m Hm E) as [W1 W2]. rewrite W1. destruct (Z.ltb_spec (val (mm m)) (2 ^ 64)) as [Hw|Hw].
    { rewrite W2 by auto.
      destruct (pad_digits_spec (Z.to_nat (2 ^ (P + 1 + 1))) (val (mm m)) []) as (ds & E1 & E2 & E3 & E4).
      { rewrite Z2Nat.id by auto. lia. }
      rewrite app_nil_r in E1. eexists. split; [reflexivity|]. rewrite E1. split; auto. left. split; [apply solid_small; lia|]. rewrite E2, Z2Nat.id by auto. split; auto. }
    destruct (nth_error tp (S p)) as [t|] eqn:Et; [|apply nth_error_None in Et; lia].
    destruct (one_division m t (S p) Hm (Htp _ _ Et)) as (q & r & ED & Wq & Wr & Vq & Vr). rewrite ED. cbn [bind].
    replace (Z.of_nat (S p)) with (P + 1) in Vq, Vr by (subst P; lia). rewrite half_pow by lia.
    set (r' := shift_slice_right r (tp_shift t)) in *. clearbody r'.
    pose proof (from_word_buf_ok q Wq) as Mq. pose proof (from_word_buf_ok r' Wr) as Mr.
    set (T := 10 ^ 2 ^ (P + 1)) in *. assert (T0: 0 < T) by (apply ten_pos, Z.pow_nonneg; lia).
    assert (TT: 10 ^ 2 ^ (P + 1 + 1) = T * T). { subst T. rewrite <- Z.pow_add_r by (apply Z.pow_nonneg; lia). f_equal. rewrite (Z.pow_add_r 2 (P + 1) 1) by lia. change (2 ^ 1) with 2. lia. }
    assert (Bq: 0 <= val q < T). { rewrite Vq. split; [apply Z.div_pos; lia|apply Z.div_lt_upper_bound; lia]. }
    assert (Br: 0 <= val r' < T) by (rewrite Vr; apply Z.mod_pos_bound; lia).
    pose proof (solid_split (P + 1) (val (mm m)) ltac:(lia) ltac:(lia)) as SS. fold T in SS. rewrite <- Vq, <- Vr in SS.
    specialize (IH ltac:(lia)).
    destruct (IH _ Mr) as (d1 & E1 & D1 & C1). { apply Br. }
    destruct (IH _ Mq) as (d2 & E2 & D2 & C2). { apply Bq. }
    rewrite (nat_mant_zero _ Mq). cbn [m_from_word_buf mm] in C1, C2 |- *.
    destruct (Z.eqb_spec (val q) 0) as [Q0|Q0].
    + rewrite E1. exists d1. split; auto. split; auto. right.
      assert (HT: val (mm m) < T). { apply Z.div_small_iff in Q0 || idtac. rewrite Vq in Q0. apply Z.div_small_iff in Q0; lia. }
      split.
      * rewrite SS. intros (G & _). unfold group_ok in G. replace (P + 1 + 1 - 1) with (P + 1) in G by lia. fold T in G. lia.
      * assert (Z.of_nat (length d1) <= 2 ^ (P + 1)) by (destruct C1 as [(_ & C & _)|(_ & C)]; lia).
        rewrite (Z.pow_add_r 2 (P + 1) 1) by lia. pose proof (two_pos (P + 1) ltac:(lia)). lia.
    + rewrite E1. cbn [bind]. rewrite E2. cbn [bind]. exists (d2 ++ d1). split; auto. split; [apply Forall_app; auto|].
      assert (HT: T <= val (mm m)). { destruct (Z_lt_ge_dec (val (mm m)) T); [|lia]. exfalso. apply Q0. rewrite Vq. apply Z.div_small. lia. }
      assert (G: group_ok (val (mm m)) (P + 1 + 1)). { right. replace (P + 1 + 1 - 1) with (P + 1) by lia. exact HT. }
      rewrite app_length, Nat2Z.inj_add, dig_app. rewrite (Z.pow_add_r 2 (P + 1) 1) by lia. change (2 ^ 1) with 2.
      destruct C1 as [(S1 & L1 & V1)|(S1 & L1)].
      * destruct C2 as [(S2 & L2 & V2)|(S2 & L2)].
        -- left. split; [apply SS; auto|]. split; [lia|]. rewrite L1, V1, V2. fold T. rewrite Vq, Vr. pose proof (Z.div_mod (val (mm m)) T). lia.
        -- right. split; [intros X; apply SS in X; tauto|lia].
      * right. split; [intros X; apply SS in X; tauto|]. assert (Z.of_nat (length d2) <= 2 ^ (P + 1)) by (destruct C2 as [(_ & C & _)|(_ & C)]; lia). lia.
Qed.

Lemma to_dec_outer tp p : tps_ok tp -> (p < length tp)%nat -> forall m, nat_mant m -> val (mm m) < 10 ^ 2 ^ (Z.of_nat p + 1) ->
  exists ds, m_conv_to_dec p m (2 ^ (Z.of_nat p + 1)) tp true = Ok ds /\ digits_ok 10 ds /\ (val (mm m) = 0 /\ ds = [] \/ hd 0 ds <> 0) /\
    ((no_gap (val (mm m)) /\ dig_val 10 ds = val (mm m)) \/
     (~ no_gap (val (mm m)) /\ 10 ^ Z.of_nat (length ds) <= val (mm m))).
Proof.
  intros Htp.
  assert (Word: forall m p', nat_mant m -> val (mm m) < 2 ^ 64 ->
    exists ds, m_conv_to_dec p' m (2 ^ (Z.of_nat p' + 1)) tp true = Ok ds /\ digits_ok 10 ds /\ (val (mm m) = 0 /\ ds = [] \/ hd 0 ds <> 0) /\
    ((no_gap (val (mm m)) /\ dig_val 10 ds = val (mm m)) \/
     (~ no_gap (val (mm m)) /\ 10 ^ Z.of_nat (length ds) <= val (mm m)))).
  { intros m p' Hm V. pose proof (mant_bound m Hm) as [MB _].
    assert (U: m_conv_to_dec p' m (2 ^ (Z.of_nat p' + 1)) tp true = if m_is_zero m then Ok [] else if mn m <=? 64 then Ok (word_digits 20 (znth 0 (mm m)) [])
      else m_conv_to_dec p' m (2 ^ (Z.of_nat p' + 1)) tp true).
    { destruct p'; cbn [m_conv_to_dec]; destruct (m_is_zero m); auto; destruct (mn m <=? 64); auto. }
    rewrite U, nat_mant_zero by auto. destruct (Z.eqb_spec (val (mm m)) 0) as [E|E].
    - exists []. split; auto. split; [constructor|]. split; auto. left. split; [apply no_gap_small; lia|]. rewrite E. reflexivity.
    - destruct (nat_mant_word m Hm E) as [W1 W2]. rewrite W1. destruct (Z.ltb_spec (val (mm m)) (2 ^ 64)); [|lia]. rewrite W2 by auto.
      destruct (word_digits_spec 20 (val (mm m)) []) as (ds & E1 & E2 & E3 & E4 & E5).
      { split; [lia|]. eapply Z.lt_trans; [exact V|]. vm_compute. reflexivity. }
      rewrite app_nil_r in E1. rewrite E1. exists ds. split; auto. split; auto. split; auto. left. split; auto. apply no_gap_small. lia. }
  induction p as [|p IH]; intros Lp m Hm B.
  - apply Word; auto. eapply Z.lt_trans; [exact B|]. vm_compute. reflexivity.
  - destruct (Z_lt_ge_dec (val (mm m)) (2 ^ 64)) as [Hw|Hw]; [apply Word; auto|].
    set (P := Z.of_nat p) in *. replace (Z.of_nat (S p)) with (P + 1) in * by (subst P; lia).
    pose proof (mant_bound m Hm) as [MB _].
    cbn [m_conv_to_dec]. rewrite nat_mant_zero by auto. destruct (Z.eqb_spec (val (mm m)) 0) as [E|E]; [rewrite E in Hw; change (2 ^ 64) with 18446744073709551616 in Hw; lia|].
    destruct (nat_mant_word m Hm E) as [W1 W2]. rewrite W1. destruct (Z.ltb_spec (val (mm m)) (2 ^ 64)) as [Hw'|Hw']; [lia|]. clear W1 W2 Hw'.
    destruct (nth_error tp (S p)) as [t|] eqn:Et; [|apply nth_error_None in Et; lia].
    destruct (one_division m t (S p) Hm (Htp _ _ Et)) as (q & r & ED & Wq & Wr & Vq & Vr). rewrite ED. cbn [bind].
    replace (Z.of_nat (S p)) with (P + 1) in Vq, Vr by (subst P; lia). rewrite half_pow by lia.
    set (r' := shift_slice_right r (tp_shift t)) in *. clearbody r'.
    pose proof (from_word_buf_ok q Wq) as Mq. pose proof (from_word_buf_ok r' Wr) as Mr.
    set (T := 10 ^ 2 ^ (P + 1)) in *. assert (T0: 0 < T) by (apply ten_pos, Z.pow_nonneg; lia).
    assert (TT: 10 ^ 2 ^ (P + 1 + 1) = T * T). { subst T. rewrite <- Z.pow_add_r by (apply Z.pow_nonneg; lia). f_equal. rewrite (Z.pow_add_r 2 (P + 1) 1) by lia. change (2 ^ 1) with 2. lia. }
    assert (Bq: 0 <= val q < T). { rewrite Vq. split; [apply Z.div_pos; lia|apply Z.div_lt_upper_bound; lia]. }
    assert (Br: 0 <= val r' < T) by (rewrite Vr; apply Z.mod_pos_bound; lia).
    specialize (IH ltac:(lia)).
    rewrite (nat_mant_zero _ Mq). cbn [m_from_word_buf mm].
    destruct (Z.eqb_spec (val q) 0) as [Q0|Q0].
    + destruct (IH _ Mr) as (d1 & E1 & D1 & H1 & C1). { apply Br. }
      rewrite E1. exists d1. assert (Q: val r' = val (mm m)). { rewrite Vq in Q0. apply Z.div_small_iff in Q0; [|lia]. rewrite Vr. apply Z.mod_small. lia. }
      cbn [m_from_word_buf mm] in C1, H1. rewrite Q in C1, H1. auto.
    + destruct (to_dec_inner tp p Htp ltac:(lia) _ Mr) as (d1 & E1 & D1 & C1). { apply Br. }
      destruct (IH _ Mq) as (d2 & E2 & D2 & H2 & C2). { apply Bq. }
      fold P in E1, C1. rewrite E1. cbn [bind]. rewrite E2. cbn [bind]. exists (d2 ++ d1). split; auto. split; [apply Forall_app; auto|].
      cbn [m_from_word_buf mm] in C1, C2.
      assert (HT: T <= val (mm m)). { destruct (Z_lt_ge_dec (val (mm m)) T); [|lia]. exfalso. apply Q0. rewrite Vq. apply Z.div_small. lia. }
      assert (HH: hd 0 d2 <> 0) by (destruct H2 as [[H2 _]|H2]; [exfalso; exact (Q0 H2)|exact H2]).
      assert (N2: d2 <> []) by (intros ->; apply HH; reflexivity).
      split. { right. destruct d2; [congruence|]. exact HH. }
      pose proof (no_gap_split (P + 1) (val (mm m)) ltac:(lia) ltac:(fold T; lia)) as SS. fold T in SS. rewrite <- Vq, <- Vr in SS.
      assert (Dm: val (mm m) = val q * T + val r') by (rewrite Vq, Vr; pose proof (Z.div_mod (val (mm m)) T); lia).
      assert (LE: Z.of_nat (length d1) <= 2 ^ (P + 1)) by (destruct C1 as [(_ & C & _)|(_ & C)]; lia).
      rewrite app_length, Nat2Z.inj_add, dig_app.
      destruct C2 as [(S2 & V2)|(S2 & V2)].
      * destruct C1 as [(S1 & L1 & V1)|(S1 & L1)].
        -- left. split; [apply SS; auto|]. rewrite L1, V1, V2. fold T. lia.
        -- right. split; [intros X; apply SS in X; tauto|].
           pose proof (dig_lead d2 D2 N2 HH) as DL. rewrite V2 in DL.
           apply Z.le_trans with (10 ^ (Z.of_nat (length d2) - 1) * T).
           ++ assert (1 <= Z.of_nat (length d2)) by (destruct d2; [congruence|cbn [length]; lia]).
              subst T. rewrite <- Z.pow_add_r by lia. apply Z.pow_le_mono_r; lia.
           ++ assert (0 < 10 ^ (Z.of_nat (length d2) - 1)) by (apply ten_pos; destruct d2; [congruence|cbn [length]; lia]). nia.
      * right. split; [intros X; apply SS in X; tauto|].
        apply Z.le_trans with (10 ^ Z.of_nat (length d2) * T).
        -- subst T. rewrite <- Z.pow_add_r by lia. apply Z.pow_le_mono_r; lia.
        -- nia.
Qed.

(** ** Digits to words *)

Definition chunks_val (B : Z) (l : list words) : Z := fold_right (fun w acc => val w + B * acc) 0 l.
Definition chunks_ok (B : Z) (l : list words) : Prop := Forall (fun w => words_ok w /\ val w < B) l.

(** the value of digits, the least significant first *)
Lemma dig_rev_cons v ds : dig_val 10 (rev (v :: ds)) = v + 10 * dig_val 10 (rev ds).
Proof. cbn [rev]. rewrite dig_app. unfold dig_val at 2. cbn. change (10 ^ Z.of_nat 1) with 10. lia. Qed.

Lemma one_word w : 0 <= w < 10 ^ 16 -> words_ok [w] /\ val [w] = w.
Proof.
  intros H. split; [|cbn [val]; lia]. constructor; [|constructor]. split; [lia|]. eapply Z.lt_trans; [apply H|]. vm_compute. reflexivity.
Qed.

Lemma dec_chunks_ok : forall ds word i, digits_ok 10 ds -> 0 <= i < 16 -> 0 <= word < 10 ^ i ->
  exists l, dec_chunks ds word (10 ^ i) i = Ok l /\ chunks_ok (10 ^ 16) l /\ chunks_val (10 ^ 16) l = word + 10 ^ i * dig_val 10 (rev ds) /\
    Z.of_nat (length l) = (i + Z.of_nat (length ds) + 15) / 16.
Proof.
  induction ds as [|v ds IH]; intros word i D I W; cbn [dec_chunks].
  - assert (10 ^ i <= 10 ^ 16) by (apply Z.pow_le_mono_r; lia). destruct (one_word word ltac:(lia)) as [A B].
    destruct (Z.ltb_spec 0 i).
    + exists [[word]]. split; auto. split. { constructor; [|constructor]. split; auto. lia. }
      split. { cbn [chunks_val fold_right]. change (dig_val 10 (rev [])) with 0. lia. }
      cbn [length]. dlia.
    + exists []. split; auto. split; [constructor|]. assert (i = 0) by lia. subst i. change (10 ^ 0) with 1 in *.
      split; [cbn; lia|]. cbn. reflexivity.
  - inversion D; subst. destruct (Z.ltb_spec 9 v); [lia|].
    assert (P: 10 ^ i * 10 = 10 ^ (i + 1)) by (rewrite Z.pow_add_r by lia; reflexivity).
    assert (W2: 0 <= word + v * 10 ^ i < 10 ^ (i + 1)) by nia.
    rewrite dig_rev_cons. destruct (Z.eqb_spec (i + 1) 16) as [E|E].
    + rewrite E in *. destruct (IH 0 0 H2 ltac:(lia) ltac:(change (10 ^ 0) with 1; lia)) as (l & E1 & C1 & V1 & L1).
      change (10 ^ 0) with 1 in *. rewrite E1. cbn [bind]. destruct (one_word (word + v * 10 ^ i) W2) as [A B].
      eexists. split; [reflexivity|]. split. { constructor; auto. split; auto. lia. }
      split. { cbn [chunks_val fold_right]. fold (chunks_val (10 ^ 16) l). rewrite V1. rewrite B. lia. }
      cbn [length]. dlia.
    + rewrite P. destruct (IH (word + v * 10 ^ i) (i + 1) H2 ltac:(lia) W2) as (l & E1 & C1 & V1 & L1).
      rewrite E1. exists l. split; auto. split; auto. split; [rewrite V1; lia|]. rewrite L1. cbn [length]. f_equal. lia.
Qed.

(** a digit above 9 is an argument error *)
Lemma dec_chunks_bad : forall ds word t i, Exists (fun d => 9 < d) ds -> dec_chunks ds word t i = Err InvalidArgument.
Proof.
  induction ds as [|v ds IH]; intros word t i H; [inversion H|]. cbn [dec_chunks]. destruct (Z.ltb_spec 9 v); auto.
  inversion H; subst; [lia|]. destruct (i + 1 =? 16); rewrite IH; auto.
Qed.

Lemma join_pair_ok a b T : words_ok a -> words_ok b -> words_ok T -> val a < val T ->
  exists c, join_pair a b T = Ok c /\ words_ok c /\ val c = val a + val T * val b.
Proof.
  intros A B C L. unfold join_pair. destruct (mul_unbalanced_spec b T (zlen b + zlen T) B C ltac:(lia)) as (w & E & V & W & Z1).
  rewrite E. cbn [bind]. set (u := w ++ [0]).
  assert (U: val u = val w /\ words_ok u /\ zlen u = zlen w + 1).
  { subst u. rewrite val_app. cbn [val]. split; [lia|]. split; [apply Forall_app; split; auto; constructor; [lia|constructor]|].
    unfold zlen. rewrite app_length. cbn [length]. lia. }
  destruct U as (U1 & U2 & U3). pose proof (val_bound w W). pose proof (val_bound b B). pose proof (val_bound T C). pose proof (zlen_nonneg b). pose proof (zlen_nonneg T).
  assert (F: val u + val a < 2 ^ (64 * zlen u)).
  { rewrite U1, U3, Z1. assert (val T < 2 ^ (64 * (zlen b + zlen T))) by (eapply Z.lt_le_trans; [apply H1|apply Z.pow_le_mono_r; lia]).
    rewrite Z1 in H. replace (64 * (zlen b + zlen T + 1)) with (64 * (zlen b + zlen T) + 64) by lia. rewrite Z.pow_add_r by lia. change (2 ^ 64) with 18446744073709551616. lia. }
  destruct (add_assign_fit u a U2 A F) as (V2 & W2 & _).
  eexists. split; [reflexivity|]. unfold sws_add_assign, sws_add_sub_assign. cbn [sw sg].
  change (1 * 1) with 1. change (1 <? 0) with false. 
  destruct (trunc_leading_zeroes_spec _ W2) as (V3 & W3 & _).
  cbn. split; auto. rewrite V3, V2, U1, V. lia.
Qed.

Lemma chunks_len_ind (P : list words -> Prop) : P [] -> (forall a, P [a]) -> (forall a b l, P l -> P (a :: b :: l)) -> forall l, P l.
Proof. intros A B C. fix F 1. intros [|a [|b l]]; [exact A|apply B|]. apply C. apply F. Qed.

Lemma join_pairs_ok T : words_ok T -> 0 < val T -> forall l, chunks_ok (val T) l ->
  exists r, join_pairs l T = Ok r /\ chunks_ok (val T * val T) r /\ chunks_val (val T * val T) r = chunks_val (val T) l /\
    Z.of_nat (length r) = (Z.of_nat (length l) + 1) / 2.
Proof.
  intros WT T0 l. induction l as [|a|a b l IH] using chunks_len_ind; intros H; cbn [join_pairs].
  - exists []. split; auto. split; [constructor|]. auto.
  - exists [a]. split; auto. inversion H; subst. destruct H2. split; [constructor; [|constructor]; split; auto; nia|]. split; auto. cbn [chunks_val fold_right]. lia.
  - inversion H; subst. inversion H3; subst. destruct H2 as [Wa La]. destruct H4 as [Wb Lb].
    destruct (join_pair_ok a b T Wa Wb WT La) as (c & E & Wc & Vc). rewrite E. cbn [bind].
    destruct (IH H5) as (r & E2 & C2 & V2 & L2). rewrite E2. cbn [bind]. eexists. split; [reflexivity|].
    pose proof (val_nonneg _ Wb). pose proof (val_nonneg _ Wa).
    split. { constructor; auto. split; auto. rewrite Vc. clear -La Lb T0. assert (val T * (val b + 1) <= val T * val T) by (apply Z.mul_le_mono_nonneg_l; lia). lia. }
    split. { cbn [chunks_val fold_right]. fold (chunks_val (val T * val T) r). fold (chunks_val (val T) l). rewrite V2, Vc. ring. }
    cbn [length]. clear -L2. dlia.
Qed.

Lemma join_loop_ok tp : tps_ok tp -> forall f l p, (length l <= f)%nat -> (0 < length l)%nat ->
  chunks_ok (10 ^ 2 ^ Z.of_nat p) l -> (length l = 1%nat \/ Z.of_nat (length l) <= 2 ^ (Z.of_nat (length tp) - Z.of_nat p)) ->
  exists w, join_loop f l tp p = Ok w /\ words_ok w /\ val w = chunks_val (10 ^ 2 ^ Z.of_nat p) l.
Proof.
  intros Htp. induction f; intros l p F N C B; [destruct l; cbn in *; lia|].
  destruct l as [|a [|b l]]; [cbn in N; lia| |].
  - cbn [join_loop]. exists a. split; auto. inversion C; subst. destruct H1. split; auto. cbn [chunks_val fold_right]. lia.
  - destruct B as [B|B]; [cbn in B; lia|]. set (L := a :: b :: l) in *.
    assert (LL: (2 <= length L)%nat) by (subst L; cbn [length]; lia).
    assert (PL: (p < length tp)%nat).
    { destruct (Nat.lt_ge_cases p (length tp)); auto. exfalso.
      destruct (Z.eq_dec (Z.of_nat (length tp) - Z.of_nat p) 0) as [E|E]; [rewrite E in B; change (2 ^ 0) with 1 in B; lia|].
      rewrite Z.pow_neg_r in B by lia. lia. }
    destruct (nth_error tp p) as [t|] eqn:Et; [|apply nth_error_None in Et; lia].
    replace (join_loop (S f) L tp p) with (do r <- join_pairs L (tp_val t); join_loop f r tp (S p)) by (subst L; cbn [join_loop]; rewrite Et; reflexivity).
    pose proof (Htp _ _ Et) as [W1 _ P1 _ _ _ _].
    assert (T0: 0 < val (tp_val t)) by (rewrite P1; apply ten_pos, Z.pow_nonneg; lia).
    rewrite <- P1 in C. destruct (join_pairs_ok (tp_val t) W1 T0 L C) as (r & E & C2 & V2 & L2). rewrite E. cbn [bind].
    rewrite P1, <- sq_ten in C2. rewrite P1, <- sq_ten in V2.
    destruct (IHf r (S p)) as (w & E3 & W3 & V3); auto.
    + clearbody L. clear -L2 F LL. dlia.
    + clearbody L. clear -L2 LL. dlia.
    + right. replace (Z.of_nat (length tp) - Z.of_nat p) with (Z.succ (Z.of_nat (length tp) - Z.of_nat (S p))) in B by lia.
      rewrite Z.pow_succ_r in B by lia. clearbody L. clear -L2 B. set (X := 2 ^ (Z.of_nat (length tp) - Z.of_nat (S p))) in *. clearbody X. dlia.
    + exists w. split; auto. split; auto. rewrite V3. exact V2.
Qed.

Lemma from_dec_ok tp ds : tps_ok tp -> digits_ok 10 ds -> hd 0 ds <> 0 -> Z.of_nat (length ds) <= 2 ^ Z.of_nat (length tp) ->
  exists m, m_conv_from_dec ds tp = Ok m /\ nat_mant m /\ val (mm m) = dig_val 10 ds.
Proof.
  intros Htp D H L. unfold m_conv_from_dec. destruct ds as [|d ds]; [cbn in H; congruence|]. cbn [hd] in H.
  destruct (Z.eqb_spec d 0); [congruence|]. set (l := d :: ds) in *. assert (N: (0 < length l)%nat) by (subst l; cbn; lia). clearbody l.
  destruct (dec_chunks_ok (rev l) 0 0 ltac:(apply Forall_rev; exact D) ltac:(lia) ltac:(split; reflexivity || lia)) as (c & E & C & V & Lc).
  change (10 ^ 0) with 1 in *. rewrite E. cbn [bind]. rewrite rev_involutive in V. rewrite rev_length in Lc.
  destruct (join_loop_ok tp Htp (length c) c 4) as (w & E2 & W2 & V2); auto.
  - clear -Lc N. dlia.
  - destruct (Z_le_gt_dec (Z.of_nat (length l)) 16); [left; clear -Lc N l0; dlia|right].
    assert (K: 4 < Z.of_nat (length tp)). { destruct (Z_lt_ge_dec 4 (Z.of_nat (length tp))); auto. exfalso. assert (2 ^ Z.of_nat (length tp) <= 2 ^ 4) by (apply Z.pow_le_mono_r; lia). change (2 ^ 4) with 16 in H0. lia. }
    replace (Z.of_nat (length tp)) with (Z.of_nat (length tp) - Z.of_nat 4 + 4) in L by lia. rewrite Z.pow_add_r in L by lia. change (2 ^ 4) with 16 in L.
    set (X := 2 ^ (Z.of_nat (length tp) - Z.of_nat 4)) in *. clearbody X. clear -L Lc. dlia.
  - rewrite E2. cbn [bind]. eexists. split; [reflexivity|]. split; [apply from_word_buf_ok; auto|]. cbn [m_from_word_buf mm]. rewrite V2.
    change (10 ^ 2 ^ Z.of_nat 4) with (10 ^ 16). rewrite V. lia.
Qed.

