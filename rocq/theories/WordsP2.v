(** More facts about the word-slice layer: bit search, buffers, iterators, comparison. *)

From Coq Require Import ZArith List Bool Lia.
From Verif Require Import Words IntModel SpecZ WordsP.
Import ListNotations.
Open Scope Z_scope.
Ltac Zify.zify_post_hook ::= Z.div_mod_to_equations.
Arguments Z.mul : simpl never.
Arguments Z.add : simpl never.
Arguments Z.pow : simpl never.
Arguments Z.sub : simpl never.
Arguments Z.of_nat : simpl never.

Lemma rev_ztake_zdrop n m : 0 <= n <= zlen m -> rev (zdrop n (rev m)) = ztake (zlen m - n) m.
Proof.
  intros. unfold zdrop, ztake, zlen in *. rewrite skipn_rev, rev_involutive. f_equal. lia.
Qed.

Lemma find_one_rest_spec t : words_ok t -> forall shift,
  find_one_rest shift t =
  if val (rev t) =? 0 then None else Some (shift + 64 * zlen t - 1 - Z.log2 (val (rev t))).
Proof.
  induction t as [|d t IH]; intros Hok shift; [reflexivity|].
  apply ok_cons in Hok as [Hd Ht]. specialize (IH Ht). cbn [find_one_rest]. rewrite val_rev_cons.
  pose proof (val_bound _ (ok_rev _ Ht)) as Hb. rewrite zlen_rev in Hb. pose proof (zlen_nonneg t).
  destruct (Z.eqb_spec d 0) as [->|Hne].
  - rewrite Z.mul_0_r, Z.add_0_r, IH. destruct (_ =? 0); auto.
    f_equal. rewrite zlen_cons. lia.
  - pose proof (pow2_gt0 (64 * zlen t) ltac:(lia)).
    rewrite (proj2 (Z.eqb_neq _ _)) by nia. rewrite clz_spec by lia.
    rewrite log2_hi by (auto; try lia). f_equal. rewrite zlen_cons. lia.
Qed.

Lemma mod_split_hi v w n k : 0 <= n -> 0 <= k -> 0 <= v < 2 ^ n ->
  (v + 2 ^ n * w) mod 2 ^ (n + k) = v + 2 ^ n * (w mod 2 ^ k).
Proof.
  intros. rewrite Z.pow_add_r by lia. pose proof (pow2_gt0 n). pose proof (pow2_gt0 k).
  rewrite Z.rem_mul_r by lia.
  rewrite (Z.mul_comm (2^n) w), Z_mod_plus_full, Z_div_plus_full by lia.
  rewrite Z.mod_small, Z.div_small by lia. rewrite Z.add_0_l. auto.
Qed.

Lemma mod_mod_pow x a b : 0 <= a <= b -> (x mod 2 ^ b) mod 2 ^ a = x mod 2 ^ a.
Proof.
  intros. symmetry. replace b with (a + (b - a)) by lia. rewrite Z.pow_add_r by lia.
  rewrite Z.rem_mul_r by (try apply Z.pow_nonzero; try apply pow2_gt0; lia).
  rewrite (Z.mul_comm (2 ^ a)), Z_mod_plus_full. symmetry. apply Z.mod_mod. apply Z.pow_nonzero; lia.
Qed.

Lemma find_one_from_spec m k : words_ok m -> 0 <= k ->
  find_one_from m k =
  let v := val m mod 2 ^ (64 * zlen m - k) in
  if (64 * zlen m <=? k) || (v =? 0) then None else Some (64 * zlen m - 1 - Z.log2 v).
Proof.
  intros Hok Hk. unfold find_one_from. pose proof (zlen_nonneg m) as Hl.
  destruct (zlen m <=? k / 64) eqn:E1.
  { replace (64 * zlen m <=? k) with true by lia. reflexivity. }
  replace (64 * zlen m <=? k) with false by lia. cbn [orb].
  pose proof (rev_ztake_zdrop (k / 64) m ltac:(lia)) as Hrev.
  assert (Hzl : zlen (zdrop (k / 64) (rev m)) = zlen m - k / 64) by (rewrite zlen_zdrop; rewrite zlen_rev; lia).
  assert (Hok' : words_ok (zdrop (k / 64) (rev m))) by auto using ok_zdrop, ok_rev.
  destruct (zdrop (k / 64) (rev m)) as [|v rest]; [rewrite zlen_nil in Hzl; lia|].
  rewrite zlen_cons in Hzl. apply ok_cons in Hok' as [Hv Hrest].
  assert (Hval : val m mod 2 ^ (64 * (zlen m - k / 64)) = val (rev rest) + 2 ^ (64 * zlen rest) * v).
  { rewrite <- val_rev_cons, Hrev, val_ztake by (auto; lia). reflexivity. }
  pose proof (val_bound _ (ok_rev _ Hrest)) as Hb. rewrite zlen_rev in Hb. pose proof (zlen_nonneg rest).
  assert (Hmod : val m mod 2 ^ (64 * zlen m - k) = val (rev rest) + 2 ^ (64 * zlen rest) * (v mod 2 ^ (64 - k mod 64))).
  { rewrite <- mod_split_hi by lia. rewrite <- Hval.
    replace (64 * zlen rest + (64 - k mod 64)) with (64 * zlen m - k) by lia.
    symmetry. apply mod_mod_pow. lia. }
  rewrite Hmod. cbv zeta.
  assert (Hd : wshl v (k mod 64) = 2 ^ (k mod 64) * (v mod 2 ^ (64 - k mod 64))).
  { rewrite wshl_val by lia. replace (2 ^ 64) with (2 ^ (k mod 64) * 2 ^ (64 - k mod 64)) by (rewrite <- Z.pow_add_r by lia; f_equal; lia).
    rewrite (Z.mul_comm v). apply mod_mul_r; apply pow2_gt0; lia. }
  rewrite Hd. set (w := v mod 2 ^ (64 - k mod 64)) in *.
  assert (Hw : 0 <= w < 2 ^ (64 - k mod 64)) by (apply Z.mod_pos_bound, pow2_gt0; lia).
  pose proof (pow2_gt0 (k mod 64) ltac:(lia)). pose proof (pow2_gt0 (64 * zlen rest) ltac:(lia)).
  destruct (Z.eqb_spec w 0) as [E|E].
  - rewrite E, !Z.mul_0_r, Z.add_0_r, Z.eqb_refl. rewrite find_one_rest_spec by auto.
    destruct (_ =? 0); auto. f_equal. lia.
  - assert (Hw0 : 0 < w) by (clear -Hw E; lia).
    assert (H64 : 2 ^ 64 = 2 ^ (k mod 64) * 2 ^ (64 - k mod 64)) by (rewrite <- Z.pow_add_r by lia; f_equal; lia).
    assert (Hpw : 0 < 2 ^ (k mod 64) * w < 2 ^ 64).
    { rewrite H64. clear -Hw Hw0 H0. set (a := 2 ^ (k mod 64)) in *. set (b := 2 ^ (64 - k mod 64)) in *. clearbody a b w. nia. }
    assert (Hpb : 0 < val (rev rest) + 2 ^ (64 * zlen rest) * w).
    { clear -Hb Hw0 H1. set (a := 2 ^ (64 * zlen rest)) in *. clearbody a w. nia. }
    rewrite (proj2 (Z.eqb_neq _ _)) by (clear -Hpw; lia). rewrite (proj2 (Z.eqb_neq _ _)) by (clear -Hpb; lia).
    rewrite clz_spec by (clear -Hpw; lia).
    rewrite log2_hi by lia. rewrite (Z.mul_comm (2 ^ (k mod 64))), Z.log2_mul_pow2 by lia. f_equal. lia.
Qed.

(** ** Zero tests *)
Lemma all_zero_spec m : words_ok m -> all_zero m = (val m =? 0).
Proof.
  induction m as [|a m IH]; intros Hok; [reflexivity|].
  apply ok_cons in Hok as [Ha Hm]. cbn [all_zero forallb]. change (forallb (fun v => v =? 0) m) with (all_zero m). rewrite IH by auto.
  rewrite val_cons. pose proof (val_nonneg m Hm). pose proof (pow2_gt0 64).
  destruct (Z.eqb_spec a 0), (Z.eqb_spec (val m) 0); cbn [andb]; symmetry; rewrite ?Z.eqb_eq, ?Z.eqb_neq; nia.
Qed.

(** ** Trailing and leading zero words *)
Lemma count_zero_words_spec m : words_ok m ->
  let n := count_zero_words m in
  0 <= n <= zlen m /\ exists t, m = zeros n ++ t /\ (t = [] \/ exists a t', t = a :: t' /\ a <> 0).
Proof.
  intros Hok. induction m as [|a m IH].
  - cbn. split; [rewrite zlen_nil; lia|]. exists []; split; auto.
  - apply ok_cons in Hok as [Ha Hm]. destruct (IH Hm) as (Hn & t & Ht & Hd). cbn [count_zero_words].
    rewrite zlen_cons. destruct (Z.eqb_spec a 0) as [->|Hne].
    + split; [lia|]. exists t. split; auto. rewrite zeros_succ by lia. cbn. now rewrite <- Ht.
    + split; [pose proof (zlen_nonneg m); lia|]. exists (a :: m). split; auto. right. eauto.
Qed.

Lemma trunc_trailing_zeroes_spec m : words_ok m ->
  let n := zlen m - zlen (trunc_trailing_zeroes m) in
  0 <= n /\ val m = val (trunc_trailing_zeroes m) * 2 ^ (64 * n) /\ words_ok (trunc_trailing_zeroes m).
Proof.
  intros Hok. unfold trunc_trailing_zeroes.
  destruct (count_zero_words_spec m Hok) as (Hn & t & Ht & _). set (n := count_zero_words m) in *.
  destruct (0 <? n) eqn:E.
  - destruct (shift_slice_right_spec m (n * 64)) as (Hv & Ho & Hl); auto; try lia.
    cbv zeta. rewrite zlen_ztake by lia. split; [lia|]. split; [|now apply ok_ztake].
    rewrite val_ztake by (auto; lia). rewrite Hv.
    replace (64 * (zlen m - (zlen m - n))) with (64 * n) by lia. rewrite (Z.mul_comm n).
    assert (Hvm : val m = 2 ^ (64 * n) * val t) by (rewrite Ht; apply val_zeros_app; lia).
    assert (Hok_t : words_ok t) by (rewrite Ht in Hok; now apply ok_app in Hok).
    assert (Hlt : zlen t = zlen m - n) by (rewrite Ht at 1; rewrite zlen_app, zlen_zeros; lia).
    rewrite Hvm, Z.mul_comm, Z_div_mult by (apply Z.lt_gt, pow2_gt0; lia).
    rewrite Z.mod_small; [ring|]. rewrite <- Hlt. now apply val_bound.
  - cbv zeta. rewrite Z.sub_diag, Z.mul_0_r. change (2^0) with 1. rewrite Z.mul_1_r. split; [lia|auto].
Qed.

(** the low word of the result is nonzero (or nothing is left) *)
Lemma trunc_trailing_zeroes_cons m : words_ok m -> val m <> 0 -> 0 < zlen (trunc_trailing_zeroes m).
Proof.
  intros Hok Hv. destruct (trunc_trailing_zeroes_spec m Hok) as (Hn & Hval & _).
  pose proof (zlen_nonneg (trunc_trailing_zeroes m)).
  destruct (Z.eq_dec (zlen (trunc_trailing_zeroes m)) 0) as [E|]; [|lia].
  apply zlen_0_nil in E. rewrite E, val_nil in Hval. lia.
Qed.

Lemma trunc_trailing_low m : words_ok m -> val m <> 0 -> val (trunc_trailing_zeroes m) mod 2 ^ 64 <> 0.
Proof.
  intros Hok Hv. destruct (trunc_trailing_zeroes_spec m Hok) as (Hn & Hval & Ho). unfold trunc_trailing_zeroes in *.
  destruct (count_zero_words_spec m Hok) as (Hc & t & Ht & Hd). set (n := count_zero_words m) in *.
  assert (Hvm : val m = 2 ^ (64 * n) * val t) by (rewrite Ht; apply val_zeros_app; lia).
  assert (Hok_t : words_ok t) by (rewrite Ht in Hok; now apply ok_app in Hok).
  assert (E : val (if 0 <? n then ztake (zlen m - n) (shift_slice_right m (n * 64)) else m) = val t).
  { destruct (Z.ltb_spec 0 n) as [P|P].
    - rewrite (zlen_ztake (zlen m - n)) in Hval by (destruct (shift_slice_right_spec m (n * 64)) as (_ & _ & Hl); auto; lia).
      replace (zlen m - (zlen m - n)) with n in Hval by lia. rewrite Hvm, Z.mul_comm in Hval. apply Z.mul_reg_r in Hval; [now symmetry|]. pose proof (pow2_gt0 (64 * n)). lia.
    - assert (E0 : n = 0) by lia. rewrite Hvm, E0. change (2 ^ (64 * 0)) with 1. now rewrite Z.mul_1_l. }
  rewrite E. destruct Hd as [-> | (a & t' & -> & Ha)]; [rewrite val_nil, Z.mul_0_r in Hvm; lia|].
  rewrite val_cons, (Z.mul_comm (2 ^ 64)), Z_mod_plus_full. apply ok_cons in Hok_t. rewrite Z.mod_small; [exact Ha|apply Hok_t].
Qed.

Lemma trunc_leading_zeroes_spec m : words_ok m ->
  val (trunc_leading_zeroes m) = val m /\ words_ok (trunc_leading_zeroes m) /\
  zlen (trunc_leading_zeroes m) <= zlen m /\
  (val m <> 0 -> 2 ^ (64 * (zlen (trunc_leading_zeroes m) - 1)) <= val m /\ 0 < zlen (trunc_leading_zeroes m)) /\
  (val m = 0 -> trunc_leading_zeroes m = []).
Proof.
  intros Hok. unfold trunc_leading_zeroes.
  destruct (count_zero_words_spec (rev m) (ok_rev _ Hok)) as (Hn & t & Ht & Hd). set (n := count_zero_words (rev m)) in *.
  rewrite zlen_rev in Hn.
  assert (Hm : m = rev t ++ zeros n) by (rewrite <- (rev_involutive m), Ht, rev_app_distr, rev_zeros; auto).
  assert (Hlm : zlen m = zlen t + n) by (rewrite Hm at 1; rewrite zlen_app, zlen_rev, zlen_zeros; lia).
  assert (Heq : (if 0 <? n then ztake (zlen m - n) m else m) = rev t).
  { destruct (0 <? n) eqn:E.
    - rewrite Hm at 2. apply ztake_app_exact'. rewrite zlen_rev. lia.
    - rewrite Hm. rewrite zeros_0 by lia. apply app_nil_r. }
  rewrite Heq. assert (Hokt : words_ok (rev t)) by (rewrite Hm in Hok; now apply ok_app in Hok).
  assert (Hv : val m = val (rev t)) by (rewrite Hm at 1; apply val_app_zeros).
  split; [auto|]. split; [auto|]. rewrite zlen_rev. split; [lia|]. split.
  - intros Hne. rewrite Hv. destruct Hd as [->|(a & t' & -> & Ha)].
    + rewrite Hv in Hne. now cbn in Hne.
    + rewrite val_rev_cons, zlen_cons. replace (1 + zlen t' - 1) with (zlen t') by lia.
      cbn [rev] in Hokt. apply ok_app in Hokt as [Ht' Ha']. apply ok_cons in Ha' as [Ha' _].
      pose proof (val_nonneg _ Ht'). pose proof (zlen_nonneg t'). pose proof (pow2_gt0 (64 * zlen t') ltac:(lia)). split; [nia|lia].
  - intros H0. destruct Hd as [->|(a & t' & -> & Ha)]; [auto|].
    rewrite Hv, val_rev_cons in H0. cbn [rev] in Hokt. apply ok_app in Hokt as [Ht' Ha']. apply ok_cons in Ha' as [Ha' _].
    pose proof (val_nonneg _ Ht'). pose proof (zlen_nonneg t'). pose proof (pow2_gt0 (64 * zlen t') ltac:(lia)). nia.
Qed.

(** ** Iterators *)
Lemma extended_slice_spec s x : words_ok s -> 0 <= x ->
  val (extended_slice s x) = 2 ^ (64 * x) * val s /\ words_ok (extended_slice s x) /\ zlen (extended_slice s x) = x + zlen s.
Proof.
  intros. unfold extended_slice. rewrite val_zeros_app, zlen_app, zlen_zeros by lia.
  repeat split; auto. apply ok_app; auto using ok_zeros.
Qed.

Lemma pad_spec l n : zlen l <= n -> words_ok l ->
  val (ztake n (l ++ zeros n)) = val l /\ words_ok (ztake n (l ++ zeros n)) /\ zlen (ztake n (l ++ zeros n)) = n.
Proof.
  intros Hl Hok. pose proof (zlen_nonneg l).
  assert (E : ztake n (l ++ zeros n) = l ++ zeros (n - zlen l)).
  { rewrite ztake_app_ge by lia. f_equal. replace n with ((n - zlen l) + zlen l) at 2 by lia.
    rewrite zeros_app by lia. apply ztake_app_exact'. rewrite zlen_zeros; lia. }
  rewrite E. rewrite val_app_zeros, zlen_app, zlen_zeros by lia. repeat split; try lia.
  apply ok_app; auto using ok_zeros.
Qed.

Lemma wshl_low b s V : 0 <= s <= 64 -> b = V mod 2 ^ 64 -> wshl b (64 - s) = 2 ^ (64 - s) * (V mod 2 ^ s).
Proof.
  intros Hs ->. rewrite wshl_val by lia.
  replace (2 ^ 64) with (2 ^ (64 - s) * 2 ^ s) at 2 by (rewrite <- Z.pow_add_r by lia; f_equal; lia).
  pose proof (pow2_gt0 s). pose proof (pow2_gt0 (64 - s)).
  rewrite (Z.mul_comm (_ mod _)), mod_mul_r by lia. f_equal.
  replace (2 ^ 64) with (2 ^ s * 2 ^ (64 - s)) by (rewrite <- Z.pow_add_r by lia; f_equal; lia).
  rewrite Z.rem_mul_r by lia. rewrite Z.mul_comm, Z_mod_plus_full. apply Z.mod_mod. lia.
Qed.

Lemma div_pow_split V a b : 0 <= a -> 0 <= b -> V * 2 ^ a / 2 ^ (a + b) = V / 2 ^ b.
Proof.
  intros. rewrite Z.pow_add_r by lia. rewrite (Z.mul_comm (2^a)). apply Z.div_mul_cancel_r;
  apply Z.pow_nonzero; lia.
Qed.

Lemma right_shifted_spec s shift x n : words_ok s -> 0 <= shift -> 0 <= x -> x + zlen s <= n ->
  val (right_shifted s shift x n) = val s * 2 ^ (64 * x) / 2 ^ shift /\
  words_ok (right_shifted s shift x n) /\ zlen (right_shifted s shift x n) = n.
Proof.
  intros Hok Hsh Hx Hn. unfold right_shifted. pose proof (zlen_nonneg s) as Hl.
  set (idx := shift / 64). set (bits := shift mod 64).
  assert (Hshift : shift = 64 * idx + bits) by (unfold idx, bits; lia).
  assert (Hidx : 0 <= idx) by (unfold idx; lia). assert (Hbits : 0 <= bits < 64) by (unfold bits; lia).
  clearbody idx bits. subst shift.
  assert (Hbody : forall t, words_ok t -> let b := if bits =? 0 then t else shr_go bits t in
     val b = val t / 2 ^ bits /\ words_ok b /\ zlen b = zlen t).
  { intros t Ht. cbv zeta. destruct (Z.eqb_spec bits 0) as [->|].
    - change (2^0) with 1. rewrite Z.div_1_r. auto.
    - apply shr_go_spec; auto; lia. }
  destruct (idx <? x) eqn:E1.
  - rewrite (zdrop_0 s 0) by lia. destruct (Z.eqb_spec (x - idx) 0); [lia|].
    destruct (Hbody s Hok) as (Hv & Ho & Hlen). set (body := if bits =? 0 then s else shr_go bits s) in *.
    set (w := match s with [] => 0 | hi :: _ => if bits =? 0 then 0 else wshl hi (64 - bits) end).
    assert (Hw : w = 2 ^ (64 - bits) * (val s mod 2 ^ bits)).
    { unfold w. destruct s as [|hi s']. { rewrite val_nil, Z.mod_0_l by (apply Z.pow_nonzero; lia). lia. }
      destruct (Z.eqb_spec bits 0) as [->|]; [change (2^0) with 1; rewrite Z.mod_1_r; lia|].
      apply wshl_low; [lia|]. rewrite val_cons, Z.mul_comm, Z_mod_plus_full, Z.mod_small; auto.
      apply ok_cons in Hok; apply Hok. }
    assert (Hwb : 0 <= w < 2 ^ 64).
    { rewrite Hw. pose proof (Z.mod_pos_bound (val s) (2^bits) ltac:(apply pow2_gt0; lia)).
      pose proof (pow2_gt0 (64 - bits) ltac:(lia)).
      replace (2 ^ 64) with (2 ^ (64 - bits) * 2 ^ bits) by (rewrite <- Z.pow_add_r by lia; f_equal; lia). nia. }
    rewrite app_assoc. destruct (pad_spec ((zeros (x - idx - 1) ++ [w]) ++ body) n) as (Pv & Po & Pl).
    + rewrite !zlen_app, zlen_zeros, zlen_single by lia. lia.
    + apply ok_app; split; auto. apply ok_app; split; auto using ok_zeros. apply ok_cons; split; [auto|constructor].
    + split; [|auto]. rewrite Pv. rewrite <- app_assoc, val_zeros_app, val_app, val_single, zlen_single by lia.
      rewrite Hv, Hw. change (64 * 1) with 64.
      pose proof (Z.div_mod (val s) (2 ^ bits) ltac:(apply Z.pow_nonzero; lia)) as Hdm.
      replace (64 * x) with (64 * (x - idx - 1) + (64 - bits) + (64 * idx + bits)) by lia.
      rewrite (Z.pow_add_r 2 (_ + _) (_ + _)) by lia. rewrite Z.mul_assoc, Z_div_mult by (apply Z.lt_gt, pow2_gt0; lia).
      rewrite Z.pow_add_r by lia.
      replace (2 ^ 64) with (2 ^ (64 - bits) * 2 ^ bits) by (rewrite <- Z.pow_add_r by lia; f_equal; lia).
      rewrite Hdm at 3. ring.
  - rewrite Z.eqb_refl. cbn [app].
    destruct (Hbody (zdrop (idx - x) s) (ok_zdrop _ _ Hok)) as (Hv & Ho & Hlen).
    set (body := if bits =? 0 then zdrop (idx - x) s else shr_go bits (zdrop (idx - x) s)) in *.
    rewrite zlen_zdrop_max in Hlen by lia.
    destruct (pad_spec body n) as (Pv & Po & Pl); auto; try lia.
    split; [|auto]. rewrite Pv, Hv.
    replace (64 * idx + bits) with (64 * x + (64 * (idx - x) + bits)) by lia.
    rewrite div_pow_split by lia. rewrite Z.pow_add_r by lia.
    rewrite <- Z.div_div by (try apply Z.pow_nonzero; try apply pow2_gt0; lia). f_equal.
    destruct (Z_le_gt_dec (idx - x) (zlen s)).
    + apply val_zdrop; auto; lia.
    + rewrite zdrop_all by lia. rewrite val_nil. symmetry. apply Z.div_small.
      pose proof (val_bound s Hok). split; [lia|]. eapply Z.lt_le_trans; [apply H|]. apply Z.pow_le_mono_r; lia.
Qed.

(** ** Word addition/subtraction with length mismatch *)
Lemma ok_hd l : words_ok l -> 0 <= hd 0 l < 2 ^ 64.
Proof. destruct l; intros H; cbn; [lia|]. now apply ok_cons in H. Qed.
Lemma ok_tl l : words_ok l -> words_ok (tl l).
Proof. destruct l; intros H; cbn; auto. now apply ok_cons in H. Qed.
Lemma val_hd_tl l : val l = hd 0 l + 2 ^ 64 * val (tl l).
Proof. destruct l; cbn [hd tl]; rewrite ?val_cons, ?val_nil; lia. Qed.
Lemma zlen_tl l : zlen (tl l) = Z.max 0 (zlen l - 1).
Proof. destruct l; cbn [tl]; rewrite ?zlen_cons, ?zlen_nil; [lia|]. pose proof (zlen_nonneg l); lia. Qed.

Lemma add_ext_spec b : forall a c r c', words_ok b -> words_ok a -> zlen a <= zlen b -> 0 <= c <= 1 ->
  add_ext b a c = (r, c') ->
  val r + 2 ^ (64 * zlen b) * c' = val b + val a + c /\ words_ok r /\ zlen r = zlen b /\ 0 <= c' <= 1.
Proof.
  induction b as [|y b IH]; intros a c r c' Hb Ha Hl Hc H; cbn [add_ext] in H.
  - inversion H; subst. rewrite zlen_nil in *. pose proof (zlen_nonneg a).
    assert (a = []) by (apply zlen_0_nil; lia). subst. rewrite val_nil. change (2^(64*0)) with 1. repeat split; auto; lia.
  - apply ok_cons in Hb as [Hy Hb]. rewrite zlen_cons in Hl.
    destruct (add_carry (hd 0 a) y c) as [r0 c1] eqn:E1. destruct (add_ext b (tl a) c1) as [t c2] eqn:E2.
    inversion H; subst. apply add_carry_spec in E1; auto using ok_hd. destruct E1 as (A1 & A2 & A3).
    apply IH in E2; auto using ok_tl; [|pose proof (zlen_nonneg b); rewrite zlen_tl; lia]. destruct E2 as (B1 & B2 & B3 & B4).
    rewrite !val_cons, !zlen_cons, pow64_succ by apply zlen_nonneg. rewrite (val_hd_tl a).
    repeat split; try (apply ok_cons; auto); try lia.
Qed.

Lemma sub_ext_spec b : forall a c r c', words_ok b -> words_ok a -> zlen a <= zlen b -> 0 <= c <= 1 ->
  sub_ext b a c = (r, c') ->
  val r - 2 ^ (64 * zlen b) * c' = val b - val a - c /\ words_ok r /\ zlen r = zlen b /\ 0 <= c' <= 1.
Proof.
  induction b as [|y b IH]; intros a c r c' Hb Ha Hl Hc H; cbn [sub_ext] in H.
  - inversion H; subst. rewrite zlen_nil in *. pose proof (zlen_nonneg a).
    assert (a = []) by (apply zlen_0_nil; lia). subst. rewrite val_nil. change (2^(64*0)) with 1. repeat split; auto; lia.
  - apply ok_cons in Hb as [Hy Hb]. rewrite zlen_cons in Hl.
    destruct (sub_borrow y (hd 0 a) c) as [r0 c1] eqn:E1. destruct (sub_ext b (tl a) c1) as [t c2] eqn:E2.
    inversion H; subst. apply sub_borrow_spec in E1; auto using ok_hd. destruct E1 as (A1 & A2 & A3).
    apply IH in E2; auto using ok_tl; [|pose proof (zlen_nonneg b); rewrite zlen_tl; lia]. destruct E2 as (B1 & B2 & B3 & B4).
    rewrite !val_cons, !zlen_cons, pow64_succ by apply zlen_nonneg. rewrite (val_hd_tl a).
    repeat split; try (apply ok_cons; auto); try lia.
Qed.

(** ** Splitting a slice at an index *)
Lemma zsplit i m : 0 <= i < zlen m -> exists L v H, m = L ++ v :: H /\ zlen L = i.
Proof.
  intros Hi. exists (ztake i m). pose proof (ztake_zdrop i m) as E.
  assert (zlen (zdrop i m) = zlen m - i) by (apply zlen_zdrop; lia).
  destruct (zdrop i m) as [|v H']; [rewrite zlen_nil in H; lia|].
  exists v, H'. split; auto. apply zlen_ztake; lia.
Qed.
Lemma upd_app L v H x : upd (length L) x (L ++ v :: H) = L ++ x :: H.
Proof. induction L; cbn; congruence. Qed.
Lemma zupd_split i L v H x : zlen L = i -> zupd i x (L ++ v :: H) = L ++ x :: H.
Proof. intros <-. unfold zupd, zlen. rewrite Nat2Z.id. apply upd_app. Qed.
Lemma znth_split i L v H : zlen L = i -> znth i (L ++ v :: H) = v.
Proof. intros <-. unfold znth, zlen. rewrite Nat2Z.id, app_nth2, Nat.sub_diag; auto. Qed.
Lemma ztake_split i L v H : zlen L = i -> ztake i (L ++ v :: H) = L.
Proof. apply ztake_app_exact'. Qed.
Lemma ztake_split1 i L v H : zlen L = i -> ztake (i + 1) (L ++ v :: H) = L ++ [v].
Proof.
  intros. change (v :: H) with ([v] ++ H). rewrite app_assoc. apply ztake_app_exact'. rewrite zlen_app, zlen_single. lia.
Qed.
Lemma zdrop_split1 i L v H : zlen L = i -> zdrop (i + 1) (L ++ v :: H) = H.
Proof.
  intros. change (v :: H) with ([v] ++ H). rewrite app_assoc. apply zdrop_app_exact'. rewrite zlen_app, zlen_single. lia.
Qed.
