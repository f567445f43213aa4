(** Lemmas on the word-slice layer (Words.v): every operation as integer arithmetic. *)

From Coq Require Import ZArith List Bool Lia ZifyBool.
From Verif Require Import Words SpecZ.
Import ListNotations.
Open Scope Z_scope.

Ltac Zify.zify_post_hook ::= Z.div_mod_to_equations.

Arguments Z.mul : simpl never.
Arguments Z.add : simpl never.
Arguments Z.pow : simpl never.
Arguments Z.sub : simpl never.
Arguments Z.of_nat : simpl never.

Lemma B_eq : WORD_BASE = 2 ^ 64. Proof. reflexivity. Qed.

Lemma pow2_pos n : 0 < 2 ^ n \/ n < 0.
Proof. destruct (Z_lt_le_dec n 0); [now right|left; apply Z.pow_pos_nonneg; lia]. Qed.
Lemma pow2_gt0 n : 0 <= n -> 0 < 2 ^ n.
Proof. intros; apply Z.pow_pos_nonneg; lia. Qed.
Lemma pow2_nonneg n : 0 <= 2 ^ n.
Proof. apply Z.pow_nonneg; lia. Qed.
Lemma pow2_split a b : 0 <= a -> 0 <= b -> 2 ^ (a + b) = 2 ^ a * 2 ^ b.
Proof. intros; apply Z.pow_add_r; lia. Qed.

(** ** Lengths *)
Lemma zlen_nil : zlen [] = 0. Proof. reflexivity. Qed.
Lemma zlen_cons a l : zlen (a :: l) = 1 + zlen l.
Proof. unfold zlen; cbn [length]; lia. Qed.
Lemma zlen_nonneg l : 0 <= zlen l. Proof. unfold zlen; lia. Qed.
Lemma zlen_app a b : zlen (a ++ b) = zlen a + zlen b.
Proof. unfold zlen; rewrite app_length; lia. Qed.
Lemma zlen_rev a : zlen (rev a) = zlen a.
Proof. unfold zlen; rewrite rev_length; lia. Qed.
Lemma zlen_zeros n : 0 <= n -> zlen (zeros n) = n.
Proof. intros; unfold zlen, zeros; rewrite repeat_length; lia. Qed.
Lemma zlen_ztake n l : 0 <= n <= zlen l -> zlen (ztake n l) = n.
Proof. unfold zlen, ztake; intros; rewrite firstn_length; lia. Qed.
Lemma zlen_ztake_min n l : 0 <= n -> zlen (ztake n l) = Z.min n (zlen l).
Proof. unfold zlen, ztake; intros; rewrite firstn_length; lia. Qed.
Lemma zlen_zdrop n l : 0 <= n <= zlen l -> zlen (zdrop n l) = zlen l - n.
Proof. unfold zlen, zdrop; intros; rewrite skipn_length; lia. Qed.
Lemma zlen_zdrop_max n l : 0 <= n -> zlen (zdrop n l) = Z.max 0 (zlen l - n).
Proof. unfold zlen, zdrop; intros; rewrite skipn_length; lia. Qed.
Lemma zlen_upd i v l : length (upd i v l) = length l.
Proof. revert i; induction l; destruct i; cbn; congruence. Qed.
Lemma zlen_zupd i v l : zlen (zupd i v l) = zlen l.
Proof. unfold zlen, zupd; now rewrite zlen_upd. Qed.
Lemma zlen_0_nil l : zlen l = 0 -> l = [].
Proof. destruct l; auto. rewrite zlen_cons; pose proof (zlen_nonneg l); lia. Qed.
Lemma ztake_zdrop n l : ztake n l ++ zdrop n l = l.
Proof. apply firstn_skipn. Qed.
Lemma ztake_all n l : zlen l <= n -> ztake n l = l.
Proof. unfold ztake, zlen; intros; apply firstn_all2; lia. Qed.
Lemma zdrop_all n l : zlen l <= n -> zdrop n l = [].
Proof. unfold zdrop, zlen; intros; apply skipn_all2; lia. Qed.
Lemma zdrop_0 l n : n <= 0 -> zdrop n l = l.
Proof. unfold zdrop; intros; replace (Z.to_nat n) with O by lia; reflexivity. Qed.
Lemma ztake_0 l n : n <= 0 -> ztake n l = [].
Proof. unfold ztake; intros; replace (Z.to_nat n) with O by lia; reflexivity. Qed.
Lemma zeros_0 n : n <= 0 -> zeros n = [].
Proof. unfold zeros; intros; replace (Z.to_nat n) with O by lia; reflexivity. Qed.
Lemma zeros_app a b : 0 <= a -> 0 <= b -> zeros (a + b) = zeros a ++ zeros b.
Proof. intros; unfold zeros. rewrite Z2Nat.inj_add by lia. apply repeat_app. Qed.
Lemma zeros_succ n : 0 <= n -> zeros (1 + n) = 0 :: zeros n.
Proof. intros; unfold zeros. replace (Z.to_nat (1+n)) with (S (Z.to_nat n)) by lia. reflexivity. Qed.
Lemma rev_zeros n : rev (zeros n) = zeros n.
Proof.
  unfold zeros. induction (Z.to_nat n) as [|k IH]; cbn; auto.
  rewrite IH. clear. induction k; cbn; congruence.
Qed.
Lemma ztake_app_exact a b : ztake (zlen a) (a ++ b) = a.
Proof. unfold ztake, zlen. rewrite Nat2Z.id, firstn_app, firstn_all, Nat.sub_diag; cbn. apply app_nil_r. Qed.
Lemma zdrop_app_exact a b : zdrop (zlen a) (a ++ b) = b.
Proof. unfold zdrop, zlen. rewrite Nat2Z.id, skipn_app, skipn_all, Nat.sub_diag; reflexivity. Qed.
Lemma ztake_app_exact' n a b : zlen a = n -> ztake n (a ++ b) = a.
Proof. intros <-; apply ztake_app_exact. Qed.
Lemma zdrop_app_exact' n a b : zlen a = n -> zdrop n (a ++ b) = b.
Proof. intros <-; apply zdrop_app_exact. Qed.
Lemma ztake_app_le n a b : n <= zlen a -> ztake n (a ++ b) = ztake n a.
Proof.
  intros; unfold ztake, zlen in *. rewrite firstn_app.
  replace (Z.to_nat n - length a)%nat with O by lia. cbn. apply app_nil_r.
Qed.
Lemma zdrop_app_le n a b : n <= zlen a -> zdrop n (a ++ b) = zdrop n a ++ b.
Proof.
  intros; unfold zdrop, zlen in *. rewrite skipn_app.
  replace (Z.to_nat n - length a)%nat with O by lia. reflexivity.
Qed.
Lemma ztake_app_ge n a b : zlen a <= n -> ztake n (a ++ b) = a ++ ztake (n - zlen a) b.
Proof.
  intros; unfold ztake, zlen in *. rewrite firstn_app, firstn_all2 by lia.
  f_equal. f_equal. lia.
Qed.
Lemma zdrop_app_ge n a b : zlen a <= n -> zdrop n (a ++ b) = zdrop (n - zlen a) b.
Proof.
  intros; unfold zdrop, zlen in *. rewrite skipn_app, skipn_all2 by lia. cbn.
  f_equal. lia.
Qed.
Lemma zdrop_zdrop a b l : 0 <= a -> 0 <= b -> zdrop a (zdrop b l) = zdrop (a + b) l.
Proof.
  intros; unfold zdrop. rewrite Z2Nat.inj_add by lia.
  revert l; induction (Z.to_nat b); intros l; cbn.
  - now rewrite Nat.add_0_r.
  - rewrite Nat.add_succ_r. destruct l; cbn; auto. destruct (Z.to_nat a); reflexivity.
Qed.
Lemma ztake_ztake a b l : ztake a (ztake b l) = ztake (Z.min a b) l.
Proof. unfold ztake. rewrite firstn_firstn. f_equal. lia. Qed.

(** ** words_ok *)
Lemma ok_nil : words_ok []. Proof. constructor. Qed.
Lemma ok_cons a l : words_ok (a :: l) <-> 0 <= a < 2 ^ 64 /\ words_ok l.
Proof. split; [intros H; inversion H; auto | intros []; constructor; auto]. Qed.
Lemma ok_app a b : words_ok (a ++ b) <-> words_ok a /\ words_ok b.
Proof. unfold words_ok; apply Forall_app. Qed.
Lemma ok_zeros n : words_ok (zeros n).
Proof. unfold zeros. induction (Z.to_nat n); cbn; constructor; auto. lia. Qed.
Lemma ok_rev l : words_ok l -> words_ok (rev l).
Proof. apply Forall_rev. Qed.
Lemma ok_ztake n l : words_ok l -> words_ok (ztake n l).
Proof. intros H; rewrite <- (ztake_zdrop n l) in H. now apply ok_app in H. Qed.
Lemma ok_zdrop n l : words_ok l -> words_ok (zdrop n l).
Proof. intros H; rewrite <- (ztake_zdrop n l) in H. now apply ok_app in H. Qed.
Lemma ok_upd i v l : 0 <= v < 2 ^ 64 -> words_ok l -> words_ok (upd i v l).
Proof. intros Hv; revert i; induction l; destruct i; cbn; auto; rewrite !ok_cons; intros []; auto. Qed.
Lemma ok_zupd i v l : 0 <= v < 2 ^ 64 -> words_ok l -> words_ok (zupd i v l).
Proof. intros; now apply ok_upd. Qed.
Lemma ok_nth l : words_ok l -> forall i, 0 <= nth i l 0 < 2 ^ 64.
Proof.
  induction l; intros H i; [destruct i; cbn; lia|].
  apply ok_cons in H as [? ?]. destruct i; cbn; auto.
Qed.
Lemma ok_znth l i : words_ok l -> 0 <= znth i l < 2 ^ 64.
Proof. intros; now apply ok_nth. Qed.

(** ** val *)
Lemma pow64_succ n : 0 <= n -> 2 ^ (64 * (1 + n)) = 2 ^ 64 * 2 ^ (64 * n).
Proof. intros. rewrite <- Z.pow_add_r by lia. f_equal; lia. Qed.
Lemma pow64_add a b : 0 <= a -> 0 <= b -> 2 ^ (64 * (a + b)) = 2 ^ (64 * a) * 2 ^ (64 * b).
Proof. intros. rewrite <- Z.pow_add_r by lia. f_equal; lia. Qed.
Lemma val_cons a t : val (a :: t) = a + 2 ^ 64 * val t. Proof. reflexivity. Qed.
Lemma val_nil : val [] = 0. Proof. reflexivity. Qed.
Lemma val_app a b : val (a ++ b) = val a + 2 ^ (64 * zlen a) * val b.
Proof.
  induction a as [|x a IH].
  - cbn [app]. rewrite zlen_nil, val_nil. change (2 ^ (64 * 0)) with 1. lia.
  - cbn [app]. rewrite !val_cons, IH, zlen_cons, pow64_succ by apply zlen_nonneg. ring.
Qed.
Lemma val_zeros n : val (zeros n) = 0.
Proof. unfold zeros; induction (Z.to_nat n) as [|k IH]; cbn [repeat]; [reflexivity|]. rewrite val_cons, IH; lia. Qed.
Lemma val_bound m : words_ok m -> 0 <= val m < 2 ^ (64 * zlen m).
Proof.
  induction m as [|a m IH]; intros H.
  - rewrite val_nil, zlen_nil. change (2^(64*0)) with 1. lia.
  - apply ok_cons in H as [Ha Hm]. specialize (IH Hm).
    rewrite val_cons, zlen_cons, pow64_succ by apply zlen_nonneg. nia.
Qed.
Lemma val_nonneg m : words_ok m -> 0 <= val m.
Proof. intros; now apply val_bound. Qed.
Lemma val_take_drop n m : 0 <= n <= zlen m ->
  val m = val (ztake n m) + 2 ^ (64 * n) * val (zdrop n m).
Proof. intros. rewrite <- (ztake_zdrop n m) at 1. rewrite val_app, zlen_ztake; auto. Qed.
Lemma val_ztake n m : words_ok m -> 0 <= n <= zlen m -> val (ztake n m) = val m mod 2 ^ (64 * n).
Proof.
  intros Hok Hn. rewrite (val_take_drop n m Hn).
  pose proof (val_bound _ (ok_ztake n _ Hok)) as Hb. rewrite zlen_ztake in Hb by lia.
  rewrite Z.mul_comm, Z_mod_plus_full, Z.mod_small; lia.
Qed.
Lemma val_zdrop n m : words_ok m -> 0 <= n <= zlen m -> val (zdrop n m) = val m / 2 ^ (64 * n).
Proof.
  intros Hok Hn. rewrite (val_take_drop n m Hn).
  pose proof (val_bound _ (ok_ztake n _ Hok)) as Hb. rewrite zlen_ztake in Hb by lia.
  rewrite Z.mul_comm, Z_div_plus_full, Z.div_small; lia.
Qed.
Lemma val_inj a b : words_ok a -> words_ok b -> zlen a = zlen b -> val a = val b -> a = b.
Proof.
  revert b; induction a as [|x a IH]; intros [|y b] Ha Hb Hl Hv; auto.
  - rewrite zlen_cons, zlen_nil in Hl. pose proof (zlen_nonneg b); lia.
  - rewrite zlen_cons, zlen_nil in Hl. pose proof (zlen_nonneg a); lia.
  - apply ok_cons in Ha as [? ?], Hb as [? ?]. rewrite !zlen_cons in Hl. rewrite !val_cons in Hv.
    assert (x = y /\ val a = val b) as [-> ?] by lia. f_equal. apply IH; auto; lia.
Qed.
Lemma val_single a : val [a] = a. Proof. rewrite val_cons, val_nil; lia. Qed.
Lemma zlen_single a : zlen [a] = 1. Proof. reflexivity. Qed.
Lemma val_zeros_app n m : 0 <= n -> val (zeros n ++ m) = 2 ^ (64 * n) * val m.
Proof. intros. rewrite val_app, val_zeros, zlen_zeros; lia. Qed.
Lemma val_app_zeros n m : val (m ++ zeros n) = val m.
Proof. rewrite val_app, val_zeros; lia. Qed.
Lemma val_0_iff m : words_ok m -> (val m = 0 <-> Forall (fun v => v = 0) m).
Proof.
  induction m as [|a m IH]; intros H.
  - split; constructor.
  - apply ok_cons in H as [? ?]. rewrite val_cons. pose proof (val_nonneg m ltac:(auto)). split.
    + intros. constructor; [lia|]. apply IH; auto; lia.
    + intros Hf; inversion Hf; subst. apply IH in H5; auto. lia.
Qed.
Lemma val_0_zeros m : words_ok m -> val m = 0 -> m = zeros (zlen m).
Proof.
  intros. apply val_inj; auto using ok_zeros.
  - rewrite zlen_zeros; auto using zlen_nonneg.
  - now rewrite val_zeros.
Qed.

(** znth *)
Lemma nth_val m : words_ok m -> forall i, (i < length m)%nat -> nth i m 0 = (val m / 2 ^ (64 * Z.of_nat i)) mod 2 ^ 64.
Proof.
  induction m as [|a m IH]; intros Hok i Hi; cbn [length] in Hi; [lia|].
  apply ok_cons in Hok as [Ha Hm]. rewrite val_cons. destruct i as [|i]; cbn [nth].
  - change (2 ^ (64 * Z.of_nat 0)) with 1. lia.
  - rewrite IH by (auto; lia).
    replace (64 * Z.of_nat (S i)) with (64 * (1 + Z.of_nat i)) by lia.
    rewrite pow64_succ by lia.
    pose proof (pow2_gt0 (64 * Z.of_nat i) ltac:(lia)).
    rewrite <- Z.div_div by lia. do 2 f_equal. lia.
Qed.
Lemma znth_val m i : words_ok m -> 0 <= i < zlen m -> znth i m = (val m / 2 ^ (64 * i)) mod 2 ^ 64.
Proof. intros; unfold znth. rewrite nth_val; unfold zlen in *; auto; try lia. do 3 f_equal; lia. Qed.
Lemma znth_top m : words_ok m -> 0 < zlen m -> znth (zlen m - 1) m = val m / 2 ^ (64 * (zlen m - 1)).
Proof.
  intros. rewrite znth_val by (auto; lia). apply Z.mod_small.
  pose proof (val_bound m ltac:(auto)). pose proof (pow2_gt0 (64*(zlen m-1)) ltac:(lia)).
  split; [apply Z.div_pos; lia|]. apply Z.div_lt_upper_bound; auto.
  rewrite <- Z.pow_add_r by lia. replace (64 * (zlen m - 1) + 64) with (64 * zlen m) by lia. lia.
Qed.

Lemma upd_val i v m : (i < length m)%nat -> val (upd i v m) = val m + 2 ^ (64 * Z.of_nat i) * (v - nth i m 0).
Proof.
  revert i; induction m as [|a m IH]; intros [|i] Hi; cbn [length] in Hi; try lia; cbn [upd nth]; rewrite !val_cons.
  - change (2 ^ (64 * Z.of_nat 0)) with 1; lia.
  - rewrite IH by lia. replace (64 * Z.of_nat (S i)) with (64 * (1 + Z.of_nat i)) by lia.
    rewrite pow64_succ by lia. ring.
Qed.
Lemma zupd_val i v m : 0 <= i < zlen m -> val (zupd i v m) = val m + 2 ^ (64 * i) * (v - znth i m).
Proof. intros; unfold zupd, znth, zlen in *. rewrite upd_val by lia. rewrite Z2Nat.id; lia. Qed.

(** ** add / sub *)
Lemma add_carry_spec a b c r c' : 0 <= a < 2^64 -> 0 <= b < 2^64 -> 0 <= c <= 1 ->
  add_carry a b c = (r, c') -> r + 2^64 * c' = a + b + c /\ 0 <= r < 2^64 /\ 0 <= c' <= 1.
Proof. unfold add_carry; intros. destruct (_ <=? _) eqn:E; injection H2 as <- <-; lia. Qed.
Lemma sub_borrow_spec a b c r c' : 0 <= a < 2^64 -> 0 <= b < 2^64 -> 0 <= c <= 1 ->
  sub_borrow a b c = (r, c') -> r - 2^64 * c' = a - b - c /\ 0 <= r < 2^64 /\ 0 <= c' <= 1.
Proof. unfold sub_borrow; intros. destruct (_ <? _) eqn:E; injection H2 as <- <-; lia. Qed.

Lemma add_words_spec a : forall b c r c', words_ok a -> words_ok b -> length a = length b -> 0 <= c <= 1 ->
  add_words a b c = (r, c') ->
  val r + 2^(64 * zlen a) * c' = val a + val b + c /\ words_ok r /\ zlen r = zlen a /\ 0 <= c' <= 1.
Proof.
  induction a as [|x a IH]; intros [|y b] c r c' Ha Hb Hl Hc E; cbn [length] in Hl; try lia; cbn [add_words] in E.
  - injection E as <- <-. rewrite val_nil, zlen_nil. change (2^(64*0)) with 1. repeat split; try lia. constructor.
  - apply ok_cons in Ha as [? ?], Hb as [? ?].
    destruct (add_carry x y c) as [r1 c1] eqn:E1. destruct (add_words a b c1) as [t c2] eqn:E2.
    injection E as <- <-. apply add_carry_spec in E1 as (? & ? & ?); auto.
    apply IH in E2 as (? & ? & ? & ?); auto; try lia.
    rewrite !val_cons, !zlen_cons, pow64_succ by apply zlen_nonneg.
    repeat split; try lia; try nia. now apply ok_cons.
Qed.
Lemma sub_words_spec a : forall b c r c', words_ok a -> words_ok b -> length a = length b -> 0 <= c <= 1 ->
  sub_words a b c = (r, c') ->
  val r - 2^(64 * zlen a) * c' = val a - val b - c /\ words_ok r /\ zlen r = zlen a /\ 0 <= c' <= 1.
Proof.
  induction a as [|x a IH]; intros [|y b] c r c' Ha Hb Hl Hc E; cbn [length] in Hl; try lia; cbn [sub_words] in E.
  - injection E as <- <-. rewrite val_nil, zlen_nil. change (2^(64*0)) with 1. repeat split; try lia. constructor.
  - apply ok_cons in Ha as [? ?], Hb as [? ?].
    destruct (sub_borrow x y c) as [r1 c1] eqn:E1. destruct (sub_words a b c1) as [t c2] eqn:E2.
    injection E as <- <-. apply sub_borrow_spec in E1 as (? & ? & ?); auto.
    apply IH in E2 as (? & ? & ? & ?); auto; try lia.
    rewrite !val_cons, !zlen_cons, pow64_succ by apply zlen_nonneg.
    repeat split; try lia; try nia. now apply ok_cons.
Qed.

(** ** Bit operations on words *)
Lemma wshl_val a s : 0 <= s -> wshl a s = (a * 2 ^ s) mod 2 ^ 64.
Proof. intros; unfold wshl. rewrite Z.shiftl_mul_pow2; auto. Qed.
Lemma wshr_val a s : 0 <= s -> wshr a s = a / 2 ^ s.
Proof. intros; unfold wshr. now rewrite Z.shiftr_div_pow2. Qed.
Lemma wshl_bound a s : 0 <= wshl a s < 2 ^ 64.
Proof. unfold wshl. apply Z.mod_pos_bound; lia. Qed.
Lemma wshr_bound a s : 0 <= s -> 0 <= a < 2 ^ 64 -> 0 <= wshr a s < 2 ^ (64 - s) \/ 64 < s.
Proof.
  intros. destruct (Z_le_gt_dec s 64); [left|now right; lia]. rewrite wshr_val by auto.
  pose proof (pow2_gt0 s H). split; [apply Z.div_pos; lia|]. apply Z.div_lt_upper_bound; auto.
  rewrite <- Z.pow_add_r by lia. now replace (s + (64 - s)) with 64 by lia.
Qed.

(** Splitting of a word at bit [s]. *)
Lemma lor_disjoint_add a b k : 0 <= k -> a mod 2 ^ k = 0 -> 0 <= b < 2 ^ k -> Z.lor a b = a + b.
Proof.
  intros Hk Ha Hb. rewrite <- Z.lxor_lor, <- Z.add_nocarry_lxor; auto.
  - apply Z.bits_inj'; intros n Hn. rewrite Z.land_spec, Z.bits_0.
    destruct (Z_lt_le_dec n k).
    + replace (Z.testbit a n) with false; auto.
      rewrite <- (Z.mod_pow2_bits_low a k n) by lia. rewrite Ha. now rewrite Z.bits_0.
    + replace (Z.testbit b n) with false; [now rewrite andb_false_r|].
      destruct (Z.eq_dec b 0) as [->|]; [now rewrite Z.bits_0|].
      symmetry; apply Z.bits_above_log2; try lia.
      assert (Z.log2 b < k) by (apply Z.log2_lt_pow2; lia). lia.
  - apply Z.bits_inj'; intros n Hn. rewrite Z.land_spec, Z.bits_0.
    destruct (Z_lt_le_dec n k).
    + replace (Z.testbit a n) with false; auto.
      rewrite <- (Z.mod_pow2_bits_low a k n) by lia. rewrite Ha. now rewrite Z.bits_0.
    + replace (Z.testbit b n) with false; [now rewrite andb_false_r|].
      destruct (Z.eq_dec b 0) as [->|]; [now rewrite Z.bits_0|].
      symmetry; apply Z.bits_above_log2; try lia.
      assert (Z.log2 b < k) by (apply Z.log2_lt_pow2; lia). lia.
Qed.

Lemma wshl_lor a b s : 0 < s < 64 -> 0 <= b < 2 ^ 64 ->
  Z.lor (wshl a s) (wshr b (64 - s)) = wshl a s + wshr b (64 - s).
Proof.
  intros Hs Hb. apply (lor_disjoint_add _ _ s); try lia.
  - rewrite wshl_val by lia. replace (2^64) with (2^(64-s) * 2^s).
    + rewrite Z.mul_mod_distr_r by (pose proof (pow2_gt0 s); pose proof (pow2_gt0 (64-s)); lia).
      apply Z_mod_mult.
    + rewrite <- Z.pow_add_r by lia. f_equal; lia.
  - destruct (wshr_bound b (64 - s)); try lia. now replace (64 - (64 - s)) with s in H by lia.
Qed.

(** ** Shifts *)
Lemma wshl_split a s : 0 <= s <= 64 -> 0 <= a < 2 ^ 64 -> a * 2 ^ s = 2 ^ 64 * wshr a (64 - s) + wshl a s.
Proof.
  intros. rewrite wshl_val, wshr_val by lia.
  replace (a / 2 ^ (64 - s)) with (a * 2 ^ s / 2 ^ 64).
  - apply Z.div_mod; lia.
  - replace (2 ^ 64) with (2 ^ (64 - s) * 2 ^ s) by (rewrite <- Z.pow_add_r by lia; f_equal; lia).
    rewrite Z.div_mul_cancel_r; auto; pose proof (pow2_gt0 s); pose proof (pow2_gt0 (64-s)); lia.
Qed.

Lemma shl_go_spec s l : 0 < s < 64 -> words_ok l -> forall prev, 0 <= prev < 2 ^ 64 ->
  exists h, 0 <= h < 2 ^ s /\
    val (shl_go s prev l) + 2 ^ (64 * zlen l) * h = val l * 2 ^ s + wshr prev (64 - s) /\
    words_ok (shl_go s prev l) /\ zlen (shl_go s prev l) = zlen l.
Proof.
  intros Hs. induction l as [|a l IH]; intros Hok prev Hp.
  - exists (wshr prev (64 - s)). cbn [shl_go]. rewrite val_nil, zlen_nil. change (2^(64*0)) with 1.
    destruct (wshr_bound prev (64 - s)) as [Hb|]; try lia. replace (64 - (64 - s)) with s in Hb by lia.
    repeat split; try lia. constructor.
  - apply ok_cons in Hok as [Ha Hl]. destruct (IH Hl a Ha) as (h & Hh & Hv & Ho & Hlen).
    exists h. cbn [shl_go]. rewrite wshl_lor by auto.
    rewrite !val_cons, !zlen_cons, pow64_succ by apply zlen_nonneg.
    pose proof (wshl_split a s ltac:(lia) Ha) as Hsp.
    split; [exact Hh|]. split; [|split].
    + rewrite Z.mul_add_distr_r. rewrite Hsp.
      replace (2 ^ 64 * val l * 2 ^ s) with (2 ^ 64 * (val l * 2 ^ s)) by ring.
      replace (val l * 2 ^ s) with (val (shl_go s a l) + 2 ^ (64 * zlen l) * h - wshr a (64 - s)) by lia. ring.
    + apply ok_cons; split; auto.
      rewrite <- wshl_lor by auto. split; [apply Z.lor_nonneg; split; [apply wshl_bound|]|].
      * destruct (wshr_bound prev (64 - s)); lia.
      * rewrite wshl_lor by auto. rewrite wshl_val by lia.
        destruct (wshr_bound prev (64 - s)) as [Hb|]; try lia. replace (64 - (64 - s)) with s in Hb by lia.
        replace (2^64) with (2^(64-s) * 2^s) by (rewrite <- Z.pow_add_r by lia; f_equal; lia).
        rewrite Z.mul_mod_distr_r by (pose proof (pow2_gt0 s); pose proof (pow2_gt0 (64-s)); lia).
        pose proof (Z.mod_pos_bound a (2^(64-s)) ltac:(apply pow2_gt0; lia)). nia.
    + lia.
Qed.

Lemma shl_go_val s l prev : 0 < s < 64 -> words_ok l -> 0 <= prev < 2 ^ 64 ->
  val (shl_go s prev l) = (val l * 2 ^ s + wshr prev (64 - s)) mod 2 ^ (64 * zlen l) /\
  words_ok (shl_go s prev l) /\ zlen (shl_go s prev l) = zlen l.
Proof.
  intros. destruct (shl_go_spec s l) with (prev := prev) as (h & Hh & Hv & Ho & Hlen); auto.
  split; [|auto]. rewrite <- Hv. rewrite Z.mul_comm, Z_mod_plus_full, Z.mod_small; auto.
  pose proof (val_bound _ Ho). now rewrite Hlen in H2.
Qed.

Lemma mod_mul_r a b c : 0 < b -> 0 < c -> (c * a) mod (c * b) = c * (a mod b).
Proof. intros. rewrite Z.mul_mod_distr_l; lia. Qed.

(** Data moved up by [idx] words. *)
Lemma val_move_up m idx : words_ok m -> 0 <= idx <= zlen m ->
  val (zeros idx ++ ztake (zlen m - idx) m) = (val m * 2 ^ (64 * idx)) mod 2 ^ (64 * zlen m).
Proof.
  intros Hok Hi. rewrite val_zeros_app by lia. rewrite val_ztake by (auto; lia).
  replace (64 * zlen m) with (64 * idx + 64 * (zlen m - idx)) by lia.
  rewrite Z.pow_add_r by lia. rewrite (Z.mul_comm (val m)).
  rewrite mod_mul_r; auto; apply pow2_gt0; lia.
Qed.

Lemma shift_slice_left_spec m n : words_ok m -> 0 <= n ->
  val (shift_slice_left m n) = (val m * 2 ^ n) mod 2 ^ (64 * zlen m) /\
  words_ok (shift_slice_left m n) /\ zlen (shift_slice_left m n) = zlen m.
Proof.
  intros Hok Hn. unfold shift_slice_left. pose proof (zlen_nonneg m) as Hlen.
  destruct (zlen m <=? n / 64) eqn:E1.
  - split; [|split; [apply ok_zeros|apply zlen_zeros; auto]].
    rewrite val_zeros. symmetry.
    replace (2 ^ n) with (2 ^ (n - 64 * zlen m) * 2 ^ (64 * zlen m)) by (rewrite <- Z.pow_add_r by lia; f_equal; lia).
    rewrite Z.mul_assoc. apply Z_mod_mult.
  - assert (Hsplit : 2 ^ n = 2 ^ (64 * (n / 64)) * 2 ^ (n mod 64)) by (rewrite <- Z.pow_add_r by lia; f_equal; lia).
    destruct (0 <? n mod 64) eqn:E2; [|destruct (0 <? n / 64) eqn:E3].
    + destruct (shl_go_val (n mod 64) (ztake (zlen m - n / 64) m) 0) as (Hv & Ho & Hl); try lia; auto using ok_ztake.
      rewrite zlen_ztake in Hl, Hv by lia.
      split; [|split; [apply ok_app; auto using ok_zeros|rewrite zlen_app, zlen_zeros; lia]].
      rewrite val_zeros_app by lia. rewrite Hv, val_ztake by (auto; lia).
      replace (wshr 0 _) with 0 by (rewrite wshr_val by lia; now rewrite Z.div_0_l by (pose proof (pow2_gt0 (64 - n mod 64)); lia)).
      rewrite Z.add_0_r, Z.mul_mod_idemp_l by (pose proof (pow2_gt0 (64 * (zlen m - n/64))); lia).
      rewrite <- mod_mul_r by (apply pow2_gt0; lia).
      rewrite <- pow64_add by lia. rewrite Hsplit. f_equal; [ring|]. do 2 f_equal; lia.
    + split; [|split; [apply ok_app; auto using ok_zeros, ok_ztake|rewrite zlen_app, zlen_zeros, zlen_ztake; lia]].
      rewrite val_move_up by (auto; lia). rewrite Hsplit. replace (n mod 64) with 0 by lia.
      change (2^0) with 1. now rewrite Z.mul_1_r.
    + split; [|auto]. replace n with 0 by lia. change (2^0) with 1. rewrite Z.mul_1_r.
      symmetry. apply Z.mod_small. now apply val_bound.
Qed.

(** No bits lost. *)
Lemma shift_slice_left_exact m n : words_ok m -> 0 <= n -> val m * 2 ^ n < 2 ^ (64 * zlen m) ->
  val (shift_slice_left m n) = val m * 2 ^ n.
Proof.
  intros. destruct (shift_slice_left_spec m n) as (-> & _); auto. apply Z.mod_small.
  pose proof (val_nonneg m H). pose proof (pow2_gt0 n H0). nia.
Qed.
Lemma shift_slice_left_ok m n : words_ok m -> 0 <= n -> words_ok (shift_slice_left m n).
Proof. intros; now apply shift_slice_left_spec. Qed.
Lemma shift_slice_left_len m n : words_ok m -> 0 <= n -> zlen (shift_slice_left m n) = zlen m.
Proof. intros; now apply shift_slice_left_spec. Qed.

Lemma shr_go_spec s l : 0 < s < 64 -> words_ok l ->
  val (shr_go s l) = val l / 2 ^ s /\ words_ok (shr_go s l) /\ zlen (shr_go s l) = zlen l.
Proof.
  intros Hs. induction l as [|a l IH]; intros Hok.
  - cbn [shr_go]. rewrite val_nil, Z.div_0_l by (pose proof (pow2_gt0 s); lia). repeat split; auto.
  - apply ok_cons in Hok as [Ha Hl]. destruct (IH Hl) as (Hv & Ho & Hlen). clear IH.
    assert (Hps : 0 < 2 ^ s) by (apply pow2_gt0; lia).
    assert (Hps' : 0 < 2 ^ (64 - s)) by (apply pow2_gt0; lia).
    assert (H64 : 2 ^ 64 = 2 ^ (64 - s) * 2 ^ s) by (rewrite <- Z.pow_add_r by lia; f_equal; lia).
    destruct (wshr_bound a s) as [Hwb|]; try lia.
    destruct l as [|b t].
    + cbn [shr_go]. rewrite !val_cons, !val_nil, !Z.mul_0_r, !Z.add_0_r. rewrite wshr_val by lia.
      split; auto. split; auto. apply ok_cons; split; [|constructor]. rewrite <- wshr_val by lia. nia.
    + cbn [shr_go]. cbn [shr_go] in Hv, Ho, Hlen.
      pose proof Hl as Hl'. apply ok_cons in Hl' as [Hb Ht].
      set (R := shr_go s (b :: t)) in *. change (match t with [] => _ | _ => _ end) with R in *.
      assert (Hlor : Z.lor (wshr a s) (wshl b (64 - s)) = wshr a s + wshl b (64 - s)).
      { rewrite Z.lor_comm, Z.add_comm. apply (lor_disjoint_add _ _ (64 - s)); try lia.
        rewrite wshl_val by lia. rewrite (Z.mul_comm b), H64, mod_mul_r by lia.
        rewrite Z.mul_comm. apply Z_mod_mult. }
      rewrite Hlor. rewrite val_cons, Hv.
      assert (Hw : wshl b (64 - s) = 2 ^ (64 - s) * (val (b :: t) mod 2 ^ s)).
      { rewrite wshl_val by lia. rewrite (Z.mul_comm b), H64, mod_mul_r by lia. f_equal.
        rewrite val_cons, H64. rewrite <- Z.mul_assoc, (Z.mul_comm (2^s)), Z.mul_assoc.
        now rewrite Z_mod_plus_full. }
      split; [|split].
      * rewrite Hw. rewrite wshr_val by lia. rewrite (val_cons a (b :: t)).
        set (V := val (b :: t)) in *. rewrite H64.
        replace (a + 2 ^ (64 - s) * 2 ^ s * V) with (a + (2 ^ (64 - s) * V) * 2 ^ s) by ring.
        rewrite Z_div_plus_full by lia.
        pose proof (Z.div_mod V (2 ^ s) ltac:(lia)) as Hdm.
        replace (2 ^ (64 - s) * V) with (2 ^ (64 - s) * (2 ^ s * (V / 2 ^ s) + V mod 2 ^ s)) by (rewrite <- Hdm; auto).
        ring.
      * apply ok_cons; split; auto. rewrite Hw.
        pose proof (Z.mod_pos_bound (val (b :: t)) (2^s) Hps). nia.
      * rewrite !zlen_cons in *. lia.
Qed.

Lemma shift_slice_right_spec m n : words_ok m -> 0 <= n ->
  val (shift_slice_right m n) = val m / 2 ^ n /\
  words_ok (shift_slice_right m n) /\ zlen (shift_slice_right m n) = zlen m.
Proof.
  intros Hok Hn. unfold shift_slice_right. pose proof (zlen_nonneg m) as Hlen.
  pose proof (val_bound m Hok) as Hb.
  destruct (zlen m <=? n / 64) eqn:E1.
  - split; [|split; [apply ok_zeros|apply zlen_zeros; auto]].
    rewrite val_zeros. symmetry. apply Z.div_small. split; try lia.
    eapply Z.lt_le_trans; [apply Hb|]. apply Z.pow_le_mono_r; lia.
  - assert (Hsplit : 2 ^ n = 2 ^ (64 * (n / 64)) * 2 ^ (n mod 64)) by (rewrite <- Z.pow_add_r by lia; f_equal; lia).
    pose proof (pow2_gt0 (64 * (n / 64)) ltac:(lia)). pose proof (pow2_gt0 (n mod 64) ltac:(lia)).
    destruct (0 <? n mod 64) eqn:E2; [|destruct (0 <? n / 64) eqn:E3].
    + destruct (shr_go_spec (n mod 64) (zdrop (n / 64) m)) as (Hv & Ho & Hl); try lia; auto using ok_zdrop.
      rewrite zlen_zdrop in Hl by lia.
      split; [|split; [apply ok_app; auto using ok_zeros|rewrite zlen_app, zlen_zeros; lia]].
      rewrite val_app_zeros, Hv, val_zdrop by (auto; lia). rewrite Hsplit. now rewrite Z.div_div by lia.
    + split; [|split; [apply ok_app; auto using ok_zeros, ok_zdrop|rewrite zlen_app, zlen_zeros, zlen_zdrop; lia]].
      rewrite val_app_zeros, val_zdrop by (auto; lia). rewrite Hsplit. replace (n mod 64) with 0 by lia.
      change (2^0) with 1. now rewrite Z.mul_1_r.
    + split; [|auto]. replace n with 0 by lia. change (2^0) with 1. now rewrite Z.div_1_r.
Qed.
Lemma shift_slice_right_val m n : words_ok m -> 0 <= n -> val (shift_slice_right m n) = val m / 2 ^ n.
Proof. intros; now apply shift_slice_right_spec. Qed.
Lemma shift_slice_right_ok m n : words_ok m -> 0 <= n -> words_ok (shift_slice_right m n).
Proof. intros; now apply shift_slice_right_spec. Qed.
Lemma shift_slice_right_len m n : words_ok m -> 0 <= n -> zlen (shift_slice_right m n) = zlen m.
Proof. intros; now apply shift_slice_right_spec. Qed.

(** ** Buffers *)
Lemma trunc_to_spec m l : words_ok m -> 0 <= l -> (l + 63) / 64 <= zlen m ->
  let n := (l + 63) / 64 in
  val (trunc_to m l) = val m / 2 ^ (64 * (zlen m - n)) /\ words_ok (trunc_to m l) /\ zlen (trunc_to m l) = n.
Proof.
  intros Hok Hl Hn n. unfold trunc_to. fold n.
  destruct (shift_slice_right_spec m ((zlen m - n) * 64)) as (Hv & Ho & Hlen); auto; try lia.
  split; [|split; [now apply ok_ztake|rewrite zlen_ztake; lia]].
  rewrite val_ztake by (auto; lia). rewrite Hv. rewrite (Z.mul_comm _ 64). apply Z.mod_small.
  pose proof (val_bound m Hok). pose proof (pow2_gt0 (64 * (zlen m - n)) ltac:(lia)).
  split; [apply Z.div_pos; lia|]. apply Z.div_lt_upper_bound; auto.
  rewrite <- pow64_add by lia. now replace (zlen m - n + n) with (zlen m) by lia.
Qed.
Lemma trunc_to_words m p : words_ok m -> 0 <= p <= zlen m ->
  val (trunc_to m (p * 64)) = val m / 2 ^ (64 * (zlen m - p)) /\
  words_ok (trunc_to m (p * 64)) /\ zlen (trunc_to m (p * 64)) = p.
Proof.
  intros. pose proof (trunc_to_spec m (p * 64)) as T. replace ((p * 64 + 63) / 64) with p in T by lia.
  apply T; auto; lia.
Qed.

Lemma try_extend_spec m p : words_ok m -> zlen m <= (p + 63) / 64 ->
  let n := (p + 63) / 64 in
  val (try_extend m p) = val m * 2 ^ (64 * (n - zlen m)) /\ words_ok (try_extend m p) /\ zlen (try_extend m p) = n.
Proof.
  intros Hok Hn n. unfold try_extend. fold n. pose proof (zlen_nonneg m).
  destruct (shift_slice_left_spec (m ++ zeros (n - zlen m)) ((n - zlen m) * 64)) as (Hv & Ho & Hlen).
  { apply ok_app; auto using ok_zeros. } { lia. }
  rewrite zlen_app, zlen_zeros in * by lia. replace (zlen m + (n - zlen m)) with n in * by lia.
  split; [|auto]. rewrite Hv, val_app_zeros. rewrite (Z.mul_comm _ 64). apply Z.mod_small.
  pose proof (val_bound m Hok). pose proof (pow2_gt0 (64 * (n - zlen m)) ltac:(lia)).
  split; [nia|]. replace (64 * n) with (64 * zlen m + 64 * (n - zlen m)) by lia. rewrite Z.pow_add_r by lia. nia.
Qed.
Lemma try_extend_words m p : words_ok m -> zlen m <= p ->
  val (try_extend m (p * 64)) = val m * 2 ^ (64 * (p - zlen m)) /\
  words_ok (try_extend m (p * 64)) /\ zlen (try_extend m (p * 64)) = p.
Proof.
  intros. pose proof (try_extend_spec m (p * 64)) as T. replace ((p * 64 + 63) / 64) with p in T by lia.
  apply T; auto.
Qed.
Lemma try_extend_2_spec m p : words_ok m -> 
  val (try_extend_2 m p) = val m /\ words_ok (try_extend_2 m p) /\ zlen (try_extend_2 m p) = Z.max (zlen m) ((p + 63) / 64).
Proof.
  intros Hok. unfold try_extend_2. destruct (_ <? _) eqn:E.
  - rewrite val_app_zeros, zlen_app, zlen_zeros by lia. split; auto. split; [apply ok_app; auto using ok_zeros|lia].
  - repeat split; auto. lia.
Qed.

(** ** Leading zeros *)
Lemma clz_loop_spec f : forall d, 0 < d < 2 ^ 64 -> 63 - Z.log2 d < Z.of_nat f ->
  clz_loop f d = 63 - Z.log2 d.
Proof.
  induction f as [|f IH]; intros d Hd Hf.
  - assert (Z.log2 d < 64) by (apply Z.log2_lt_pow2; lia). lia.
  - cbn [clz_loop].
    assert (Hlt : Z.log2 d < 64) by (apply Z.log2_lt_pow2; lia).
    change WORD_SIG with (2 ^ 63).
    assert (Hbit : Z.land d (2 ^ 63) = if Z.testbit d 63 then 2 ^ 63 else 0).
    { apply Z.bits_inj'; intros n Hn. rewrite Z.land_spec, Z.pow2_bits_eqb by lia.
      destruct (Z.eqb_spec 63 n) as [<-|Hne].
      - destruct (Z.testbit d 63); rewrite ?Z.bits_0, ?Z.pow2_bits_true by lia; reflexivity.
      - rewrite andb_false_r. destruct (Z.testbit d 63); rewrite ?Z.bits_0; auto.
        symmetry. now rewrite Z.pow2_bits_false by lia. }
    rewrite Hbit. destruct (Z.testbit d 63) eqn:T.
    + replace (2^63 =? 0) with false by reflexivity.
      destruct (Z_lt_le_dec (Z.log2 d) 63); [|lia].
      rewrite Z.bits_above_log2 in T by lia. discriminate.
    + rewrite Z.eqb_refl.
      assert (Z.log2 d <> 63). { intros E. rewrite <- E, Z.bit_log2 in T by lia. discriminate. }
      assert (Hd2 : d < 2 ^ 63) by (apply Z.log2_lt_pow2; lia).
      assert (Hs : wshl d 1 = 2 * d). { rewrite wshl_val by lia. rewrite Z.mod_small; lia. }
      rewrite Hs. rewrite IH; rewrite ?Z.log2_double by lia; lia.
Qed.
Lemma clz_spec d : 0 < d < 2 ^ 64 -> clz d = 63 - Z.log2 d.
Proof.
  intros. apply clz_loop_spec; auto.
  pose proof (Z.log2_nonneg d). lia.
Qed.

Lemma val_rev_cons d t : val (rev (d :: t)) = val (rev t) + 2 ^ (64 * zlen t) * d.
Proof. cbn [rev]. rewrite val_app, val_single, zlen_rev. ring. Qed.

Lemma log2_hi v d n : 0 <= n -> 0 <= v < 2 ^ n -> 0 < d -> Z.log2 (v + 2 ^ n * d) = n + Z.log2 d.
Proof.
  intros Hn Hv Hd. apply Z.log2_unique; [pose proof (Z.log2_nonneg d); lia|].
  pose proof (Z.log2_spec d Hd) as [H1 H2]. pose proof (pow2_gt0 n Hn).
  replace (Z.succ (n + Z.log2 d)) with (n + Z.succ (Z.log2 d)) by lia.
  pose proof (Z.log2_nonneg d).
  rewrite !Z.pow_add_r by lia. nia.
Qed.

Lemma lead_zeros_spec t : words_ok t ->
  lead_zeros t = if val (rev t) =? 0 then None else Some (64 * zlen t - 1 - Z.log2 (val (rev t))).
Proof.
  induction t as [|d t IH]; intros Hok; [reflexivity|].
  apply ok_cons in Hok as [Hd Ht]. specialize (IH Ht). cbn [lead_zeros]. rewrite val_rev_cons.
  pose proof (val_bound _ (ok_rev _ Ht)) as Hb. rewrite zlen_rev in Hb.
  destruct (Z.eqb_spec d 0) as [->|Hne].
  - rewrite Z.mul_0_r, Z.add_0_r, IH. destruct (_ =? 0); cbn [option_map]; auto.
    f_equal. rewrite zlen_cons. lia.
  - pose proof (pow2_gt0 (64 * zlen t) ltac:(pose proof (zlen_nonneg t); lia)).
    rewrite (proj2 (Z.eqb_neq _ _)) by nia. rewrite clz_spec by lia.
    rewrite log2_hi by (auto; try lia; pose proof (zlen_nonneg t); lia). f_equal. rewrite zlen_cons. lia.
Qed.

Lemma find_bit_len_spec m : words_ok m -> find_bit_len m = bitlen (val m).
Proof.
  intros Hok. unfold find_bit_len, bitlen. rewrite lead_zeros_spec by now apply ok_rev.
  rewrite rev_involutive, zlen_rev. destruct (val m =? 0); lia.
Qed.

Lemma maximize_spec m : words_ok m -> 0 < val m ->
  let s := 64 * zlen m - bitlen (val m) in
  exists m', maximize m = (s, m') /\ 0 <= s /\ val m' = val m * 2 ^ s /\ words_ok m' /\ zlen m' = zlen m /\
    2 ^ (64 * zlen m - 1) <= val m' < 2 ^ (64 * zlen m).
Proof.
  intros Hok Hv s. unfold maximize. rewrite lead_zeros_spec by now apply ok_rev.
  rewrite rev_involutive, zlen_rev. rewrite (proj2 (Z.eqb_neq _ _)) by lia.
  unfold s, bitlen in *. rewrite (proj2 (Z.eqb_neq (val m) 0)) by lia.
  replace (64 * zlen m - 1 - Z.log2 (val m)) with (64 * zlen m - (Z.log2 (val m) + 1)) by lia.
  set (k := 64 * zlen m - (Z.log2 (val m) + 1)).
  pose proof (val_bound m Hok) as Hb. pose proof (zlen_nonneg m) as Hl.
  assert (Hlog : Z.log2 (val m) < 64 * zlen m) by (apply Z.log2_lt_pow2; lia).
  assert (Hk : 0 <= k) by lia.
  pose proof (Z.log2_spec (val m) Hv) as [L1 L2]. pose proof (Z.log2_nonneg (val m)).
  pose proof (pow2_gt0 k Hk).
  assert (H1 : 2 ^ (64 * zlen m - 1) = 2 ^ Z.log2 (val m) * 2 ^ k) by (rewrite <- Z.pow_add_r by lia; f_equal; lia).
  assert (H2 : 2 ^ (64 * zlen m) = 2 ^ Z.succ (Z.log2 (val m)) * 2 ^ k) by (rewrite <- Z.pow_add_r by lia; f_equal; lia).
  assert (Hval : val (shift_slice_left m k) = val m * 2 ^ k) by (apply shift_slice_left_exact; auto; rewrite H2; nia).
  exists (shift_slice_left m k). rewrite Hval. split; [auto|]. split; [auto|]. split; [auto|].
  split; [now apply shift_slice_left_ok|]. split; [now apply shift_slice_left_len|].
  rewrite H1, H2. nia.
Qed.

Lemma bitlen_spec z : 0 < z -> 2 ^ (bitlen z - 1) <= z < 2 ^ bitlen z.
Proof.
  intros. unfold bitlen. rewrite (proj2 (Z.eqb_neq _ _)) by lia.
  pose proof (Z.log2_spec z H). replace (Z.log2 z + 1 - 1) with (Z.log2 z) by lia. exact H0.
Qed.
Lemma bitlen_pos z : 0 < z -> 0 < bitlen z.
Proof. intros. unfold bitlen. rewrite (proj2 (Z.eqb_neq _ _)) by lia. pose proof (Z.log2_nonneg z). lia. Qed.
Lemma bitlen_unique z n : 0 < n -> 2 ^ (n - 1) <= z < 2 ^ n -> bitlen z = n.
Proof.
  intros Hn [H1 H2]. assert (0 < z) by (pose proof (pow2_gt0 (n-1)); lia).
  unfold bitlen. rewrite (proj2 (Z.eqb_neq _ _)) by lia.
  rewrite (Z.log2_unique z (n - 1)); try lia. split; auto. now replace (Z.succ (n - 1)) with n by lia.
Qed.
Lemma bitlen_le z n : 0 <= n -> 0 <= z < 2 ^ n -> bitlen z <= n.
Proof.
  intros. unfold bitlen. destruct (Z.eqb_spec z 0); [lia|]. 
  assert (Z.log2 z < n) by (apply Z.log2_lt_pow2; lia). lia.
Qed.
Lemma bitlen_mul_pow2 z k : 0 < z -> 0 <= k -> bitlen (z * 2 ^ k) = bitlen z + k.
Proof.
  intros. apply bitlen_unique; [pose proof (bitlen_pos z); lia|].
  pose proof (bitlen_spec z H) as []. pose proof (bitlen_pos z H). pose proof (pow2_gt0 k H0).
  replace (bitlen z + k - 1) with (bitlen z - 1 + k) by lia. rewrite !Z.pow_add_r by lia. nia.
Qed.
