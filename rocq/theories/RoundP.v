(** Rounding of word slices (round_mantissa without the roundability check). *)

From Coq Require Import ZArith List Bool Lia.
From Verif Require Import Words IntModel Mantissa SpecZ WordsP WordsP2.
Import ListNotations.
Open Scope Z_scope.
Ltac Zify.zify_post_hook ::= Z.div_mod_to_equations.
Arguments Z.mul : simpl never.
Arguments Z.add : simpl never.
Arguments Z.pow : simpl never.
Arguments Z.sub : simpl never.
Arguments Z.of_nat : simpl never.

(** Does rounding the magnitude [N] at bit [d] go up by one unit?  [pos] is the
    sign of the number. *)
Definition rup (rm : rmode) (pos : bool) (N d : Z) : bool :=
  let q := N / 2 ^ d in
  let r := N mod 2 ^ d in
  match rm with
  | RNone | RToZero => false
  | RUp => pos && negb (r =? 0)
  | RDown => negb pos && negb (r =? 0)
  | RFromZero => negb (r =? 0)
  | RToEven => (2 ^ d <? 2 * r) || ((2 * r =? 2 ^ d) && Z.odd q)
  | RToOdd => (2 ^ d <? 2 * r) || ((2 * r =? 2 ^ d) && Z.even q)
  end.
Definition rndN (rm : rmode) (pos : bool) (N d : Z) : Z := N / 2 ^ d + Z.b2z (rup rm pos N d).

Lemma incr_words_spec l : words_ok l ->
  match incr_words l with
  | Some h => val h = val l + 1 /\ words_ok h /\ zlen h = zlen l
  | None => val l + 1 = 2 ^ (64 * zlen l)
  end.
Proof.
  induction l as [|v t IH]; intros Hok; [reflexivity|].
  apply ok_cons in Hok as [Hv Ht]. specialize (IH Ht). cbn [incr_words].
  change WORD_MAX with (2 ^ 64 - 1). destruct (Z.ltb_spec v (2 ^ 64 - 1)).
  - rewrite !val_cons, !zlen_cons. repeat split; try lia. apply ok_cons; split; auto; lia.
  - destruct (incr_words t) as [h|]; cbn [option_map].
    + destruct IH as (A & B & C). rewrite !val_cons, !zlen_cons. repeat split; try lia. apply ok_cons; split; auto; lia.
    + rewrite val_cons, zlen_cons, pow64_succ by apply zlen_nonneg. lia.
Qed.

Lemma wsig_val : WORD_SIG = 2 ^ 63. Proof. reflexivity. Qed.

Lemma val_split L v H : val (L ++ v :: H) = val L + 2 ^ (64 * zlen L) * (v + 2 ^ 64 * val H).
Proof. now rewrite val_app, val_cons. Qed.

Lemma val_top_sig n : 0 < n -> val (zeros (n - 1) ++ [WORD_SIG]) = 2 ^ (64 * n - 1).
Proof.
  intros. rewrite val_zeros_app, val_single, wsig_val by lia. rewrite <- Z.pow_add_r by lia. f_equal; lia.
Qed.

(** The exponent-free value of a rounded mantissa: [q * 2^d], or the top bit
    only when [q * 2^d] needs one more bit. *)
Definition rnd_result (m r : words) (ovf : bool) (V : Z) : Prop :=
  words_ok r /\ zlen r = zlen m /\
  ((ovf = false /\ val r = V /\ V < 2 ^ (64 * zlen m)) \/
   (ovf = true /\ val r = 2 ^ (64 * zlen m - 1) /\ V = 2 ^ (64 * zlen m))).

Lemma div_hi L v H i t : words_ok (L ++ v :: H) -> zlen L = i -> 0 <= t ->
  val (L ++ v :: H) / 2 ^ (64 * i + t) = (v + 2 ^ 64 * val H) / 2 ^ t.
Proof.
  intros Hok Hl Ht. apply ok_app in Hok as [HL _]. pose proof (val_bound L HL) as Hb. rewrite Hl in Hb.
  pose proof (zlen_nonneg L).
  rewrite val_split, Hl. rewrite Z.pow_add_r by lia. rewrite <- Z.div_div by (try apply Z.pow_nonzero; try apply pow2_gt0; lia).
  f_equal. rewrite Z.mul_comm, Z_div_plus_full by (apply Z.pow_nonzero; lia). rewrite Z.div_small by lia. lia.
Qed.

Lemma div_word v H t : 0 <= t <= 64 -> (v + 2 ^ 64 * H) / 2 ^ t = v / 2 ^ t + 2 ^ (64 - t) * H.
Proof.
  intros. replace (2 ^ 64) with (2 ^ (64 - t) * 2 ^ t) by (rewrite <- Z.pow_add_r by lia; f_equal; lia).
  replace (v + 2 ^ (64 - t) * 2 ^ t * H) with (v + (2 ^ (64 - t) * H) * 2 ^ t) by ring.
  apply Z_div_plus_full. apply Z.pow_nonzero; lia.
Qed.

Lemma wshl_wshr v t : 0 <= t <= 64 -> 0 <= v < 2 ^ 64 ->
  (if 64 <=? t then 0 else wshl (wshr v t) t) = v / 2 ^ t * 2 ^ t.
Proof.
  intros. destruct (Z.leb_spec 64 t).
  - replace t with 64 by lia. rewrite Z.div_small by lia. lia.
  - rewrite wshl_val, wshr_val by lia. apply Z.mod_small.
    pose proof (pow2_gt0 t ltac:(lia)). pose proof (Z.mul_div_le v (2 ^ t) ltac:(lia)).
    assert (0 <= v / 2 ^ t) by (apply Z.div_pos; lia). nia.
Qed.

Lemma rm_finish_down m i t : words_ok m -> 0 <= i < zlen m -> 0 <= t <= 64 -> val (ztake i m) = 0 ->
  let '(r, ovf) := rm_finish m i t false in
  rnd_result m r ovf (val m / 2 ^ (64 * i + t) * 2 ^ (64 * i + t)).
Proof.
  intros Hok Hi Ht Hlow. destruct (zsplit i m Hi) as (L & v & H & -> & HL).
  unfold rm_finish. rewrite (zupd_split i), (znth_split i) by auto. rewrite ztake_split in Hlow by auto.
  pose proof Hok as Hok'. apply ok_app in Hok' as [HokL HokvH]. apply ok_cons in HokvH as [Hv HokH].
  rewrite wshl_wshr by auto. rewrite div_hi, div_word by (auto; lia).
  pose proof (pow2_gt0 t ltac:(lia)).
  assert (Hv' : 0 <= v / 2 ^ t * 2 ^ t < 2 ^ 64).
  { pose proof (Z.mul_div_le v (2 ^ t) ltac:(lia)). assert (0 <= v / 2 ^ t) by (apply Z.div_pos; lia). nia. }
  assert (Hok2 : words_ok (L ++ v / 2 ^ t * 2 ^ t :: H)) by (apply ok_app; split; auto; apply ok_cons; auto).
  assert (Hval : val (L ++ v / 2 ^ t * 2 ^ t :: H) = (v / 2 ^ t + 2 ^ (64 - t) * val H) * 2 ^ (64 * i + t)).
  { rewrite val_split, Hlow, HL. rewrite Z.pow_add_r by lia.
    replace (2 ^ 64) with (2 ^ (64 - t) * 2 ^ t) by (rewrite <- Z.pow_add_r by lia; f_equal; lia). ring. }
  split; [auto|]. split; [rewrite !zlen_app, !zlen_cons; auto|]. left. split; auto. split; auto.
  rewrite <- Hval. pose proof (val_bound _ Hok2). rewrite !zlen_app, !zlen_cons in *. lia.
Qed.

Lemma rm_finish_up m i t : words_ok m -> 0 <= i < zlen m -> 0 <= t < 64 -> val (ztake i m) = 0 ->
  let '(r, ovf) := rm_finish m i t true in
  rnd_result m r ovf ((val m / 2 ^ (64 * i + t) + 1) * 2 ^ (64 * i + t)).
Proof.
  intros Hok Hi Ht Hlow. destruct (zsplit i m Hi) as (L & v & H & -> & HL).
  unfold rm_finish. rewrite !(zupd_split i), (znth_split i) by auto. rewrite ztake_split in Hlow by auto.
  pose proof Hok as Hok'. apply ok_app in Hok' as [HokL HokvH]. apply ok_cons in HokvH as [Hv HokH].
  rewrite div_hi, div_word by (auto; lia).
  pose proof (pow2_gt0 t ltac:(lia)). pose proof (pow2_gt0 (64 - t) ltac:(lia)).
  assert (H64 : 2 ^ 64 = 2 ^ (64 - t) * 2 ^ t) by (rewrite <- Z.pow_add_r by lia; f_equal; lia).
  assert (Hwt : wshr WORD_BASE t = 2 ^ (64 - t)).
  { rewrite wshr_val by lia. change WORD_BASE with (2 ^ 64). rewrite H64, Z_div_mult by lia. auto. }
  rewrite Hwt, wshr_val by lia.
  assert (Hdiv : 0 <= v / 2 ^ t < 2 ^ (64 - t)).
  { split; [apply Z.div_pos; lia|]. apply Z.div_lt_upper_bound; try lia. }
  destruct (Z.ltb_spec (v / 2 ^ t + 1) (2 ^ (64 - t))) as [Hlt|Hge].
  - assert (Hw : wshl (v / 2 ^ t + 1) t = (v / 2 ^ t + 1) * 2 ^ t).
    { rewrite wshl_val by lia. apply Z.mod_small. rewrite H64. nia. }
    rewrite Hw.
    assert (Hok2 : words_ok (L ++ (v / 2 ^ t + 1) * 2 ^ t :: H)).
    { apply ok_app; split; auto. apply ok_cons; split; auto. rewrite H64. nia. }
    assert (Hval : val (L ++ (v / 2 ^ t + 1) * 2 ^ t :: H) = (v / 2 ^ t + 2 ^ (64 - t) * val H + 1) * 2 ^ (64 * i + t)).
    { rewrite val_split, Hlow, HL. pose proof (zlen_nonneg L). rewrite Z.pow_add_r by lia. rewrite H64. ring. }
    split; [auto|]. split; [rewrite !zlen_app, !zlen_cons; auto|]. left. split; auto. split; auto.
    rewrite <- Hval. pose proof (val_bound _ Hok2). rewrite !zlen_app, !zlen_cons in *. lia.
  - assert (Hv1 : v / 2 ^ t + 1 = 2 ^ (64 - t)) by lia.
    rewrite zdrop_split1 by auto. pose proof (incr_words_spec H HokH) as Hinc. pose proof (zlen_nonneg L). pose proof (zlen_nonneg H).
    destruct (incr_words H) as [hi|].
    + destruct Hinc as (A & B & C). rewrite ztake_split1 by auto.
      assert (Hok2 : words_ok ((L ++ [0]) ++ hi)).
      { apply ok_app; split; auto. apply ok_app; split; auto. apply ok_cons; split; [lia|constructor]. }
      assert (Hval : val ((L ++ [0]) ++ hi) = (v / 2 ^ t + 2 ^ (64 - t) * val H + 1) * 2 ^ (64 * i + t)).
      { rewrite <- app_assoc. cbn [app]. rewrite val_split, Hlow, HL, A. rewrite Z.pow_add_r by lia. rewrite H64.
        replace (v / 2 ^ t) with (2 ^ (64 - t) - 1) by lia. ring. }
      assert (Hlen2 : zlen ((L ++ [0]) ++ hi) = zlen (L ++ v :: H)).
      { rewrite !zlen_app, !zlen_cons, zlen_nil. lia. }
      split; [auto|]. split; auto. left. split; auto. split; auto.
      rewrite <- Hval, <- Hlen2. now apply val_bound.
    + rewrite ztake_split1 by auto.
      set (n := zlen (L ++ v :: H)). assert (Hn : n = zlen L + 1 + zlen H) by (unfold n; rewrite zlen_app, zlen_cons; lia).
      replace (zlen (L ++ 0 :: H)) with n by (unfold n; rewrite !zlen_app, !zlen_cons; lia).
      assert (HLz : L = zeros i) by (rewrite <- HL; now apply val_0_zeros).
      assert (Hz : (L ++ [0]) ++ zeros (n - (i + 1)) = zeros n).
      { rewrite HLz. change [0] with (zeros 1). rewrite <- !zeros_app by lia. f_equal; lia. }
      rewrite Hz, zlen_zeros by lia.
      assert (Hz2 : zeros n = zeros (n - 1) ++ [0]).
      { change [0] with (zeros 1). rewrite <- zeros_app by lia. f_equal; lia. }
      rewrite Hz2, zupd_split by (rewrite zlen_zeros; lia).
      split; [|split].
      * apply ok_app; split; auto using ok_zeros. apply ok_cons; split; [lia|constructor].
      * rewrite zlen_app, zlen_zeros, zlen_single by lia. fold n. lia.
      * right. split; auto. fold n. split; [apply val_top_sig; lia|].
        replace (64 * n) with (64 * i + 64 + 64 * zlen H) by lia. rewrite !Z.pow_add_r by lia. rewrite H64.
        rewrite <- Hinc. replace (v / 2 ^ t) with (2 ^ (64 - t) - 1) by lia. ring.
Qed.

(** ** The low part *)
Lemma all_zero_cons v l : all_zero (v :: l) = (v =? 0) && all_zero l.
Proof. reflexivity. Qed.
Lemma scan_false l td cc rz : exists cc', fold_left (scan_word td) l (false, cc, rz) = (false, cc', rz && all_zero l).
Proof.
  revert cc rz. induction l as [|v l IH]; intros cc rz; cbn [fold_left].
  - exists cc. cbn. now rewrite andb_true_r.
  - cbn [scan_word andb]. destruct (IH cc (if v =? 0 then rz else false)) as (cc' & E). exists cc'. rewrite E.
    rewrite all_zero_cons. destruct (v =? 0), rz; reflexivity.
Qed.

Lemma all_zero_rev l : words_ok l -> all_zero (rev l) = all_zero l.
Proof.
  intros _. unfold all_zero. apply eq_true_iff_eq. rewrite !forallb_forall.
  split; intros H x Hx; apply H; apply in_rev; rewrite ?rev_involutive; auto.
Qed.

Lemma rm_peek_false m i t cc : words_ok m -> 0 <= i < zlen m -> 0 <= t < 64 ->
  exists cc' td, rm_peek m i t false cc = (false, cc', znth i m mod 2 ^ t =? 0, td, i).
Proof.
  intros Hok Hi Ht. unfold rm_peek. pose proof (ok_znth m i Hok) as Hv.
  destruct (Z.ltb_spec 0 t).
  - assert (E : wshl (znth i m) (64 - t) = 2 ^ (64 - t) * (znth i m mod 2 ^ t)).
    { apply wshl_low; [lia|]. now rewrite Z.mod_small by lia. }
    rewrite E. pose proof (pow2_gt0 (64 - t) ltac:(lia)).
    destruct (Z.eqb_spec (znth i m mod 2 ^ t) 0) as [E0|E0].
    + rewrite E0, Z.mul_0_r. cbn. eauto.
    + rewrite (proj2 (Z.eqb_neq _ _)) by nia. cbn [negb]. eauto.
  - replace t with 0 by lia. change (2 ^ 0) with 1. rewrite Z.mod_1_r. cbn. eauto.
Qed.

Lemma low_zero m i t : words_ok m -> 0 <= i < zlen m -> 0 <= t < 64 ->
  ((znth i m mod 2 ^ t =? 0) && all_zero (ztake i m)) = (val m mod 2 ^ (64 * i + t) =? 0).
Proof.
  intros Hok Hi Ht. rewrite all_zero_spec by now apply ok_ztake.
  destruct (zsplit i m Hi) as (L & v & H & -> & HL). rewrite znth_split, ztake_split by auto.
  apply ok_app in Hok as [HokL HokvH]. apply ok_cons in HokvH as [Hv HokH].
  rewrite val_split, HL. pose proof (val_bound L HokL) as Hb. rewrite HL in Hb. pose proof (zlen_nonneg L).
  rewrite mod_split_hi by lia.
  replace ((v + 2 ^ 64 * val H) mod 2 ^ t) with (v mod 2 ^ t).
  2:{ replace (2 ^ 64) with (2 ^ (64 - t) * 2 ^ t) by (rewrite <- Z.pow_add_r by lia; f_equal; lia).
      replace (v + 2 ^ (64 - t) * 2 ^ t * val H) with (v + (2 ^ (64 - t) * val H) * 2 ^ t) by ring. now rewrite Z_mod_plus_full. }
  pose proof (Z.mod_pos_bound v (2 ^ t) ltac:(apply pow2_gt0; lia)). pose proof (pow2_gt0 (64 * i) ltac:(lia)).
  destruct (Z.eqb_spec (v mod 2 ^ t) 0), (Z.eqb_spec (val L) 0); cbn [andb]; symmetry; rewrite ?Z.eqb_eq, ?Z.eqb_neq; nia.
Qed.

(** clearing the low words *)
Lemma clear_low m i : words_ok m -> 0 <= i <= zlen m ->
  let m' := zeros i ++ zdrop i m in
  words_ok m' /\ zlen m' = zlen m /\ val (ztake i m') = 0 /\
  (forall d, 64 * i <= d -> val m' / 2 ^ d = val m / 2 ^ d) /\ (forall j, i <= j < zlen m -> znth j m' = znth j m).
Proof.
  intros Hok Hi m'. assert (Hlz : zlen (zeros i) = i) by (apply zlen_zeros; lia).
  assert (Hok' : words_ok m') by (apply ok_app; split; auto using ok_zeros, ok_zdrop).
  assert (Hlen : zlen m' = zlen m) by (unfold m'; rewrite zlen_app, zlen_zdrop by lia; lia).
  assert (Hdiv : forall d, 64 * i <= d -> val m' / 2 ^ d = val m / 2 ^ d).
  { intros d Hd. unfold m'. rewrite val_zeros_app by lia. rewrite val_zdrop by (auto; lia).
    replace d with (64 * i + (d - 64 * i)) by lia. rewrite (Z.mul_comm (2 ^ _)), div_pow_split by lia.
    rewrite Z.pow_add_r by lia. now rewrite Z.div_div by (try apply Z.pow_nonzero; try apply pow2_gt0; lia). }
  split; [auto|]. split; [auto|]. split.
  - unfold m'. rewrite ztake_app_exact' by auto. apply val_zeros.
  - split; [auto|]. intros j Hj. rewrite !znth_val by (auto; lia). rewrite Hdiv by lia. auto.
Qed.

Lemma low_bit v t : 0 <= t -> Z.land (wshr v t) 1 = (v / 2 ^ t) mod 2.
Proof.
  intros. rewrite wshr_val by lia. change 1 with (Z.ones 1) at 1. now rewrite Z.land_ones by lia.
Qed.

Lemma znth_bit m i t : words_ok m -> 0 <= i < zlen m -> 0 <= t < 64 ->
  (znth i m / 2 ^ t) mod 2 = (val m / 2 ^ (64 * i + t)) mod 2.
Proof.
  intros Hok Hi Ht. destruct (zsplit i m Hi) as (L & v & H & -> & HL). rewrite znth_split by auto.
  rewrite div_hi, div_word by (auto; lia).
  replace (2 ^ (64 - t)) with (2 ^ (63 - t) * 2) by (rewrite <- (Z.pow_add_r 2 _ 1) by lia; f_equal; lia).
  replace (v / 2 ^ t + 2 ^ (63 - t) * 2 * val H) with (v / 2 ^ t + (2 ^ (63 - t) * val H) * 2) by ring.
  now rewrite Z_mod_plus_full.
Qed.

Definition rres_inexact (m : words) (n : Z) (inexact : bool) : bool := inexact || negb (val m mod 2 ^ n =? 0).

(** half-position facts: with d = n: r = b*2^(n-1) + r', b the bit n-1. *)
Lemma half_split N n : 0 < n -> let r := N mod 2 ^ n in let b := (N / 2 ^ (n - 1)) mod 2 in let r' := N mod 2 ^ (n - 1) in
  r = b * 2 ^ (n - 1) + r' /\ 0 <= r' < 2 ^ (n - 1) /\ 2 ^ n = 2 * 2 ^ (n - 1) /\ 0 <= b <= 1 /\
  N / 2 ^ (n - 1) = 2 * (N / 2 ^ n) + b.
Proof.
  intros Hn r b r'. assert (Hp : 2 ^ n = 2 ^ (n - 1) * 2) by (rewrite <- (Z.pow_add_r 2 _ 1) by lia; f_equal; lia).
  assert (0 < 2 ^ (n - 1)) by (apply pow2_gt0; lia).
  split; [|split; [|split; [|split]]].
  - unfold r, b, r'. rewrite Hp, Z.rem_mul_r by lia. lia.
  - apply Z.mod_pos_bound. lia.
  - lia.
  - unfold b. pose proof (Z.mod_pos_bound (N / 2 ^ (n - 1)) 2 ltac:(lia)). lia.
  - unfold b. rewrite Hp. rewrite <- Z.div_div by lia. apply Z.div_mod. lia.
Qed.

Lemma rup_nearest rm pos N n : 0 < n -> rm = RToEven \/ rm = RToOdd ->
  let b := (N / 2 ^ (n - 1)) mod 2 in let r' := N mod 2 ^ (n - 1) in let q := N / 2 ^ n in
  rup rm pos N n = ((b =? 1) && negb (r' =? 0)) ||
    (((b =? 1) && (r' =? 0)) && (if rmode_eqb rm RToEven then negb (q mod 2 =? 0) else q mod 2 =? 0)).
Proof.
  intros Hn Hrm b r' q. destruct (half_split N n Hn) as (Hr & Hr' & Hp & Hb & _). fold b in Hr, Hb. fold r' in Hr, Hr'.
  assert (Hpar : Z.odd q = negb (q mod 2 =? 0)) by (rewrite Zmod_odd; destruct (Z.odd q); reflexivity).
  assert (Hpar2 : Z.even q = (q mod 2 =? 0)) by (rewrite Zmod_even; destruct (Z.even q); reflexivity).
  assert (Hgt : (2 ^ n <? 2 * (N mod 2 ^ n)) = (b =? 1) && negb (r' =? 0)).
  { rewrite Hr, Hp. destruct (Z.eqb_spec b 1) as [->|]; destruct (Z.eqb_spec r' 0); cbn [andb negb]; rewrite ?Z.ltb_lt, ?Z.ltb_ge; nia. }
  assert (Heq : (2 * (N mod 2 ^ n) =? 2 ^ n) = (b =? 1) && (r' =? 0)).
  { rewrite Hr, Hp. destruct (Z.eqb_spec b 1) as [->|]; destruct (Z.eqb_spec r' 0); cbn [andb negb]; rewrite ?Z.eqb_eq, ?Z.eqb_neq; nia. }
  destruct Hrm as [-> | ->]; unfold rup; fold q; rewrite Hgt, Heq, ?Hpar, ?Hpar2; reflexivity.
Qed.

Lemma near_up m n : words_ok m -> 0 < n < 64 * zlen m ->
  let i := (n - 1) / 64 in let m' := zeros i ++ zdrop i m in
  let '(r, ovf) := rm_finish (if i <? n / 64 then zupd i 0 m' else m') (n / 64) (n mod 64) true in
  rnd_result m r ovf ((val m / 2 ^ n + 1) * 2 ^ n).
Proof.
  intros Hok Hn i m'. assert (Hib : 0 <= i < zlen m) by (unfold i; lia).
  assert (Hin : n / 64 = i \/ n / 64 = i + 1) by (unfold i; lia).
  set (m2 := if i <? n / 64 then zupd i 0 m' else m').
  assert (E : m2 = zeros (n / 64) ++ zdrop (n / 64) m).
  { unfold m2. destruct Hin as [Hin|Hin]; rewrite Hin.
    - rewrite Z.ltb_irrefl. reflexivity.
    - replace (i <? i + 1) with true by lia. unfold m'.
      destruct (zsplit i m Hib) as (L & v & H' & Em & HL). rewrite Em.
      rewrite zdrop_split1 by auto. rewrite (zdrop_app_exact' i L (v :: H') HL).
      rewrite zupd_split by (rewrite zlen_zeros; lia). rewrite zeros_app by lia. rewrite <- app_assoc. reflexivity. }
  rewrite E. destruct (clear_low m (n / 64) Hok ltac:(lia)) as (Ho2 & Hl2 & Hlow2 & Hdv2 & _).
  set (m3 := zeros (n / 64) ++ zdrop (n / 64) m) in *.
  pose proof (rm_finish_up m3 (n / 64) (n mod 64) Ho2 ltac:(lia) ltac:(lia) Hlow2) as F.
  destruct (rm_finish m3 (n / 64) (n mod 64) true) as [r ovf]. unfold rnd_result in *. rewrite Hl2 in F.
  replace (64 * (n / 64) + n mod 64) with n in F by lia. rewrite Hdv2 in F by lia. exact F.
Qed.

Theorem round_mantissa_spec m n rm pos s inexact : words_ok m -> 0 < n < 64 * zlen m -> rm <> RNone ->
  let o := round_mantissa m n rm pos false s inexact in
  rnd_result m (ro_m o) (ro_ovf o) (rndN rm pos (val m) n * 2 ^ n) /\
  ro_chk o = false /\ ro_inexact o = rres_inexact m n inexact.
Proof.
  intros Hok Hn Hrm. unfold round_mantissa. cbv zeta.
  replace (0 <? n) with true by lia. replace (n <? 64 * zlen m) with true by lia. cbn [andb].
  set (cc := (n - (64 * zlen m - s)) mod WORD_BASE / 64). clearbody cc.
  assert (Hdir : forall c : bool, 
    let '(chk0, cc0, rem_zero, td, z) := rm_peek m (n / 64) (n mod 64) false cc in
    let '(chk1, _, rem_zero0) := fold_left (scan_word td) (rev (ztake z m)) (chk0, cc0, rem_zero) in
    chk1 = false /\ z = n / 64 /\ rem_zero0 = (val m mod 2 ^ n =? 0)).
  { intros _. destruct (rm_peek_false m (n / 64) (n mod 64) cc) as (cc' & td & ->); auto; try lia.
    destruct (scan_false (rev (ztake (n / 64) m)) td cc' (znth (n / 64) m mod 2 ^ (n mod 64) =? 0)) as (cc2 & ->).
    split; auto. split; auto. rewrite all_zero_rev by now apply ok_ztake. rewrite low_zero by (auto; lia).
    do 3 f_equal. lia. }
  assert (Hfin : forall c : bool, let '(r, ovf) := rm_finish (zeros (n / 64) ++ zdrop (n / 64) m) (n / 64) (n mod 64) c in
     rnd_result m r ovf ((val m / 2 ^ n + Z.b2z c) * 2 ^ n)).
  { intros c. destruct (clear_low m (n / 64) Hok ltac:(lia)) as (Ho & Hl & Hlow & Hdv & _).
    set (m' := zeros (n / 64) ++ zdrop (n / 64) m) in *. specialize (Hdv n ltac:(lia)).
    destruct c.
    - pose proof (rm_finish_up m' (n / 64) (n mod 64) Ho ltac:(lia) ltac:(lia) Hlow) as F.
      destruct (rm_finish _ _ _ _) as [r ovf]. unfold rnd_result in *. rewrite Hl in F.
      replace (64 * (n / 64) + n mod 64) with n in F by lia. now rewrite Hdv in F.
    - pose proof (rm_finish_down m' (n / 64) (n mod 64) Ho ltac:(lia) ltac:(lia) Hlow) as F.
      destruct (rm_finish _ _ _ _) as [r ovf]. unfold rnd_result in *. rewrite Hl in F.
      replace (64 * (n / 64) + n mod 64) with n in F by lia. rewrite Hdv in F. cbn [Z.b2z]. now rewrite Z.add_0_r. }
  unfold rndN, rres_inexact.
  destruct rm; try congruence; clear Hrm.
  1-4: specialize (Hdir true);
    destruct (rm_peek m (n / 64) (n mod 64) false cc) as [[[[chk0 cc0] rem_zero] td] z];
    destruct (fold_left (scan_word td) (rev (ztake z m)) (chk0, cc0, rem_zero)) as [[chk1 cc1] rem_zero0];
    destruct Hdir as (-> & -> & ->); cbn [rup negb];
    match goal with |- context [rm_finish _ _ _ ?c] => specialize (Hfin c); destruct (rm_finish (zeros (n / 64) ++ zdrop (n / 64) m) (n / 64) (n mod 64) c) as [r ovf] end;
    cbn [ro_m ro_ovf ro_chk ro_inexact]; (split; [|split; reflexivity]);
    rewrite ?andb_false_r; try exact Hfin.
  1-2: rewrite andb_comm; exact Hfin.
  (* nearest modes *)
  all: destruct (half_split (val m) n ltac:(lia)) as (Hr & Hr' & Hp & Hb & Hq).
  all: set (i := (n - 1) / 64) in *; set (t := (n - 1) mod 64) in *.
  all: assert (Hit : 64 * i + t = n - 1) by (unfold i, t; lia).
  all: assert (Hib : 0 <= i < zlen m) by (unfold i; lia).
  all: assert (Htb : 0 <= t < 64) by (unfold t; lia).
  all: destruct (rm_peek_false m i t cc) as (cc' & td & ->); auto.
  all: destruct (scan_false (ztake i m) td cc' (znth i m mod 2 ^ t =? 0)) as (cc2 & ->).
  all: rewrite low_zero by auto; rewrite Hit.
  all: rewrite !low_bit by lia.
  all: rewrite (znth_bit m i t) by auto; rewrite Hit.
  all: replace (n / 64 <? zlen m) with true by lia.
  all: rewrite (znth_bit m (n / 64) (n mod 64)) by (auto; lia).
  all: replace (64 * (n / 64) + n mod 64) with n by lia.
  all: set (b := (val m / 2 ^ (n - 1)) mod 2) in *; set (r' := val m mod 2 ^ (n - 1)) in *.
  all: set (q := val m / 2 ^ n) in *.
  all: assert (Hinx : inexact || negb (r' =? 0) || (b =? 1) = inexact || negb (val m mod 2 ^ n =? 0))
    by (rewrite Hr; rewrite <- orb_assoc; f_equal; destruct (Z.eqb_spec r' 0), (Z.eqb_spec b 1); cbn [negb orb]; symmetry;
        rewrite ?negb_true_iff, ?negb_false_iff, ?Z.eqb_eq, ?Z.eqb_neq; nia).
  all: rewrite Hinx.
  all: destruct (clear_low m i Hok ltac:(lia)) as (Ho & Hl & Hlow & Hdv & Hnt); set (m' := zeros i ++ zdrop i m) in *.
  all: pose proof (near_up m n Hok Hn) as Hup; cbv zeta in Hup; fold i in Hup; fold m' in Hup; fold q in Hup.
  all: assert (Hdown : let '(r, ovf) := rm_finish m' i (t + 1) false in rnd_result m r ovf (q * 2 ^ n)) by
   (assert (Hi' : 0 <= i < zlen m') by (rewrite Hl; exact Hib);
    assert (Ht' : 0 <= t + 1 <= 64) by (clear -Htb; clearbody t; lia);
    pose proof (rm_finish_down m' i (t + 1) Ho Hi' Ht' Hlow) as F;
    destruct (rm_finish m' i (t + 1) false) as [r ovf]; unfold rnd_result in *; rewrite Hl in F;
    replace (64 * i + (t + 1)) with n in F by (clear -Hit; clearbody i t; lia); rewrite (Hdv n) in F by (clear -Hit Htb; clearbody i t; lia); exact F).
  all: rewrite rup_nearest by (auto; lia); cbn [rmode_eqb]; fold b r' q.
  all: match goal with |- context [if ?c then _ else rm_finish _ _ _ false] => destruct c end.
  all: cbn [Z.b2z].
  all: match goal with |- context [rm_finish ?a ?b ?c ?d] => destruct (rm_finish a b c d) as [r ovf] end.
  all: cbn [ro_m ro_ovf ro_chk ro_inexact]; rewrite ?Z.add_0_r; auto.
Qed.
