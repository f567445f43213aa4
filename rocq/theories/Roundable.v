(** Soundness of the roundability test inside round_mantissa. *)

From Coq Require Import ZArith List Bool Lia.
From Verif Require Import Words IntModel Mantissa SpecZ WordsP WordsP2 RoundP.
Import ListNotations.
Open Scope Z_scope.
Ltac Zify.zify_post_hook ::= idtac.
Arguments Z.mul : simpl never.
Arguments Z.add : simpl never.
Arguments Z.pow : simpl never.
Arguments Z.sub : simpl never.
Arguments Z.of_nat : simpl never.
Ltac dlia := Z.div_mod_to_equations; lia.

Definition all_eq (td : Z) (l : words) : bool := forallb (fun v => v =? td) l.

Lemma ztake_cons n v l : 0 < n -> ztake n (v :: l) = v :: ztake (n - 1) l.
Proof. intros. unfold ztake. replace (Z.to_nat n) with (S (Z.to_nat (n - 1))) by lia. reflexivity. Qed.

Lemma scan_spec td l : forall cc rz, 0 <= cc ->
  exists cc', fold_left (scan_word td) l (true, cc, rz) = (all_eq td (ztake cc l), cc', rz && all_zero l).
Proof.
  induction l as [|v l IH]; intros cc rz Hc; cbn [fold_left].
  - exists cc. unfold ztake. rewrite firstn_nil. cbn. now rewrite andb_true_r.
  - unfold scan_word at 2. destruct (Z.ltb_spec 0 cc) as [H|H]; cbn [andb].
    + rewrite ztake_cons by auto. cbn [all_eq forallb]. fold (all_eq td (ztake (cc - 1) l)). rewrite all_zero_cons.
      destruct (v =? td) eqn:E; cbn [negb andb].
      * destruct (IH (cc - 1) (if v =? 0 then rz else false) ltac:(lia)) as (cc' & ->). exists cc'. f_equal. destruct (v =? 0), rz; reflexivity.
      * destruct (scan_false l td cc (if v =? 0 then rz else false)) as (cc' & ->). exists cc'. f_equal. destruct (v =? 0), rz; reflexivity.
    + rewrite ztake_0 by lia. cbn [all_eq forallb]. rewrite all_zero_cons. destruct (IH cc (if v =? 0 then rz else false) Hc) as (cc' & ->). exists cc'.
      rewrite ztake_0 by lia. f_equal. destruct (v =? 0), rz; reflexivity.
Qed.

Lemma all_eq_max l : words_ok l -> all_eq WORD_MAX l = (val l =? 2 ^ (64 * zlen l) - 1).
Proof.
  induction l as [|v l IH]; intros Hok; [reflexivity|]. apply ok_cons in Hok as [Hv Hl]. cbn [all_eq forallb]. fold (all_eq WORD_MAX l). rewrite IH by auto.
  rewrite val_cons, zlen_cons, pow64_succ by apply zlen_nonneg. change WORD_MAX with (2 ^ 64 - 1). pose proof (val_bound l Hl).
  destruct (Z.eqb_spec v (2 ^ 64 - 1)), (Z.eqb_spec (val l) (2 ^ (64 * zlen l) - 1)); cbn [andb]; symmetry; rewrite ?Z.eqb_eq, ?Z.eqb_neq; lia.
Qed.
Lemma all_eq_zero l : words_ok l -> all_eq 0 l = (val l =? 0).
Proof. intros. rewrite <- all_zero_spec by auto. reflexivity. Qed.
Lemma all_eq_rev td l : all_eq td (rev l) = all_eq td l.
Proof.
  unfold all_eq. apply eq_true_iff_eq. rewrite !forallb_forall. split; intros H x Hx; apply H; apply in_rev; rewrite ?rev_involutive; auto.
Qed.

Lemma ztake_rev n l : 0 <= n <= zlen l -> ztake n (rev l) = rev (zdrop (zlen l - n) l).
Proof.
  intros H. rewrite <- (ztake_zdrop (zlen l - n) l) at 1. rewrite rev_app_distr. apply ztake_app_exact'. unfold zlen at 1. rewrite rev_length. fold (zlen (zdrop (zlen l - n) l)).
  rewrite zlen_zdrop by lia. lia.
Qed.

(** What the peek returns with the check on. *)
Lemma msk_same v t : 0 < t < 64 -> 0 <= v < 2 ^ 64 ->
  Z.land (wshl v (64 - t)) (wshl WORD_MAX (64 - t)) = wshl v (64 - t).
Proof.
  intros Ht Hv.
  rewrite (wshl_low v t v), (wshl_low WORD_MAX t WORD_MAX) by (try lia; rewrite Z.mod_small; auto; cbn; lia).
  change WORD_MAX with (Z.ones 64). assert (E : Z.ones 64 mod 2 ^ t = Z.ones t).
  { rewrite <- Z.land_ones by lia. rewrite Z.land_comm, Z.land_ones by lia. apply Z.mod_small. rewrite !Z.ones_equiv.
    pose proof (pow2_gt0 t ltac:(lia)). assert (2 ^ t < 2 ^ 64) by (apply Z.pow_lt_mono_r; lia). lia. }
  rewrite E. rewrite !(Z.mul_comm (2 ^ (64 - t))), <- !Z.shiftl_mul_pow2 by lia. rewrite <- Z.shiftl_land. f_equal.
  rewrite Z.land_ones by lia. apply Z.mod_mod. pose proof (pow2_gt0 t); lia.
Qed.

Lemma rm_peek_chk m i t cc : words_ok m -> 0 <= i < zlen m -> 0 < t < 64 ->
  rm_peek m i t true cc = if znth i m mod 2 ^ t =? 0 then (true, cc, true, 0, i) else (true, cc, false, WORD_MAX, i).
Proof.
  intros Hok Hi Ht. unfold rm_peek. replace (0 <? t) with true by lia. pose proof (ok_znth m i Hok) as Hv.
  assert (Ew : wshl (znth i m) (64 - t) = 2 ^ (64 - t) * (znth i m mod 2 ^ t)) by (apply wshl_low; [lia|]; now rewrite Z.mod_small by lia).
  rewrite msk_same by auto. rewrite Z.eqb_refl. pose proof (pow2_gt0 (64 - t) ltac:(lia)).
  destruct (Z.eqb_spec (znth i m mod 2 ^ t) 0) as [E0|E0].
  - rewrite Ew, E0, Z.mul_0_r. reflexivity.
  - rewrite (proj2 (Z.eqb_neq (wshl (znth i m) (64 - t)) 0)) by nia. reflexivity.
Qed.

(** The bits [64 j .. 64 i + t) of a slice, split at word [i]. *)
Lemma mid_bits m i j t : words_ok m -> 0 <= j <= i -> i < zlen m -> 0 <= t < 64 ->
  (val m / 2 ^ (64 * j)) mod 2 ^ (64 * (i - j) + t) = (znth i m mod 2 ^ t) * 2 ^ (64 * (i - j)) + val (zdrop j (ztake i m)).
Proof.
  intros Hok Hj Hi Ht. rewrite val_zdrop by (try apply ok_ztake; auto; rewrite zlen_ztake; lia).
  destruct (zsplit i m ltac:(lia)) as (L & v & H & -> & HL). rewrite znth_split, ztake_split by auto.
  apply ok_app in Hok as [HokL HokvH]. apply ok_cons in HokvH as [Hv HokH]. pose proof (val_bound L HokL) as Hb. rewrite HL in Hb.
  rewrite val_split, HL. set (K := v + 2 ^ 64 * val H).
  assert (Ep : 2 ^ (64 * i) = 2 ^ (64 * j) * 2 ^ (64 * (i - j))) by (rewrite <- Z.pow_add_r by lia; f_equal; lia).
  pose proof (pow2_gt0 (64 * j) ltac:(lia)) as Pj. pose proof (pow2_gt0 (64 * (i - j)) ltac:(lia)) as Pij. pose proof (pow2_gt0 t ltac:(lia)) as Pt.
  rewrite Ep, <- Z.mul_assoc, (Z.mul_comm (2 ^ (64 * j))), Z_div_plus_full by lia.
  assert (Hq : 0 <= val L / 2 ^ (64 * j) < 2 ^ (64 * (i - j))).
  { split; [apply Z.div_pos; lia|]. apply Z.div_lt_upper_bound; lia. }
  rewrite Z.pow_add_r, Z.rem_mul_r by lia. rewrite (Z.mul_comm (2 ^ (64 * (i - j))) K), Z_mod_plus_full, (Z.mod_small (val L / _)) by lia.
  rewrite Z_div_plus_full, (Z.div_small (val L / _)) by lia. rewrite Z.add_0_l.
  assert (EK : K mod 2 ^ t = v mod 2 ^ t).
  { unfold K. replace (2 ^ 64) with (2 ^ (64 - t) * 2 ^ t) by (rewrite <- Z.pow_add_r by lia; f_equal; lia).
    replace (v + 2 ^ (64 - t) * 2 ^ t * val H) with (v + (2 ^ (64 - t) * val H) * 2 ^ t) by ring. now rewrite Z_mod_plus_full. }
  rewrite EK. ring.
Qed.

(** The effect of the low words on the final step. *)
Lemma rm_finish_low L L' v H i t c : words_ok (L ++ v :: H) -> words_ok (L' ++ v :: H) -> zlen L = i -> zlen L' = i -> 0 <= t <= 64 -> (c = true -> t < 64) ->
  let '(r, o) := rm_finish (L ++ v :: H) i t c in
  let '(r', o') := rm_finish (L' ++ v :: H) i t c in
  o = o' /\ zdrop i r = zdrop i r' /\ words_ok r' /\ zlen r' = zlen (L ++ v :: H).
Proof.
  intros Ok1 Ok2 H1 H2 Ht Hc. unfold rm_finish. apply ok_app in Ok1 as [OL Ov]. apply ok_app in Ok2 as [OL' _]. apply ok_cons in Ov as [Hv OH].
  rewrite !(znth_split i) by auto. rewrite !(zupd_split i) by auto. pose proof (pow2_gt0 t ltac:(lia)) as Pt.
  assert (G : forall M w, zlen M = i -> zdrop i (M ++ w :: H) = w :: H) by (intros; now apply zdrop_app_exact').
  assert (GL : forall w, zlen (L' ++ w :: H) = zlen (L ++ v :: H)) by (intros; rewrite !zlen_app, !zlen_cons; lia).
  destruct c.
  - assert (Hwt : wshr WORD_BASE t = 2 ^ (64 - t)).
    { rewrite wshr_val by lia. change WORD_BASE with (2 ^ 64). replace (2 ^ 64) with (2 ^ (64 - t) * 2 ^ t) by (rewrite <- Z.pow_add_r by lia; f_equal; lia). apply Z_div_mult. lia. }
    assert (H64 : 2 ^ 64 = 2 ^ (64 - t) * 2 ^ t) by (rewrite <- Z.pow_add_r by lia; f_equal; lia). specialize (Hc eq_refl).
    rewrite Hwt. destruct (Z.ltb_spec (wshr v t + 1) (2 ^ (64 - t))) as [Hlt|Hge].
    + rewrite !G by auto. repeat split; auto. apply ok_app; split; auto. apply ok_cons; split; auto. rewrite wshl_val by lia. apply Z.mod_pos_bound. lia.
    + rewrite !zdrop_split1 by auto. pose proof (incr_words_spec H OH) as Hi. destruct (incr_words H) as [hi|].
      * rewrite !ztake_split1 by auto. rewrite <- !app_assoc. cbn [app]. rewrite !(zdrop_app_exact' i) by auto. repeat split; auto.
        -- apply ok_app; split; auto. apply ok_cons; split; [lia|tauto].
        -- rewrite !zlen_app, !zlen_cons. lia.
      * rewrite !ztake_split1 by auto. pose proof (zlen_nonneg H).
        assert (En : zlen (L' ++ 0 :: H) = i + 1 + zlen H) by (rewrite zlen_app, zlen_cons; lia).
        assert (En1 : zlen (L ++ 0 :: H) = i + 1 + zlen H) by (rewrite zlen_app, zlen_cons; lia).
        rewrite En, En1. replace (i + 1 + zlen H - (i + 1)) with (zlen H) by lia.
        assert (Hz : forall M, zlen M = i -> (M ++ [0]) ++ zeros (zlen H) = (M ++ zeros (zlen H)) ++ [0]).
        { intros M _. rewrite <- !app_assoc. f_equal. change [0] with (zeros 1). rewrite <- !zeros_app by lia. f_equal. lia. }
        rewrite !Hz by auto.
        assert (Hl : forall M, zlen M = i -> zlen ((M ++ zeros (zlen H)) ++ [0]) = i + 1 + zlen H).
        { intros M HM. rewrite !zlen_app, zlen_zeros, zlen_single by lia. lia. }
        rewrite !Hl by auto.
        assert (Hu : forall M, zlen M = i -> zupd (i + 1 + zlen H - 1) WORD_SIG ((M ++ zeros (zlen H)) ++ [0]) = M ++ (zeros (zlen H) ++ [WORD_SIG])).
        { intros M HM. rewrite zupd_split by (rewrite zlen_app, zlen_zeros; lia). now rewrite <- app_assoc. }
        rewrite !Hu by auto. rewrite !(zdrop_app_exact' i) by auto. repeat split; auto.
        -- apply ok_app; split; auto. apply ok_app; split; [apply ok_zeros|]. apply ok_cons; split; [cbn; lia|constructor].
        -- rewrite !zlen_app, zlen_zeros, zlen_single, zlen_cons by lia. lia.
  - rewrite !G by auto. repeat split; auto. apply ok_app; split; auto. apply ok_cons; split; auto. rewrite wshl_wshr by auto.
    pose proof (Z.mul_div_le v (2 ^ t) ltac:(lia)). assert (0 <= v / 2 ^ t) by (apply Z.div_pos; lia). nia.
Qed.

(** Directed rounding of a slice with the check off, in closed form. *)
Definition dir_up (rm : rmode) (pos rz : bool) : bool :=
  match rm with RFromZero => negb rz | RUp => negb rz && pos | RDown => negb rz && negb pos | _ => false end.
Definition directed_mode (rm : rmode) : bool := match rm with RFromZero | RToZero | RUp | RDown => true | _ => false end.

Lemma dir_closed m n rm pos s ix : words_ok m -> 0 < n < 64 * zlen m -> directed_mode rm = true ->
  round_mantissa m n rm pos false s ix =
    let rz := val m mod 2 ^ n =? 0 in
    let '(r, o) := rm_finish (zeros (n / 64) ++ zdrop (n / 64) m) (n / 64) (n mod 64) (dir_up rm pos rz) in
    mk_ro r o false (ix || negb rz).
Proof.
  intros Hok Hn Hd. unfold round_mantissa. cbv zeta. replace (0 <? n) with true by lia. replace (n <? 64 * zlen m) with true by lia. cbn [andb].
  set (cc := (n - (64 * zlen m - s)) mod WORD_BASE / 64). clearbody cc.
  destruct (rm_peek_false m (n / 64) (n mod 64) cc Hok ltac:(dlia) ltac:(dlia)) as (cc' & td & ->).
  destruct (scan_false (rev (ztake (n / 64) m)) td cc' (znth (n / 64) m mod 2 ^ (n mod 64) =? 0)) as (cc2 & ->).
  rewrite all_zero_rev by now apply ok_ztake. rewrite low_zero by (auto; dlia). replace (64 * (n / 64) + n mod 64) with n by dlia.
  destruct rm; cbn [directed_mode dir_up] in *; try discriminate Hd; destruct (rm_finish _ _ _ _); reflexivity.
Qed.

(** The same for the nearest modes: independence of [s]. *)
Lemma near_indep m n rm pos s s' ix : words_ok m -> 0 < n < 64 * zlen m -> directed_mode rm = false ->
  round_mantissa m n rm pos false s ix = round_mantissa m n rm pos false s' ix.
Proof.
  intros Hok Hn Hd. unfold round_mantissa. cbv zeta. replace (0 <? n) with true by lia. replace (n <? 64 * zlen m) with true by lia. cbn [andb].
  set (cc := (n - (64 * zlen m - s)) mod WORD_BASE / 64). clearbody cc. set (cc1 := (n - (64 * zlen m - s')) mod WORD_BASE / 64). clearbody cc1.
  destruct (rm_peek_false m ((n - 1) / 64) ((n - 1) mod 64) cc Hok ltac:(dlia) ltac:(dlia)) as (cc' & td & ->).
  destruct (rm_peek_false m ((n - 1) / 64) ((n - 1) mod 64) cc1 Hok ltac:(dlia) ltac:(dlia)) as (cc1' & td1 & ->).
  destruct (scan_false (ztake ((n - 1) / 64) m) td cc' (znth ((n - 1) / 64) m mod 2 ^ ((n - 1) mod 64) =? 0)) as (cc2 & ->).
  destruct (scan_false (ztake ((n - 1) / 64) m) td1 cc1' (znth ((n - 1) / 64) m mod 2 ^ ((n - 1) mod 64) =? 0)) as (cc3 & ->).
  destruct rm; cbn [directed_mode] in *; try discriminate Hd; reflexivity.
Qed.

Lemma cc_val n len s j : s = 64 * (len - j) -> 0 <= j -> 64 * j <= n -> n < 64 * len -> 64 * len < 2 ^ 64 ->
  ((n - (64 * len - s)) mod WORD_BASE) / 64 = n / 64 - j.
Proof.
  intros -> Hj Hn Hl Hb. change WORD_BASE with (2 ^ 64). replace (n - (64 * len - 64 * (len - j))) with (n - 64 * j) by lia.
  rewrite Z.mod_small by lia. dlia.
Qed.

Lemma low_zero_bits W k : 0 <= W < 2 ^ k -> W <> 0 -> W <> 2 ^ k - 1 -> 1 <= W <= 2 ^ k - 2.
Proof. lia. Qed.

Lemma ok_rev l : words_ok l -> words_ok (rev l).
Proof. intros H. unfold words_ok in *. rewrite Forall_forall in *. intros x Hx. apply H. now apply in_rev. Qed.

(** The result of looking at the low bits with the check on (directed modes). *)
Definition look_dir (m : words) (i t cc : Z) : bool * bool * Z :=
  let '(chk, cc, rz, td, z) := rm_peek m i t true cc in
  let '(chk, _, rz) := fold_left (scan_word td) (rev (ztake z m)) (chk, cc, rz) in (chk, rz, z).

Lemma dir_checked_eq m n rm pos s ix : 0 < n < 64 * zlen m -> directed_mode rm = true ->
  round_mantissa m n rm pos true s ix =
    let '(chk, rz, z) := look_dir m (n / 64) (n mod 64) ((n - (64 * zlen m - s)) mod WORD_BASE / 64) in
    if chk then mk_ro (zeros z ++ zdrop z m) false true ix
    else let '(r, o) := rm_finish (zeros z ++ zdrop z m) (n / 64) (n mod 64) (dir_up rm pos rz) in mk_ro r o false (ix || negb rz).
Proof.
  intros Hn Hd. unfold round_mantissa, look_dir. cbv zeta. replace (0 <? n) with true by lia. replace (n <? 64 * zlen m) with true by lia. cbn [andb].
  destruct (rm_peek m (n / 64) (n mod 64) true _) as [[[[chk cc] rz] td] z].
  destruct (fold_left (scan_word td) (rev (ztake z m)) (chk, cc, rz)) as [[chk' cc'] rz'].
  destruct rm; try discriminate Hd; destruct chk'; try reflexivity; cbn [dir_up]; destruct (rm_finish _ _ _ _); reflexivity.
Qed.

(** Word boundary: the examined words are [j .. i). *)
Lemma look_dir_word m i j : words_ok m -> 0 <= j < i -> i < zlen m ->
  let W := val (zdrop j (ztake i m)) in
  exists chk, look_dir m i 0 (i - j) = (chk, all_zero (ztake i m), i - 1) /\ (chk = false <-> 1 <= W <= 2 ^ (64 * (i - j)) - 2).
Proof.
  intros Hok Hj Hi W. unfold look_dir, rm_peek. cbn [Z.ltb Z.compare]. replace (0 <? i - j) with true by lia. replace (0 <? i) with true by lia. cbn [andb].
  destruct (zsplit (i - 1) m ltac:(lia)) as (L & w & H & Em & HL).
  assert (Ew : znth (i - 1) m = w) by (rewrite Em; now apply znth_split). rewrite Ew.
  assert (EtI : ztake i m = L ++ [w]) by (rewrite Em; replace i with (i - 1 + 1) by lia; now apply ztake_split1).
  assert (EtI1 : ztake (i - 1) m = L) by (rewrite Em; now apply ztake_split).
  assert (ER : zdrop j (ztake i m) = zdrop j L ++ [w]) by (rewrite EtI; apply zdrop_app_le; lia).
  assert (Hw : 0 <= w < 2 ^ 64) by (rewrite <- Ew; now apply ok_znth).
  assert (OL : words_ok L) by (rewrite <- EtI1; now apply ok_ztake).
  assert (VR : W = val (zdrop j L) + 2 ^ (64 * (i - 1 - j)) * w) by (unfold W; rewrite ER, val_app, val_single, zlen_zdrop by lia; do 3 f_equal; lia).
  pose proof (val_bound (zdrop j L) (ok_zdrop _ _ OL)) as BL. rewrite zlen_zdrop in BL by lia. rewrite HL in BL.
  assert (P1 : 2 ^ (64 * (i - j)) = 2 ^ 64 * 2 ^ (64 * (i - 1 - j))) by (rewrite <- Z.pow_add_r by lia; f_equal; lia).
  pose proof (pow2_gt0 (64 * (i - 1 - j)) ltac:(lia)) as P1p.
  assert (AZ : all_zero (ztake i m) = all_zero L && (w =? 0)).
  { rewrite EtI. unfold all_zero. rewrite forallb_app. cbn [forallb]. now rewrite andb_true_r. }
  assert (TK : ztake (i - j - 1) (rev L) = rev (zdrop j L)) by (rewrite ztake_rev by lia; do 2 f_equal; lia).
  rewrite AZ, VR, P1. clear VR P1 AZ W EtI ER Ew. destruct (w =? WORD_MAX) eqn:Wm.
  - apply Z.eqb_eq in Wm. cbv beta iota. rewrite EtI1. destruct (scan_spec WORD_MAX (rev L) (i - j - 1) false ltac:(lia)) as (cc' & E). rewrite E.
    rewrite TK, all_eq_rev, all_eq_max by now apply ok_zdrop. rewrite zlen_zdrop by lia. rewrite HL. eexists. split.
    + f_equal. f_equal. rewrite Wm. change (WORD_MAX =? 0) with false. now rewrite andb_false_r.
    + rewrite Z.eqb_neq. change WORD_MAX with (2 ^ 64 - 1) in Wm. rewrite Wm. clear - BL P1p. split; intros; nia.
  - apply Z.eqb_neq in Wm. change WORD_MAX with (2 ^ 64 - 1) in Wm. destruct (w =? 0) eqn:W0; cbn [negb]; cbv beta iota; rewrite EtI1.
    + apply Z.eqb_eq in W0. destruct (scan_spec 0 (rev L) (i - j - 1) true ltac:(lia)) as (cc' & E). rewrite E.
      rewrite TK, all_eq_rev, all_eq_zero by now apply ok_zdrop. rewrite all_zero_rev by auto. eexists. split.
      * now rewrite andb_true_r.
      * rewrite Z.eqb_neq. rewrite W0. clear - BL P1p. split; intros; nia.
    + apply Z.eqb_neq in W0. destruct (scan_false (rev L) 0 (i - j - 1) false) as (cc' & E). rewrite E. eexists. split.
      * now rewrite andb_false_r.
      * split; [intros _|reflexivity]. clear - BL P1p Hw Wm W0. nia.
Qed.

Lemma look_dir_none m i : look_dir m i 0 0 = (true, all_zero (ztake i m), i).
Proof.
  unfold look_dir, rm_peek. cbn [Z.ltb Z.compare andb]. destruct (scan_spec 0 (rev (ztake i m)) 0 true ltac:(lia)) as (cc' & ->). rewrite ztake_0 by lia.
  cbn [all_eq forallb]. f_equal. f_equal. cbn [andb]. unfold all_zero. apply eq_true_iff_eq. rewrite !forallb_forall. split; intros H x Hx; apply H; apply in_rev; rewrite ?rev_involutive; auto.
Qed.

Lemma mid_bound rb T R P : 0 < P -> 2 <= T -> 0 <= rb < T -> 0 <= R < P -> (rb = 0 -> R <> 0) -> (rb <> 0 -> R <> P - 1) -> 1 <= rb * P + R <= T * P - 2.
Proof.
  intros HP HT Hrb HR H0 H1. destruct (Z.eq_dec rb 0) as [E|E].
  - rewrite E. specialize (H0 E). assert (2 * P <= T * P) by (apply Z.mul_le_mono_nonneg_r; lia). lia.
  - specialize (H1 E). assert (1 * P <= rb * P) by (apply Z.mul_le_mono_nonneg_r; lia). assert (rb * P <= (T - 1) * P) by (apply Z.mul_le_mono_nonneg_r; lia).
    rewrite Z.mul_sub_distr_r in *. lia.
Qed.

Lemma look_dir_inside m i j t : words_ok m -> 0 <= j <= i -> i < zlen m -> 0 < t < 64 ->
  let W := (znth i m mod 2 ^ t) * 2 ^ (64 * (i - j)) + val (zdrop j (ztake i m)) in
  exists chk, look_dir m i t (i - j) = (chk, (znth i m mod 2 ^ t =? 0) && all_zero (ztake i m), i) /\ (chk = false -> 1 <= W <= 2 ^ t * 2 ^ (64 * (i - j)) - 2) /\
    (1 <= val (zdrop j (ztake i m)) <= 2 ^ (64 * (i - j)) - 2 -> chk = false).
Proof.
  intros Hok Hj Hi Ht W. unfold look_dir. rewrite rm_peek_chk by (auto; lia).
  set (R := zdrop j (ztake i m)) in *. assert (HR : words_ok R) by (apply ok_zdrop, ok_ztake; auto).
  assert (LR : zlen R = i - j) by (unfold R; rewrite zlen_zdrop; rewrite zlen_ztake; lia).
  pose proof (val_bound R HR) as BR. rewrite LR in BR. pose proof (pow2_gt0 (64 * (i - j)) ltac:(lia)) as Pij.
  pose proof (pow2_gt0 t ltac:(lia)) as Pt. pose proof (Z.mod_pos_bound (znth i m) (2 ^ t) Pt) as Bv. set (rb := znth i m mod 2 ^ t) in *.
  assert (P2 : 2 <= 2 ^ t). { assert (2 ^ 1 <= 2 ^ t) by (apply Z.pow_le_mono_r; lia). lia. }
  assert (TK : ztake (i - j) (rev (ztake i m)) = rev R).
  { rewrite ztake_rev by (rewrite zlen_ztake; lia). unfold R. do 2 f_equal. rewrite zlen_ztake by lia. lia. }
  destruct (rb =? 0) eqn:R0.
  - destruct (scan_spec 0 (rev (ztake i m)) (i - j) true ltac:(lia)) as (cc' & E). rewrite E.
    rewrite TK, all_eq_rev, all_eq_zero by auto. rewrite all_zero_rev by now apply ok_ztake. eexists. split; [reflexivity|]. split; [|intros HH; apply Z.eqb_neq; lia].
    intros HH. apply mid_bound; auto; lia.
  - destruct (scan_spec WORD_MAX (rev (ztake i m)) (i - j) false ltac:(lia)) as (cc' & E). rewrite E.
    rewrite TK, all_eq_rev, all_eq_max by auto. rewrite LR. rewrite all_zero_rev by now apply ok_ztake. eexists. split; [reflexivity|]. split; [|intros HH; apply Z.eqb_neq; lia].
    intros HH. apply mid_bound; auto; lia.
Qed.

Lemma finish_word m i c : words_ok m -> 0 < i < zlen m ->
  let '(r, o1) := rm_finish (zeros (i - 1) ++ zdrop (i - 1) m) i 0 c in
  let '(r0, o2) := rm_finish (zeros i ++ zdrop i m) i 0 c in
  o1 = o2 /\ words_ok r /\ zlen r = zlen m /\ zdrop i r = zdrop i r0.
Proof.
  intros Hok Hi. destruct (zsplit (i - 1) m ltac:(lia)) as (L & w & H & Em & HL). destruct (zsplit i m ltac:(lia)) as (L2 & v & H2 & Em2 & HL2).
  assert (Hw : 0 <= w < 2 ^ 64). { rewrite Em in Hok. apply ok_app in Hok as [_ Hok]. now apply ok_cons in Hok. }
  assert (D2 : zdrop i m = v :: H2) by (rewrite Em2; now apply zdrop_app_exact').
  assert (D1 : zeros (i - 1) ++ zdrop (i - 1) m = (zeros (i - 1) ++ [w]) ++ v :: H2).
  { rewrite <- app_assoc. f_equal. rewrite Em at 1. rewrite (zdrop_app_exact' (i - 1)) by auto. cbn [app]. f_equal. rewrite <- D2. rewrite Em. replace i with (i - 1 + 1) by lia. now rewrite zdrop_split1. }
  assert (Lm : zlen m = i + zlen (v :: H2)) by (rewrite Em2, zlen_app; lia).
  rewrite D1, D2. rewrite Em2 in Hok. apply ok_app in Hok as [_ Hok2].
  pose proof (rm_finish_low (zeros i) (zeros (i - 1) ++ [w]) v H2 i 0 c) as F.
  destruct (rm_finish (zeros i ++ v :: H2) i 0 c) as [r0 o2]. destruct (rm_finish ((zeros (i - 1) ++ [w]) ++ v :: H2) i 0 c) as [r o1].
  destruct F as (F1 & F2 & F3 & F4).
  - apply ok_app; split; [apply ok_zeros|auto].
  - apply ok_app; split; [apply ok_app; split; [apply ok_zeros|]|auto]. apply ok_cons; split; [auto|constructor].
  - apply zlen_zeros; lia.
  - rewrite zlen_app, zlen_zeros, zlen_single by lia. lia.
  - lia.
  - lia.
  - repeat split; auto. rewrite F4, Lm, zlen_app, zlen_zeros by lia. reflexivity.
Qed.

Lemma finish_ok m i t c : words_ok m -> 0 <= i < zlen m -> 0 <= t < 64 ->
  let '(r, o1) := rm_finish (zeros i ++ zdrop i m) i t c in words_ok r /\ zlen r = zlen m.
Proof.
  intros Hok Hi Ht. destruct (clear_low m i Hok ltac:(lia)) as (C1 & C2 & C3 & _). destruct c.
  - pose proof (rm_finish_up (zeros i ++ zdrop i m) i t C1 ltac:(lia) Ht C3) as F. destruct (rm_finish _ _ _ _). destruct F as (F1 & F2 & _). split; auto. lia.
  - pose proof (rm_finish_down (zeros i ++ zdrop i m) i t C1 ltac:(lia) ltac:(lia) C3) as F. destruct (rm_finish _ _ _ _). destruct F as (F1 & F2 & _). split; auto. lia.
Qed.

Theorem dir_accept m n rm pos s j ix s0 : words_ok m -> 0 < n < 64 * zlen m -> 64 * zlen m < 2 ^ 64 -> s = 64 * (zlen m - j) -> 0 <= j -> 64 * j <= n ->
  directed_mode rm = true ->
  let o := round_mantissa m n rm pos true s ix in
  let o0 := round_mantissa m n rm pos false s0 ix in
  let W := (val m / 2 ^ (64 * j)) mod 2 ^ (n - 64 * j) in
  ro_chk o = false ->
  1 <= W <= 2 ^ (n - 64 * j) - 2 /\ ro_ovf o = ro_ovf o0 /\ ro_inexact o = ro_inexact o0 /\
  words_ok (ro_m o) /\ zlen (ro_m o) = zlen m /\ zdrop (n / 64) (ro_m o) = zdrop (n / 64) (ro_m o0).
Proof.
  intros Hok Hn Hlen Hs Hj Hjn Hd o o0 W. unfold o0, o. rewrite dir_closed, dir_checked_eq by auto. cbv zeta. clear o o0.
  rewrite (cc_val n (zlen m) s j) by lia. set (i := n / 64) in *. set (t := n mod 64) in *.
  assert (Hit : n = 64 * i + t) by (unfold i, t; dlia). assert (Ht : 0 <= t < 64) by (unfold t; dlia). assert (Hi : 0 <= i < zlen m) by lia. assert (Hji : j <= i) by lia.
  pose proof (mid_bits m i j t Hok ltac:(lia) ltac:(lia) Ht) as EW. replace (64 * (i - j) + t) with (n - 64 * j) in EW by lia. fold W in EW.
  assert (EP : 2 ^ (n - 64 * j) = 2 ^ t * 2 ^ (64 * (i - j))) by (rewrite <- Z.pow_add_r by lia; f_equal; lia).
  pose proof (low_zero m i t Hok Hi Ht) as LZ. rewrite <- Hit in LZ. rewrite <- LZ. clearbody i t W. clear LZ.
  destruct (Z.eq_dec t 0) as [T0|T0].
  - subst t. change (2 ^ 0) with 1 in *. rewrite Z.mod_1_r in *. rewrite Z.mul_0_l, Z.add_0_l in EW. rewrite Z.mul_1_l in EP. cbn [Z.eqb andb].
    destruct (Z.eq_dec i j) as [Eij|Nij].
    { replace (i - j) with 0 by lia. rewrite look_dir_none. cbn [ro_chk]. discriminate. }
    destruct (look_dir_word m i j Hok ltac:(lia) ltac:(lia)) as (chk & E & HW). rewrite E. destruct chk; [cbn [ro_chk]; discriminate|].
    intros _. split; [rewrite EW, EP; now apply HW|]. pose proof (finish_word m i (dir_up rm pos (all_zero (ztake i m))) Hok ltac:(lia)) as F.
    destruct (rm_finish (zeros (i - 1) ++ zdrop (i - 1) m) i 0 _) as [r o1]. destruct (rm_finish (zeros i ++ zdrop i m) i 0 _) as [r0 o2]. cbn [ro_ovf ro_inexact ro_m]. tauto.
  - destruct (look_dir_inside m i j t Hok ltac:(lia) ltac:(lia) ltac:(lia)) as (chk & E & HW & _). rewrite E. destruct chk; [cbn [ro_chk]; discriminate|].
    intros _. split; [rewrite EW, EP; auto|]. pose proof (finish_ok m i t (dir_up rm pos ((znth i m mod 2 ^ t =? 0) && all_zero (ztake i m))) Hok ltac:(lia) Ht) as F.
    destruct (rm_finish (zeros i ++ zdrop i m) i t _) as [r o1]. cbn [ro_ovf ro_inexact ro_m]. tauto.
Qed.

(** The nearest modes, when every word of the mantissa is known to be correct. *)
Definition look_near (m : words) (i t cc : Z) : bool * bool :=
  let '(chk, cc, rz, td, _) := rm_peek m i t true cc in
  let '(chk, _, rz) := fold_left (scan_word td) (ztake i m) (chk, cc, rz) in (chk, rz).

Lemma look_near_word m i : words_ok m -> 0 < i < zlen m ->
  let W := val (ztake i m) in
  exists chk, look_near m i 0 i = (chk, all_zero (ztake i m)) /\ (chk = false <-> 1 <= W <= 2 ^ (64 * i) - 2).
Proof.
  intros Hok Hi W. unfold look_near, rm_peek. cbn [Z.ltb Z.compare]. replace (0 <? i) with true by lia. cbn [andb].
  destruct (zsplit (i - 1) m ltac:(lia)) as (L & w & H & Em & HL).
  assert (Ew : znth (i - 1) m = w) by (rewrite Em; now apply znth_split). rewrite Ew.
  assert (EtI : ztake i m = L ++ [w]) by (rewrite Em; replace i with (i - 1 + 1) by lia; now apply ztake_split1).
  assert (EtI1 : ztake (i - 1) m = L) by (rewrite Em; now apply ztake_split).
  assert (Hw : 0 <= w < 2 ^ 64) by (rewrite <- Ew; now apply ok_znth).
  assert (OL : words_ok L) by (rewrite <- EtI1; now apply ok_ztake).
  assert (VR : W = val L + 2 ^ (64 * (i - 1)) * w) by (unfold W; rewrite EtI, val_app, val_single; do 3 f_equal; lia).
  pose proof (val_bound L OL) as BL. rewrite HL in BL.
  assert (P1 : 2 ^ (64 * i) = 2 ^ 64 * 2 ^ (64 * (i - 1))) by (rewrite <- Z.pow_add_r by lia; f_equal; lia).
  pose proof (pow2_gt0 (64 * (i - 1)) ltac:(lia)) as P1p.
  assert (AZ : all_zero (L ++ [w]) = all_zero L && (w =? 0)).
  { unfold all_zero. rewrite forallb_app. cbn [forallb]. now rewrite andb_true_r. }
  assert (TK : ztake (i - 1) (L ++ [w]) = L) by now apply ztake_app_exact'.
  rewrite EtI, AZ, VR, P1. clear VR P1 W EtI Ew. destruct (w =? WORD_MAX) eqn:Wm.
  - apply Z.eqb_eq in Wm. cbv beta iota. destruct (scan_spec WORD_MAX (L ++ [w]) (i - 1) false ltac:(lia)) as (cc' & E). rewrite E.
    rewrite TK, all_eq_max by auto. rewrite HL. eexists. split.
    + f_equal. rewrite Wm. change (WORD_MAX =? 0) with false. now rewrite andb_false_r.
    + rewrite Z.eqb_neq. change WORD_MAX with (2 ^ 64 - 1) in Wm. rewrite Wm. clear - BL P1p. split; intros; nia.
  - apply Z.eqb_neq in Wm. change WORD_MAX with (2 ^ 64 - 1) in Wm. destruct (w =? 0) eqn:W0; cbn [negb]; cbv beta iota.
    + apply Z.eqb_eq in W0. destruct (scan_spec 0 (L ++ [w]) (i - 1) true ltac:(lia)) as (cc' & E). rewrite E.
      rewrite TK, all_eq_zero by auto. rewrite AZ. eexists. split.
      * reflexivity.
      * rewrite Z.eqb_neq. rewrite W0. clear - BL P1p. split; intros; nia.
    + apply Z.eqb_neq in W0. destruct (scan_false (L ++ [w]) 0 (i - 1) false) as (cc' & E). rewrite E. eexists. split.
      * now rewrite andb_false_r.
      * split; [intros _|reflexivity]. clear - BL P1p Hw Wm W0. nia.
Qed.

Lemma look_near_all m n : words_ok m -> 0 < n < 64 * zlen m ->
  let W := val m mod 2 ^ (n - 1) in
  exists chk, look_near m ((n - 1) / 64) ((n - 1) mod 64) (n / 64) = (chk, W =? 0) /\ (chk = false -> 1 <= W <= 2 ^ (n - 1) - 2) /\
    (1 <= val (ztake ((n - 1) / 64) m) <= 2 ^ (64 * ((n - 1) / 64)) - 2 -> chk = false).
Proof.
  intros Hok Hn W. set (i := (n - 1) / 64). set (t := (n - 1) mod 64).
  assert (Hit : n - 1 = 64 * i + t) by (unfold i, t; dlia). assert (Ht : 0 <= t < 64) by (unfold t; dlia). assert (Hi : 0 <= i < zlen m) by lia.
  pose proof (mid_bits m i 0 t Hok ltac:(lia) ltac:(lia) Ht) as EW. change (64 * 0) with 0 in EW. change (2 ^ 0) with 1 in EW. rewrite Z.div_1_r, Z.sub_0_r, <- Hit in EW. fold W in EW.
  change (zdrop 0 (ztake i m)) with (ztake i m) in EW. pose proof (low_zero m i t Hok Hi Ht) as LZ. rewrite <- Hit in LZ. fold W in LZ. rewrite <- LZ. rewrite EW, Hit, Z.pow_add_r by lia.
  clearbody i t W. clear LZ EW. destruct (Z.eq_dec t 0) as [T0|T0].
  - subst t. change (2 ^ 0) with 1. rewrite Z.mod_1_r, Z.mul_0_l, Z.add_0_l, Z.mul_1_r. cbn [Z.eqb andb]. replace (n / 64) with i by dlia.
    destruct (Z.eq_dec i 0) as [E|E].
    + rewrite E. exists true. split; [|split; [discriminate|change (2 ^ (64 * 0)) with 1; lia]]. unfold look_near, rm_peek. cbn [Z.ltb Z.compare andb]. rewrite ztake_0 by lia. reflexivity.
    + destruct (look_near_word m i Hok ltac:(lia)) as (chk & -> & HW). exists chk. split; [auto|]. split; apply HW.
  - unfold look_near. rewrite rm_peek_chk by (auto; lia).
    pose proof (ok_ztake i m Hok) as HR. assert (LR : zlen (ztake i m) = i) by (rewrite zlen_ztake; lia). pose proof (val_bound _ HR) as BR. rewrite LR in BR.
    pose proof (pow2_gt0 (64 * i) ltac:(lia)) as Pi. pose proof (pow2_gt0 t ltac:(lia)) as Pt. pose proof (Z.mod_pos_bound (znth i m) (2 ^ t) Pt) as Bv. set (rb := znth i m mod 2 ^ t) in *.
    assert (P2 : 2 <= 2 ^ t). { assert (2 ^ 1 <= 2 ^ t) by (apply Z.pow_le_mono_r; lia). lia. }
    assert (TK : ztake (n / 64) (ztake i m) = ztake i m).
    { unfold ztake at 1. apply firstn_all2. unfold zlen in LR. assert (i <= n / 64) by dlia. lia. }
    rewrite (Z.mul_comm (2 ^ (64 * i))). destruct (rb =? 0) eqn:R0.
    + destruct (scan_spec 0 (ztake i m) (n / 64) true ltac:(dlia)) as (cc' & E). rewrite E. rewrite TK, all_eq_zero by auto.
      eexists. split; [reflexivity|]. split; [|intros HH; apply Z.eqb_neq; lia]. intros HH. apply mid_bound; auto; lia.
    + destruct (scan_spec WORD_MAX (ztake i m) (n / 64) false ltac:(dlia)) as (cc' & E). rewrite E. rewrite TK, all_eq_max by auto. rewrite LR.
      eexists. split; [reflexivity|]. split; [|intros HH; apply Z.eqb_neq; lia]. intros HH. apply mid_bound; auto; lia.
Qed.

Theorem near_accept m n rm pos ix s0 : words_ok m -> 0 < n < 64 * zlen m -> 64 * zlen m < 2 ^ 64 -> (rm = RToEven \/ rm = RToOdd) ->
  let o := round_mantissa m n rm pos true (64 * zlen m) ix in
  let W := val m mod 2 ^ (n - 1) in
  ro_chk o = false -> 1 <= W <= 2 ^ (n - 1) - 2 /\ o = round_mantissa m n rm pos false s0 ix.
Proof.
  intros Hok Hn Hlen Hrm o W. unfold o, round_mantissa. cbv zeta. replace (0 <? n) with true by lia. replace (n <? 64 * zlen m) with true by lia. cbn [andb].
  rewrite (cc_val n (zlen m) (64 * zlen m) 0) by lia. rewrite Z.sub_0_r.
  destruct (look_near_all m n Hok Hn) as (chk & E & HW & _). fold W in E, HW. unfold look_near in E.
  destruct (rm_peek m ((n - 1) / 64) ((n - 1) mod 64) true (n / 64)) as [[[[c1 cc1] rz1] td1] z1].
  destruct (fold_left (scan_word td1) (ztake ((n - 1) / 64) m) (c1, cc1, rz1)) as [[c2 cc2] rz2].
  set (cc := (n - (64 * zlen m - s0)) mod WORD_BASE / 64). clearbody cc.
  destruct (rm_peek_false m ((n - 1) / 64) ((n - 1) mod 64) cc Hok ltac:(dlia) ltac:(dlia)) as (cc' & td & ->).
  destruct (scan_false (ztake ((n - 1) / 64) m) td cc' (znth ((n - 1) / 64) m mod 2 ^ ((n - 1) mod 64) =? 0)) as (cc3 & ->).
  rewrite low_zero by (auto; dlia). replace (64 * ((n - 1) / 64) + (n - 1) mod 64) with (n - 1) by dlia. fold W.
  injection E as -> ->. destruct Hrm as [-> | ->]; destruct chk; try (cbn [ro_chk]; discriminate).
  all: intros _; split; [auto|reflexivity].
Qed.

(** The test does accept: when the whole words examined below the rounding
    position are neither all zeros nor all ones. *)
Theorem dir_accepts m n rm pos s j ix : words_ok m -> 0 < n < 64 * zlen m -> 64 * zlen m < 2 ^ 64 -> s = 64 * (zlen m - j) -> 0 <= j -> 64 * j <= n ->
  directed_mode rm = true -> 1 <= (val m / 2 ^ (64 * j)) mod 2 ^ (64 * (n / 64 - j)) <= 2 ^ (64 * (n / 64 - j)) - 2 ->
  ro_chk (round_mantissa m n rm pos true s ix) = false.
Proof.
  intros Hok Hn Hlen Hs Hj Hjn Hd HW. rewrite dir_checked_eq by auto. rewrite (cc_val n (zlen m) s j) by lia. set (i := n / 64) in *. set (t := n mod 64) in *.
  assert (Hit : n = 64 * i + t) by (unfold i, t; dlia). assert (Ht : 0 <= t < 64) by (unfold t; dlia). assert (Hi : 0 <= i < zlen m) by lia. assert (Hji : j <= i) by lia.
  pose proof (mid_bits m i j 0 Hok ltac:(lia) ltac:(lia) ltac:(lia)) as EW. rewrite Z.add_0_r in EW. change (2 ^ 0) with 1 in EW. rewrite Z.mod_1_r, Z.mul_0_l, Z.add_0_l in EW. rewrite EW in HW.
  clearbody i t. assert (Nij : j < i). { destruct (Z.eq_dec j i) as [E|]; [|lia]. rewrite E, Z.sub_diag in HW. change (2 ^ (64 * 0)) with 1 in HW. lia. }
  destruct (Z.eq_dec t 0) as [T0|T0].
  - subst t. destruct (look_dir_word m i j Hok ltac:(lia) ltac:(lia)) as (chk & -> & C). rewrite (proj2 C HW). destruct (rm_finish _ _ _ _). reflexivity.
  - destruct (look_dir_inside m i j t Hok ltac:(lia) ltac:(lia) ltac:(lia)) as (chk & -> & _ & C). rewrite (C HW). destruct (rm_finish _ _ _ _). reflexivity.
Qed.

Theorem near_accepts m n rm pos ix : words_ok m -> 0 < n < 64 * zlen m -> 64 * zlen m < 2 ^ 64 -> (rm = RToEven \/ rm = RToOdd) ->
  1 <= val m mod 2 ^ (64 * ((n - 1) / 64)) <= 2 ^ (64 * ((n - 1) / 64)) - 2 ->
  ro_chk (round_mantissa m n rm pos true (64 * zlen m) ix) = false.
Proof.
  intros Hok Hn Hlen Hrm HW. unfold round_mantissa. cbv zeta. replace (0 <? n) with true by lia. replace (n <? 64 * zlen m) with true by lia. cbn [andb].
  rewrite (cc_val n (zlen m) (64 * zlen m) 0) by lia. rewrite Z.sub_0_r.
  destruct (look_near_all m n Hok Hn) as (chk & E & _ & C). unfold look_near in E.
  pose proof (mid_bits m ((n - 1) / 64) 0 0 Hok ltac:(dlia) ltac:(dlia) ltac:(lia)) as EW. change (64 * 0) with 0 in EW. change (2 ^ 0) with 1 in EW.
  rewrite Z.div_1_r, Z.sub_0_r, Z.add_0_r, Z.mod_1_r, Z.mul_0_l, Z.add_0_l in EW. change (zdrop 0 (ztake ((n - 1) / 64) m)) with (ztake ((n - 1) / 64) m) in EW. rewrite EW in HW.
  rewrite (C HW) in E. clear C EW HW.
  destruct (rm_peek m ((n - 1) / 64) ((n - 1) mod 64) true (n / 64)) as [[[[c1 cc1] rz1] td1] z1].
  destruct (fold_left (scan_word td1) (ztake ((n - 1) / 64) m) (c1, cc1, rz1)) as [[c2 cc2] rz2].
  injection E as -> ->. destruct Hrm as [-> | ->]; match goal with |- context [let '(_, _) := ?q in _] => destruct q end; reflexivity.
Qed.
