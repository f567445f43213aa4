(** The choice of the algorithm, operand balancing and the recursion of the
    multiplication. *)

From Coq Require Import ZArith List Bool Lia.
From Verif Require Import Words IntModel MulModel SpecZ WordsP WordsP2 IntP MulP FftP5.
From Verif Require Export MulToom.
Import ListNotations.
Open Scope Z_scope.
Ltac Zify.zify_post_hook ::= idtac.
Arguments Z.mul : simpl never.
Arguments Z.add : simpl never.
Arguments Z.pow : simpl never.
Arguments Z.sub : simpl never.
Arguments Z.of_nat : simpl never.

Lemma mul_slices_spec f k m1 m2 l3 : mul_good f k -> words_ok m1 -> words_ok m2 ->
  zlen m1 + zlen m2 <= k + 1 -> zlen m1 + zlen m2 <= l3 -> mul_res m1 m2 l3 (mul_slices f m1 m2 l3).
Proof.
  intros Hf H1 H2 Hk Hl. unfold mul_slices.
  destruct (Z.leb_spec (zlen m1) 32); cbn [orb]; [now apply mul_basic_spec|]. destruct (Z.leb_spec (zlen m2) 32); [now apply mul_basic_spec|].
  destruct (Z.leb_spec (zlen m1) 220); cbn [orb]; [eapply toom2_spec; eauto|]. destruct (Z.leb_spec (zlen m2) 220); [eapply toom2_spec; eauto|].
  destruct (Z.leb_spec (zlen m1) 5400); cbn [andb]; [destruct (Z.leb_spec (zlen m2) 5400); [eapply toom3_spec; eauto|]|];
    (destruct (Z.ltb_spec (zlen m1 + zlen m2) (2 ^ 26)); [|now apply mul_basic_spec]; apply fft_mul_ok; auto; try lia;
     intros a b l Wa Wb Hab Hl'; apply Hf; auto; lia).
Qed.

(** ** Balancing *)
Definition chunk (sm lg : words) (lb : Z) : words :=
  ztake ((if lb + zlen sm <=? zlen lg then lb + zlen sm else zlen lg) - lb) (zdrop lb lg).
Fixpoint rest (fuel : nat) (sm lg : words) (lb : Z) : Z :=
  match fuel with
  | O => 0
  | S f => if lb <? zlen lg then 2 ^ (64 * lb) * val (chunk sm lg lb) + rest f sm lg (lb + zlen sm * 2) else 0
  end.

Lemma chunk_ok sm lg lb : words_ok lg -> words_ok (chunk sm lg lb).
Proof. intros. unfold chunk. auto using ok_ztake, ok_zdrop. Qed.
Lemma chunk_len sm lg lb : 0 <= lb < zlen lg -> zlen (chunk sm lg lb) = (if lb + zlen sm <=? zlen lg then lb + zlen sm else zlen lg) - lb.
Proof.
  intros. unfold chunk. pose proof (zlen_nonneg sm). apply zlen_ztake. rewrite zlen_zdrop by lia. destruct (Z.leb_spec (lb + zlen sm) (zlen lg)); lia.
Qed.
Lemma rest_nonneg sm lg : words_ok lg -> forall f lb, 0 <= rest f sm lg lb.
Proof.
  intros H. induction f as [|f IH]; intros lb; cbn [rest]; [lia|]. destruct (lb <? zlen lg); [|lia].
  pose proof (val_nonneg _ (chunk_ok sm lg lb H)). pose proof (pow2_nonneg (64 * lb)).
  pose proof (IH (lb + zlen sm * 2)). assert (0 <= 2 ^ (64 * lb) * val (chunk sm lg lb)) by (apply Z.mul_nonneg_nonneg; auto). lia.
Qed.

Lemma rest_done f sm lg lb : zlen lg <= lb -> rest f sm lg lb = 0.
Proof. intros. destruct f; cbn [rest]; auto. destruct (Z.ltb_spec lb (zlen lg)); auto; lia. Qed.

Lemma rest_all sm lg : words_ok lg -> 0 < zlen sm -> forall f lb, 0 <= lb -> zlen lg - lb < Z.of_nat f ->
  rest f sm lg lb + rest f sm lg (lb + zlen sm) = 2 ^ (64 * lb) * val (zdrop lb lg).
Proof.
  intros Hok Hs. induction f as [|f IH]; intros lb Hlb Hf.
  - cbn [rest]. rewrite zdrop_all by lia. rewrite val_nil. lia.
  - cbn [rest]. destruct (Z.ltb_spec lb (zlen lg)) as [C|C].
    + destruct (Z.ltb_spec (lb + zlen sm) (zlen lg)) as [C2|C2].
      * assert (E1 : val (zdrop lb lg) = val (chunk sm lg lb) + 2 ^ (64 * zlen sm) * val (zdrop (lb + zlen sm) lg)).
        { unfold chunk. destruct (Z.leb_spec (lb + zlen sm) (zlen lg)); [|lia]. replace (lb + zlen sm - lb) with (zlen sm) by lia.
          rewrite (val_take_drop (zlen sm) (zdrop lb lg)) by (rewrite zlen_zdrop; lia). rewrite zdrop_zdrop by lia. do 3 f_equal. f_equal. lia. }
        assert (E2 : val (zdrop (lb + zlen sm) lg) = val (chunk sm lg (lb + zlen sm)) + 2 ^ (64 * zlen sm) * val (zdrop (lb + zlen sm * 2) lg)).
        { unfold chunk. destruct (Z.leb_spec (lb + zlen sm + zlen sm) (zlen lg)).
          - replace (lb + zlen sm + zlen sm - (lb + zlen sm)) with (zlen sm) by lia.
            rewrite (val_take_drop (zlen sm) (zdrop (lb + zlen sm) lg)) by (rewrite zlen_zdrop; lia). rewrite zdrop_zdrop by lia. do 3 f_equal. f_equal. lia.
          - rewrite ztake_all by (rewrite zlen_zdrop; lia). rewrite (zdrop_all (lb + zlen sm * 2)) by lia. rewrite val_nil. lia. }
        specialize (IH (lb + zlen sm * 2) ltac:(lia) ltac:(lia)). replace (lb + zlen sm + zlen sm * 2) with (lb + zlen sm * 2 + zlen sm) by lia.
        rewrite E1, E2. replace (64 * (lb + zlen sm * 2)) with (64 * (lb + (zlen sm + zlen sm))) in IH by ring. rewrite !pow64_add in * by lia.
        lia.
      * rewrite rest_done by lia. unfold chunk. destruct (Z.leb_spec (lb + zlen sm) (zlen lg)).
        -- rewrite ztake_all by (rewrite zlen_zdrop; lia). lia.
        -- rewrite ztake_all by (rewrite zlen_zdrop; lia). lia.
    + destruct (Z.ltb_spec (lb + zlen sm) (zlen lg)); [lia|]. rewrite zdrop_all by lia. rewrite val_nil. lia.
Qed.

Lemma bal_step g k sm lg lb : mul_good g k -> words_ok sm -> words_ok lg -> zlen sm + zlen lg <= k + 1 -> 0 < zlen sm ->
  0 <= lb < zlen lg ->
  let ub := if lb + zlen sm <=? zlen lg then lb + zlen sm else zlen lg in
  exists buf, mul_slices g (ztake (ub - lb) (zdrop lb lg)) sm (2 * zlen sm) = Ok buf /\
    let src := ztake (ub - lb + zlen sm) buf in
    val src = val (chunk sm lg lb) * val sm /\ words_ok src /\ zlen src = ub - lb + zlen sm /\ lb < ub <= zlen lg /\ ub <= lb + zlen sm.
Proof.
  intros Hg Hs Hl Hk Hpos Hlb ub. change (ztake (ub - lb) (zdrop lb lg)) with (chunk sm lg lb).
  pose proof (chunk_len sm lg lb Hlb) as CL. fold ub in CL. pose proof (chunk_ok sm lg lb Hl) as CO.
  assert (Hub : lb < ub <= zlen lg /\ ub <= lb + zlen sm) by (unfold ub; destruct (Z.leb_spec (lb + zlen sm) (zlen lg)); lia).
  clearbody ub. destruct (mul_slices_spec g k (chunk sm lg lb) sm (2 * zlen sm) Hg CO Hs ltac:(lia) ltac:(lia)) as (buf & E & Bv & Bo & Bl).
  exists buf. split; [exact E|]. cbv zeta. pose proof (mul_bound (chunk sm lg lb) sm (ub - lb + zlen sm) CO Hs ltac:(lia)) as HB.
  rewrite val_ztake_fit, zlen_ztake by (auto; lia). split; [exact Bv|]. split; [auto using ok_ztake|]. split; [reflexivity|]. exact Hub.
Qed.

Lemma bal_even g k sm lg l3 : mul_good g k -> words_ok sm -> words_ok lg -> zlen sm + zlen lg <= k + 1 -> zlen sm + zlen lg <= l3 -> 0 < zlen sm ->
  forall f lb ub m3, words_ok m3 -> zlen m3 = l3 -> 0 <= lb -> Z.max 0 (zlen lg - lb) < Z.of_nat f -> 0 <= ub <= zlen lg ->
  val m3 < 2 ^ (64 * lb) -> val m3 < 2 ^ (64 * (ub + zlen sm)) ->
  exists ub' r, bal_loop g f sm lg true lb ub m3 = Ok (ub', r) /\ words_ok r /\ zlen r = l3 /\ val r = val m3 + val sm * rest f sm lg lb /\
    0 <= ub' <= zlen lg /\ val r < 2 ^ (64 * (ub' + zlen sm)).
Proof.
  intros Hg Hs Hl Hk Hl3 Hpos. induction f as [|f IH]; intros lb ub m3 Om Lm Hlb Hf Hub Hv Hvu.
  - exfalso. change (Z.of_nat 0) with 0 in Hf. lia.
  - cbn [bal_loop rest]. destruct (Z.ltb_spec lb (zlen lg)) as [C|C].
    + destruct (bal_step g k sm lg lb Hg Hs Hl Hk Hpos ltac:(lia)) as (buf & E & Sv & So & Sl & U1 & U2). cbv zeta.
      rewrite E. cbn [bind]. set (ub' := if lb + zlen sm <=? zlen lg then lb + zlen sm else zlen lg) in *. clearbody ub'.
      set (src := ztake (ub' - lb + zlen sm) buf) in *. clearbody src. clear E.
      assert (Vd : val (zdrop lb m3) = 0) by (apply val_zdrop_fit; auto; lia).
      assert (Vt : val (ztake lb m3) = val m3) by (apply val_ztake_fit; auto; lia).
      assert (Lt : zlen (ztake lb m3) = lb) by (apply zlen_ztake; lia).
      assert (Ld : zlen (zdrop lb m3) = l3 - lb) by (rewrite zlen_zdrop; lia).
      pose proof (ok_zdrop lb _ Om) as Od. pose proof (ok_ztake lb _ Om) as Ot.
      assert (Vdd : val (zdrop (zlen src) (zdrop lb m3)) = 0) by (apply val_zdrop_fit; auto; [lia|rewrite Vd; apply pow2_gt0; lia]).
      set (m3' := ztake lb m3 ++ src ++ zdrop (zlen src) (zdrop lb m3)).
      assert (O' : words_ok m3') by (apply ok_app; split; auto; apply ok_app; auto using ok_zdrop).
      assert (L' : zlen m3' = l3) by (unfold m3'; rewrite !zlen_app, zlen_zdrop; lia).
      assert (V' : val m3' = val m3 + 2 ^ (64 * lb) * (val (chunk sm lg lb) * val sm)).
      { unfold m3'. rewrite !val_app, Vt, Vdd, Lt, Sv. ring. }
      clearbody m3'. pose proof (val_bound _ So) as Bs. rewrite Sv, Sl in Bs.
      assert (Hnew : val m3' < 2 ^ (64 * (ub' + zlen sm))).
      { rewrite V'. replace (ub' + zlen sm) with (lb + (ub' - lb + zlen sm)) by lia. rewrite pow64_add by lia.
        pose proof (pow2_gt0 (64 * lb) ltac:(lia)). set (X := 2 ^ (64 * (ub' - lb + zlen sm))) in *. set (Y := 2 ^ (64 * lb)) in *.
        set (P := val (chunk sm lg lb) * val sm) in *. clearbody X Y P. assert (Y * (P + 1) <= Y * X) by (apply Z.mul_le_mono_nonneg_l; lia). lia. }
      destruct (IH (lb + zlen sm * 2) ub' m3' O' L') as (u & r & R1 & R2 & R3 & R4 & R5 & R6); auto; try lia.
      { eapply Z.lt_le_trans; [exact Hnew|]. apply Z.pow_le_mono_r; lia. }
      exists u, r. split; [exact R1|]. split; [auto|]. split; [auto|]. split; [|auto]. rewrite R4, V'. ring.
    + exists ub, m3. split; [reflexivity|]. split; [auto|]. split; [auto|]. split; [lia|]. auto.
Qed.

Lemma bal_odd g k sm lg l3 : mul_good g k -> words_ok sm -> words_ok lg -> zlen sm + zlen lg <= k + 1 -> zlen sm + zlen lg <= l3 -> 0 < zlen sm ->
  forall f lb ub m3, words_ok m3 -> zlen m3 = l3 -> 0 <= lb -> Z.max 0 (zlen lg - lb) < Z.of_nat f ->
  val m3 + val sm * rest f sm lg lb < 2 ^ (64 * l3) ->
  exists ub' r, bal_loop g f sm lg false lb ub m3 = Ok (ub', r) /\ words_ok r /\ zlen r = l3 /\ val r = val m3 + val sm * rest f sm lg lb.
Proof.
  intros Hg Hs Hl Hk Hl3 Hpos. induction f as [|f IH]; intros lb ub m3 Om Lm Hlb Hf Hv.
  - exfalso. change (Z.of_nat 0) with 0 in Hf. lia.
  - cbn [bal_loop rest] in *. destruct (Z.ltb_spec lb (zlen lg)) as [C|C].
    + destruct (bal_step g k sm lg lb Hg Hs Hl Hk Hpos ltac:(lia)) as (buf & E & Sv & So & Sl & U1 & U2). cbv zeta.
      rewrite E. cbn [bind]. set (ub' := if lb + zlen sm <=? zlen lg then lb + zlen sm else zlen lg) in *. clearbody ub'.
      set (src := ztake (ub' - lb + zlen sm) buf) in *. clearbody src. clear E.
      pose proof (rest_nonneg sm lg Hl f (lb + zlen sm * 2)) as Pr. pose proof (val_nonneg _ Hs) as Psm.
      assert (Pp : 0 <= val sm * rest f sm lg (lb + zlen sm * 2)) by (apply Z.mul_nonneg_nonneg; auto).
      pose proof (val_take_drop lb m3 ltac:(lia)) as Vtd.
      assert (Lt : zlen (ztake lb m3) = lb) by (apply zlen_ztake; lia).
      assert (Ld : zlen (zdrop lb m3) = l3 - lb) by (rewrite zlen_zdrop; lia).
      pose proof (ok_zdrop lb _ Om) as Od. pose proof (ok_ztake lb _ Om) as Ot. pose proof (val_nonneg _ Ot) as Pt.
      set (P := val (chunk sm lg lb) * val sm) in *.
      assert (EP : val sm * (2 ^ (64 * lb) * val (chunk sm lg lb) + rest f sm lg (lb + zlen sm * 2)) = 2 ^ (64 * lb) * P + val sm * rest f sm lg (lb + zlen sm * 2)) by (unfold P; ring).
      rewrite EP in *. clearbody P.
      assert (Hfit : val (zdrop lb m3) + val src < 2 ^ (64 * zlen (zdrop lb m3))).
      { rewrite Ld, Sv. apply Z.mul_lt_mono_pos_l with (2 ^ (64 * lb)); [apply pow2_gt0; lia|]. rewrite <- pow64_add by lia.
        replace (lb + (l3 - lb)) with l3 by lia. clear - Hv Vtd Pp Pt. lia. }
      destruct (add_assign_fit _ _ Od So Hfit) as (A1 & A2 & A3).
      set (m3' := ztake lb m3 ++ sws_abs_add_assign (zdrop lb m3) src).
      assert (O' : words_ok m3') by (apply ok_app; auto).
      assert (L' : zlen m3' = l3) by (unfold m3'; rewrite !zlen_app, A3; lia).
      assert (V' : val m3' = val m3 + 2 ^ (64 * lb) * P).
      { unfold m3'. rewrite !val_app, A1, Lt, Sv. clear - Vtd. lia. }
      clearbody m3'.
      destruct (IH (lb + zlen sm * 2) ub' m3' O' L') as (u & r & R1 & R2 & R3 & R4); [lia|lia|rewrite V'; clear - Hv; lia|].
      exists u, r. split; [exact R1|]. split; [auto|]. split; [auto|]. rewrite R4, V'. ring.
    + exists ub, m3. split; [reflexivity|]. split; [auto|]. split; [auto|]. lia.
Qed.

Lemma mul_unbalanced_body_spec g k m1 m2 l3 : mul_good g k -> words_ok m1 -> words_ok m2 ->
  zlen m1 + zlen m2 <= k + 1 -> zlen m1 + zlen m2 <= l3 -> mul_res m1 m2 l3 (mul_unbalanced_body g m1 m2 l3).
Proof.
  intros Hg H1 H2 Hk Hl. unfold mul_unbalanced_body.
  assert (G : forall sm lg, words_ok sm -> words_ok lg -> zlen sm + zlen lg <= k + 1 -> zlen sm + zlen lg <= l3 ->
    mul_res sm lg l3 (if (zlen sm <=? zlen lg / 2) && (70 <? zlen sm) then
      do (ub, m3) <- bal_loop g (S (length lg)) sm lg true 0 0 (zeros l3);
      let m3 := if ub + zlen sm <? l3 then ztake (ub + zlen sm) m3 ++ zeros (l3 - (ub + zlen sm)) else m3 in
      do (_, m3) <- bal_loop g (S (length lg)) sm lg false (zlen sm) ub m3; Ok m3
      else mul_slices g sm lg l3)).
  { intros sm lg Hs Hlg Hk' Hl'. pose proof (zlen_nonneg sm) as Zs. pose proof (zlen_nonneg lg) as Zl.
    destruct (Z.leb_spec (zlen sm) (zlen lg / 2)); cbn [andb]; [|eapply mul_slices_spec; eauto].
    destruct (Z.ltb_spec 70 (zlen sm)); [|eapply mul_slices_spec; eauto].
    assert (Hfu : Z.of_nat (S (length lg)) = zlen lg + 1) by (unfold zlen; lia).
    destruct (bal_even g k sm lg l3 Hg Hs Hlg Hk' Hl' ltac:(lia) (S (length lg)) 0 0 (zeros l3) (ok_zeros _)) as (ub & r & -> & Ro & Rl & Rv & Ru & Rb); try lia.
    { apply zlen_zeros; lia. } { rewrite val_zeros. apply pow2_gt0; lia. } { rewrite val_zeros. apply pow2_gt0; lia. }
    cbn [bind]. rewrite val_zeros, Z.add_0_l in Rv. set (r' := if _ <? l3 then _ else r).
    assert (R' : words_ok r' /\ zlen r' = l3 /\ val r' = val r).
    { unfold r'. destruct (Z.ltb_spec (ub + zlen sm) l3); [|auto]. rewrite val_app_zeros, zlen_app, zlen_zeros, zlen_ztake, val_ztake_fit by (auto; lia).
      split; [apply ok_app; auto using ok_ztake, ok_zeros|]. split; [lia|auto]. }
    destruct R' as (Ro' & Rl' & Rv'). clearbody r'. rewrite Rv in Rv'.
    pose proof (rest_all sm lg Hlg ltac:(lia) (S (length lg)) 0 ltac:(lia) ltac:(lia)) as HR. rewrite Z.add_0_l in HR. change (2 ^ (64 * 0)) with 1 in HR. change (zdrop 0 lg) with lg in HR.
    assert (Etot : val r' + val sm * rest (S (length lg)) sm lg (zlen sm) = val sm * val lg) by (rewrite Rv', <- Z.mul_add_distr_l, HR; ring).
    destruct (bal_odd g k sm lg l3 Hg Hs Hlg Hk' Hl' ltac:(lia) (S (length lg)) (zlen sm) ub r' Ro' Rl') as (u & q & -> & Qo & Ql & Qv); try lia.
    { rewrite Etot. apply mul_bound; auto. }
    cbn [bind]. exists q. split; [reflexivity|]. split; [lia|auto]. }
  destruct (Z.ltb_spec (zlen m1) (zlen m2)); [apply G; auto|].
  destruct (G m2 m1) as (r & R1 & R2 & R3); auto; [lia|lia|]. exists r. split; [exact R1|]. split; [lia|exact R3].
Qed.

Lemma mul_unbalanced_fuel_good f : mul_good (mul_unbalanced_fuel f) (Z.of_nat f - 1).
Proof.
  induction f as [|f IH].
  - intros m1 m2 l3 _ _ Hk _. exfalso. pose proof (zlen_nonneg m1). pose proof (zlen_nonneg m2). change (Z.of_nat 0) with 0 in Hk. lia.
  - intros m1 m2 l3 H1 H2 Hk Hl. cbn [mul_unbalanced_fuel]. apply mul_unbalanced_body_spec with (k := Z.of_nat f - 1); auto. lia.
Qed.

(** Multiplication of slices is integer multiplication, for every length. *)
Lemma mul_unbalanced_spec m1 m2 l3 : words_ok m1 -> words_ok m2 -> zlen m1 + zlen m2 <= l3 ->
  exists r, mul_unbalanced m1 m2 l3 = Ok r /\ val r = val m1 * val m2 /\ words_ok r /\ zlen r = l3.
Proof.
  intros H1 H2 Hl. unfold mul_unbalanced. apply mul_unbalanced_fuel_good; auto. unfold zlen. lia.
Qed.
