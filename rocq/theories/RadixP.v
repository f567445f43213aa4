(** Proofs for the digit loops of conv.rs (radix 2, 8, 16). *)

From Coq Require Import ZArith List Bool Lia.
From Verif Require Import Words Mantissa Num Ext Conv SpecZ WordsP WordsP2 Spec Parser SpecText.
Import ListNotations.
Open Scope Z_scope.
Ltac Zify.zify_post_hook ::= idtac.
Arguments Z.mul : simpl never.
Arguments Z.add : simpl never.
Arguments Z.pow : simpl never.
Arguments Z.sub : simpl never.
Arguments Z.of_nat : simpl never.
Ltac dlia := Z.div_mod_to_equations; lia.

(** ** Digit strings *)

(** Value of digits given least significant first. *)
Fixpoint rv (b : Z) (l : list Z) : Z := match l with [] => 0 | d :: t => d + b * rv b t end.

Lemma dig_val_app b x y : dig_val b (x ++ y) = dig_val b x * b ^ zlen y + dig_val b y.
Proof.
  unfold dig_val. rewrite fold_left_app. generalize (fold_left (fun a d => a * b + d) x 0). revert x.
  induction y as [|d t IH]; intros x a; cbn [fold_left].
  - change (zlen []) with 0. rewrite Z.pow_0_r. ring.
  - rewrite (IH x (a * b + d)), (IH x (0 * b + d)). rewrite zlen_cons. pose proof (zlen_nonneg t).
    rewrite Z.pow_add_r, Z.pow_1_r by lia. ring.
Qed.
Lemma dig_val_single b d : dig_val b [d] = d.
Proof. unfold dig_val. cbn [fold_left]. ring. Qed.
Lemma dig_val_nil b : dig_val b [] = 0. Proof. reflexivity. Qed.
Lemma dig_val_cons b d t : dig_val b (d :: t) = d * b ^ zlen t + dig_val b t.
Proof. change (d :: t) with ([d] ++ t). rewrite dig_val_app, dig_val_single. reflexivity. Qed.
Lemma dig_val_rev b l : dig_val b (rev l) = rv b l.
Proof.
  induction l as [|d t IH]; [reflexivity|]. cbn [rev rv]. rewrite dig_val_app, dig_val_single, IH.
  change (zlen [d]) with 1. rewrite Z.pow_1_r. ring.
Qed.
Lemma dig_val_zeros b n : dig_val b (zeros n) = 0.
Proof.
  unfold zeros. induction (Z.to_nat n) as [|k IH]; [reflexivity|]. cbn [repeat]. rewrite dig_val_cons, IH. ring.
Qed.

Lemma dok_app b x y : digits_ok b (x ++ y) <-> digits_ok b x /\ digits_ok b y.
Proof. unfold digits_ok. apply Forall_app. Qed.
Lemma dok_rev b x : digits_ok b x -> digits_ok b (rev x).
Proof. unfold digits_ok. intros H. apply Forall_rev. exact H. Qed.
Lemma dok_cons b d t : digits_ok b (d :: t) <-> 0 <= d < b /\ digits_ok b t.
Proof. unfold digits_ok. split; intros H; [inversion H; auto|constructor; tauto]. Qed.

Lemma dig_val_bound b ds : 1 < b -> digits_ok b ds -> 0 <= dig_val b ds < b ^ zlen ds.
Proof.
  intros Hb. induction ds as [|d t IH]; intros H.
  - rewrite dig_val_nil. change (zlen []) with 0. rewrite Z.pow_0_r. lia.
  - apply dok_cons in H. destruct H as [Hd Ht]. specialize (IH Ht). rewrite dig_val_cons, zlen_cons.
    pose proof (zlen_nonneg t). rewrite Z.pow_add_r, Z.pow_1_r by lia. nia.
Qed.

Lemma dig_val_first b ds : 1 < b -> digits_ok b ds -> ds <> [] -> b ^ (zlen ds - 1) <= dig_val b ds -> hd 0 ds <> 0.
Proof.
  intros Hb H N L E. destruct ds as [|d t]; cbn [hd] in E; [congruence|]. subst d.
  apply dok_cons in H. destruct H as [_ Ht]. pose proof (dig_val_bound b t Hb Ht).
  rewrite dig_val_cons, zlen_cons in L. replace (1 + zlen t - 1) with (zlen t) in L by lia. lia.
Qed.

(** ** Pushing digits and cutting the zeros at the end *)

Definition st_ok (st : list Z * Z) : Prop := snd st = count_zero_words (fst st).

Lemma push_ok st d : st_ok st -> st_ok (push st d).
Proof. unfold st_ok, push. intros H. cbn [fst snd count_zero_words]. destruct (d =? 0); [lia|reflexivity]. Qed.

Lemma czw_spec l : 0 <= count_zero_words l <= zlen l /\
  (forall b, rv b l = b ^ count_zero_words l * rv b (zdrop (count_zero_words l) l)) /\
  (zdrop (count_zero_words l) l = [] \/ hd 0 (zdrop (count_zero_words l) l) <> 0).
Proof.
  induction l as [|d t (IH1 & IH2 & IH3)]; cbn [count_zero_words].
  - split; [change (zlen []) with 0; lia|]. split; [intros; reflexivity|left; reflexivity].
  - rewrite zlen_cons. destruct (Z.eqb_spec d 0) as [->|N].
    + assert (Hd : zdrop (1 + count_zero_words t) (0 :: t) = zdrop (count_zero_words t) t).
      { unfold zdrop. replace (Z.to_nat (1 + count_zero_words t)) with (S (Z.to_nat (count_zero_words t))) by lia. reflexivity. }
      rewrite Hd. split; [lia|]. split; [|exact IH3]. intros b. cbn [rv]. rewrite (IH2 b) at 1.
      rewrite (Z.pow_add_r b 1) by lia. rewrite Z.pow_1_r. ring.
    + pose proof (zlen_nonneg t). split; [lia|]. split; [|right; exact N]. intros b. rewrite Z.pow_0_r. change (zdrop 0 (d :: t)) with (d :: t). ring.
Qed.

(** The digits left after [cut]. *)
Lemma cut_spec b st : st_ok st -> digits_ok b (fst st) ->
  exists n, 0 <= n /\ zlen (cut st) = zlen (fst st) - n /\ rv b (fst st) = b ^ n * dig_val b (cut st) /\
    digits_ok b (cut st) /\ (cut st = [] \/ last (cut st) 0 <> 0).
Proof.
  intros H D. unfold st_ok in H. destruct (czw_spec (fst st)) as (C1 & C2 & C3). set (l := fst st) in *. set (n := count_zero_words l) in *.
  exists n. assert (E : cut st = rev (zdrop n l)).
  { unfold cut. cbv zeta. fold l. rewrite H. fold n. rewrite <- (rev_ztake_zdrop n (rev l)) by (rewrite zlen_rev; lia).
    rewrite rev_involutive. reflexivity. }
  rewrite E. split; [lia|]. split; [rewrite zlen_rev, zlen_zdrop by lia; lia|]. split; [rewrite dig_val_rev; apply C2|].
  split.
  - apply dok_rev. rewrite <- (ztake_zdrop n l) in D. apply dok_app in D. tauto.
  - destruct C3 as [C3|C3]; [left; rewrite C3; reflexivity|right].
    destruct (zdrop n l) as [|a t]; [cbn in C3; congruence|]. cbn [rev]. rewrite last_last. exact C3.
Qed.

(** ** Output in base 2 *)

Lemma push_bits_spec i v : 0 <= v < 2 ^ 64 -> (i <= 64)%nat -> forall st, st_ok st -> digits_ok 2 (fst st) ->
  let st' := push_bits i v st in
  st_ok st' /\ digits_ok 2 (fst st') /\ zlen (fst st') = zlen (fst st) + Z.of_nat i /\
  rv 2 (fst st') = rv 2 (fst st) * 2 ^ Z.of_nat i + v mod 2 ^ Z.of_nat i.
Proof.
  intros Hv. induction i as [|j IH]; intros Hi st H D st'; cbn [push_bits] in st'.
  - unfold st'. change (2 ^ Z.of_nat 0) with 1. rewrite Z.mod_1_r. change (Z.of_nat 0) with 0. repeat split; auto; lia.
  - set (d := Z.land (wshr v (Z.of_nat j)) 1).
    assert (Hd : d = (v / 2 ^ Z.of_nat j) mod 2).
    { unfold d. rewrite wshr_val by lia. change 1 with (Z.ones 1). rewrite Z.land_ones by lia. reflexivity. }
    assert (Bd : 0 <= d < 2) by (rewrite Hd; apply Z.mod_pos_bound; lia).
    destruct (IH ltac:(lia) (push st d) (push_ok st d H)) as (I1 & I2 & I3 & I4).
    { unfold push. cbn [fst]. apply dok_cons. auto. }
    fold d in st'. fold st' in I1, I2, I3, I4. split; [exact I1|]. split; [exact I2|].
    unfold push in I3, I4. cbn [fst] in I3, I4. rewrite zlen_cons in I3. split; [lia|].
    rewrite I4. cbn [rv]. replace (Z.of_nat (S j)) with (Z.of_nat j + 1) by lia. rewrite Z.pow_add_r, Z.pow_1_r by lia.
    rewrite (Z.rem_mul_r v (2 ^ Z.of_nat j) 2) by (try lia; apply Z.pow_nonzero; lia). rewrite <- Hd. ring.
Qed.

Lemma fold_bits_spec l : words_ok l -> forall st, st_ok st -> digits_ok 2 (fst st) ->
  let st' := fold_left (fun st v => push_bits 64 v st) l st in
  st_ok st' /\ digits_ok 2 (fst st') /\ zlen (fst st') = zlen (fst st) + 64 * zlen l /\
  rv 2 (fst st') = rv 2 (fst st) * 2 ^ (64 * zlen l) + val (rev l).
Proof.
  induction l as [|v t IH]; intros Hl st H D st'; cbn [fold_left] in st'.
  - unfold st'. change (zlen []) with 0. change (2 ^ (64 * 0)) with 1. cbn [rev]. rewrite val_nil. repeat split; auto; lia.
  - apply ok_cons in Hl. destruct Hl as [Hv Ht].
    destruct (push_bits_spec 64 v Hv ltac:(lia) st H D) as (P1 & P2 & P3 & P4).
    destruct (IH Ht _ P1 P2) as (I1 & I2 & I3 & I4). fold st' in I1, I2, I3, I4.
    split; [exact I1|]. split; [exact I2|]. rewrite zlen_cons. split; [rewrite I3, P3; change (Z.of_nat 64) with 64; ring|].
    rewrite I4, P4. change (Z.of_nat 64) with 64. rewrite (Z.mod_small v) by exact Hv. rewrite val_rev_cons.
    rewrite pow64_succ by apply zlen_nonneg. ring.
Qed.

(** ** Output in base 2^k *)

Lemma cm_out_spec k V : 0 < k <= 8 -> 0 <= V -> forall f rest d done st,
  let R := 64 * zlen rest + done + k in
  words_ok rest -> 0 <= done -> done + k <= 127 -> st_ok st -> digits_ok (2 ^ k) (fst st) -> R <= Z.of_nat f * k -> 0 <= d < 2 ^ 128 ->
  rv (2 ^ k) (fst st) = V / 2 ^ R -> d mod 2 ^ (done + k) = (V / 2 ^ (64 * zlen rest)) mod 2 ^ (done + k) ->
  val (rev rest) = V mod 2 ^ (64 * zlen rest) ->
  exists d' done' st', cm_out f k d done rest st = Ok (d', done', st') /\ 0 <= done' < k /\ st_ok st' /\ digits_ok (2 ^ k) (fst st') /\
    rv (2 ^ k) (fst st') = V / 2 ^ done' /\ d' mod 2 ^ (done' + 64) = (V mod 2 ^ done') * 2 ^ 64 /\ 0 <= d' /\
    k * zlen (fst st') + done' = k * zlen (fst st) + R /\ zlen (fst st) < zlen (fst st').
Proof.
  intros Hk HV. induction f as [|f IH]; intros rest d done st R Hok Hd0 Hd1 Hst D F Bd Hrv Hd Hr.
  { exfalso. unfold R in F. pose proof (zlen_nonneg rest). change (Z.of_nat 0 * k) with 0 in F. lia. }
  cbn [cm_out]. pose proof (zlen_nonneg rest) as Hlr. replace (Z.of_nat (S f) * k) with (Z.of_nat f * k + k) in F by (rewrite Nat2Z.inj_succ; ring).
  set (dg := Z.land (wshr d done) (2 ^ k - 1)).
  assert (P0 : 0 < 2 ^ k) by (apply pow2_gt0; lia). assert (P1 : 0 < 2 ^ done) by (apply pow2_gt0; lia).
  assert (P2 : 0 < 2 ^ (64 * zlen rest)) by (apply pow2_gt0; lia).
  assert (Edg : dg = (V / 2 ^ (64 * zlen rest + done)) mod 2 ^ k).
  { unfold dg. rewrite wshr_val by lia. replace (2 ^ k - 1) with (Z.ones k) by (rewrite Z.ones_equiv; lia). rewrite Z.land_ones by lia.
    rewrite (Z.pow_add_r 2 (64 * zlen rest)) by lia. rewrite <- Z.div_div by lia.
    set (V' := V / 2 ^ (64 * zlen rest)) in *. rewrite Z.pow_add_r in Hd by lia.
    rewrite (Z.rem_mul_r d), (Z.rem_mul_r V') in Hd by lia.
    pose proof (Z.mod_pos_bound d (2 ^ done) P1). pose proof (Z.mod_pos_bound V' (2 ^ done) P1).
    clear - Hd P1 H H0. set (x := (d / 2 ^ done) mod 2 ^ k) in *. set (y := (V' / 2 ^ done) mod 2 ^ k) in *. nia. }
  assert (Bdg : 0 <= dg < 2 ^ k) by (rewrite Edg; apply Z.mod_pos_bound; lia).
  assert (Hrv' : rv (2 ^ k) (fst (push st dg)) = V / 2 ^ (64 * zlen rest + done)).
  { unfold push. cbn [fst rv]. rewrite Hrv, Edg. unfold R. rewrite (Z.pow_add_r 2 (64 * zlen rest + done)) by lia.
    rewrite <- Z.div_div by (try lia; apply pow2_gt0; lia).
    rewrite (Z.div_mod (V / 2 ^ (64 * zlen rest + done)) (2 ^ k)) at 3 by lia. ring. }
  assert (S' : st_ok (push st dg)) by (apply push_ok; exact Hst).
  assert (D' : digits_ok (2 ^ k) (fst (push st dg))) by (unfold push; cbn [fst]; apply dok_cons; auto).
  assert (L' : zlen (fst (push st dg)) = 1 + zlen (fst st)) by (unfold push; cbn [fst]; apply zlen_cons).
  assert (Hdlow : forall j, 0 <= j <= done + k -> d mod 2 ^ j = (V / 2 ^ (64 * zlen rest)) mod 2 ^ j).
  { intros j Hj. rewrite <- (mod_mod_pow d j (done + k)), <- (mod_mod_pow (V / _) j (done + k)) by lia. rewrite Hd. reflexivity. }
  destruct (Z.ltb_spec done k) as [Hlt|Hge].
  - assert (Hd2 : (Z.shiftl d 64 mod (WORD_BASE * WORD_BASE)) mod 2 ^ (done + 64) = (d mod 2 ^ done) * 2 ^ 64).
    { change (WORD_BASE * WORD_BASE) with (2 ^ 128). rewrite mod_mod_pow by lia. rewrite Z.shiftl_mul_pow2 by lia.
      rewrite Z.pow_add_r by lia. rewrite Z.mul_mod_distr_r by lia. reflexivity. }
    destruct rest as [|v t].
    + exists (Z.shiftl d 64 mod (WORD_BASE * WORD_BASE)), done, (push st dg). split; [reflexivity|].
      change (zlen []) with 0 in *. replace (64 * 0 + done) with done in Hrv' by lia.
      split; [lia|]. split; [exact S'|]. split; [exact D'|]. split; [exact Hrv'|]. split.
      { rewrite Hd2. rewrite (Hdlow done) by lia. change (2 ^ (64 * 0)) with 1. rewrite Z.div_1_r. reflexivity. }
      split; [apply Z.mod_pos_bound; reflexivity|]. unfold R. rewrite L'. lia.
    + apply ok_cons in Hok. destruct Hok as [Hv Ht]. rewrite zlen_cons in *. set (lt := zlen t) in *. assert (0 <= lt) by apply zlen_nonneg.
      assert (P3 : 0 < 2 ^ (64 * lt)) by (apply pow2_gt0; lia).
      set (d2 := Z.shiftl d 64 mod (WORD_BASE * WORD_BASE)) in *.
      assert (B2 : 0 <= d2 < 2 ^ 128) by (apply Z.mod_pos_bound; reflexivity).
      assert (M2 : d2 mod 2 ^ 64 = 0).
      { rewrite <- (mod_mod_pow d2 64 (done + 64)) by lia. rewrite Hd2. apply Z.mod_mul. lia. }
      rewrite val_rev_cons in Hr. fold lt in Hr. pose proof (val_bound _ (ok_rev _ Ht)) as Bt. rewrite zlen_rev in Bt. fold lt in Bt.
      replace (64 * (1 + lt)) with (64 * lt + 64) in Hr by lia. rewrite Z.pow_add_r, (Z.rem_mul_r V) in Hr by lia.
      assert (Hr1 : val (rev t) = V mod 2 ^ (64 * lt) /\ v = (V / 2 ^ (64 * lt)) mod 2 ^ 64).
      { pose proof (Z.mod_pos_bound V (2 ^ (64 * lt)) P3). clear - Hr Bt H0 P3. set (x := (V / 2 ^ (64 * lt)) mod 2 ^ 64) in *. set (y := V mod 2 ^ (64 * lt)) in *. set (P := 2 ^ (64 * lt)) in *. clearbody x y P. assert (v = x) by nia. subst. lia. }
      destruct Hr1 as [Hr1 Hr2].
      assert (El : Z.lor d2 v = d2 + v) by (apply (lor_disjoint_add d2 v 64); [lia|exact M2|exact Hv]).
      rewrite El.
      destruct (IH t (d2 + v) (done + 64 - k) (push st dg)) as (d' & done' & st' & Q0 & Q1 & Q2 & Q3 & Q4 & Q5 & Q6 & Q7 & Q8); try assumption; try lia.
      * fold lt. unfold R in F. rewrite ?zlen_cons in F. fold lt in F. lia.
      * split; [lia|]. assert (d2 = 2 ^ 64 * (d2 / 2 ^ 64)) by (apply Z.div_exact; [lia|exact M2]).
        assert (d2 / 2 ^ 64 < 2 ^ 64) by (apply Z.div_lt_upper_bound; [lia|]; change (2 ^ 64 * 2 ^ 64) with (2 ^ 128); lia).
        change (2 ^ 128) with (2 ^ 64 * 2 ^ 64). nia.
      * fold lt. rewrite Hrv'. f_equal. f_equal. lia.
      * fold lt. replace (done + 64 - k + k) with (done + 64) by lia.
        rewrite (Z.pow_add_r 2 done 64) by lia. rewrite Z.mul_comm.
        rewrite (Z.rem_mul_r (V / 2 ^ (64 * lt))) by lia. rewrite <- Hr2.
        rewrite Z.div_div by lia. rewrite <- (Z.pow_add_r 2 (64 * lt)) by lia. replace (64 * lt + 64) with (64 * (1 + lt)) by lia.
        rewrite <- (Hdlow done) by lia.
        rewrite Z.mul_comm in Hd2.
        assert (E2 : (d2 + v) mod (2 ^ 64 * 2 ^ done) = (d2 mod 2 ^ (done + 64) + v) mod (2 ^ 64 * 2 ^ done)).
        { rewrite (Z.mul_comm (2 ^ 64)), <- Z.pow_add_r by lia. rewrite Zplus_mod_idemp_l. reflexivity. }
        rewrite E2, Hd2. rewrite Z.add_comm. apply Z.mod_small.
        pose proof (Z.mod_pos_bound d (2 ^ done) P1). clear -H0 Hv P1. nia.
      * exists d', done', st'. split; [exact Q0|]. repeat (split; [assumption|]). fold lt in Q7. unfold R. rewrite ?zlen_cons. fold lt. rewrite L' in *. split; lia.
  - destruct (IH rest d (done - k) (push st dg)) as (d' & done' & st' & Q0 & Q1 & Q2 & Q3 & Q4 & Q5 & Q6 & Q7 & Q8); try assumption; try lia.
    + rewrite Hrv'. f_equal. f_equal. lia.
    + apply Hdlow. lia.
    + exists d', done', st'. split; [exact Q0|]. repeat (split; [assumption|]). unfold R. rewrite L' in *. split; lia.
Qed.

Lemma div_mod_pow a i k : 0 <= i -> 0 <= k -> (a / 2 ^ i) mod 2 ^ k = (a mod 2 ^ (i + k)) / 2 ^ i.
Proof.
  intros Hi Hk. assert (0 < 2 ^ i) by (apply pow2_gt0; lia). assert (0 < 2 ^ k) by (apply pow2_gt0; lia).
  rewrite Z.pow_add_r, (Z.rem_mul_r a) by lia. rewrite (Z.mul_comm (2 ^ i)), Z.div_add by lia.
  rewrite (Z.div_small (a mod 2 ^ i)) by (apply Z.mod_pos_bound; lia). lia.
Qed.

Lemma pow_pow b k n : 0 <= k -> 0 <= n -> b = 2 ^ k -> b ^ n = 2 ^ (k * n).
Proof. intros Hk Hn ->. rewrite <- Z.pow_mul_r by lia. reflexivity. Qed.

Lemma conv_to_commensurable_spec x k : words_ok (mm (nm x)) -> 0 < wlen x -> 1 < k <= 8 ->
  exists ds e es, conv_to_commensurable x k = Ok (ns x, ds, e) /\ digits_ok (2 ^ k) ds /\ (ds = [] \/ last ds 0 <> 0) /\
    k * e = ne x + es /\ 0 <= es < k /\
    dig_val (2 ^ k) ds * 2 ^ (64 * wlen x + es) = magnitude x * 2 ^ (k * zlen ds).
Proof.
  intros Hok HL Hk. unfold conv_to_commensurable.
  set (es0 := Z.abs (ne x) mod k). set (e0 := Z.quot (ne x) k).
  assert (B0 : 0 <= es0 < k) by (apply Z.mod_pos_bound; lia).
  assert (Hes : exists es e, (if negb (es0 =? 0) && (0 <? ne x) then (k - es0, e0 + 1) else (es0, e0)) = (es, e) /\ k * e = ne x + es /\ 0 <= es < k).
  { unfold es0, e0 in *. destruct (Z.ltb_spec 0 (ne x)) as [Hp|Hn].
    - rewrite Z.abs_eq in * by lia. rewrite Z.quot_div_nonneg by lia. pose proof (Z.div_mod (ne x) k ltac:(lia)).
      destruct (Z.eqb_spec (ne x mod k) 0) as [E|E]; cbn [negb andb].
      + eexists _, _. split; [reflexivity|]. rewrite E in *. lia.
      + eexists _, _. split; [reflexivity|]. lia.
    - rewrite andb_false_r. eexists _, _. split; [reflexivity|]. rewrite Z.abs_neq in * by lia.
      replace (Z.quot (ne x) k) with (- (- ne x / k)) by (rewrite <- Z.quot_div_nonneg by lia; rewrite Z.quot_opp_l by lia; lia).
      pose proof (Z.div_mod (- ne x) k ltac:(lia)). lia. }
  destruct Hes as (es & e & -> & He1 & He2).
  destruct (rev (mm (nm x))) as [|d rest] eqn:Er.
  { exfalso. unfold wlen in HL. rewrite <- zlen_rev, Er in HL. change (zlen []) with 0 in HL. lia. }
  assert (Hokr : words_ok (d :: rest)) by (rewrite <- Er; apply ok_rev; exact Hok). apply ok_cons in Hokr. destruct Hokr as [Hd Hrest].
  assert (Hlen : wlen x = 1 + zlen rest) by (unfold wlen; rewrite <- zlen_rev, Er; apply zlen_cons).
  pose proof (zlen_nonneg rest) as Hlr.
  assert (HV : magnitude x = val (rev rest) + 2 ^ (64 * zlen rest) * d).
  { unfold magnitude. rewrite <- (rev_involutive (mm (nm x))), Er. apply val_rev_cons. }
  pose proof (val_bound _ (ok_rev _ Hrest)) as Br. rewrite zlen_rev in Br.
  pose proof (val_bound _ Hok) as BV. fold (magnitude x) in BV. fold (wlen x) in BV.
  assert (P0 : 0 < 2 ^ (64 * zlen rest)) by (apply pow2_gt0; lia).
  assert (Q1 : magnitude x / 2 ^ (64 * zlen rest) = d).
  { rewrite HV. symmetry. apply (Z.div_unique _ _ d (val (rev rest))); lia. }
  assert (Q2 : magnitude x mod 2 ^ (64 * zlen rest) = val (rev rest)).
  { rewrite HV. symmetry. apply (Z.mod_unique _ _ d (val (rev rest))); lia. }
  set (V := magnitude x) in *.
  destruct (cm_out_spec k V ltac:(lia) ltac:(lia) (64 * length (mm (nm x))) rest d (64 - k + es) ([], 0)) as (d' & done & st & O1 & O2 & O3 & O4 & O5 & O6 & O7 & O8 & O9); [exact Hrest|lia|lia|reflexivity|constructor|..].
  - assert (Z.of_nat (64 * length (mm (nm x))) = 64 * wlen x) by (unfold wlen, zlen; lia). rewrite H, Hlen. nia.
  - split; [lia|]. apply Z.lt_trans with (2 ^ 64); [lia|reflexivity].
  - cbn [fst rv]. symmetry. apply Z.div_small. split; [lia|]. eapply Z.lt_le_trans; [apply BV|]. apply Z.pow_le_mono_r; lia.
  - rewrite Q1. reflexivity.
  - symmetry. exact Q2.
  - rewrite O1. cbn [bind]. cbn [fst zlen] in O8. change (zlen []) with 0 in *.
    assert (H8 : k * zlen (fst st) + done = 64 * wlen x + es) by (cbn [fst] in O8; change (zlen []) with 0 in O8; lia). clear O8.
    assert (Pd : 0 < 2 ^ done) by (apply pow2_gt0; lia).
    set (dg := Z.land (wshr d' (if done <? k then done + 64 - k else done)) (2 ^ k - 1)).
    assert (Edg : dg = (V mod 2 ^ done) * 2 ^ (k - done)).
    { unfold dg. replace (done <? k) with true by lia. rewrite wshr_val by lia. replace (2 ^ k - 1) with (Z.ones k) by (rewrite Z.ones_equiv; lia).
      rewrite Z.land_ones by lia. rewrite div_mod_pow by lia. replace (done + 64 - k + k) with (done + 64) by lia. rewrite O6.
      replace (2 ^ 64) with (2 ^ (k - done) * 2 ^ (done + 64 - k)) by (rewrite <- Z.pow_add_r by lia; f_equal; lia).
      rewrite Z.mul_assoc. apply Z.div_mul. apply Z.pow_nonzero; lia. }
    assert (Pk : 0 < 2 ^ (k - done)) by (apply pow2_gt0; lia).
    pose proof (Z.mod_pos_bound V (2 ^ done) Pd) as Bm.
    pose proof (Z.div_mod V (2 ^ done) ltac:(lia)) as DM.
    pose proof (zlen_nonneg (fst st)) as Hl. assert (Hl1 : 0 <= k * zlen (fst st)) by (apply Z.mul_nonneg_nonneg; lia).
    set (st2 := if 0 <? done then if 0 <? dg then (dg :: fst st, 0) else st else st).
    assert (Hst2 : st_ok st2 /\ digits_ok (2 ^ k) (fst st2) /\ rv (2 ^ k) (fst st2) * 2 ^ (64 * wlen x + es) = V * 2 ^ (k * zlen (fst st2))).
    { assert (Hz : V mod 2 ^ done = 0 -> rv (2 ^ k) (fst st) * 2 ^ (64 * wlen x + es) = V * 2 ^ (k * zlen (fst st))).
      { intros Hz. rewrite <- H8, Z.pow_add_r by lia. rewrite O5. rewrite Hz in DM. rewrite DM at 2. ring. }
      unfold st2. destruct (Z.ltb_spec 0 done) as [Hdp|Hd0].
      2:{ split; [exact O3|]. split; [exact O4|]. apply Hz. replace done with 0 by lia. apply Z.mod_1_r. }
      destruct (Z.ltb_spec 0 dg) as [Hg|Hg].
      - cbn [fst]. split; [unfold st_ok; cbn [fst snd count_zero_words]; replace (dg =? 0) with false by lia; reflexivity|].
        split.
        + apply dok_cons. split; [|exact O4]. split; [lia|]. rewrite Edg. replace (2 ^ k) with (2 ^ done * 2 ^ (k - done)) by (rewrite <- Z.pow_add_r by lia; f_equal; lia). apply Z.mul_lt_mono_pos_r; lia.
        + cbn [rv]. rewrite Edg, O5, zlen_cons. rewrite <- H8. rewrite Z.mul_add_distr_l, Z.mul_1_r.
          rewrite (Z.pow_add_r 2 k), (Z.pow_add_r 2 (k * _) done) by lia.
          replace (2 ^ k) with (2 ^ done * 2 ^ (k - done)) by (rewrite <- Z.pow_add_r by lia; f_equal; lia).
          rewrite DM at 3. ring.
      - split; [exact O3|]. split; [exact O4|]. apply Hz. clear - Hg Edg Pk Bm. nia. }
    destruct Hst2 as (S1 & S2 & S3). destruct (cut_spec (2 ^ k) st2 S1 S2) as (c & C0 & C1 & C2 & C3 & C4).
    exists (cut st2), e, es. split; [reflexivity|]. split; [exact C3|]. split; [exact C4|]. split; [lia|]. split; [lia|].
    rewrite C2 in S3. rewrite (pow_pow (2 ^ k) k c) in S3 by (try reflexivity; lia).
    replace (zlen (fst st2)) with (zlen (cut st2) + c) in S3 by lia. rewrite Z.mul_add_distr_l in S3.
    pose proof (zlen_nonneg (cut st2)). assert (0 <= k * zlen (cut st2)) by (apply Z.mul_nonneg_nonneg; lia). assert (0 <= k * c) by (apply Z.mul_nonneg_nonneg; lia).
    rewrite (Z.pow_add_r 2 (k * zlen (cut st2))) in S3 by lia.
    apply (Z.mul_cancel_l _ _ (2 ^ (k * c))); [apply Z.pow_nonzero; lia|].
    rewrite Z.mul_assoc, S3. ring.
Qed.

Lemma conv_to_binary_spec x : words_ok (mm (nm x)) ->
  exists ds, conv_to_binary x = Ok (ns x, ds, ne x) /\ digits_ok 2 ds /\ (ds = [] \/ last ds 0 <> 0) /\
    dig_val 2 ds * 2 ^ (64 * wlen x) = magnitude x * 2 ^ zlen ds.
Proof.
  intros Hok. unfold conv_to_binary.
  destruct (fold_bits_spec (rev (mm (nm x))) (ok_rev _ Hok) ([], 0) eq_refl) as (S1 & S2 & S3 & S4); [constructor|].
  cbn [fst rv] in S3, S4. rewrite zlen_rev in S3, S4. rewrite rev_involutive in S4. change (zlen []) with 0 in S3. fold (wlen x) in S3, S4. fold (magnitude x) in S4.
  set (st := fold_left _ _ _) in *. destruct (cut_spec 2 st S1 S2) as (c & C0 & C1 & C2 & C3 & C4).
  exists (cut st). split; [reflexivity|]. split; [exact C3|]. split; [exact C4|].
  rewrite S4 in C2. replace (64 * wlen x) with (zlen (cut st) + c) by lia. pose proof (zlen_nonneg (cut st)).
  rewrite Z.pow_add_r by lia. replace (magnitude x) with (2 ^ c * dig_val 2 (cut st)) by lia. ring.
Qed.

(** ** Input in base 2 *)

Lemma bin_fill_spec ds : forall d shift room acc, digits_ok 2 ds -> 0 <= shift < 64 -> 0 <= d < 2 ^ shift -> 0 <= room ->
  words_ok acc -> shift + zlen ds = 64 * room ->
  exists w, bin_fill ds d shift room acc = Ok w /\ words_ok w /\ zlen w = zlen acc + room /\
    val w = val (rev acc) + 2 ^ (64 * zlen acc) * (d + 2 ^ shift * rv 2 ds).
Proof.
  induction ds as [|v t IH]; intros d shift room acc D Hs Hd Hr Ha Hl; cbn [bin_fill].
  - change (zlen []) with 0 in Hl. assert (shift = 0) by lia. subst shift. assert (room = 0) by lia. subst room.
    change (2 ^ 0) with 1 in *. cbn [Z.ltb Z.compare]. eexists. split; [reflexivity|]. rewrite zeros_0 by lia. rewrite app_nil_r.
    split; [apply ok_rev; exact Ha|]. split; [rewrite zlen_rev; lia|]. cbn [rv]. replace d with 0 by lia. ring.
  - apply dok_cons in D. destruct D as [Dv Dt]. rewrite zlen_cons in Hl. pose proof (zlen_nonneg t) as Hlt.
    replace (1 <? v) with false by lia. cbv zeta.
    assert (Ps : 0 < 2 ^ shift) by (apply pow2_gt0; lia).
    assert (Esh : wshl v shift = v * 2 ^ shift).
    { rewrite wshl_val by lia. apply Z.mod_small. split; [nia|]. assert (2 ^ (shift + 1) <= 2 ^ 64) by (apply Z.pow_le_mono_r; lia).
      rewrite Z.pow_add_r, Z.pow_1_r in H by lia. nia. }
    assert (El : Z.lor d (wshl v shift) = d + 2 ^ shift * v).
    { rewrite Esh, Z.lor_comm, (lor_disjoint_add _ d shift) by (try lia; apply Z.mod_mul; lia). lia. }
    rewrite El. assert (Bd : 0 <= d + 2 ^ shift * v < 2 ^ (shift + 1)) by (rewrite Z.pow_add_r, Z.pow_1_r by lia; nia).
    cbn [rv]. destruct (Z.eqb_spec (shift + 1) 64) as [E|E].
    + replace (room =? 0) with false by lia.
      destruct (IH 0 0 (room - 1) (d + 2 ^ shift * v :: acc)) as (w & W1 & W2 & W3 & W4); try assumption; try lia.
      { rewrite E in Bd. apply ok_cons. split; [exact Bd|exact Ha]. }
      exists w. split; [exact W1|]. split; [exact W2|]. rewrite zlen_cons in W3. split; [lia|]. rewrite W4.
      change (rev (d + 2 ^ shift * v :: acc)) with (rev acc ++ [d + 2 ^ shift * v]).
      rewrite val_app, zlen_rev, val_single, zlen_cons. pose proof (zlen_nonneg acc). rewrite pow64_succ by lia. change (2 ^ 0) with 1.
      replace (2 ^ 64) with (2 * 2 ^ shift) by (rewrite <- E, Z.pow_add_r, Z.pow_1_r by lia; ring). ring.
    + destruct (IH (d + 2 ^ shift * v) (shift + 1) room acc) as (w & W1 & W2 & W3 & W4); try assumption; try lia.
      exists w. split; [exact W1|]. split; [exact W2|]. split; [lia|]. rewrite W4. rewrite (Z.pow_add_r 2 shift 1), Z.pow_1_r by lia. ring.
Qed.

Lemma bin_fill_bad ds : forall d shift room acc, 0 <= shift < 64 -> 0 <= room -> shift + zlen ds <= 64 * room ->
  Exists (fun v => 1 < v) ds -> bin_fill ds d shift room acc = Err InvalidArgument.
Proof.
  induction ds as [|v t IH]; intros d shift room acc Hs Hr Hl H; [inversion H|]. cbn [bin_fill]. rewrite zlen_cons in Hl. pose proof (zlen_nonneg t).
  destruct (Z.ltb_spec 1 v) as [Hv|Hv]; [reflexivity|]. inversion H; subst; [lia|]. cbv zeta.
  destruct (Z.eqb_spec (shift + 1) 64).
  - replace (room =? 0) with false by lia. apply IH; try lia; assumption.
  - apply IH; try lia; assumption.
Qed.

(** ** Input in base 2^k *)

Lemma sig_steps_spec k : 0 < k <= 4 -> forall v, 0 < v < 2 ^ k ->
  2 ^ (k - 1) <= v * 2 ^ sig_steps 8 (2 ^ (k - 1)) v < 2 ^ k /\ 0 <= sig_steps 8 (2 ^ (k - 1)) v < k.
Proof.
  intros Hk v Hv. assert (k = 1 \/ k = 2 \/ k = 3 \/ k = 4) as [->|[->|[->| ->]]] by lia.
  - change (2 ^ 1) with 2 in *. assert (v = 1) by lia. subst. vm_compute. intuition congruence.
  - change (2 ^ 2) with 4 in *. assert (v = 1 \/ v = 2 \/ v = 3) as [->|[->| ->]] by lia; vm_compute; intuition congruence.
  - change (2 ^ 3) with 8 in *. assert (v = 1 \/ v = 2 \/ v = 3 \/ v = 4 \/ v = 5 \/ v = 6 \/ v = 7) as E by lia.
    repeat (destruct E as [->|E]; [vm_compute; intuition congruence|]). subst. vm_compute. intuition congruence.
  - change (2 ^ 4) with 16 in *. assert (v = 1 \/ v = 2 \/ v = 3 \/ v = 4 \/ v = 5 \/ v = 6 \/ v = 7 \/ v = 8 \/ v = 9 \/ v = 10 \/ v = 11 \/ v = 12 \/ v = 13 \/ v = 14 \/ v = 15) as E by lia.
    repeat (destruct E as [->|E]; [vm_compute; intuition congruence|]). subst. vm_compute. intuition congruence.
Qed.

Lemma cm_scan_spec k ds : 0 < k <= 4 -> forall z0 es0, Forall (fun v => 0 <= v) ds ->
  (exists z v t, ds = zeros z ++ v :: t /\ 0 <= z /\ 0 < v /\
     (v < 2 ^ k -> cm_scan k ds z0 es0 = Ok (z0 + z, es0 - k * z - sig_steps 8 (2 ^ (k - 1)) v, sig_steps 8 (2 ^ (k - 1)) v)) /\
     (2 ^ k <= v -> cm_scan k ds z0 es0 = Err InvalidArgument)) \/
  (ds = zeros (zlen ds) /\ cm_scan k ds z0 es0 = Ok (z0 + zlen ds, es0 - k * zlen ds, 0)).
Proof.
  intros Hk. induction ds as [|v t IH]; intros z0 es0 D; cbn [cm_scan].
  - right. split; [reflexivity|]. change (zlen []) with 0. do 3 f_equal; lia.
  - inversion D as [|? ? Dv Dt]; subst. pose proof (zlen_nonneg t).
    destruct (Z.eqb_spec v 0) as [->|N].
    + destruct (IH (z0 + 1) (es0 - k) Dt) as [(z & v & t' & E & Hz & Hv & H1 & H2)|(E & H1)].
      * left. exists (1 + z), v, t'. split; [rewrite zeros_succ by lia; rewrite E; reflexivity|]. split; [lia|]. split; [exact Hv|].
        split; [intros L; rewrite (H1 L); do 3 f_equal; lia|exact H2].
      * right. rewrite zlen_cons. split; [rewrite zeros_succ by lia; rewrite <- E; reflexivity|]. rewrite H1. do 3 f_equal; lia.
    + left. exists 0, v, t. split; [reflexivity|]. split; [lia|]. split; [lia|].
      split; intros L; [replace (2 ^ k <=? v) with false by lia; do 3 f_equal; lia|replace (2 ^ k <=? v) with true by lia; reflexivity].
Qed.

(** The words produced by the filling loop.  [A] is the number read so far and
    [Bb] the number of bits used for it. *)
Lemma cm_fill_spec k ds : 0 < k <= 8 -> forall filled d room acc A,
  let Bb := 64 * zlen acc + filled - k in
  digits_ok (2 ^ k) ds -> 0 < filled <= 64 + k -> words_ok acc -> 0 <= d < 2 ^ 64 -> 0 <= room -> 0 <= A ->
  (filled < k -> A = 0 /\ acc = [] /\ d = 0 /\ (ds = [] \/ hd 0 ds < 2 ^ filled)) ->
  (k <= filled -> d + 2 ^ 64 * val acc = A * 2 ^ (64 * (zlen acc + 1) - Bb)) ->
  Bb + k * zlen ds + 64 <= 64 * (zlen acc + room) -> ds <> [] \/ k <= filled ->
  exists w, cm_fill k ds filled d room acc = Ok w /\ words_ok w /\ zlen w = zlen acc + room /\
    val w = dig_val (2 ^ k) ds * 2 ^ (64 * zlen w - (Bb + k * zlen ds)) + A * 2 ^ (k * zlen ds) * 2 ^ (64 * zlen w - (Bb + k * zlen ds)).
Proof.
  intros Hk. induction ds as [|v t IH]; intros filled d room acc A Bb D Hf Ha Hd Hr HA Hini Hinv Hcap Hne; cbn [cm_fill].
  - destruct Hne as [Hne|Hne]; [congruence|]. specialize (Hinv Hne). change (zlen []) with 0 in *. rewrite dig_val_nil.
    replace (Bb + k * 0) with Bb in * by lia. replace (k * 0) with 0 by lia. change (2 ^ 0) with 1. pose proof (zlen_nonneg acc) as Hla.
    assert (Hroom : 0 < room) by (unfold Bb in Hcap; lia).
    exists (cm_end d room acc). split; [reflexivity|]. unfold cm_end. replace (room =? 0) with false by lia. cbn [negb]. rewrite andb_true_r.
    destruct (Z.ltb_spec 0 d) as [Hd0|Hd0].
    + assert (Hl : zlen (zeros (room - 1) ++ d :: acc) = zlen acc + room) by (rewrite zlen_app, zlen_cons, zlen_zeros by lia; lia).
      split; [apply ok_app; split; [apply ok_zeros|apply ok_cons; auto]|]. split; [exact Hl|]. rewrite Hl.
      rewrite val_zeros_app, val_cons by lia. rewrite Hinv.
      replace (64 * (zlen acc + room) - Bb) with (64 * (room - 1) + (64 * (zlen acc + 1) - Bb)) by lia.
      rewrite (Z.pow_add_r 2 (64 * (room - 1))) by (unfold Bb; lia). ring.
    + assert (Hl : zlen (zeros room ++ acc) = zlen acc + room) by (rewrite zlen_app, zlen_zeros by lia; lia).
      split; [apply ok_app; split; [apply ok_zeros|auto]|]. split; [exact Hl|]. rewrite Hl.
      rewrite val_zeros_app by lia. assert (d = 0) by lia. subst d.
      replace (64 * (zlen acc + room) - Bb) with (64 * (room - 1) + (64 * (zlen acc + 1) - Bb)) by lia.
      rewrite (Z.pow_add_r 2 (64 * (room - 1))) by (unfold Bb; lia).
      replace (2 ^ (64 * room)) with (2 ^ (64 * (room - 1)) * 2 ^ 64) by (rewrite <- Z.pow_add_r by lia; f_equal; lia).
      replace (2 ^ (64 * (room - 1)) * 2 ^ 64 * val acc) with (2 ^ (64 * (room - 1)) * (0 + 2 ^ 64 * val acc)) by ring. rewrite Hinv. ring.
  - apply dok_cons in D. destruct D as [Dv Dt]. rewrite zlen_cons in Hcap |- *. pose proof (zlen_nonneg t) as Hlt. pose proof (zlen_nonneg acc) as Hla.
    replace (2 ^ k <=? v) with false by lia. assert (Pk : 0 < 2 ^ k) by (apply pow2_gt0; lia).
    assert (Hvf : v < 2 ^ filled /\ d mod 2 ^ (Z.max 0 (64 - filled + k)) = 0 \/ (k <= filled /\ d mod 2 ^ (64 - filled + k) = 0)).
    { destruct (Z_lt_le_dec filled k) as [Hlt'|Hge].
      - left. destruct (Hini Hlt') as (_ & _ & Ed & [E|E]); [congruence|]. cbn [hd] in E. subst d. split; [exact E|apply Z.mod_0_l, Z.pow_nonzero; lia].
      - right. split; [exact Hge|]. specialize (Hinv Hge).
        replace d with (A * 2 ^ (64 * (zlen acc + 1) - Bb) - 2 ^ 64 * val acc) by lia. unfold Bb.
        replace (64 * (zlen acc + 1) - (64 * zlen acc + filled - k)) with (64 - filled + k) by lia.
        replace (2 ^ 64) with (2 ^ (filled - k) * 2 ^ (64 - filled + k)) by (rewrite <- Z.pow_add_r by lia; f_equal; lia).
        replace (A * 2 ^ (64 - filled + k) - 2 ^ (filled - k) * 2 ^ (64 - filled + k) * val acc) with ((A - 2 ^ (filled - k) * val acc) * 2 ^ (64 - filled + k)) by ring.
        apply Z.mod_mul. apply Z.pow_nonzero; lia. }
    assert (HA' : 0 <= A * 2 ^ k + v) by nia.
    rewrite dig_val_cons.
    assert (Hfin : forall w, zlen w = zlen acc + room ->
       dig_val (2 ^ k) t * 2 ^ (64 * zlen w - (Bb + k + k * zlen t)) + (A * 2 ^ k + v) * 2 ^ (k * zlen t) * 2 ^ (64 * zlen w - (Bb + k + k * zlen t)) =
       (v * (2 ^ k) ^ zlen t + dig_val (2 ^ k) t) * 2 ^ (64 * zlen w - (Bb + k * (1 + zlen t))) + A * 2 ^ (k * (1 + zlen t)) * 2 ^ (64 * zlen w - (Bb + k * (1 + zlen t)))).
    { intros w Hw. rewrite (pow_pow (2 ^ k) k (zlen t)) by (try reflexivity; lia). replace (Bb + k * (1 + zlen t)) with (Bb + k + k * zlen t) by lia.
      replace (k * (1 + zlen t)) with (k + k * zlen t) by lia. assert (0 <= k * zlen t) by (apply Z.mul_nonneg_nonneg; lia). rewrite (Z.pow_add_r 2 k) by lia. ring. }
    destruct (Z.leb_spec filled 64) as [Hle|Hgt].
    + assert (Pf : 0 < 2 ^ (64 - filled)) by (apply pow2_gt0; lia).
      assert (Hd2 : Z.lor d (wshl v (64 - filled)) = d + v * 2 ^ (64 - filled) /\ d + v * 2 ^ (64 - filled) < 2 ^ 64).
      { destruct Hvf as [[Hv Hm]|[Hge Hm]].
        - assert (Es : wshl v (64 - filled) = v * 2 ^ (64 - filled)).
          { rewrite wshl_val by lia. apply Z.mod_small. split; [nia|]. replace (2 ^ 64) with (2 ^ filled * 2 ^ (64 - filled)) by (rewrite <- Z.pow_add_r by lia; f_equal; lia). apply Z.mul_lt_mono_pos_r; lia. }
          assert (Hcase : d = 0 \/ k <= filled).
          { destruct (Z_lt_le_dec filled k) as [c|c]; [left; apply (Hini c)|right; exact c]. }
          destruct Hcase as [->|Hge].
          + rewrite Z.lor_0_l, Es. split; [lia|]. replace (2 ^ 64) with (2 ^ filled * 2 ^ (64 - filled)) by (rewrite <- Z.pow_add_r by lia; f_equal; lia). pose proof (Z.mul_lt_mono_pos_r (2 ^ (64 - filled)) v (2 ^ filled) Pf). lia.
          + rewrite Z.max_r in Hm by lia.
            assert (Hvk : 0 <= v * 2 ^ (64 - filled) < 2 ^ (64 - filled + k)) by (rewrite Z.pow_add_r by lia; split; [nia|]; rewrite Z.mul_comm; apply Z.mul_lt_mono_pos_l; lia).
            rewrite Es. rewrite (lor_disjoint_add d _ (64 - filled + k)); [|lia|exact Hm|exact Hvk]. split; [reflexivity|].
            assert (d = 2 ^ (64 - filled + k) * (d / 2 ^ (64 - filled + k))) by (apply Z.div_exact; [apply Z.pow_nonzero; lia|exact Hm]).
            assert (d / 2 ^ (64 - filled + k) < 2 ^ (filled - k)) by (apply Z.div_lt_upper_bound; [apply pow2_gt0; lia|]; rewrite <- Z.pow_add_r by lia; replace (64 - filled + k + (filled - k)) with 64 by lia; lia).
            replace (2 ^ 64) with (2 ^ (64 - filled + k) * 2 ^ (filled - k)) by (rewrite <- Z.pow_add_r by lia; f_equal; lia). nia.
        - assert (Hvk : 0 <= v * 2 ^ (64 - filled) < 2 ^ (64 - filled + k)) by (rewrite Z.pow_add_r by lia; split; [nia|]; rewrite Z.mul_comm; apply Z.mul_lt_mono_pos_l; lia).
          assert (Hpk : 2 ^ (64 - filled + k) <= 2 ^ 64) by (apply Z.pow_le_mono_r; lia).
          assert (Es : wshl v (64 - filled) = v * 2 ^ (64 - filled)) by (rewrite wshl_val by lia; apply Z.mod_small; lia).
          rewrite Es. rewrite (lor_disjoint_add d _ (64 - filled + k)); [|lia|exact Hm|exact Hvk]. split; [reflexivity|].
          assert (d = 2 ^ (64 - filled + k) * (d / 2 ^ (64 - filled + k))) by (apply Z.div_exact; [apply Z.pow_nonzero; lia|exact Hm]).
          assert (d / 2 ^ (64 - filled + k) < 2 ^ (filled - k)) by (apply Z.div_lt_upper_bound; [apply pow2_gt0; lia|]; rewrite <- Z.pow_add_r by lia; replace (64 - filled + k + (filled - k)) with 64 by lia; lia).
          replace (2 ^ 64) with (2 ^ (64 - filled + k) * 2 ^ (filled - k)) by (rewrite <- Z.pow_add_r by lia; f_equal; lia). nia. }
      destruct Hd2 as [Ed2 Bd2]. rewrite Ed2.
      destruct (IH (filled + k) (d + v * 2 ^ (64 - filled)) room acc (A * 2 ^ k + v)) as (w & W1 & W2 & W3 & W4); try assumption; try lia.
      * intros _. replace (64 * (zlen acc + 1) - (64 * zlen acc + (filled + k) - k)) with (64 - filled) by lia.
        destruct (Z_lt_le_dec filled k) as [Hlt'|Hge].
        -- destruct (Hini Hlt') as (-> & -> & -> & _). rewrite val_nil. ring.
        -- specialize (Hinv Hge). unfold Bb in Hinv. replace (64 * (zlen acc + 1) - (64 * zlen acc + filled - k)) with (64 - filled + k) in Hinv by lia.
           rewrite Z.pow_add_r in Hinv by lia. rewrite Z.mul_add_distr_r. lia.
      * exists w. split; [exact W1|]. split; [exact W2|]. split; [exact W3|]. rewrite W4. rewrite <- (Hfin w W3).
        replace (64 * zlen acc + (filled + k) - k + k * zlen t) with (Bb + k + k * zlen t) by (unfold Bb; lia). reflexivity.
    + assert (Hge : k <= filled) by lia. specialize (Hinv Hge).
      assert (Hm : d mod 2 ^ (64 - filled + k) = 0).
      { destruct Hvf as [[_ Hm]|[_ Hm]]; [rewrite Z.max_r in Hm by lia|]; exact Hm. }
      set (f := filled - 64) in *. assert (Hff : 0 < f <= k) by lia. replace (64 - filled + k) with (k - f) in Hm by lia.
      assert (Pf : 0 < 2 ^ f) by (apply pow2_gt0; lia).
      assert (Ev : 2 ^ k = 2 ^ f * 2 ^ (k - f)) by (rewrite <- Z.pow_add_r by lia; f_equal; lia).
      assert (Bv : 0 <= v / 2 ^ f < 2 ^ (k - f)) by (split; [apply Z.div_pos; lia|apply Z.div_lt_upper_bound; lia]).
      assert (Ed2 : Z.lor d (wshr v f) = d + v / 2 ^ f) by (rewrite wshr_val by lia; apply (lor_disjoint_add d _ (k - f)); [lia|exact Hm|exact Bv]).
      assert (Bd2 : 0 <= d + v / 2 ^ f < 2 ^ 64).
      { assert (d = 2 ^ (k - f) * (d / 2 ^ (k - f))) by (apply Z.div_exact; [apply Z.pow_nonzero; lia|exact Hm]).
        assert (d / 2 ^ (k - f) < 2 ^ (64 - (k - f))) by (apply Z.div_lt_upper_bound; [apply pow2_gt0; lia|]; rewrite <- Z.pow_add_r by lia; replace (k - f + (64 - (k - f))) with 64 by lia; lia).
        replace (2 ^ 64) with (2 ^ (k - f) * 2 ^ (64 - (k - f))) by (rewrite <- Z.pow_add_r by lia; f_equal; lia). nia. }
      assert (Hroom : 0 < room) by (unfold Bb in Hcap; assert (0 <= k * (1 + zlen t)) by (apply Z.mul_nonneg_nonneg; lia); lia).
      cbv zeta. replace (room =? 0) with false by lia. replace (0 <? f) with true by lia. rewrite Ed2.
      assert (En : wshl v (64 - f) = (v mod 2 ^ f) * 2 ^ (64 - f)).
      { rewrite wshl_val by lia. replace (2 ^ 64) with (2 ^ f * 2 ^ (64 - f)) by (rewrite <- Z.pow_add_r by lia; f_equal; lia). rewrite Z.mul_mod_distr_r by (try lia; apply Z.pow_nonzero; lia). reflexivity. }
      destruct (IH (f + k) (wshl v (64 - f)) (room - 1) (d + v / 2 ^ f :: acc) (A * 2 ^ k + v)) as (w & W1 & W2 & W3 & W4); try assumption; try lia.
      * apply ok_cons. split; [exact Bd2|exact Ha].
      * apply wshl_bound.
      * intros _. rewrite zlen_cons, val_cons, En.
        replace (64 * (1 + zlen acc + 1) - (64 * (1 + zlen acc) + (f + k) - k)) with (64 - f) by lia.
        unfold Bb in Hinv. replace (64 * (zlen acc + 1) - (64 * zlen acc + filled - k)) with (k - f) in Hinv by lia.
        pose proof (Z.div_mod v (2 ^ f) ltac:(lia)) as DMv.
        replace (2 ^ 64) with (2 ^ f * 2 ^ (64 - f)) in * by (rewrite <- Z.pow_add_r by lia; f_equal; lia).
        assert (EA : A * 2 ^ k = 2 ^ f * (d + 2 ^ f * 2 ^ (64 - f) * val acc)) by (rewrite Hinv, Ev; ring).
        rewrite Z.mul_add_distr_r, EA. rewrite DMv at 3. ring.
      * exists w. split; [exact W1|]. split; [exact W2|]. rewrite zlen_cons in W3. assert (W3' : zlen w = zlen acc + room) by lia. split; [exact W3'|].
        rewrite W4. rewrite <- (Hfin w W3'). rewrite zlen_cons.
        replace (64 * (1 + zlen acc) + (f + k) - k + k * zlen t) with (Bb + k + k * zlen t) by (unfold Bb; lia). reflexivity.
Qed.
