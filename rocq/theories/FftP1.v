(** The modular arithmetic of the Fourier transform on single parts (Fft.v). *)

From Coq Require Import ZArith List Bool Lia Setoid Morphisms.
From Verif Require Import Words IntModel Fft SpecZ WordsP WordsP2 IntP MulToom.
Import ListNotations.
Open Scope Z_scope.
Ltac Zify.zify_post_hook ::= idtac.
Ltac dlia := Z.div_mod_to_equations; lia.
Arguments Z.mul : simpl never.
Arguments Z.add : simpl never.
Arguments Z.pow : simpl never.
Arguments Z.sub : simpl never.
#[local] Arguments Z.opp : simpl never.
Arguments Z.of_nat : simpl never.

(** ** Congruence *)
Definition cg (F a b : Z) : Prop := (F | a - b).

Lemma cg_refl F a : cg F a a.
Proof. unfold cg. rewrite Z.sub_diag. apply Z.divide_0_r. Qed.
Lemma cg_sym F a b : cg F a b -> cg F b a.
Proof. unfold cg. intros [q H]. exists (- q). lia. Qed.
Lemma cg_trans F a b c : cg F a b -> cg F b c -> cg F a c.
Proof. unfold cg. intros [q H] [r G]. exists (q + r). lia. Qed.
Lemma cg_add F a b c d : cg F a b -> cg F c d -> cg F (a + c) (b + d).
Proof. unfold cg. intros [q H] [r G]. exists (q + r). lia. Qed.
Lemma cg_sub F a b c d : cg F a b -> cg F c d -> cg F (a - c) (b - d).
Proof. unfold cg. intros [q H] [r G]. exists (q - r). lia. Qed.
Lemma cg_opp F a b : cg F a b -> cg F (- a) (- b).
Proof. unfold cg. intros [q H]. exists (- q). lia. Qed.
Lemma cg_mul F a b c d : cg F a b -> cg F c d -> cg F (a * c) (b * d).
Proof. unfold cg. intros [q H] [r G]. exists (q * c + b * r). replace (a * c - b * d) with ((a - b) * c + b * (c - d)) by ring. rewrite H, G. ring. Qed.
Lemma cg_mul_l F a b c : cg F a b -> cg F (c * a) (c * b).
Proof. intros H. apply cg_mul; [apply cg_refl|exact H]. Qed.
Lemma cg_mul_r F a b c : cg F a b -> cg F (a * c) (b * c).
Proof. intros H. apply cg_mul; [exact H|apply cg_refl]. Qed.
Lemma cg_eq F a b : a = b -> cg F a b.
Proof. intros ->. apply cg_refl. Qed.
(** Both in range: equal. *)
Lemma cg_small F a b : cg F a b -> 0 <= a < F -> 0 <= b < F -> a = b.
Proof. intros [q H] A B. assert (q = 0) by nia. subst q. lia. Qed.

(** ** Words *)
Lemma znth_hi m N : words_ok m -> 0 <= N -> N < zlen m -> val m < 2 ^ (64 * (N + 1)) -> znth N m = val m / 2 ^ (64 * N).
Proof.
  intros O HN L V. rewrite znth_val by (auto; lia). apply Z.mod_small. pose proof (val_nonneg m O).
  pose proof (pow2_gt0 (64 * N) ltac:(lia)). split; [apply Z.div_pos; lia|].
  apply Z.div_lt_upper_bound; [auto|]. rewrite <- pow2_split by lia. replace (64 * N + 64) with (64 * (N + 1)) by lia. exact V.
Qed.

Lemma znth_lo m : words_ok m -> 0 < zlen m -> znth 0 m = val m mod 2 ^ 64.
Proof. intros O L. rewrite znth_val by (auto; lia). rewrite Z.mul_0_r, Z.pow_0_r, Z.div_1_r. reflexivity. Qed.

Lemma dec_at_ok i m : words_ok m -> 0 <= i < zlen m -> 0 < znth i m ->
  words_ok (dec_at i m) /\ zlen (dec_at i m) = zlen m /\ val (dec_at i m) = val m - 2 ^ (64 * i).
Proof.
  intros O I P. unfold dec_at. pose proof (ok_znth m i O). split; [apply ok_zupd; auto; lia|]. split; [apply zlen_zupd|].
  rewrite zupd_val by auto. ring.
Qed.

Lemma all_zero_val m : words_ok m -> all_zero m = (val m =? 0).
Proof.
  intros O. unfold all_zero. destruct (Z.eqb_spec (val m) 0) as [E|E].
  - apply forallb_forall. intros x Hx. apply (val_0_iff m O) in E. rewrite Forall_forall in E. rewrite (E x Hx). reflexivity.
  - destruct (forallb (fun v => v =? 0) m) eqn:B; [|reflexivity]. exfalso. apply E. apply (val_0_iff m O). rewrite Forall_forall.
    rewrite forallb_forall in B. intros x Hx. apply Z.eqb_eq. auto.
Qed.

Lemma norm_pos_S f num last md : norm_pos (S f) num last md =
  if 0 <? znth last (sw num) then
    if 0 <? znth 0 (sw num) then norm_pos f (mk_sws (dec_at last (dec_at 0 (sw num))) (sg num)) last md
    else norm_pos f (sws_sub_assign num md) last md
  else Ok num.
Proof. reflexivity. Qed.
Lemma norm_neg_S f num last md : norm_neg (S f) num last md =
  if sg num <? 0 then
    if (0 <? znth last (sw num)) && (0 <? znth 0 (sw num)) then norm_neg f (mk_sws (dec_at last (dec_at 0 (sw num))) (sg num)) last md
    else norm_neg f (sws_add_assign num md) last md
  else Ok num.
Proof. reflexivity. Qed.

Section Part.
(** The modulus 2^n1 + 1 with n1 = 64 N. *)
Variable N : Z.
Hypothesis HN : 2 <= N.
Let n1 := 64 * N.
Let F := 2 ^ n1 + 1.
Variable md : sws.
Hypothesis Hmd : sok md /\ sval md = F /\ zlen (sw md) = N + 1.

Lemma n1_div : n1 / 64 = N.
Proof. unfold n1. rewrite Z.mul_comm. apply Z.div_mul. lia. Qed.
Lemma pow_n1_pos : 2 ^ 64 * 2 ^ 64 <= 2 ^ n1.
Proof. rewrite <- pow2_split by lia. apply Z.pow_le_mono_r; unfold n1; lia. Qed.
Lemma pow_n1_next : 2 ^ (64 * (N + 1)) = 2 ^ 64 * 2 ^ n1.
Proof. rewrite <- pow2_split by (unfold n1; lia). f_equal. unfold n1. ring. Qed.

Lemma pow_n1_mod : 2 ^ n1 mod 2 ^ 64 = 0.
Proof. unfold n1. replace (64 * N) with (64 * (N - 1) + 64) by ring. rewrite pow2_split by lia. apply Z.mod_mul. lia. Qed.
Lemma pow_n1_mod1 : (2 ^ n1 + 1) mod 2 ^ 64 = 1.
Proof. rewrite Z.add_mod, pow_n1_mod by lia. reflexivity. Qed.

Lemma cg_n1 : cg F (2 ^ n1) (-1).
Proof. unfold cg, F. exists 1. ring. Qed.
Lemma cg_2n1 : cg F (2 ^ (2 * n1)) 1.
Proof.
  replace (2 * n1) with (n1 + n1) by ring. rewrite pow2_split by (unfold n1; lia).
  eapply cg_trans; [apply cg_mul; apply cg_n1|]. apply cg_refl.
Qed.

Lemma md_facts : words_ok (sw md) /\ sg md = 1 /\ val (sw md) = F.
Proof.
  destruct Hmd as ([W S] & V & L). unfold sval in V. pose proof (val_nonneg _ W). pose proof pow_n1_pos. change (2 ^ 64) with 18446744073709551616 in H0.
  unfold F in *. destruct S as [S|S]; rewrite S in V; [repeat split; auto; lia|lia].
Qed.

(** The result of a step with the modulus. *)
Lemma md_step num op : sok num -> N + 1 <= zlen (sw num) -> (op = 1 \/ op = -1) -> val (sw num) <= 2 * 2 ^ n1 -> Z.abs (sval num + op * F) <= 2 * 2 ^ n1 ->
  let r := sws_add_sub_assign num md op in sok r /\ zlen (sw r) = zlen (sw num) /\ sval r = sval num + op * F.
Proof.
  intros Sn L Op V A. destruct md_facts as (Wm & Sm & Vm). destruct Hmd as (Smd & Vs & Lm).
  pose proof pow_n1_pos as P. pose proof pow_n1_next as Pn. change (2 ^ 64) with 18446744073709551616 in *.
  assert (B : 2 ^ (64 * (N + 1)) <= 2 ^ (64 * zlen (sw num))) by (apply Z.pow_le_mono_r; lia). rewrite <- Vs.
  apply sws_add_sub_assign_spec; auto; [rewrite Vm; unfold F; lia|rewrite Vs; lia].
Qed.

Lemma sok_of m s : words_ok m -> (s = 1 \/ s = -1) -> sok (mk_sws m s).
Proof. intros. split; auto. Qed.

Lemma sval_pos_sg a : sok a -> 0 < sval a -> sg a = 1 /\ val (sw a) = sval a.
Proof. intros [W S] H. unfold sval in *. pose proof (val_nonneg _ W). destruct S as [S|S]; rewrite S in *; lia. Qed.
Lemma sval_neg_sg a : sok a -> sval a < 0 -> sg a = -1 /\ val (sw a) = - sval a.
Proof. intros [W S] H. unfold sval in *. pose proof (val_nonneg _ W). destruct S as [S|S]; rewrite S in *; lia. Qed.

Lemma normalize_ok num : sok num -> N + 1 <= zlen (sw num) -> - 2 ^ n1 <= sval num <= 2 * 2 ^ n1 ->
  exists r, fft_normalize num n1 md = Ok r /\ sok r /\ zlen (sw r) = zlen (sw num) /\ 0 <= val (sw r) <= 2 ^ n1 /\
    cg F (val (sw r)) (sval num) /\ ((val (sw num) = 0 -> sg num = 1) -> sg r = 1).
Proof.
  intros Sn L V. destruct md_facts as (Wm & Sm & Vm). pose proof pow_n1_pos as P. pose proof pow_n1_next as Pn. change (2 ^ 64) with 18446744073709551616 in P, Pn.
  unfold fft_normalize. rewrite n1_div. pose proof (sok_w _ Sn) as Wn. rewrite (all_zero_val _ Wn). pose proof (val_nonneg _ Wn) as Vn.
  assert (Hi : forall m, words_ok m -> N + 1 <= zlen m -> val m <= 2 * 2 ^ n1 -> znth N m = val m / 2 ^ n1).
  { intros m O Lm Vb. apply znth_hi; auto; [lia|lia|]. rewrite Pn. lia. }
  assert (Ab : Z.abs (sval num) = val (sw num)) by (apply sval_abs; auto).
  assert (Vab : val (sw num) <= 2 * 2 ^ n1) by lia.
  destruct (Z.ltb_spec (sval num) 0) as [Hneg|Hpos].
  - destruct (sval_neg_sg _ Sn Hneg) as (S1 & V1). rewrite S1. rewrite (proj2 (Z.eqb_neq _ _)) by lia. cbn [Z.ltb negb andb Z.compare].
    change (-1 <? 0) with true. cbn [andb].
    assert (C : (0 <? znth N (sw num)) && (0 <? znth 0 (sw num)) = false).
    { rewrite Hi by (auto; lia). rewrite znth_lo by (auto; lia). destruct (Z.eq_dec (val (sw num)) (2 ^ n1)) as [E|E].
      - rewrite E, pow_n1_mod. apply andb_false_r.
      - rewrite (Z.div_small (val (sw num))) by lia. reflexivity. }
    rewrite norm_neg_S, S1. change (-1 <? 0) with true. cbv iota. rewrite C.
    destruct (md_step num 1 Sn L (or_introl eq_refl) Vab) as (R1 & R2 & R3); [unfold F; lia|].
    fold (sws_add_assign num md) in R1, R2, R3. set (r := sws_add_assign num md) in *. clearbody r.
    rewrite Z.mul_1_l in R3. unfold F in R3. destruct (sval_pos_sg r R1 ltac:(lia)) as (S2 & V2). rewrite norm_neg_S, S2. change (1 <? 0) with false. cbv iota.
    exists r. split; [reflexivity|]. split; [auto|]. split; [auto|]. split; [lia|]. split; [|auto].
    rewrite V2, R3. exists 1. unfold F. ring.
  - assert (C : (sg num <? 0) && negb (val (sw num) =? 0) = false).
    { destruct Sn as [_ [S|S]]; rewrite S; [reflexivity|]. unfold sval in Hpos. rewrite S in Hpos.
      rewrite (proj2 (Z.eqb_eq (val (sw num)) 0)) by lia. reflexivity. }
    rewrite C. clear C. assert (Vs : sval num = val (sw num)) by lia.
    assert (Step : forall f a, words_ok (sw a) -> N + 1 <= zlen (sw a) -> val (sw a) < 2 ^ n1 -> norm_pos (S f) a N md = Ok a).
    { intros f a O La Va. rewrite norm_pos_S. pose proof (val_nonneg _ O). rewrite Hi by (auto; lia). rewrite Z.div_small by lia. reflexivity. }
    destruct (Z.lt_ge_cases (val (sw num)) (2 ^ n1)) as [Hlt|Hge].
    + rewrite Step by auto. cbn [bind]. rewrite (all_zero_val _ Wn).
      assert (C : (sg num <? 0) && negb (val (sw num) =? 0) = false).
      { destruct Sn as [_ [S|S]]; rewrite S; [reflexivity|]. unfold sval in Hpos. rewrite S in Hpos.
        rewrite (proj2 (Z.eqb_eq (val (sw num)) 0)) by lia. reflexivity. }
      rewrite C. exists num. split; [reflexivity|]. split; [auto|]. split; [auto|]. split; [lia|]. split; [rewrite Vs; apply cg_refl|].
      intros G. destruct (Z.eq_dec (val (sw num)) 0); [auto|]. apply sval_pos_sg; [auto|lia].
    + assert (D1 : 1 <= val (sw num) / 2 ^ n1) by (apply Z.div_le_lower_bound; lia).
      assert (Sg1 : sg num = 1) by (apply sval_pos_sg; [auto|lia]).
      rewrite norm_pos_S, Hi by (auto; lia). rewrite (proj2 (Z.ltb_lt 0 _)) by lia.
      destruct (Z.ltb_spec 0 (znth 0 (sw num))) as [H0|H0].
      * destruct (dec_at_ok 0 (sw num) Wn ltac:(lia) H0) as (W2 & L2 & V2). rewrite Z.mul_0_r, Z.pow_0_r in V2.
        assert (Hne : val (sw num) <> 2 ^ n1).
        { intros E. rewrite znth_lo in H0 by (auto; lia). rewrite E, pow_n1_mod in H0. lia. }
        destruct (dec_at_ok N (dec_at 0 (sw num)) W2 ltac:(lia)) as (W3 & L3 & V3).
        { rewrite Hi by (auto; lia). apply Z.lt_le_trans with 1; [lia|]. apply Z.div_le_lower_bound; lia. }
        fold n1 in V3. set (a := mk_sws (dec_at N (dec_at 0 (sw num))) (sg num)).
        assert (La : N + 1 <= zlen (sw a)) by (cbn [sw a]; lia).
        assert (Va : val (sw a) = val (sw num) - 1 - 2 ^ n1) by (cbn [sw a]; lia).
        assert (Wa : words_ok (sw a)) by exact W3. assert (Lea : zlen (sw a) = zlen (sw num)) by (cbn [sw a]; lia). assert (Sa : sg a = 1) by exact Sg1.
        clearbody a. rewrite Step by (auto; lia). cbn [bind]. rewrite Sa. change (1 <? 0) with false. cbv iota.
        cbn [andb]. exists a. split; [reflexivity|]. split; [split; auto|]. split; [auto|]. split; [pose proof (val_nonneg _ Wa); lia|]. split; [|auto].
        rewrite Vs, Va. exists (-1). unfold F. ring.
      * destruct (md_step num (-1) Sn L (or_intror eq_refl) Vab) as (R1 & R2 & R3); [unfold F; lia|].
        fold (sws_sub_assign num md) in R1, R2, R3. set (a := sws_sub_assign num md) in *. clearbody a. rewrite Vs in R3. unfold F in R3.
        destruct (Z.eq_dec (val (sw num)) (2 ^ n1)) as [E|E].
        -- destruct (sval_neg_sg a R1 ltac:(lia)) as (S2 & V2). rewrite Step by (try apply (sok_w _ R1); lia). cbn [bind].
           rewrite S2, (all_zero_val _ (sok_w _ R1)), (proj2 (Z.eqb_neq _ _)) by lia. change (-1 <? 0) with true. cbn [negb andb].
           destruct (md_step a 1 R1 ltac:(lia) (or_introl eq_refl)) as (T1 & T2 & T3); [lia|unfold F; lia|].
           fold (sws_add_assign a md) in T1, T2, T3. set (b := sws_add_assign a md) in *. clearbody b. unfold F in T3.
           destruct (sval_pos_sg b T1 ltac:(lia)) as (S3 & V3).
           exists b. split; [reflexivity|]. split; [auto|]. split; [lia|]. split; [lia|]. split; [|auto]. rewrite Vs. apply cg_eq. lia.
        -- assert (Hne : val (sw num) <> 2 ^ n1 + 1).
           { intros E'. rewrite znth_lo in H0 by (auto; lia). rewrite E', pow_n1_mod1 in H0. lia. }
           destruct (sval_pos_sg a R1 ltac:(lia)) as (S2 & V2). rewrite Step by (try apply (sok_w _ R1); lia). cbn [bind].
           rewrite S2. change (1 <? 0) with false. cbn [andb].
           exists a. split; [reflexivity|]. split; [auto|]. split; [lia|]. split; [lia|]. split; [|auto]. rewrite Vs, V2, R3. exists (-1). unfold F. ring.
Qed.

(** A part in normal form. *)
Record gp (p : sws) : Prop := { gp_w : words_ok (sw p); gp_s : sg p = 1; gp_l : zlen (sw p) = N + 1; gp_v : 0 <= val (sw p) <= 2 ^ n1 }.

Lemma butterfly_ok a b : gp a -> gp b -> exists a' b', fft_butterfly a b n1 md = Ok (a', b') /\ gp a' /\ gp b' /\
  cg F (val (sw a')) (val (sw a) + val (sw b)) /\ cg F (val (sw b')) (val (sw a) - val (sw b)).
Proof.
  intros [Wa Sa La Va] [Wb Sb Lb Vb]. pose proof pow_n1_pos as P. pose proof pow_n1_next as Pn. change (2 ^ 64) with 18446744073709551616 in P, Pn.
  assert (Len : length (sw a) = length (sw b)) by (unfold zlen in *; lia).
  unfold fft_butterfly. pose proof (cmp_top_down_spec (rev (sw a)) (rev (sw b)) (ok_rev _ Wa) (ok_rev _ Wb) ltac:(rewrite !rev_length; auto)) as C.
  rewrite !rev_involutive in C. set (c := cmp_top_down _ _) in *. clearbody c.
  destruct (add_words (sw a) (sw b) 0) as [s cs] eqn:Es. destruct (add_words_spec _ _ 0 _ _ Wa Wb Len ltac:(lia) Es) as (A1 & A2 & A3 & A4).
  rewrite La, Pn in A1. pose proof (val_nonneg _ A2) as Vs0. assert (cs = 0) by (assert (D : cs = 0 \/ cs = 1) by (clear - A4; lia); destruct D as [->| ->]; [reflexivity|lia]). subst cs. rewrite Z.mul_0_r, !Z.add_0_r in A1. cbn [fst].
  destruct (normalize_ok (mk_sws s (sg a))) as (a' & Ea & Sa' & La' & Va' & Ca & Ga).
  { apply sok_of; auto. } { cbn [sw]. lia. } { unfold sval. cbn [sw sg]. rewrite Sa. lia. }
  rewrite Ea. cbn [bind]. cbn [sw sg] in *. unfold sval in Ca. cbn [sw sg] in Ca. rewrite Sa, A1, Z.mul_1_l in Ca.
  set (d := if c <? 0 then _ else _). set (db := if c <? 0 then - sg b else sg b).
  assert (Hd : words_ok d /\ zlen d = N + 1 /\ db * val d = val (sw a) - val (sw b) /\ (db = 1 \/ db = -1) /\ (val d = 0 -> db = 1)).
  { unfold d, db. destruct (Z.ltb_spec c 0) as [Hc|Hc].
    - destruct (sub_words (sw b) (sw a) 0) as [x cx] eqn:Ex. destruct (sub_words_spec _ _ 0 _ _ Wb Wa (eq_sym Len) ltac:(lia) Ex) as (B1 & B2 & B3 & B4).
      pose proof (val_bound _ B2) as B5. rewrite B3, Lb, Pn in B5. rewrite Lb, Pn in B1. cbn [fst].
      pose proof (sgn_eq_neg c _ C Hc). assert (cx = 0) by (assert (D : cx = 0 \/ cx = 1) by (clear - B4; lia); destruct D as [->| ->]; [reflexivity|lia]). subst cx. rewrite Sb.
      split; [auto|]. split; [lia|]. split; [lia|]. split; [auto|]. lia.
    - destruct (sub_words (sw a) (sw b) 0) as [x cx] eqn:Ex. destruct (sub_words_spec _ _ 0 _ _ Wa Wb Len ltac:(lia) Ex) as (B1 & B2 & B3 & B4).
      pose proof (val_bound _ B2) as B5. rewrite B3, La, Pn in B5. rewrite La, Pn in B1. cbn [fst].
      assert (val (sw b) <= val (sw a)). { destruct (Z.eq_dec c 0) as [->|]; [pose proof (sgn_eq_zero 0 _ C eq_refl)|pose proof (sgn_eq_pos c _ C ltac:(lia))]; lia. }
      assert (cx = 0) by (assert (D : cx = 0 \/ cx = 1) by (clear - B4; lia); destruct D as [->| ->]; [reflexivity|lia]). subst cx. rewrite Sb.
      split; [auto|]. split; [lia|]. split; [lia|]. split; [auto|]. lia. }
  clearbody d db. destruct Hd as (Wd & Ld & Vd & Sd & Zd).
  destruct (normalize_ok (mk_sws d db)) as (b' & Eb & Sb' & Lb' & Vb' & Cb & Gb).
  { apply sok_of; auto. } { cbn [sw]. lia. } { unfold sval. cbn [sw sg]. lia. }
  rewrite Eb. cbn [bind]. cbn [sw sg] in *. unfold sval in Cb. cbn [sw sg] in Cb. rewrite Vd in Cb.
  exists a', b'. split; [reflexivity|]. split; [split; auto; [apply (sok_w _ Sa')|lia]|]. split; [split; auto; [apply (sok_w _ Sb')|lia]|]. split; auto.
Qed.

(** ** Reduction by chunks *)
Lemma add_chunk acc ch s : sok acc -> words_ok ch -> zlen ch <= N -> (s = 1 \/ s = -1) -> N + 1 <= zlen (sw acc) -> Z.abs (sval acc) <= 2 * 2 ^ n1 ->
  let r := sws_add_assign acc (mk_sws ch s) in
  sok r /\ zlen (sw r) = zlen (sw acc) /\ sval r = sval acc + s * val ch /\ 0 <= val ch < 2 ^ n1.
Proof.
  intros Sa Wc Lc Hs La Va. pose proof pow_n1_pos as P. pose proof pow_n1_next as Pn. change (2 ^ 64) with 18446744073709551616 in P, Pn.
  assert (B : 2 ^ (64 * (N + 1)) <= 2 ^ (64 * zlen (sw acc))) by (apply Z.pow_le_mono_r; lia).
  pose proof (val_bound _ Wc) as Vc. pose proof (zlen_nonneg ch) as Lc0. assert (Vn : 2 ^ (64 * zlen ch) <= 2 ^ n1) by (apply Z.pow_le_mono_r; unfold n1; lia).
  assert (E : sval (mk_sws ch s) = s * val ch) by reflexivity.
  destruct (sws_add_sub_assign_spec acc (mk_sws ch s) 1 Sa (sok_of _ _ Wc Hs) (or_introl eq_refl)) as (R1 & R2 & R3).
  { cbn [sw]. lia. } { rewrite E. destruct Hs as [-> | ->]; lia. }
  rewrite E, Z.mul_1_l in R3. repeat split; auto; [apply (sok_w _ R1)|apply (sok_s _ R1)|lia|lia].
Qed.

Lemma chunk_loop_ok f rest acc s : words_ok rest -> zlen rest <= 2 * N -> sok acc -> (s = 1 \/ s = -1) -> N + 1 <= zlen (sw acc) ->
  Z.abs (sval acc) <= 2 ^ n1 ->
  let r := chunk_loop (S (S f)) rest N acc s in
  sok r /\ zlen (sw r) = zlen (sw acc) /\ sval r = sval acc + s * (val (ztake N rest) - val (zdrop N rest)).
Proof.
  intros Wr Lr Sa Hs La Va. cbn [chunk_loop]. destruct rest as [|x rest'].
  { cbv zeta. unfold ztake, zdrop. rewrite firstn_nil, skipn_nil, val_nil. split; [auto|]. split; [auto|]. ring. }
  set (rest := x :: rest') in *. clearbody rest. cbv zeta.
  destruct (add_chunk acc (ztake N rest) s Sa (ok_ztake _ _ Wr)) as (A1 & A2 & A3 & A4); auto; [rewrite zlen_ztake_min by lia; lia|lia|].
  set (acc1 := sws_add_assign acc (mk_sws (ztake N rest) s)) in *. clearbody acc1.
  assert (Lz : zlen (zdrop N rest) <= N) by (rewrite zlen_zdrop_max by lia; lia).
  pose proof (ok_zdrop N _ Wr) as Wz. set (z := zdrop N rest) in *. clearbody z.
  destruct z as [|y z'].
  { rewrite val_nil. split; [auto|]. split; [lia|]. lia. }
  set (z := y :: z') in *. clearbody z. rewrite (ztake_all N z Lz), (zdrop_all N z Lz).
  destruct (add_chunk acc1 z (- s) A1 Wz Lz) as (B1 & B2 & B3 & B4); [lia|lia|destruct Hs as [-> | ->]; lia|].
  set (acc2 := sws_add_assign acc1 (mk_sws z (- s))) in *. clearbody acc2.
  assert (E : chunk_loop f [] N acc2 (- - s) = acc2) by (destruct f; reflexivity). rewrite E.
  split; [auto|]. split; [lia|]. lia.
Qed.

Lemma compute_chunks_ok num tl s : words_ok num -> N + 1 <= zlen num <= 3 * N -> val num <= 2 ^ n1 * 2 ^ n1 -> N + 1 <= tl -> (s = 1 \/ s = -1) ->
  let r := fft_compute_chunks num n1 tl s in
  sok r /\ zlen (sw r) = tl /\ Z.abs (sval r) <= 2 ^ n1 /\ cg F (sval r) (s * val num).
Proof.
  intros W L V T Hs. pose proof pow_n1_pos as P. change (2 ^ 64) with 18446744073709551616 in P.
  unfold fft_compute_chunks. destruct num as [|x num']; [rewrite zlen_nil in L; lia|]. set (num := x :: num') in *. clearbody num. rewrite n1_div.
  assert (Ef : exists f, length num = S (S f)) by (exists (length num - 2)%nat; unfold zlen in L; lia). destruct Ef as (f & ->).
  pose proof (val_take_drop N num ltac:(lia)) as D1. fold n1 in D1.
  pose proof (val_bound _ (ok_ztake N _ W)) as B0. rewrite zlen_ztake in B0 by lia. fold n1 in B0.
  assert (L1 : zlen (ztake N num) = N) by (apply zlen_ztake; lia).
  assert (L2 : zlen (zdrop N num) <= 2 * N) by (rewrite zlen_zdrop by lia; lia).
  pose proof (ok_ztake N _ W) as W0. pose proof (ok_zdrop N _ W) as W1. set (c0 := ztake N num) in *. set (rest := zdrop N num) in *. clearbody c0 rest.
  assert (D2 : val rest = val (ztake N rest) + 2 ^ n1 * val (zdrop N rest)).
  { destruct (Z.le_ge_cases N (zlen rest)) as [Hl|Hl]; [apply (val_take_drop N rest); lia|]. rewrite ztake_all, zdrop_all, val_nil by lia. ring. }
  assert (B1 : 0 <= val (ztake N rest) < 2 ^ n1).
  { pose proof (val_bound _ (ok_ztake N _ W1)) as B. rewrite zlen_ztake_min in B by lia. pose proof (zlen_nonneg rest).
    assert (2 ^ (64 * Z.min N (zlen rest)) <= 2 ^ n1) by (apply Z.pow_le_mono_r; unfold n1; lia). lia. }
  pose proof (val_nonneg _ (ok_zdrop N _ W1)) as B2.
  destruct (app_zeros_spec c0 tl W0 ltac:(lia)) as (Z1 & Z2 & Z3).
  destruct (chunk_loop_ok f rest (mk_sws (c0 ++ zeros (tl - zlen c0)) s) (- s)) as (R1 & R2 & R3); auto.
  { apply sok_of; auto. } { lia. } { cbn [sw]. lia. } { unfold sval. cbn [sw sg]. rewrite Z1. destruct Hs as [-> | ->]; lia. }
  cbn [sw] in R2. unfold sval in R3 at 2. cbn [sw sg] in R3. rewrite Z1 in R3.
  set (r := chunk_loop _ _ _ _ _) in *. clearbody r.
  set (u := val (ztake N rest)) in *. set (v := val (zdrop N rest)) in *. set (c := val c0) in *. clearbody u v c.
  assert (R4 : sval r = s * (c - u + v)) by (rewrite R3; ring).
  set (Q := 2 ^ n1) in *. clearbody Q. rewrite D2 in D1.
  assert (Hv : v <= 1) by nia. assert (Hv1 : v = 1 -> u = 0 /\ c = 0) by (intros ->; nia).
  split; [auto|]. split; [lia|]. split.
  - rewrite R4. destruct Hs as [-> | ->]; lia.
  - rewrite R4, D1. exists (- s * (u + (Q - 1) * v)). unfold F. ring.
Qed.

Lemma pow_q q : 0 <= q -> cg F (2 ^ (n1 * q)) (if Z.odd q then -1 else 1).
Proof.
  intros Hq. revert q Hq. apply (natlike_ind (fun q => cg F (2 ^ (n1 * q)) (if Z.odd q then -1 else 1))).
  - rewrite Z.mul_0_r. apply cg_refl.
  - intros q Hq IH. rewrite <- Z.add_1_r, Z.mul_add_distr_l, Z.mul_1_r, pow2_split by (unfold n1; nia).
    rewrite Z.add_1_r, Z.odd_succ, <- Z.negb_odd. eapply cg_trans; [apply cg_mul; [apply IH|apply cg_n1]|]. apply cg_eq. destruct (Z.odd q); reflexivity.
Qed.

Lemma pow_split_n1 j : 0 <= j -> 2 ^ j = 2 ^ (n1 * (j / n1)) * 2 ^ (j mod n1).
Proof.
  intros Hj. rewrite <- pow2_split.
  - f_equal. apply Z.div_mod. unfold n1. lia.
  - apply Z.mul_nonneg_nonneg; [unfold n1; lia|]. apply Z.div_pos; unfold n1; lia.
  - apply Z.mod_pos_bound. unfold n1. lia.
Qed.

Lemma shifted_ok num sh : words_ok num -> 0 <= val num <= 2 ^ n1 -> 0 <= sh < n1 ->
  let r := shift_slice_left_copy num (2 * (N + 1)) sh in words_ok r /\ zlen r = 2 * (N + 1) /\ val r = val num * 2 ^ sh /\ val r <= 2 ^ n1 * 2 ^ n1.
Proof.
  intros W V S. destruct (shift_slice_left_copy_spec num (2 * (N + 1)) sh W ltac:(lia) ltac:(lia)) as (R1 & R2 & R3). cbv zeta.
  assert (B : val num * 2 ^ sh <= 2 ^ n1 * 2 ^ n1).
  { assert (2 ^ sh <= 2 ^ n1) by (apply Z.pow_le_mono_r; lia). pose proof (pow2_gt0 sh ltac:(lia)). nia. }
  assert (B2 : 2 ^ n1 * 2 ^ n1 < 2 ^ (64 * (2 * (N + 1)))) by (rewrite <- pow2_split by (unfold n1; lia); apply Z.pow_lt_mono_r; unfold n1; lia).
  rewrite Z.mod_small in R1; [|split; [apply Z.mul_nonneg_nonneg; [lia|apply Z.lt_le_incl, pow2_gt0; lia]|lia]].
  split; [auto|]. split; [auto|]. split; [auto|]. rewrite R1. exact B.
Qed.

(** ** Multiplication and division by powers of two *)
Lemma mul_mod_ok num j : words_ok (sw num) -> zlen (sw num) = N + 1 -> 0 <= val (sw num) <= 2 ^ n1 -> 0 <= j ->
  exists r, fft_mul_mod num j n1 md (3 * (N + 1)) = Ok r /\ words_ok (sw r) /\ sg r = sg num /\ zlen (sw r) = N + 1 /\ 0 <= val (sw r) <= 2 ^ n1 /\
    cg F (val (sw r)) (val (sw num) * 2 ^ j).
Proof.
  intros W L V J. unfold fft_mul_mod. rewrite L. pose proof pow_n1_pos as P. change (2 ^ 64) with 18446744073709551616 in P.
  set (acc := if j =? 0 then _ else _).
  assert (A : sok acc /\ zlen (sw acc) = N + 1 /\ Z.abs (sval acc) <= 2 ^ n1 /\ cg F (sval acc) (val (sw num) * 2 ^ j)).
  { unfold acc. clear acc. destruct (Z.eqb_spec j 0) as [->|Hj].
    - destruct (compute_chunks_ok (sw num) (N + 1) 1 W ltac:(lia)) as (R1 & R2 & R3 & R4); [nia|lia|auto|]. split; [auto|]. split; [auto|]. split; [auto|].
      rewrite Z.pow_0_r, Z.mul_1_r. rewrite Z.mul_1_l in R4. exact R4.
    - replace (3 * (N + 1) - (N + 1)) with (2 * (N + 1)) by ring. cbv zeta.
      assert (Hs : 0 <= j mod n1 < n1) by (apply Z.mod_pos_bound; unfold n1; lia).
      destruct (shifted_ok (sw num) (j mod n1) W V Hs) as (S1 & S2 & S3 & S4). set (ext := shift_slice_left_copy _ _ _) in *. clearbody ext.
      destruct (compute_chunks_ok ext (N + 1) 1 S1 ltac:(lia) S4) as (R1 & R2 & R3 & R4); [lia|auto|]. set (a := fft_compute_chunks _ _ _ _) in *. clearbody a.
      rewrite Z.mul_1_l, S3 in R4. assert (Hq : 0 <= j / n1) by (apply Z.div_pos; unfold n1; lia). pose proof (pow_q (j / n1) Hq) as Cq.
      assert (G : cg F ((if Z.odd (j / n1) then -1 else 1) * sval a) (val (sw num) * 2 ^ j)).
      { rewrite (pow_split_n1 j J). eapply cg_trans; [apply cg_mul; [apply cg_sym, Cq|exact R4]|]. apply cg_eq. ring. }
      destruct (Z.odd (j / n1)).
      + assert (E : sval (mk_sws (sw a) (- sg a)) = -1 * sval a) by (unfold sval; cbn [sw sg]; ring).
        split; [apply sok_of; [apply (sok_w _ R1)|destruct (sok_s _ R1) as [-> | ->]; auto]|]. split; [auto|]. rewrite E. split; [lia|exact G].
      + rewrite Z.mul_1_l in G. auto. }
  clearbody acc. destruct A as (A1 & A2 & A3 & A4).
  destruct (normalize_ok acc A1 ltac:(lia) ltac:(lia)) as (r & -> & R1 & R2 & R3 & R4 & _). cbn [bind].
  exists (mk_sws (sw r) (sg num)). cbn [sw sg]. split; [reflexivity|]. split; [apply (sok_w _ R1)|]. split; [auto|]. split; [lia|]. split; [auto|].
  eapply cg_trans; eauto.
Qed.

(** Reduction of a product of parts. *)
Lemma mul_mod_prod_ok num : words_ok (sw num) -> zlen (sw num) = 2 * (N + 1) -> 0 <= val (sw num) <= 2 ^ n1 * 2 ^ n1 ->
  exists r, fft_mul_mod num 0 n1 md (3 * (N + 1)) = Ok r /\ words_ok (sw r) /\ zlen (sw r) = 2 * (N + 1) /\ 0 <= val (sw r) <= 2 ^ n1 /\
    cg F (val (sw r)) (val (sw num)).
Proof.
  intros W L V. unfold fft_mul_mod. rewrite L. change (0 =? 0) with true. cbv iota.
  destruct (compute_chunks_ok (sw num) (2 * (N + 1)) 1 W ltac:(lia) ltac:(lia) ltac:(lia) (or_introl eq_refl)) as (A1 & A2 & A3 & A4).
  set (acc := fft_compute_chunks _ _ _ _) in *. clearbody acc. rewrite Z.mul_1_l in A4.
  pose proof pow_n1_pos as P. change (2 ^ 64) with 18446744073709551616 in P.
  destruct (normalize_ok acc A1 ltac:(lia) ltac:(lia)) as (r & -> & R1 & R2 & R3 & R4 & _). cbn [bind].
  exists (mk_sws (sw r) (sg num)). cbn [sw sg]. split; [reflexivity|]. split; [apply (sok_w _ R1)|]. split; [lia|]. split; [auto|].
  eapply cg_trans; eauto.
Qed.

Lemma div_mod_ok num j : words_ok (sw num) -> zlen (sw num) = N + 1 -> 0 <= val (sw num) <= 2 ^ n1 -> 0 <= j ->
  exists r, fft_div_mod num j n1 md (3 * (N + 1)) = Ok r /\ words_ok (sw r) /\ sg r = sg num /\ zlen (sw r) = N + 1 /\ 0 <= val (sw r) <= 2 ^ n1 /\
    cg F (val (sw r) * 2 ^ j) (val (sw num)).
Proof.
  intros W L V J. unfold fft_div_mod. rewrite L. pose proof pow_n1_pos as P. change (2 ^ 64) with 18446744073709551616 in P.
  assert (N0 : 0 < n1) by (unfold n1; lia).
  set (q := (j + n1 * 2 - 1) / (n1 * 2)). set (st := q * (n1 * 2) - j).
  assert (Hst : 0 <= st < 2 * n1 /\ 0 <= q).
  { unfold st, q. pose proof (Z.div_mod (j + n1 * 2 - 1) (n1 * 2) ltac:(lia)). pose proof (Z.mod_pos_bound (j + n1 * 2 - 1) (n1 * 2) ltac:(lia)).
    split; [lia|]. apply Z.div_pos; lia. }
  assert (Est : st + j = n1 * (2 * q)) by (unfold st; ring). clearbody st q. destruct Hst as (Hst & Hq).
  assert (G : exists sh s, (if n1 <=? st then (st - n1, -1) else (st, 1)) = (sh, s) /\ 0 <= sh < n1 /\ (s = 1 \/ s = -1) /\ cg F (s * 2 ^ sh) (2 ^ st)).
  { destruct (Z.leb_spec n1 st) as [H|H].
    - exists (st - n1), (-1). split; [reflexivity|]. split; [lia|]. split; [auto|]. replace st with (n1 + (st - n1)) at 2 by ring. rewrite pow2_split by lia.
      apply cg_mul_r. apply cg_sym, cg_n1.
    - exists st, 1. split; [reflexivity|]. split; [lia|]. split; [auto|]. rewrite Z.mul_1_l. apply cg_refl. }
  destruct G as (sh & s & -> & Hsh & Hs & Cs).
  replace (3 * (N + 1) - (N + 1)) with (2 * (N + 1)) by ring.
  destruct (shifted_ok (sw num) sh W V Hsh) as (S1 & S2 & S3 & S4). set (ext := shift_slice_left_copy _ _ _) in *. clearbody ext.
  destruct (compute_chunks_ok ext (N + 1) s S1 ltac:(lia) S4) as (R1 & R2 & R3 & R4); [lia|auto|]. set (a := fft_compute_chunks _ _ _ _) in *. clearbody a.
  destruct (normalize_ok a R1 ltac:(lia) ltac:(lia)) as (r & -> & T1 & T2 & T3 & T4 & _). cbn [bind].
  exists (mk_sws (sw r) (sg num)). cbn [sw sg]. split; [reflexivity|]. split; [apply (sok_w _ T1)|]. split; [auto|]. split; [lia|]. split; [auto|].
  eapply cg_trans; [apply cg_mul_r; eapply cg_trans; [exact T4|exact R4]|]. rewrite S3.
  replace (s * (val (sw num) * 2 ^ sh) * 2 ^ j) with (val (sw num) * ((s * 2 ^ sh) * 2 ^ j)) by ring.
  eapply cg_trans; [apply cg_mul_l, cg_mul_r, Cs|]. rewrite <- pow2_split, Est by lia.
  eapply cg_trans; [apply cg_mul_l, pow_q; lia|]. replace (Z.odd (2 * q)) with false by (rewrite Z.odd_mul; reflexivity). apply cg_eq. ring.
Qed.
End Part.
