(** Multiplication of word slices: schoolbook, Toom-2, Toom-3 and the
    balancing of operands all compute the integer product. *)

From Coq Require Import ZArith List Bool Lia.
From Verif Require Import Words IntModel MulModel SpecZ WordsP WordsP2 IntP.
Import ListNotations.
Open Scope Z_scope.
Ltac Zify.zify_post_hook ::= idtac.
Arguments Z.mul : simpl never.
Arguments Z.add : simpl never.
Arguments Z.pow : simpl never.
Arguments Z.sub : simpl never.
Arguments Z.of_nat : simpl never.

Definition mul_res (m1 m2 : words) (l3 : Z) (res : result words) : Prop :=
  exists r, res = Ok r /\ val r = val m1 * val m2 /\ words_ok r /\ zlen r = l3.
Definition mul_good (f : words -> words -> Z -> result words) (k : Z) : Prop :=
  forall m1 m2 l3, words_ok m1 -> words_ok m2 -> zlen m1 + zlen m2 <= k -> zlen m1 + zlen m2 <= l3 ->
  mul_res m1 m2 l3 (f m1 m2 l3).

Lemma prod_lt a b x y : 0 <= a < x -> 0 <= b < y -> a * b < x * y.
Proof. intros. nia. Qed.

Lemma mul_bound m1 m2 l3 : words_ok m1 -> words_ok m2 -> zlen m1 + zlen m2 <= l3 -> 0 <= val m1 * val m2 < 2 ^ (64 * l3).
Proof.
  intros H1 H2 Hl. pose proof (val_bound _ H1). pose proof (val_bound _ H2). pose proof (zlen_nonneg m1). pose proof (zlen_nonneg m2).
  split; [apply Z.mul_nonneg_nonneg; lia|].
  pose proof (prod_lt _ _ _ _ H H0) as Hp. rewrite <- pow64_add in Hp by lia.
  pose proof (Z.pow_le_mono_r 2 (64 * (zlen m1 + zlen m2)) (64 * l3) ltac:(lia) ltac:(lia)). lia.
Qed.

Lemma zeros_S n : 0 < n -> zeros n = 0 :: zeros (n - 1).
Proof. intros. unfold zeros. replace (Z.to_nat n) with (S (Z.to_nat (n - 1))) by lia. reflexivity. Qed.

(** ** Schoolbook *)
Lemma mul_row_spec a m2 : 0 <= a < 2 ^ 64 -> words_ok m2 -> forall A C k, zlen A = zlen m2 -> words_ok A -> 0 <= k < 2 ^ 64 ->
  exists R, mul_row a m2 (A ++ 0 :: C) k = R ++ C /\ zlen R = zlen A + 1 /\ words_ok R /\ val R = val A + a * val m2 + k.
Proof.
  intros Ha. induction m2 as [|y m2 IH]; intros H2 A C k Hl HA Hk.
  - rewrite zlen_nil in Hl. apply zlen_0_nil in Hl. subst A. cbn [app mul_row]. exists [k].
    change WORD_BASE with (2 ^ 64). rewrite Z.add_0_l, !Z.mod_small by (rewrite ?Z.mod_small; lia).
    split; [reflexivity|]. split; [reflexivity|]. split; [apply ok_cons; split; [auto|constructor]|]. rewrite val_single, val_nil. lia.
  - destruct A as [|z A]. { rewrite zlen_nil, zlen_cons in Hl. pose proof (zlen_nonneg m2). lia. }
    apply ok_cons in H2 as [Hy H2]. apply ok_cons in HA as [Hz HA]. rewrite !zlen_cons in Hl.
    cbn [app mul_row]. set (m := a * y + z + k).
    assert (Hay : 0 <= a * y <= (2 ^ 64 - 1) * (2 ^ 64 - 1)) by (split; [apply Z.mul_nonneg_nonneg; lia|apply Z.mul_le_mono_nonneg; lia]).
    assert (Hm : 0 <= m < 2 ^ 64 * 2 ^ 64) by (unfold m; lia).
    change WORD_BASE with (2 ^ 64). rewrite Z.shiftr_div_pow2 by lia.
    pose proof (Z.div_mod m (2 ^ 64) ltac:(lia)). pose proof (Z.mod_pos_bound m (2 ^ 64) ltac:(lia)).
    destruct (IH H2 A C (m / 2 ^ 64)) as (R & R1 & R2 & R3 & R4); auto; [lia| |].
    { split; [apply Z.div_pos; lia|apply Z.div_lt_upper_bound; lia]. }
    exists (m mod 2 ^ 64 :: R). rewrite R1, !zlen_cons, !val_cons, R4. split; [reflexivity|]. split; [lia|].
    split; [apply ok_cons; auto|]. unfold m in *. lia.
Qed.

Lemma mul_basic_go_spec m2 : words_ok m2 -> forall m1 A n, words_ok m1 -> words_ok A -> zlen A = zlen m2 -> zlen m1 <= n ->
  let r := mul_basic_go m1 m2 (A ++ zeros n) in
  val r = val A + val m1 * val m2 /\ words_ok r /\ zlen r = zlen A + n.
Proof.
  intros H2. induction m1 as [|a t IH]; intros A n H1 HA Hl Hn.
  - cbn [mul_basic_go]. cbv zeta. rewrite val_app_zeros, val_nil, zlen_app. rewrite zlen_nil in Hn. rewrite zlen_zeros by auto.
    split; [lia|]. split; [|auto]. apply ok_app; auto using ok_zeros.
  - apply ok_cons in H1 as [Ha Ht]. rewrite zlen_cons in Hn. pose proof (zlen_nonneg t). pose proof (zlen_nonneg m2).
    cbn [mul_basic_go]. rewrite zeros_S by lia.
    assert (HR : exists R, (if a =? 0 then A ++ 0 :: zeros (n - 1) else mul_row a m2 (A ++ 0 :: zeros (n - 1)) 0) = R ++ zeros (n - 1)
       /\ zlen R = zlen A + 1 /\ words_ok R /\ val R = val A + a * val m2).
    { destruct (Z.eqb_spec a 0) as [->|].
      - exists (A ++ [0]). rewrite <- app_assoc, zlen_app, val_app, val_single, zlen_single. split; [reflexivity|]. split; [auto|].
        split; [apply ok_app; split; auto; apply ok_cons; split; [lia|constructor]|lia].
      - destruct (mul_row_spec a m2 Ha H2 A (zeros (n - 1)) 0 Hl HA ltac:(lia)) as (R & R1 & R2 & R3 & R4).
        exists R. repeat split; auto. lia. }
    destruct HR as (R & -> & R2 & R3 & R4). destruct R as [|h R]. { rewrite zlen_nil in R2. lia. }
    rewrite zlen_cons in R2. apply ok_cons in R3 as [Hh HRo]. cbn [app]. rewrite val_cons in R4.
    destruct (IH R (n - 1) Ht HRo ltac:(lia) ltac:(lia)) as (I1 & I2 & I3).
    cbv zeta. rewrite !val_cons, zlen_cons, I1, I3. split; [|split; [|lia]].
    + transitivity (h + 2 ^ 64 * val R + 2 ^ 64 * val t * val m2); [ring|]. rewrite R4. ring.
    + apply ok_cons. auto.
Qed.

Lemma mul_basic_spec m1 m2 l3 : words_ok m1 -> words_ok m2 -> zlen m1 + zlen m2 <= l3 ->
  mul_res m1 m2 l3 (Ok (mul_basic m1 m2 l3)).
Proof.
  intros H1 H2 Hl. unfold mul_basic. pose proof (zlen_nonneg m1). pose proof (zlen_nonneg m2).
  replace (zeros l3) with (zeros (zlen m2) ++ zeros (l3 - zlen m2)).
  2:{ unfold zeros. rewrite <- repeat_app. f_equal. lia. }
  destruct (mul_basic_go_spec m2 H2 m1 (zeros (zlen m2)) (l3 - zlen m2) H1 (ok_zeros _)) as (A & B & C); [apply zlen_zeros; auto|lia|].
  eexists. split; [reflexivity|]. rewrite A, C, val_zeros, zlen_zeros by auto. split; [lia|]. split; [auto|lia].
Qed.

(** ** Toom-2 *)
Lemma add_slices_spec a b : words_ok a -> words_ok b ->
  val (add_slices a b) = val a + val b /\ words_ok (add_slices a b) /\ zlen (add_slices a b) = Z.max (zlen a) (zlen b) + 1.
Proof.
  intros Ha Hb. unfold add_slices.
  assert (G : forall lg sh, words_ok lg -> words_ok sh -> zlen sh <= zlen lg ->
    let r := (let '(r, c) := add_ext lg sh 0 in r ++ [c]) in val r = val lg + val sh /\ words_ok r /\ zlen r = zlen lg + 1).
  { intros lg sh Hl Hs Hle. destruct (add_ext lg sh 0) as [r c] eqn:E. apply add_ext_spec in E; auto; [|lia].
    destruct E as (E1 & E2 & E3 & E4). cbv zeta. rewrite val_app, zlen_app, val_single, zlen_single, E3. split; [lia|]. split; [|lia].
    apply ok_app; split; auto. apply ok_cons; split; [lia|constructor]. }
  destruct (Z.ltb_spec (zlen b) (zlen a)).
  - destruct (G a b) as (G1 & G2 & G3); auto; [lia|]. split; [lia|]. split; [auto|lia].
  - destruct (G b a) as (G1 & G2 & G3); auto. split; [lia|]. split; [auto|lia].
Qed.

Lemma val_hd_tl m n : 0 <= n -> val (ztake (1 + n) m) = hd 0 m + 2 ^ 64 * val (ztake n (tl m)).
Proof.
  intros. unfold ztake. replace (Z.to_nat (1 + n)) with (S (Z.to_nat n)) by lia.
  destruct m; cbn [firstn hd tl]; [rewrite firstn_nil, val_nil; lia|]. now rewrite val_cons.
Qed.

Lemma psub_go_spec s3 : words_ok s3 -> forall lg sh c, words_ok lg -> words_ok sh -> 0 <= c <= 2 ->
  exists c', 0 <= c' <= 2 /\
  val (psub_go s3 lg sh c) = val s3 - val (ztake (zlen s3) lg) - val (ztake (zlen s3) sh) - c + 2 ^ (64 * zlen s3) * c' /\
  words_ok (psub_go s3 lg sh c) /\ zlen (psub_go s3 lg sh c) = zlen s3.
Proof.
  induction s3 as [|v s3 IH]; intros H3 lg sh c Hl Hs Hc.
  - exists c. cbn [psub_go]. rewrite zlen_nil. change (2 ^ (64 * 0)) with 1. change (ztake 0 lg) with (@nil Z). change (ztake 0 sh) with (@nil Z). rewrite val_nil. repeat split; auto; lia.
  - apply ok_cons in H3 as [Hv H3]. cbn [psub_go]. change WORD_BASE with (2 ^ 64).
    pose proof (ok_hd sh Hs) as B1. pose proof (ok_hd lg Hl) as B2. set (s := hd 0 sh + hd 0 lg + c).
    assert (Hx : exists x c', (if s <=? v then (v - s, 0) else if s <=? v + 2 ^ 64 then (v + 2 ^ 64 - s, 1) else (v + 2 ^ 64 * 2 - s, 2)) = (x, c')
       /\ 0 <= c' <= 2 /\ 0 <= x < 2 ^ 64 /\ x = v - s + 2 ^ 64 * c').
    { destruct (Z.leb_spec s v); [|destruct (Z.leb_spec s (v + 2 ^ 64))]; do 2 eexists; (split; [reflexivity|]); unfold s in *; lia. }
    destruct Hx as (x & c' & -> & Hc' & Hxb & Hxe).
    destruct (IH H3 (tl lg) (tl sh) c' (ok_tl _ Hl) (ok_tl _ Hs) Hc') as (k & K1 & K2 & K3 & K4).
    exists k. rewrite !val_cons, !zlen_cons. pose proof (zlen_nonneg s3). rewrite !val_hd_tl by lia. rewrite pow64_succ by auto.
    rewrite K2, K4. split; [auto|]. split; [unfold s in *; lia|]. split; [apply ok_cons; auto|auto].
Qed.

Lemma paired_sub_spec s1 s2 s3 : words_ok s1 -> words_ok s2 -> words_ok s3 -> val s1 + val s2 <= val s3 ->
  val (paired_sub s1 s2 s3) = val s3 - val s1 - val s2 /\ words_ok (paired_sub s1 s2 s3) /\ zlen (paired_sub s1 s2 s3) = zlen s3.
Proof.
  intros H1 H2 H3 Hle. unfold paired_sub. pose proof (val_nonneg _ H1) as P1. pose proof (val_nonneg _ H2) as P2. pose proof (val_bound _ H3) as B3.
  pose proof (zlen_nonneg s3) as Z3.
  assert (G : forall lg sh, words_ok lg -> words_ok sh -> 0 <= val lg -> 0 <= val sh -> val lg + val sh <= val s3 ->
    val (psub_go s3 lg sh 0) = val s3 - val lg - val sh /\ words_ok (psub_go s3 lg sh 0) /\ zlen (psub_go s3 lg sh 0) = zlen s3).
  { intros lg sh Hl Hs Pl Ps Hle'. destruct (psub_go_spec s3 H3 lg sh 0 Hl Hs ltac:(lia)) as (c & C1 & C2 & C3 & C4).
    rewrite !val_ztake_fit in C2 by (auto; lia). pose proof (val_bound _ C3) as Br. rewrite C4 in Br.
    assert (c = 0). { assert (c <= 0 \/ c = 1 \/ c = 2) as [?|[->| ->]] by lia; lia. } subst c. split; [lia|auto]. }
  destruct (zlen s2 <? zlen s1).
  - destruct (G s1 s2) as (G1 & G2); auto.
  - destruct (G s2 s1) as (G1 & G2); auto; [lia|]. split; [lia|auto].
Qed.

Lemma toom2_spec f k m1 m2 l3 : mul_good f k -> words_ok m1 -> words_ok m2 ->
  32 < zlen m1 -> 32 < zlen m2 -> zlen m1 + zlen m2 <= k + 1 -> zlen m1 + zlen m2 <= l3 ->
  mul_res m1 m2 l3 (toom2 f m1 m2 l3).
Proof.
  intros Hf H1 H2 L1 L2 Hk Hl. unfold toom2. rewrite Z.shiftr_div_pow2, Z.shiftl_mul_pow2 by lia. change (2 ^ 1) with 2.
  set (n := (Z.min (zlen m1) (zlen m2) + 1) / 2).
  assert (Hn : 16 <= n /\ n <= zlen m1 /\ n <= zlen m2 /\ 2 * n <= zlen m1 + 1 /\ 2 * n <= zlen m2 + 1).
  { unfold n. dlia. }
  clearbody n. destruct Hn as (N1 & N2 & N3 & N4 & N5).
  pose proof (val_take_drop n m1 ltac:(lia)) as V1. pose proof (val_take_drop n m2 ltac:(lia)) as V2.
  assert (Z11 : zlen (ztake n m1) = n) by (apply zlen_ztake; lia). assert (Z12 : zlen (zdrop n m1) = zlen m1 - n) by (apply zlen_zdrop; lia).
  assert (Z21 : zlen (ztake n m2) = n) by (apply zlen_ztake; lia). assert (Z22 : zlen (zdrop n m2) = zlen m2 - n) by (apply zlen_zdrop; lia).
  pose proof (ok_ztake n _ H1) as O11. pose proof (ok_zdrop n _ H1) as O12. pose proof (ok_ztake n _ H2) as O21. pose proof (ok_zdrop n _ H2) as O22.
  pose proof (mul_bound m1 m2 l3 H1 H2 Hl) as HB.
  set (m11 := ztake n m1) in *. set (m12 := zdrop n m1) in *. set (m21 := ztake n m2) in *. set (m22 := zdrop n m2) in *. clearbody m11 m12 m21 m22.
  destruct (add_slices_spec m11 m12 O11 O12) as (A1 & A2 & A3). destruct (add_slices_spec m21 m22 O21 O22) as (B1 & B2 & B3).
  destruct (Hf (add_slices m11 m12) (add_slices m21 m22) (Z.max (zlen m11) (zlen m12) + 1 + (Z.max (zlen m21) (zlen m22) + 1))) as (z2 & -> & z2v & z2o & z2l); auto; [lia|lia|].
  cbn [bind]. destruct (Hf m11 m21 (n * 2)) as (m31 & -> & av & ao & al); auto; [lia|lia|].
  cbn [bind]. destruct (Hf m12 m22 (l3 - n * 2)) as (m32 & -> & bv & bo & bl); auto; [lia|lia|].
  cbn [bind]. rewrite A1, B1 in z2v.
  pose proof (val_nonneg _ O11) as P11. pose proof (val_nonneg _ O12) as P12. pose proof (val_nonneg _ O21) as P21. pose proof (val_nonneg _ O22) as P22.
  set (a := val m11) in *. set (b := val m12) in *. set (c := val m21) in *. set (d := val m22) in *. clearbody a b c d.
  assert (Pad : 0 <= a * d) by (apply Z.mul_nonneg_nonneg; auto). assert (Pbc : 0 <= b * c) by (apply Z.mul_nonneg_nonneg; auto).
  destruct (paired_sub_spec m31 m32 z2 ao bo z2o) as (P1 & P2 & P3). { rewrite av, bv, z2v. lia. }
  rewrite av, bv, z2v in P1. replace ((a + b) * (c + d) - a * c - b * d) with (a * d + b * c) in P1 by ring.
  set (m3 := m31 ++ m32). assert (O3 : words_ok m3) by (apply ok_app; auto). assert (L3 : zlen m3 = l3) by (unfold m3; rewrite zlen_app; lia).
  assert (V3 : val m3 = a * c + 2 ^ (64 * n) * 2 ^ (64 * n) * (b * d)).
  { unfold m3. rewrite val_app, av, bv, al. replace (64 * (n * 2)) with (64 * (n + n)) by ring. rewrite pow64_add by lia. reflexivity. }
  pose proof (val_take_drop n m3 ltac:(lia)) as VT. clearbody m3.
  assert (LD : zlen (zdrop n m3) = l3 - n) by (rewrite zlen_zdrop; lia).
  pose proof (ok_ztake n _ O3) as OT. pose proof (ok_zdrop n _ O3) as OD. assert (LT : zlen (ztake n m3) = n) by (apply zlen_ztake; lia).
  pose proof (val_nonneg _ OT) as PT. pose proof (val_nonneg _ OD) as PD.
  set (T := ztake n m3) in *. set (D := zdrop n m3) in *. clearbody T D. set (z2' := paired_sub m31 m32 z2) in *. clearbody z2'.
  pose proof (pow2_gt0 (64 * n) ltac:(lia)) as PB. replace (64 * l3) with (64 * (n + (l3 - n))) in HB by ring. rewrite pow64_add in HB by lia.
  remember (2 ^ (64 * n)) as B eqn:EB. set (B' := 2 ^ (64 * (l3 - n))) in *.
  assert (Etot : val T + B * (val D + val z2') = val m1 * val m2) by (rewrite P1, V1, V2; rewrite V3 in VT; lia).
  assert (Hfit : val D + val z2' < B').
  { apply Z.mul_lt_mono_pos_l with B; auto. lia. }
  destruct (add_assign_fit D z2' OD P2) as (Q1 & Q2 & Q3). { rewrite LD. exact Hfit. }
  eexists. split; [reflexivity|]. unfold add_assign_slices. change (fst (add_ext D z2' 0)) with (sws_abs_add_assign D z2').
  split; [|split].
  - rewrite val_app, LT, Q1, <- EB. exact Etot.
  - apply ok_app; auto.
  - rewrite zlen_app, LT, Q3, LD. lia.
Qed.
