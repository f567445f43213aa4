(** The parameters, the decomposition, and the loops over the parts (Fft.v). *)

From Coq Require Import ZArith List Bool Lia.
From Verif Require Import UtilP Words IntModel Fft SpecZ WordsP WordsP2 IntP MulP MulToom FftP1 FftP2 FftP3.
Import ListNotations.
Open Scope Z_scope.
Ltac Zify.zify_post_hook ::= idtac.
Ltac dlia := Z.div_mod_to_equations; lia.
Arguments Z.mul : simpl never.
Arguments Z.add : simpl never.
Arguments Z.pow : simpl never.
Arguments Z.sub : simpl never.
#[local] Arguments Z.opp : simpl never.
Arguments Z.of_nat : simpl never.
#[local] Arguments Nat.pow : simpl never.

(** ** Parameters *)
(** The Newton iteration stays above the root and decreases. *)
Lemma sqrt_loop_bounds r a : 1 <= r -> r * r <= a -> a < (r + 1) * (r + 1) -> forall f x D, 0 <= D -> r <= x -> x <= D + (r + 2) ->
  r <= sqrt_int_loop f a x <= D / 2 ^ Z.of_nat f + (r + 2).
Proof.
  intros Hr H1 H2. induction f as [|f IH]; intros x D HD Hx Hu.
  - cbn [sqrt_int_loop]. change (2 ^ Z.of_nat 0) with 1. rewrite Z.div_1_r. lia.
  - cbn [sqrt_int_loop]. rewrite (proj2 (Z.eqb_neq x 0)) by lia.
    assert (L : r <= (a / x + x) / 2).
    { apply Z.div_le_lower_bound; [lia|]. assert (2 * r - x <= a / x); [|lia]. apply Z.div_le_lower_bound; [lia|]. nia. }
    assert (U : a / x <= r + 2) by (assert (a / x < r + 3); [apply Z.div_lt_upper_bound; nia|lia]).
    assert (U2 : (a / x + x) / 2 <= D / 2 + (r + 2)).
    { apply Z.le_trans with ((D + 2 * (r + 2)) / 2); [apply Z.div_le_mono; lia|]. replace (D + 2 * (r + 2)) with (D + (r + 2) * 2) by ring. rewrite Z.div_add by lia. lia. }
    pose proof (IH ((a / x + x) / 2) (D / 2) ltac:(apply Z.div_pos; lia) L U2) as G. rewrite Z.div_div in G by (try apply pow2_gt0; lia).
    rewrite Nat2Z.inj_succ, Z.pow_succ_r by lia. exact G.
Qed.

Lemma sqrt_int_bounds a : 1 <= a < 2 ^ 32 -> Z.sqrt a <= sqrt_int a <= a / 2 ^ 20 + (Z.sqrt a + 2).
Proof.
  intros Ha. unfold sqrt_int. rewrite (Z.mod_small a) by lia. pose proof (Z.sqrt_spec a ltac:(lia)) as S. cbv zeta in S.
  assert (R1 : 1 <= Z.sqrt a) by (change 1 with (Z.sqrt 1); apply Z.sqrt_le_mono; lia).
  assert (Rr : Z.sqrt a <= a) by nia.
  pose proof (sqrt_loop_bounds (Z.sqrt a) a R1 ltac:(lia) ltac:(lia) 20 a a ltac:(lia) Rr ltac:(lia)) as G. change (Z.of_nat 20) with 20 in G.
  assert (a / 2 ^ 20 < 4096) by (apply Z.div_lt_upper_bound; change (2 ^ 20 * 4096) with (2 ^ 32); lia).
  assert (Z.sqrt a < 65536) by (apply Z.sqrt_lt_square; lia).
  rewrite Z.mod_small by lia. exact G.
Qed.

Record params_ok (L k1 k m n1 t N : Z) : Prop := {
  po_k : 7 <= k <= 32; po_k1 : k1 = 2 ^ k; po_m : 1 <= m; po_mL : 64 * L <= m * k1; po_n1 : n1 = t * k1; po_N : n1 = 64 * N;
  po_fit : 2 * m + k <= n1; po_up : n1 < 2 * m + k + k1; po_mup : m * k1 < 64 * L + k1; po_k1up : k1 < L }.

Lemma params_spec L : 1024 <= L < 2 ^ 26 -> exists k1 k m n1 t N, fft_params (L * 64) = (k1, k, m, n1, t) /\ params_ok L k1 k m n1 t N.
Proof.
  intros HL. unfold fft_params. assert (Hn : 65536 <= L * 64 < 2 ^ 32) by lia. pose proof (sqrt_int_bounds (L * 64) ltac:(lia)) as S.
  assert (Sq : 256 <= Z.sqrt (L * 64)) by (change 256 with (Z.sqrt 65536); apply Z.sqrt_le_mono; lia).
  assert (Su : 256 * Z.sqrt (L * 64) <= L * 64) by (pose proof (Z.sqrt_spec (L * 64) ltac:(lia)) as G; cbv zeta in G; nia).
  assert (Sd : L * 64 / 2 ^ 20 <= L / 16384).
  { change (2 ^ 20) with (64 * 16384). rewrite <- Z.div_div by lia. rewrite Z.div_mul by lia. lia. }
  set (q := sqrt_int (L * 64)) in *. clearbody q.
  set (k0 := if L * 64 / 64 <? 50000 then q / 2 else q).
  assert (K0 : 128 <= k0 <= L / 16384 + 2 + L / 4 /\ k0 < 2 ^ 32).
  { assert (q <= L / 16384 + 2 + L / 4) by dlia. assert (L / 16384 < 4096 /\ L / 4 < 2 ^ 24) by dlia. unfold k0. destruct (Z.ltb_spec (L * 64 / 64) 50000); dlia. }
  assert (K0' : L * 64 / 64 < 50000 -> 2 * k0 <= L / 16384 + 2 + L / 4).
  { intros H. unfold k0. rewrite (proj2 (Z.ltb_lt _ _) H). dlia. }
  clearbody k0. destruct K0 as (K0 & K0b).
  destruct (log2_ceil_ok k0 ltac:(lia)) as (C1 & C2 & C3). specialize (C3 ltac:(lia)). set (c := log2_ceil k0) in *. clearbody c.
  assert (C7 : 7 <= c).
  { destruct (Z.lt_ge_cases c 7) as [H|H]; [|exact H]. exfalso. assert (2 ^ c <= 2 ^ 6) by (apply Z.pow_le_mono_r; lia). change (2 ^ 6) with 64 in H0. lia. }
  assert (C32 : c <= 32).
  { destruct (Z.le_gt_cases c 32) as [H|H]; [exact H|]. exfalso. assert (2 ^ 32 <= 2 ^ (c - 1)) by (apply Z.pow_le_mono_r; lia). lia. }
  rewrite Z.max_l by lia. assert (Hk1 : 128 <= 2 ^ c) by (change 128 with (2 ^ 7); apply Z.pow_le_mono_r; lia).
  assert (Hku : 2 ^ c < 2 * k0) by (replace c with (1 + (c - 1)) at 1 by ring; rewrite pow2_split by lia; change (2 ^ 1) with 2; lia).
  assert (D64 : exists e, 2 ^ c = 64 * e) by (exists (2 ^ (c - 6)); change 64 with (2 ^ 6); rewrite <- pow2_split by lia; f_equal; ring). destruct D64 as (e & De).
  assert (KL : 2 ^ c < L). { rewrite Z.div_mul in K0' by lia. destruct (Z.lt_ge_cases L 50000); [specialize (K0' H); dlia|dlia]. }
  set (k1 := 2 ^ c) in *. set (m := (L * 64 + k1 - 1) / k1).
  assert (Hm : 64 * L <= m * k1 /\ m * k1 < 64 * L + k1 /\ 1 <= m).
  { unfold m. pose proof (Z.div_mod (L * 64 + k1 - 1) k1 ltac:(lia)). pose proof (Z.mod_pos_bound (L * 64 + k1 - 1) k1 ltac:(lia)).
    split; [lia|]. split; [lia|]. apply Z.div_le_lower_bound; lia. }
  clearbody m. destruct Hm as (M1 & M2 & M3).
  assert (E1 : (2 * (m * k1) + k1 - 1) / k1 = 2 * m).
  { replace (2 * (m * k1) + k1 - 1) with (k1 - 1 + 2 * m * k1) by ring. rewrite Z.div_add by lia. rewrite Z.div_small by lia. lia. }
  rewrite E1. set (t := (2 * m + c + k1 - 1) / k1).
  assert (T : 2 * m + c <= t * k1 /\ t * k1 < 2 * m + c + k1).
  { unfold t. pose proof (Z.div_mod (2 * m + c + k1 - 1) k1 ltac:(lia)). pose proof (Z.mod_pos_bound (2 * m + c + k1 - 1) k1 ltac:(lia)). lia. }
  clearbody t. rewrite Z.div_mul by lia.
  exists k1, c, m, (t * k1), t, (t * e). split; [reflexivity|].
  split; auto; try lia.
Qed.

(** ** Lists of parts *)
Lemma pget_0 p ps : pget 0 (p :: ps) = p.
Proof. reflexivity. Qed.
Lemma pget_S p ps i : 0 <= i -> pget (i + 1) (p :: ps) = pget i ps.
Proof. intros. unfold pget. replace (Z.to_nat (i + 1)) with (S (Z.to_nat i)) by lia. reflexivity. Qed.
Lemma pget_over ps i : plen ps <= i -> pget i ps = no_part.
Proof. intros. unfold pget. apply nth_overflow. unfold plen in *. lia. Qed.
Lemma plen_cons p ps : plen (p :: ps) = 1 + plen ps.
Proof. unfold plen. cbn [length]. lia. Qed.
Lemma plen_app p q : plen (p ++ q) = plen p + plen q.
Proof. unfold plen. rewrite app_length. lia. Qed.
Lemma pget_app1 p q i : 0 <= i < plen p -> pget i (p ++ q) = pget i p.
Proof. intros. unfold pget. apply app_nth1. unfold plen in *. lia. Qed.
Lemma pget_app2 p q i : plen p <= i -> pget i (p ++ q) = pget (i - plen p) q.
Proof. intros. unfold pget. rewrite app_nth2 by (unfold plen in *; lia). f_equal. unfold plen. lia. Qed.
Lemma plen_nonneg ps : 0 <= plen ps.
Proof. unfold plen. lia. Qed.

Lemma top_zero P Q lo mid top x : 0 < P -> 0 < Q -> 0 <= lo -> 0 <= mid -> 0 <= top -> 0 <= x -> lo + P * (mid + Q * top) + x < P * Q -> top = 0.
Proof.
  intros. assert (E : P * (mid + Q * top) = P * mid + (P * Q) * top) by ring. assert (0 <= P * mid) by (apply Z.mul_nonneg_nonneg; lia).
  assert (0 < P * Q) by (apply Z.mul_pos_pos; lia). set (R := P * Q) in *. clearbody R. nia.
Qed.
Lemma mul_lt_pos c A s B : 0 <= c <= A -> 0 < A -> 0 <= s < B -> c * s < B * A.
Proof. intros. apply Z.le_lt_trans with (A * s); [apply Z.mul_le_mono_nonneg_r; lia|]. rewrite (Z.mul_comm B). apply Z.mul_lt_mono_pos_l; lia. Qed.
Lemma next_low v c A P : v < A * P -> 0 <= c <= A -> 0 < P -> v + c * P < 2 * (A * P).
Proof. intros. assert (c * P <= A * P) by (apply Z.mul_le_mono_nonneg_r; lia). lia. Qed.

Section Loops.
Variable N : Z.
Hypothesis HN : 2 <= N.
Let n1 := 64 * N.
Let F := 2 ^ n1 + 1.
Variable md : sws.
Hypothesis Hmd : sok md /\ sval md = F /\ zlen (sw md) = N + 1.
Let tl := 3 * (N + 1).
Let gp := gp N.

Lemma weight_ok t : 0 <= t -> forall ps j, 0 <= j -> (forall i, 0 <= i < plen ps -> gp (pget i ps)) ->
  exists ps', fft_weight j ps t n1 md tl = Ok ps' /\ plen ps' = plen ps /\
    (forall i, 0 <= i < plen ps -> gp (pget i ps') /\ cg F (pv ps' i) (pv ps i * 2 ^ (t * (j + i)))).
Proof.
  intros Ht. induction ps as [|p ps IH]; intros j Hj H.
  - exists []. split; [reflexivity|]. split; [reflexivity|]. intros i Hi. unfold plen in Hi. cbn in Hi. lia.
  - rewrite plen_cons in H. pose proof (plen_nonneg ps) as P0. cbn [fft_weight]. destruct (mulmod_gp N HN md Hmd p (t * j)) as (r & E & G & C); [apply (H 0); lia|nia|].
    fold n1 tl in E. rewrite E. cbn [bind].
    destruct (IH (j + 1)) as (ps' & E' & L' & R'); [lia|intros i Hi; rewrite <- (pget_S p ps i) by lia; apply H; lia|]. rewrite E'. cbn [bind].
    exists (r :: ps'). split; [reflexivity|]. split; [rewrite !plen_cons; lia|]. rewrite plen_cons. intros i Hi. unfold pv. destruct (Z.eq_dec i 0) as [->|Hne].
    + rewrite !pget_0, Z.add_0_r. split; [exact G|exact C].
    + replace i with (i - 1 + 1) by ring. rewrite !pget_S by lia. destruct (R' (i - 1) ltac:(lia)) as (G' & C'). split; [exact G'|]. unfold pv in C'. replace (j + 1 + (i - 1)) with (j + (i - 1 + 1)) in C' by ring. exact C'.
Qed.

Lemma products_ok f : (forall a b, words_ok a -> words_ok b -> zlen a = N + 1 -> zlen b = N + 1 -> mul_res a b (2 * (N + 1)) (f a b (2 * (N + 1)))) ->
  forall ps1 ps2, plen ps1 = plen ps2 -> (forall i, 0 <= i < plen ps1 -> gp (pget i ps1)) -> (forall i, 0 <= i < plen ps2 -> gp (pget i ps2)) ->
  exists ps', fft_products f ps1 ps2 n1 (N + 1) md tl = Ok ps' /\ plen ps' = plen ps1 /\
    (forall i, 0 <= i < plen ps1 -> gp (pget i ps') /\ cg F (pv ps' i) (pv ps1 i * pv ps2 i)).
Proof.
  intros Hf. induction ps1 as [|p ps1 IH]; intros [|p2 ps2] HL H1 H2; try (rewrite plen_cons in HL; unfold plen in HL; cbn in HL; lia).
  - exists []. split; [reflexivity|]. split; [reflexivity|]. intros i Hi. unfold plen in Hi. cbn in Hi. lia.
  - rewrite !plen_cons in HL. rewrite plen_cons in H1, H2. pose proof (plen_nonneg ps1) as P0. cbn [fft_products].
    destruct (H1 0 ltac:(lia)) as [W1 S1 L1 V1]. destruct (H2 0 ltac:(lia)) as [W2 S2 L2 V2]. rewrite pget_0 in *.
    destruct (Hf (sw p) (sw p2) W1 W2 L1 L2) as (r & -> & Vr & Wr & Lr). cbn [bind]. rewrite S1, S2, Z.mul_1_l.
    destruct (mul_mod_prod_ok N HN md Hmd (mk_sws r 1)) as (t0 & Et & Wt & Lt & Vt & Ct); cbn [sw]; auto.
    { rewrite Vr. split; [apply Z.mul_nonneg_nonneg; lia|apply Z.mul_le_mono_nonneg; lia]. }
    fold n1 tl in Et. rewrite Et. cbn [bind]. cbn [sw] in Ct. rewrite Vr in Ct.
    destruct (IH ps2) as (ps' & E' & L' & R'); [lia|intros i Hi; rewrite <- (pget_S p ps1 i) by lia; apply H1; lia|intros i Hi; rewrite <- (pget_S p2 ps2 i) by lia; apply H2; lia|].
    rewrite E'. cbn [bind]. eexists. split; [reflexivity|]. split; [rewrite !plen_cons; lia|].
    assert (Vk : val (ztake (N + 1) (sw t0)) = val (sw t0)).
    { apply val_ztake_fit; auto; [lia|]. apply Z.le_lt_trans with (2 ^ n1); [apply Vt|]. apply Z.pow_lt_mono_r; unfold n1; lia. }
    rewrite plen_cons. intros i Hi. unfold pv. destruct (Z.eq_dec i 0) as [->|Hne].
    + rewrite !pget_0. cbn [sw]. rewrite Vk. split; [|exact Ct]. split; cbn [sw sg]; auto using ok_ztake; [apply zlen_ztake; lia|rewrite Vk; exact Vt].
    + replace i with (i - 1 + 1) by ring. rewrite !pget_S by lia. exact (R' (i - 1) ltac:(lia)).
Qed.

Lemma cg_cancel a b e : 0 <= e -> cg F (a * 2 ^ e) (b * 2 ^ e) -> cg F a b.
Proof.
  intros He H. assert (G : forall x, cg F (x * 2 ^ e * 2 ^ (n1 * (2 * e) - e)) x).
  { intros x. rewrite <- Z.mul_assoc, <- pow2_split by (unfold n1; nia). replace (e + (n1 * (2 * e) - e)) with (n1 * (2 * e)) by ring.
    eapply cg_trans; [apply cg_mul_l, (pow_2q N HN md Hmd); exact He|]. apply cg_eq. ring. }
  eapply cg_trans; [apply cg_sym, (G a)|]. eapply cg_trans; [apply cg_mul_r; exact H|]. apply G.
Qed.

(** ** Output *)
Lemma output_ok c k t m : 0 <= k -> 0 <= t -> 1 <= m -> (forall i, 0 <= i -> 0 <= c i <= 2 ^ n1) -> forall ps j d3, 0 <= j -> words_ok d3 ->
  (forall i, 0 <= i < plen ps -> gp (pget i ps) /\ cg F (pv ps i) (2 ^ k * (c (j + i) * 2 ^ (t * (j + i))))) ->
  val d3 + sm (length ps) (fun i => c (j + i) * 2 ^ (m * (j + i))) < 2 ^ (64 * zlen d3) -> val d3 < 2 ^ (n1 + m * j) ->
  exists r, fft_output j ps d3 k t m n1 (N + 1) md tl = Ok r /\ words_ok r /\ zlen r = zlen d3 /\
    val r = val d3 + sm (length ps) (fun i => c (j + i) * 2 ^ (m * (j + i))).
Proof.
  intros Hk Ht Hm Hc. assert (N0 : 0 <= n1) by (unfold n1; lia).
  induction ps as [|p ps IH]; intros j d3 Hj W Hps Hfit Hlow.
  - exists d3. cbn [fft_output length sm]. repeat split; auto. lia.
  - rewrite plen_cons in Hps. pose proof (plen_nonneg ps) as P0. cbn [fft_output].
    destruct (Hps 0 ltac:(lia)) as ([Wp Sp Lp Vp] & Cp). unfold pv in Cp. rewrite pget_0, Z.add_0_r in *.
    destruct (div_mod_ok N HN md Hmd p (k + t * j) Wp Lp Vp ltac:(nia)) as (r & E & Wr & Sr & Lr & Vr & Cr). fold n1 tl in E. rewrite E. cbn [bind].
    fold n1 in Vr. fold n1 F in Cr. rewrite Sp in Sr.
    assert (EV : val (sw r) = c j).
    { apply (cg_small F); [|unfold F; lia|pose proof (Hc j Hj); unfold F; lia]. apply (cg_cancel _ _ (k + t * j)); [nia|].
      eapply cg_trans; [exact Cr|]. eapply cg_trans; [exact Cp|]. apply cg_eq. rewrite pow2_split by nia. ring. }
    cbn [add_until_pos]. rewrite Sr. change (1 <? 0) with false. cbn [andb bind].
    set (S := fun i => c (j + i) * 2 ^ (m * (j + i))) in *.
    assert (ES : sm (length (p :: ps)) S = c j * 2 ^ (m * j) + sm (length ps) (fun i => c (j + 1 + i) * 2 ^ (m * (j + 1 + i)))).
    { change (length (p :: ps)) with (1 + length ps)%nat. rewrite sm_app. cbn [sm]. change (Z.of_nat 0) with 0. change (Z.of_nat 1) with 1. unfold S at 1. rewrite !Z.add_0_r, Z.add_0_l. f_equal.
      apply sm_ext. intros i Hi. unfold S. rewrite Z.add_assoc. reflexivity. }
    assert (Snn : 0 <= sm (length ps) (fun i => c (j + 1 + i) * 2 ^ (m * (j + 1 + i)))).
    { apply Z.le_trans with (sm (length ps) (fun _ => 0)); [rewrite sm_zero by auto; lia|]. apply sm_le. intros i Hi.
      apply Z.mul_nonneg_nonneg; [apply Hc; lia|apply pow2_nonneg]. }
    pose proof (Hc j Hj) as Cj. pose proof (val_nonneg _ W) as Vd. pose proof (pow2_gt0 (m * j) ltac:(nia)) as Pm. pose proof (pow2_gt0 n1 N0) as Pn.
    assert (Hmj : 0 <= m * j) by (apply Z.mul_nonneg_nonneg; lia).
    set (idx := j * m / 64). set (shift := j * m mod 64).
    assert (Ejm : m * j = 64 * idx + shift) by (rewrite (Z.mul_comm m j); apply Z.div_mod; lia).
    assert (Hsh : 0 <= shift < 64) by (apply Z.mod_pos_bound; lia). assert (Hidx : 0 <= idx) by (apply Z.div_pos; nia). clearbody idx shift.
    destruct (Z.leb_spec (zlen d3) idx) as [Hbr|Hbr].
    + exists d3. split; [reflexivity|]. split; [auto|]. split; [auto|].
      assert (EZ : sm (length (p :: ps)) S = 2 ^ (m * j) * sm (length (p :: ps)) (fun i => c (j + i) * 2 ^ (m * i))).
      { rewrite <- sm_scale. apply sm_ext. intros i Hi. unfold S. rewrite Z.mul_add_distr_l, pow2_split by nia. ring. }
      assert (0 <= sm (length (p :: ps)) (fun i => c (j + i) * 2 ^ (m * i))).
      { apply Z.le_trans with (sm (length (p :: ps)) (fun _ => 0)); [rewrite sm_zero by auto; lia|]. apply sm_le. intros i Hi. apply Z.mul_nonneg_nonneg; [apply Hc; lia|apply pow2_nonneg]. }
      assert (2 ^ (64 * zlen d3) <= 2 ^ (m * j)) by (apply Z.pow_le_mono_r; lia).
      set (X := sm (length (p :: ps)) (fun i => c (j + i) * 2 ^ (m * i))) in *. clearbody X. rewrite EZ in *. clear ES. assert (X = 0) by nia. subst X. lia.
    + set (hi := if idx + (N + 1) + 2 <? zlen d3 then idx + (N + 1) + 2 else zlen d3).
      assert (Hhi : idx < hi <= zlen d3) by (unfold hi; destruct (Z.ltb_spec (idx + (N + 1) + 2) (zlen d3)); lia).
      rewrite ES in *.
      assert (Hnext : val d3 + c j * 2 ^ (m * j) < 2 ^ (n1 + m * (j + 1))).
      { apply Z.lt_le_trans with (2 * 2 ^ (n1 + m * j)).
        - rewrite pow2_split in Hlow |- * by lia. apply next_low; auto.
        - replace (n1 + m * (j + 1)) with (m + (n1 + m * j)) by ring. rewrite (pow2_split m) by lia. apply Z.mul_le_mono_nonneg_r; [apply pow2_nonneg|].
          change 2 with (2 ^ 1) at 1. apply Z.pow_le_mono_r; lia. }
      assert (Hsum : val d3 + c j * 2 ^ (m * j) < 2 ^ (64 * hi)).
      { unfold hi. destruct (Z.ltb_spec (idx + (N + 1) + 2) (zlen d3)); [|lia].
        apply Z.lt_le_trans with (2 * 2 ^ (n1 + m * j)).
        - rewrite pow2_split in Hlow |- * by lia. apply next_low; auto.
        - change 2 with (2 ^ 1) at 1. rewrite <- pow2_split by lia. apply Z.pow_le_mono_r; [lia|]. unfold n1. lia. }
      clearbody hi.
      pose proof (val_take_drop idx d3 ltac:(lia)) as D1. pose proof (val_take_drop (hi - idx) (zdrop idx d3)) as D2. rewrite zlen_zdrop in D2 by lia. specialize (D2 ltac:(lia)).
      rewrite zdrop_zdrop in D2 by lia. replace (hi - idx + idx) with hi in D2 by ring.
      assert (Wlo : words_ok (ztake idx d3)) by (apply ok_ztake; auto). assert (Wmid : words_ok (ztake (hi - idx) (zdrop idx d3))) by (apply ok_ztake, ok_zdrop; auto). assert (Wtop : words_ok (zdrop hi d3)) by (apply ok_zdrop; auto).
      assert (Llo : zlen (ztake idx d3) = idx) by (apply zlen_ztake; lia). assert (Lmid : zlen (ztake (hi - idx) (zdrop idx d3)) = hi - idx) by (apply zlen_ztake; rewrite zlen_zdrop; lia).
      assert (Ltop : zlen (zdrop hi d3) = zlen d3 - hi) by (apply zlen_zdrop; lia).
      set (lo := ztake idx d3) in *. set (mid := ztake (hi - idx) (zdrop idx d3)) in *. set (top := zdrop hi d3) in *. clearbody lo mid top.
      pose proof (val_nonneg _ Wlo) as V0. pose proof (val_nonneg _ Wmid) as V1. pose proof (val_nonneg _ Wtop) as V2.
      pose proof (pow2_gt0 (64 * idx) ltac:(lia)) as Pi. pose proof (pow2_gt0 (64 * (hi - idx)) ltac:(lia)) as Ph.
      assert (Ehi : 2 ^ (64 * hi) = 2 ^ (64 * idx) * 2 ^ (64 * (hi - idx))) by (rewrite <- pow2_split by lia; f_equal; ring).
      assert (Emj : 2 ^ (m * j) = 2 ^ (64 * idx) * 2 ^ shift) by (rewrite <- pow2_split by lia; f_equal; exact Ejm).
      assert (Vtop : val top = 0) by (apply (top_zero (2 ^ (64 * idx)) (2 ^ (64 * (hi - idx))) (val lo) (val mid) (val top) (c j * 2 ^ (m * j))); auto; [apply Z.mul_nonneg_nonneg; lia|]; rewrite <- Ehi, <- D2, <- D1; exact Hsum).
      assert (Vmid : val mid + c j * 2 ^ shift < 2 ^ (64 * (hi - idx))).
      { apply Z.mul_lt_mono_pos_l with (2 ^ (64 * idx)); [exact Pi|]. rewrite <- Ehi. rewrite Emj in Hsum. rewrite D2, Vtop, Z.mul_0_r, Z.add_0_r in D1. lia. }
      assert (Csh : 0 <= c j * 2 ^ shift) by (apply Z.mul_nonneg_nonneg; [lia|apply pow2_nonneg]).
      destruct (shift_slice_left_spec (sw r) shift Wr ltac:(lia)) as (_ & Wsh & Lsh).
      assert (Vsh : val (shift_slice_left (sw r) shift) = c j * 2 ^ shift).
      { rewrite shift_slice_left_exact; auto; [rewrite EV; reflexivity|lia|]. rewrite EV, Lr. replace (64 * (N + 1)) with (n1 + 64) by (unfold n1; ring). rewrite pow2_split by lia.
        assert (2 ^ shift < 2 ^ 64) by (apply Z.pow_lt_mono_r; lia). pose proof (pow2_gt0 shift ltac:(lia)). rewrite (Z.mul_comm (2 ^ n1)). apply mul_lt_pos; lia. }
      set (sh := shift_slice_left (sw r) shift) in *. clearbody sh.
      destruct (sws_add_sub_assign_spec (mk_sws mid 1) (mk_sws sh 1) 1) as (A1 & A2 & A3); cbn [sw]; try (split; cbn; auto); auto.
      { rewrite Lmid. lia. } { unfold sval. cbn [sw sg]. rewrite Lmid. lia. }
      fold (sws_add_assign (mk_sws mid 1) (mk_sws sh 1)) in A1, A2, A3. rewrite Sr. set (out := sws_add_assign (mk_sws mid 1) (mk_sws sh 1)) in *. clearbody out. cbn [sw] in A2.
      assert (Vout : val (sw out) = val mid + c j * 2 ^ shift).
      { rewrite <- (sval_abs out A1), A3. unfold sval. cbn [sw sg]. lia. }
      pose proof (sok_w _ A1) as Wout.
      set (d3' := lo ++ sw out ++ top).
      assert (W' : words_ok d3') by (unfold d3'; rewrite !ok_app; auto). assert (L' : zlen d3' = zlen d3) by (unfold d3'; rewrite !zlen_app; lia).
      assert (V' : val d3' = val d3 + c j * 2 ^ (m * j)).
      { unfold d3'. rewrite !val_app, Llo, A2, Lmid, Vout, D1, D2, Vtop, Emj. ring. }
      clearbody d3'.
      destruct (IH (j + 1) d3') as (q & Eq & Wq & Lq & Vq); auto; [lia| |rewrite L', V'; lia|rewrite V'; exact Hnext|].
      { intros i Hi. destruct (Hps (i + 1) ltac:(lia)) as (G & C). unfold pv in C. rewrite pget_S in G, C by lia. split; [exact G|]. replace (j + 1 + i) with (j + (i + 1)) by ring. exact C. }
      exists q. split; [exact Eq|]. split; [auto|]. split; [lia|]. lia.
Qed.
End Loops.
