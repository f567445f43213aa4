(** Binary splitting computes the partial sums exactly. *)

From Coq Require Import ZArith Reals List Bool Lia Lra.
From Flocq Require Import Core.
From Verif Require Import Words Mantissa Num Ext Consts SpecZ SpecConst WordsP WordsP2 RoundP Spec SpecOps RealP RealP2 NumP CmpP AddP SetP AddNum MulNum ArithTop IntNum ConvNum.
Import ListNotations.
Open Scope Z_scope.
Ltac Zify.zify_post_hook ::= idtac.
Arguments Z.mul : simpl never.
Arguments Z.add : simpl never.
Arguments Z.pow : simpl never.
Arguments Z.sub : simpl never.
Arguments Z.of_nat : simpl never.
Ltac dlia := Z.div_mod_to_equations; lia.

(** ** Sums *)
Lemma psum_app u a n m : psum u a (n + m) = (psum u a n + psum u (a + Z.of_nat n)%Z m)%R.
Proof.
  induction m as [|m IH]; [rewrite Nat.add_0_r; cbn [psum]; now rewrite Rplus_0_r|].
  rewrite Nat.add_succ_r. cbn [psum]. rewrite IH. replace (a + Z.of_nat (S (n + m)))%Z with (a + Z.of_nat n + Z.of_nat (S m))%Z by lia. ring.
Qed.
Lemma rsum_split u a m b : a <= m <= b -> rsum u a b = (rsum u a m + rsum u m b)%R.
Proof.
  intros H. unfold rsum. replace (Z.to_nat (b - a)) with (Z.to_nat (m - a) + Z.to_nat (b - m))%nat by lia. rewrite psum_app. do 2 f_equal. lia.
Qed.
Lemma rsum_one u b : rsum u (b - 1) b = u b.
Proof. unfold rsum. replace (b - (b - 1)) with 1 by lia. change (Z.to_nat 1) with 1%nat. cbn [psum]. change (Z.of_nat 1) with 1. rewrite Rplus_0_l. f_equal. lia. Qed.
Lemma rsum_nil u a : rsum u a a = 0%R.
Proof. unfold rsum. now rewrite Z.sub_diag. Qed.
Lemma rsum_last u a b : a < b -> rsum u a b = (rsum u a (b - 1) + u b)%R.
Proof. intros H. rewrite (rsum_split u a (b - 1) b) by lia. now rewrite rsum_one. Qed.
Lemma rsum_first u a b : a < b -> rsum u a b = (u (a + 1)%Z + rsum u (a + 1) b)%R.
Proof. intros H. rewrite (rsum_split u a (a + 1) b) by lia. f_equal. replace a with (a + 1 - 1) at 1 by lia. apply rsum_one. Qed.
Lemma rsum_pos u a b : a < b -> (forall k, a < k <= b -> (0 < u k)%R) -> (0 < rsum u a b)%R.
Proof.
  intros H. pattern b. apply (Zlt_lower_bound_ind _ (a + 1)); [|lia]. clear b H. intros b IH Hb Hu. rewrite rsum_last by lia.
  pose proof (Hu b ltac:(lia)). destruct (Z.eq_dec b (a + 1)) as [->|].
  - replace (a + 1 - 1) with a by lia. rewrite rsum_nil. lra.
  - pose proof (IH (b - 1) ltac:(lia) ltac:(intros; apply Hu; lia)). lra.
Qed.

(** ** Exact integers *)
Definition big (N : Z) : Prop := (bpow radix2 EMAX <= Rabs (IZR N))%R.
Lemma small_not_big N k : Z.abs N < 2 ^ k -> 0 <= k <= EMAX -> ~ big N.
Proof.
  intros H Hk B. unfold big in B. rewrite <- abs_IZR in B. apply IZR_lt in H. rewrite <- bpow_IZR in H by lia.
  pose proof (bpow_le radix2 k EMAX ltac:(lia)). lra.
Qed.

Lemma whole_nonzero x N : whole x N -> N <> 0 -> nonzero x.
Proof.
  intros (W & _ & V) H E. apply H. apply eq_IZR. rewrite <- V. unfold value. rewrite E, Z.mul_0_r. apply F2R_0.
Qed.

Lemma trimmed_wf q N : words_ok (mm (nm q)) -> normal q -> mn (nm q) = bitlen (magnitude q) -> EMIN <= ne q <= EMAX -> magnitude q mod 2 ^ 64 <> 0 -> value q = IZR N -> wf q.
Proof.
  intros Ho [N1 N2] Hb He Hl V. assert (L : 64 * wlen q < ne q + 64).
  { destruct (Z.lt_ge_cases (64 * wlen q) (ne q + 64)) as [|L]; [assumption|]. exfalso. apply Hl.
    assert (E : sgnZ (ns q) * magnitude q = N * 2 ^ (64 * wlen q - ne q)).
    { apply eq_IZR. rewrite !mult_IZR, <- V, <- bpow_IZR by lia. unfold value, F2R. cbn [Fnum Fexp]. rewrite mult_IZR.
      rewrite Rmult_assoc, <- bpow_plus. replace (ne q - 64 * wlen q + (64 * wlen q - ne q)) with 0 by ring. cbn [bpow]. ring. }
    assert (E2 : magnitude q = (sgnZ (ns q) * N * 2 ^ (64 * wlen q - ne q - 64)) * 2 ^ 64).
    { replace (64 * wlen q - ne q) with (64 * wlen q - ne q - 64 + 64) in E by ring. rewrite Z.pow_add_r in E by lia.
      assert (S1 : sgnZ (ns q) * sgnZ (ns q) = 1) by (destruct (ns q); reflexivity).
      replace (magnitude q) with (sgnZ (ns q) * sgnZ (ns q) * magnitude q) by (rewrite S1; ring). rewrite <- Z.mul_assoc, E. ring. }
    rewrite E2. apply Z.mod_mul. discriminate. }
  constructor; auto; try (unfold nonzero in N2; lia).
Qed.

Lemma exact_whole N s res : exact_result (IZR N) s false res -> N <> 0 ->
  match res with Ok q => whole q N | Err (ExponentOverflow _) => big N | _ => False end.
Proof.
  intros [A B] HN. destruct (Rle_or_lt (bpow radix2 EMAX) (Rabs (IZR N))) as [H|H].
  - rewrite (A H). exact H.
  - destruct B as (q & -> & V & _ & I & Ho & Nq & Hb & He & Hl).
    + split; [|exact H]. rewrite <- abs_IZR. apply Rle_trans with 1%R; [|apply IZR_le; lia]. change 1%R with (bpow radix2 0). apply bpow_le. vm_compute. discriminate.
    + split; [|split; [exact I|exact V]]. exact (trimmed_wf q N Ho Nq Hb He Hl V).
Qed.

Lemma whole_mul x y a b : whole x a -> whole y b -> a <> 0 -> b <> 0 ->
  match n_mul_full_prec x y with Ok q => whole q (a * b) | Err (ExponentOverflow _) => big (a * b) | _ => False end.
Proof.
  intros Hx Hy Ha Hb. pose proof (whole_nonzero _ _ Hx Ha) as Nx. pose proof (whole_nonzero _ _ Hy Hb) as Ny.
  destruct Hx as (Wx & Ix & Vx). destruct Hy as (Wy & Iy & Vy). pose proof (mul_full x y Wx Wy Nx Ny) as M. rewrite Ix, Iy, Vx, Vy, <- mult_IZR in M.
  apply (exact_whole _ _ _ M). nia.
Qed.
Lemma whole_add x y a b : whole x a -> whole y b -> a <> 0 -> b <> 0 -> a + b <> 0 ->
  match n_add_full_prec x y with Ok q => whole q (a + b) | Err (ExponentOverflow _) => big (a + b) | _ => False end.
Proof.
  intros Hx Hy Ha Hb Hs. pose proof (whole_nonzero _ _ Hx Ha) as Nx. pose proof (whole_nonzero _ _ Hy Hb) as Ny.
  destruct Hx as (Wx & Ix & Vx). destruct Hy as (Wy & Iy & Vy). destruct (add_sub_full x y 1 Wx Wy Nx Ny (or_introl eq_refl)) as [M _].
  rewrite Ix, Iy, Vx, Vy, Rmult_1_l, <- plus_IZR in M. destruct M as (s & _ & M); [apply IZR_neq; exact Hs|].
  exact (exact_whole _ _ _ M Hs).
Qed.
Lemma whole_neg x a : whole x a -> whole (n_neg x) (- a).
Proof. intros (W & I & V). split; [now apply n_neg_wf|]. split; [exact I|]. rewrite n_neg_value, V, opp_IZR. reflexivity. Qed.

Lemma whole_word d : 0 <= d < 2 ^ 64 -> exists x, from_word d 1 = Ok x /\ whole x d.
Proof. intros H. destruct (from_word_spec d 1 H ltac:(lia) eq_refl) as (x & E & W & _ & _ & I & V). exists x. split; [exact E|]. split; [exact W|]. split; [exact I|exact V]. Qed.
Lemma whole_u64 d : 0 <= d < 2 ^ 64 -> exists x, from_uint 64 d 64 = Ok x /\ whole x d.
Proof.
  intros H. destruct (from_uint_spec 64 d 64 ltac:(lia) H eq_refl) as [_ S]. destruct (S ltac:(lia)) as (x & E & W & _ & _ & I & V). exists x. split; [exact E|]. split; [exact W|]. split; [exact I|exact V].
Qed.
Lemma whole_usize d : 0 < d < 2 ^ 64 -> whole (from_usize d) d.
Proof.
  intros H. unfold from_usize, m_from_usize. replace (d =? 0) with false by lia.
  assert (Ho : words_ok [d]) by (constructor; [lia|constructor]). assert (Hv : 0 < val [d]) by (rewrite val_cons, val_nil; lia).
  destruct (maximize_spec [d] Ho Hv) as (m' & M1 & M2 & M3 & M4 & M5 & M6). rewrite M1. unfold max_bit_len, mlen.
  assert (Ev : val [d] = d) by (rewrite val_cons, val_nil; lia). rewrite Ev in *. change (zlen [d]) with 1 in *.
  assert (Hbl : 1 <= bitlen d <= 64) by (pose proof (bitlen_le d 64 ltac:(lia) ltac:(lia)); pose proof (bitlen_pos d ltac:(lia)); lia).
  clear M1 Hbl Ev Ho Hv. pose proof (bitlen_spec d ltac:(lia)) as Bd. pose proof (bitlen_pos d ltac:(lia)) as Bp. pose proof (bitlen_le d 64 ltac:(lia) ltac:(lia)) as Bl.
  assert (Bm : bitlen (val m') = 64) by (apply bitlen_unique; [lia|exact M6]).
  split; [|split; [reflexivity|]].
  - constructor; unfold magnitude, wlen; cbn [nm mm mn ne]; try rewrite M5; try rewrite Bm; auto; try lia.
  - unfold value, magnitude, wlen. cbn [nm mm mn ne ns]. rewrite M5, M3. change (sgnZ Pos) with 1. rewrite Z.mul_1_l. unfold F2R. cbn [Fnum Fexp].
    rewrite mult_IZR, <- bpow_IZR, Rmult_assoc, <- bpow_plus by lia.
    match goal with |- (_ * bpow radix2 ?z)%R = _ => replace z with 0 by ring end. cbn [bpow]. ring.
Qed.

(** ** The recursion *)
Definition outcome {T} (r : result T) (good : T -> Prop) (bad : Prop) : Prop :=
  match r with Ok t => good t | Err (ExponentOverflow _) => bad | _ => False end.

Lemma outcome_bind {A B} (r : result A) (k : A -> result B) (g : A -> Prop) (h : B -> Prop) (bad bad' : Prop) :
  outcome r g bad -> (bad -> bad') -> (forall t, g t -> outcome (k t) h bad') -> outcome (bind r k) h bad'.
Proof. intros H Hb Hk. destruct r as [t|[]|]; cbn [bind outcome] in *; auto. Qed.
Lemma outcome_weaken {A} (r : result A) (g g' : A -> Prop) (bad bad' : Prop) :
  outcome r g bad -> (forall t, g t -> g' t) -> (bad -> bad') -> outcome r g' bad'.
Proof. intros H Hg Hb. destruct r as [t|[]|]; cbn [outcome] in *; auto. Qed.

Lemma splitting_ok {T} (leaf : Z -> result T) join (G : Z -> Z -> T -> Prop) (lim thr : Z) : 1 <= thr ->
  (forall b, 0 < b <= lim -> outcome (leaf b) (G (b - 1) b) (thr < 1)) ->
  (forall a m b x y, 0 <= a < m -> m < b <= lim -> G a m x -> G m b y -> outcome (join x y) (G a b) (thr < b - a)) ->
  forall f a b, 0 <= a < b -> b <= lim -> b - a <= 2 ^ Z.of_nat f -> outcome (splitting leaf join (S f) a b) (G a b) (thr < b - a).
Proof.
  intros Ht Hleaf Hjoin. induction f as [|f IH]; intros a b Hab Hl Hf.
  - change (2 ^ Z.of_nat 0) with 1 in Hf. assert (a = b - 1) by lia. subst a. cbn [splitting]. rewrite Z.eqb_refl.
    eapply outcome_weaken; [apply Hleaf; lia|auto|lia].
  - cbn [splitting]. destruct (Z.eqb_spec a (b - 1)) as [->|Hne].
    + eapply outcome_weaken; [apply Hleaf; lia|auto|lia].
    + cbv zeta. set (m := (a + b) / 2). assert (Hm : a < m < b /\ b - m <= 2 ^ Z.of_nat f /\ m - a <= 2 ^ Z.of_nat f).
      { rewrite Nat2Z.inj_succ, Z.pow_succ_r in Hf by lia. unfold m. clear -Hf Hab Hne. dlia. }
      clearbody m. destruct Hm as (Hm & Hr & Hlf).
      eapply outcome_bind; [exact (IH a m ltac:(lia) ltac:(lia) Hlf)|lia|]. intros x Gx.
      eapply outcome_bind; [exact (IH m b ltac:(lia) Hl Hr)|lia|]. intros y Gy.
      apply (Hjoin a m b); auto; lia.
Qed.

Lemma chk_ok v : 0 <= v < 2 ^ 64 -> chk v = Ok v.
Proof. intros H. unfold chk. change WORD_BASE with (2 ^ 64). replace (0 <=? v) with true by lia. replace (v <? 2 ^ 64) with true by lia. reflexivity. Qed.

(** ** e *)
Definition e_good (a b : Z) (t : num * num) : Prop :=
  let '(p, q) := t in
  exists P Q, whole p P /\ whole q Q /\ 0 < P < 2 ^ (65 * (b - a)) /\ 0 < Q < 2 ^ (64 * (b - a)) /\
    (IZR P / IZR Q = factR a * rsum e_term a b)%R /\ (IZR Q * factR a = factR b)%R.

Lemma factR_pos k : (0 < factR k)%R.
Proof. unfold factR. apply INR_fact_lt_0. Qed.
Lemma factR_succ k : 0 < k -> factR k = (IZR k * factR (k - 1))%R.
Proof.
  intros H. unfold factR. replace (Z.to_nat k) with (S (Z.to_nat (k - 1))) by lia. rewrite fact_simpl, mult_INR. f_equal. rewrite INR_IZR_INZ. f_equal. lia.
Qed.

Lemma pow_split B n1 n2 : 0 <= B -> 0 <= n1 -> 0 <= n2 -> 2 ^ (B * (n1 + n2)) = 2 ^ (B * n1) * 2 ^ (B * n2).
Proof. intros. rewrite Z.mul_add_distr_l, Z.pow_add_r by nia. reflexivity. Qed.

Lemma e_leaf_good b : 0 < b <= 2 ^ 63 -> outcome (e_leaf b) (e_good (b - 1) b) (2 ^ 24 < 1).
Proof.
  intros H. unfold e_leaf. rewrite chk_ok by lia. cbn [bind]. destruct (whole_word 1 ltac:(lia)) as (x & -> & Wx). cbn [bind outcome e_good].
  exists 1, b. split; [exact Wx|]. split; [apply whole_usize; lia|]. replace (b - (b - 1)) with 1 by lia. rewrite !Z.mul_1_r.
  split; [lia|]. split; [lia|]. rewrite rsum_one. unfold e_term. pose proof (factR_pos (b - 1)). pose proof (factR_succ b ltac:(lia)) as E.
  assert (IZR b <> 0%R) by (apply IZR_neq; lia). split; rewrite E; [field; split; lra|ring].
Qed.

Lemma e_join_good a m b x y : 0 <= a < m -> m < b <= 2 ^ 63 -> e_good a m x -> e_good m b y -> outcome (e_join x y) (e_good a b) (2 ^ 24 < b - a).
Proof.
  intros Ha Hm Gx Gy. destruct x as [pa qa]. destruct y as [pb qb]. destruct Gx as (Pa & Qa & WPa & WQa & BPa & BQa & Sa & Fa). destruct Gy as (Pb & Qb & WPb & WQb & BPb & BQb & Sb & Fb).
  set (n1 := m - a) in *. set (n2 := b - m) in *. assert (En : b - a = n1 + n2) by (unfold n1, n2; ring). assert (Hn1 : 0 < n1) by (unfold n1; lia). assert (Hn2 : 0 < n2) by (unfold n2; lia).
  assert (Hbig : forall N, Z.abs N < 2 ^ (65 * (b - a)) -> big N -> 2 ^ 24 < b - a).
  { intros N HN HB. destruct (Z.lt_ge_cases (2 ^ 24) (b - a)) as [|Hl]; [assumption|]. exfalso. apply (small_not_big N _ HN); [|exact HB]. clear -Hl En Hn1 Hn2. lia. }
  assert (Q1 : 0 < Qa * Qb < 2 ^ (64 * (b - a))) by (rewrite En, pow_split by lia; nia).
  assert (Q2 : 2 ^ (64 * (b - a)) <= 2 ^ (65 * (b - a))) by (apply Z.pow_le_mono_r; lia).
  assert (P1 : 0 < Pa * Qb /\ 2 * (Pa * Qb) <= 2 ^ (65 * (b - a))).
  { split; [nia|]. rewrite En, pow_split by lia. assert (2 * Qb <= 2 ^ (65 * n2)).
    { replace (65 * n2) with (64 * n2 + 1 + (n2 - 1)) by ring. rewrite !Z.pow_add_r by lia. change (2 ^ 1) with 2. pose proof (pow2_gt0 (n2 - 1) ltac:(lia)). nia. }
    nia. }
  assert (P2 : 2 * Pb < 2 ^ (65 * (b - a))).
  { rewrite En, pow_split by lia. assert (2 <= 2 ^ (65 * n1)) by (change 2 with (2 ^ 1) at 1; apply Z.pow_le_mono_r; lia). nia. }
  unfold e_join.
  eapply outcome_bind; [exact (whole_mul qa qb Qa Qb WQa WQb ltac:(lia) ltac:(lia))|apply Hbig; lia|]. intros q Wq.
  eapply outcome_bind; [exact (whole_mul pa qb Pa Qb WPa WQb ltac:(lia) ltac:(lia))|apply Hbig; lia|]. intros n0 Wn.
  eapply outcome_bind; [exact (whole_add n0 pb (Pa * Qb) Pb Wn WPb ltac:(lia) ltac:(lia) ltac:(lia))|apply Hbig; lia|]. intros p Wp.
  cbn [outcome e_good]. exists (Pa * Qb + Pb), (Qa * Qb). split; [exact Wp|]. split; [exact Wq|]. split; [lia|]. split; [exact Q1|].
  assert (0 < IZR Qa)%R by (apply IZR_lt; lia). assert (0 < IZR Qb)%R by (apply IZR_lt; lia). pose proof (factR_pos a) as FA. pose proof (factR_pos m) as FM.
  rewrite (rsum_split e_term a m b) by lia. rewrite plus_IZR, !mult_IZR. split.
  - rewrite Rmult_plus_distr_l, <- Sa. replace (rsum e_term m b) with (IZR Pb / IZR Qb / factR m)%R by (rewrite Sb; field; lra).
    rewrite <- Fa. field. split; [|split]; lra.
  - rewrite <- Fb, <- Fa. ring.
Qed.

Theorem e_pq_ok a b : 0 <= a < b -> b <= 2 ^ 63 -> outcome (e_pq a b) (e_good a b) (2 ^ 24 < b - a).
Proof.
  intros Ha Hb. unfold e_pq. apply (splitting_ok e_leaf e_join e_good (2 ^ 63) (2 ^ 24)); auto.
  - discriminate.
  - exact e_leaf_good.
  - intros. apply (e_join_good a0 m); auto.
  - change (2 ^ Z.of_nat 64) with (2 * 2 ^ 63). lia.
Qed.

(** ** Triples *)
Definition tri_good (w u : Z -> R) (B a b : Z) (t : num * num * num) : Prop :=
  let '(p, q, r) := t in
  exists P Q R, whole p P /\ whole q Q /\ whole r R /\ P <> 0 /\ Z.abs P < 2 ^ ((B + 1) * (b - a)) /\ 0 < Q < 2 ^ (B * (b - a)) /\ 0 < R < 2 ^ (B * (b - a)) /\
    (IZR P / IZR Q * w a = rsum u a b)%R /\ (IZR R / IZR Q * w a = w b)%R.

Lemma mul_bound_lt x y u v : 0 <= x < u -> 0 < y -> 2 * y < v -> 2 * (x * y) < u * v.
Proof. intros. nia. Qed.
Lemma mul_bound_pos x y u v : 0 < x < u -> 0 < y < v -> 0 < x * y < u * v.
Proof. intros. nia. Qed.
Lemma two_pow_step B n : 0 < B -> 0 < n -> 2 * 2 ^ (B * n) <= 2 ^ ((B + 1) * n).
Proof.
  intros HB Hn. assert (0 <= B * n) by nia. replace ((B + 1) * n) with (1 + (B * n + (n - 1))) by ring. rewrite !Z.pow_add_r by lia. change (2 ^ 1) with 2.
  pose proof (pow2_gt0 (n - 1) ltac:(lia)). pose proof (pow2_gt0 (B * n) ltac:(lia)). nia.
Qed.

Section Triple.
Variables (w u : Z -> R) (B thr lim : Z).
Hypothesis (HB : 0 < B) (Hthr : 0 < thr) (Hfit : (B + 1) * thr <= EMAX).
Hypothesis Hw : forall k, 0 <= k -> (0 < w k)%R.
Hypothesis Hu : forall a b, 0 <= a < b -> rsum u a b <> 0%R.

Lemma tri_facts a m b P1 Q1 R1 P2 Q2 R2 : 0 <= a < m -> m < b ->
  P1 <> 0 -> Z.abs P1 < 2 ^ ((B + 1) * (m - a)) -> 0 < Q1 < 2 ^ (B * (m - a)) -> 0 < R1 < 2 ^ (B * (m - a)) ->
  P2 <> 0 -> Z.abs P2 < 2 ^ ((B + 1) * (b - m)) -> 0 < Q2 < 2 ^ (B * (b - m)) -> 0 < R2 < 2 ^ (B * (b - m)) ->
  (IZR P1 / IZR Q1 * w a = rsum u a m)%R -> (IZR R1 / IZR Q1 * w a = w m)%R ->
  (IZR P2 / IZR Q2 * w m = rsum u m b)%R -> (IZR R2 / IZR Q2 * w m = w b)%R ->
  let P := P1 * Q2 + P2 * R1 in
  (forall N, Z.abs N < 2 ^ ((B + 1) * (b - a)) -> big N -> thr < b - a) /\
  P1 * Q2 <> 0 /\ P2 * R1 <> 0 /\ P <> 0 /\ Z.abs (P1 * Q2) < 2 ^ ((B + 1) * (b - a)) /\ Z.abs (P2 * R1) < 2 ^ ((B + 1) * (b - a)) /\
  Z.abs P < 2 ^ ((B + 1) * (b - a)) /\ 0 < Q1 * Q2 < 2 ^ (B * (b - a)) /\ 0 < R1 * R2 < 2 ^ (B * (b - a)) /\
  2 ^ (B * (b - a)) <= 2 ^ ((B + 1) * (b - a)) /\
  (IZR P / IZR (Q1 * Q2) * w a = rsum u a b)%R /\ (IZR (R1 * R2) / IZR (Q1 * Q2) * w a = w b)%R.
Proof.
  intros Ha Hm N1 BP1 BQ1 BR1 N2 BP2 BQ2 BR2 S1 W1 S2 W2 P.
  set (n1 := m - a) in *. set (n2 := b - m) in *. assert (En : b - a = n1 + n2) by (unfold n1, n2; ring). assert (Hn1 : 0 < n1) by (unfold n1; lia). assert (Hn2 : 0 < n2) by (unfold n2; lia).
  assert (q1 : (0 < IZR Q1)%R) by (apply IZR_lt; lia). assert (q2 : (0 < IZR Q2)%R) by (apply IZR_lt; lia). pose proof (Hw a ltac:(lia)) as wa. pose proof (Hw m ltac:(lia)) as wm.
  assert (SS : (IZR P / IZR (Q1 * Q2) * w a = rsum u a b)%R).
  { rewrite (rsum_split u a m b) by lia. rewrite <- S1, <- S2, <- W1. unfold P. rewrite plus_IZR, !mult_IZR. field. split; lra. }
  assert (HP : P <> 0).
  { intros E. rewrite E in SS. apply (Hu a b ltac:(lia)). rewrite <- SS. unfold Rdiv. ring. }
  pose proof (two_pow_step B n1 HB Hn1) as D1. pose proof (two_pow_step B n2 HB Hn2) as D2.
  assert (A1 : 2 * Z.abs (P1 * Q2) < 2 ^ ((B + 1) * (b - a))).
  { rewrite En, pow_split, Z.abs_mul, (Z.abs_eq Q2) by (clear -BQ2 Hn1 Hn2 HB; lia). apply mul_bound_lt; [split; [apply Z.abs_nonneg|exact BP1]|apply BQ2|]. clear -BQ2 D2. lia. }
  assert (A2 : 2 * Z.abs (P2 * R1) < 2 ^ ((B + 1) * (b - a))).
  { rewrite En, (Z.add_comm n1), pow_split, Z.abs_mul, (Z.abs_eq R1) by (clear -BR1 Hn1 Hn2 HB; lia). apply mul_bound_lt; [split; [apply Z.abs_nonneg|exact BP2]|apply BR1|]. clear -BR1 D1. lia. }
  split.
  { intros N HN HBg. destruct (Z.lt_ge_cases thr (b - a)) as [|Hl]; [assumption|]. exfalso. apply (small_not_big N _ HN); [|exact HBg]. split; [apply Z.mul_nonneg_nonneg; clear -HB Ha Hm; lia|].
    apply Z.le_trans with ((B + 1) * thr); [|exact Hfit]. apply Z.mul_le_mono_nonneg_l; [clear -HB; lia|exact Hl]. }
  split; [apply Z.neq_mul_0; split; [exact N1|clear -BQ2; lia]|]. split; [apply Z.neq_mul_0; split; [exact N2|clear -BR1; lia]|]. split; [exact HP|].
  split; [clear -A1; lia|]. split; [clear -A2; lia|]. split; [unfold P; clear -A1 A2; lia|].
  split; [rewrite En, pow_split by (clear -HB Hn1 Hn2; lia); now apply mul_bound_pos|]. split; [rewrite En, pow_split by (clear -HB Hn1 Hn2; lia); now apply mul_bound_pos|].
  split; [apply Z.pow_le_mono_r; [reflexivity|]; apply Z.mul_le_mono_nonneg_r; clear -Ha Hm; lia|].
  split; [exact SS|]. rewrite <- W2, <- W1, !mult_IZR. field. split; apply Rgt_not_eq; assumption.
Qed.

Lemma pi_join_good a m b x y : 0 <= a < m -> m < b <= lim -> tri_good w u B a m x -> tri_good w u B m b y -> outcome (pi_join x y) (tri_good w u B a b) (thr < b - a).
Proof.
  intros Ha Hm Gx Gy. destruct x as [[pa qa] ra]. destruct y as [[pb qb] rb].
  destruct Gx as (P1 & Q1 & R1 & wP1 & wQ1 & wR1 & N1 & BP1 & BQ1 & BR1 & S1 & W1). destruct Gy as (P2 & Q2 & R2 & wP2 & wQ2 & wR2 & N2 & BP2 & BQ2 & BR2 & S2 & W2).
  pose proof (proj1 Ha) as Ha0.
  destruct (tri_facts a m b P1 Q1 R1 P2 Q2 R2 Ha ltac:(lia) N1 BP1 BQ1 BR1 N2 BP2 BQ2 BR2 S1 W1 S2 W2) as (Hbig & E1 & E2 & E3 & F1 & F2' & F3 & F4 & F5 & F6 & F7 & F8).
  unfold pi_join.
  eapply outcome_bind; [exact (whole_mul ra rb R1 R2 wR1 wR2 ltac:(lia) ltac:(lia))|apply Hbig; lia|]. intros r Wr.
  eapply outcome_bind; [exact (whole_mul qa qb Q1 Q2 wQ1 wQ2 ltac:(lia) ltac:(lia))|apply Hbig; lia|]. intros q Wq.
  eapply outcome_bind; [exact (whole_mul pa qb P1 Q2 wP1 wQ2 ltac:(lia) ltac:(lia))|apply Hbig; lia|]. intros n0 Wn0.
  eapply outcome_bind; [exact (whole_mul pb ra P2 R1 wP2 wR1 ltac:(lia) ltac:(lia))|apply Hbig; lia|]. intros n1 Wn1.
  eapply outcome_bind; [exact (whole_add n0 n1 _ _ Wn0 Wn1 E1 E2 E3)|apply Hbig; exact F3|]. intros p Wp.
  cbn [outcome tri_good]. exists (P1 * Q2 + P2 * R1), (Q1 * Q2), (R1 * R2). exact (conj Wp (conj Wq (conj Wr (conj E3 (conj F3 (conj F4 (conj F5 (conj F7 F8)))))))).
Qed.
Lemma ln_join_good a m b x y : 0 <= a < m -> m < b <= lim -> tri_good w u B a m x -> tri_good w u B m b y -> outcome (ln_join x y) (tri_good w u B a b) (thr < b - a).
Proof.
  intros Ha Hm Gx Gy. destruct x as [[pa qa] ra]. destruct y as [[pb qb] rb].
  destruct Gx as (P1 & Q1 & R1 & wP1 & wQ1 & wR1 & N1 & BP1 & BQ1 & BR1 & S1 & W1). destruct Gy as (P2 & Q2 & R2 & wP2 & wQ2 & wR2 & N2 & BP2 & BQ2 & BR2 & S2 & W2).
  pose proof (proj1 Ha) as Ha0.
  destruct (tri_facts a m b P1 Q1 R1 P2 Q2 R2 Ha ltac:(lia) N1 BP1 BQ1 BR1 N2 BP2 BQ2 BR2 S1 W1 S2 W2) as (Hbig & E1 & E2 & E3 & F1 & F2' & F3 & F4 & F5 & F6 & F7 & F8).
  unfold ln_join.
  eapply outcome_bind; [exact (whole_mul pa qb P1 Q2 wP1 wQ2 ltac:(lia) ltac:(lia))|apply Hbig; lia|]. intros n0 Wn0.
  eapply outcome_bind; [exact (whole_mul pb ra P2 R1 wP2 wR1 ltac:(lia) ltac:(lia))|apply Hbig; lia|]. intros n1 Wn1.
  eapply outcome_bind; [exact (whole_add n0 n1 _ _ Wn0 Wn1 E1 E2 E3)|apply Hbig; exact F3|]. intros p Wp.
  eapply outcome_bind; [exact (whole_mul qa qb Q1 Q2 wQ1 wQ2 ltac:(lia) ltac:(lia))|apply Hbig; lia|]. intros q Wq.
  eapply outcome_bind; [exact (whole_mul ra rb R1 R2 wR1 wR2 ltac:(lia) ltac:(lia))|apply Hbig; lia|]. intros r Wr.
  cbn [outcome tri_good]. exists (P1 * Q2 + P2 * R1), (Q1 * Q2), (R1 * R2). exact (conj Wp (conj Wq (conj Wr (conj E3 (conj F3 (conj F4 (conj F5 (conj F7 F8)))))))).
Qed.
End Triple.

(** ** ln 2 and ln 10 *)
Lemma powR_pos x k : (0 < x)%R -> (0 < powR x k)%R.
Proof. intros. unfold powR. now apply pow_lt. Qed.
Lemma powR_succ x k : 0 < k -> powR x k = (x * powR x (k - 1))%R.
Proof. intros H. unfold powR. replace (Z.to_nat k) with (S (Z.to_nat (k - 1))) by lia. reflexivity. Qed.

Lemma ln2_sum_pos a b : 0 <= a < b -> (0 < rsum ln2_term a b)%R.
Proof. intros H. apply rsum_pos; [lia|]. intros k Hk. unfold ln2_term. apply Rdiv_lt_0_compat; [apply powR_pos; lra|apply IZR_lt; lia]. Qed.
Lemma ln10_sum_pos a b : 0 <= a < b -> (0 < rsum ln10_term a b)%R.
Proof. intros H. apply rsum_pos; [lia|]. intros k Hk. unfold ln10_term. apply Rdiv_lt_0_compat; [apply powR_pos; lra|apply IZR_lt; lia]. Qed.

Lemma ln2_leaf_good b : 0 < b <= 2 ^ 55 -> outcome (ln2_leaf b) (tri_good (powR (/ 9)) ln2_term 64 (b - 1) b) (2 ^ 24 < 1).
Proof.
  intros H. unfold ln2_leaf. destruct (whole_word 1 ltac:(lia)) as (x & -> & Wx). cbn [bind]. rewrite !chk_ok by lia. cbn [bind outcome tri_good].
  exists 1, ((2 * b + 1) * 9), (2 * b + 1). split; [exact Wx|]. split; [apply whole_usize; lia|]. split; [apply whole_usize; lia|].
  replace (b - (b - 1)) with 1 by lia. rewrite !Z.mul_1_r. split; [lia|]. split; [reflexivity|]. split; [lia|]. split; [lia|].
  rewrite rsum_one. unfold ln2_term. rewrite (powR_succ (/ 9) b), mult_IZR by lia. assert (IZR (2 * b + 1) <> 0%R) by (apply IZR_neq; lia). split; field; assumption.
Qed.
Lemma ln10_leaf_good b : 0 < b <= 2 ^ 55 -> outcome (ln10_leaf b) (tri_good (powR (81 / 121)) ln10_term 64 (b - 1) b) (2 ^ 24 < 1).
Proof.
  intros H. unfold ln10_leaf. destruct (whole_word 81 ltac:(lia)) as (x & -> & Wx). cbn [bind]. rewrite !chk_ok by lia. cbn [bind outcome tri_good].
  exists 81, ((2 * b + 1) * 121), ((2 * b + 1) * 81). split; [exact Wx|]. split; [apply whole_usize; lia|]. split; [apply whole_usize; lia|].
  replace (b - (b - 1)) with 1 by lia. rewrite !Z.mul_1_r. split; [lia|]. split; [reflexivity|]. split; [lia|]. split; [lia|].
  rewrite rsum_one. unfold ln10_term. rewrite (powR_succ (81 / 121) b), !mult_IZR by lia. assert (IZR (2 * b + 1) <> 0%R) by (apply IZR_neq; lia). split; field; assumption.
Qed.

Theorem ln2_pqr_ok a b : 0 <= a < b -> b <= 2 ^ 55 -> outcome (ln2_pqr a b) (tri_good (powR (/ 9)) ln2_term 64 a b) (2 ^ 24 < b - a).
Proof.
  intros Ha Hb. unfold ln2_pqr. apply (splitting_ok ln2_leaf ln_join _ (2 ^ 55) (2 ^ 24)); auto.
  - discriminate.
  - exact ln2_leaf_good.
  - intros a0 m b0 x y H1 H2 G1 G2. apply (ln_join_good (powR (/ 9)) ln2_term 64 (2 ^ 24) (2 ^ 55)) with (m := m); auto; try reflexivity; try discriminate.
    + intros k _. apply powR_pos. lra.
    + intros a' b' H'. pose proof (ln2_sum_pos a' b' H'). lra.
  - change (2 ^ Z.of_nat 64) with (2 ^ 9 * 2 ^ 55). lia.
Qed.
Theorem ln10_pqr_ok a b : 0 <= a < b -> b <= 2 ^ 55 -> outcome (ln10_pqr a b) (tri_good (powR (81 / 121)) ln10_term 64 a b) (2 ^ 24 < b - a).
Proof.
  intros Ha Hb. unfold ln10_pqr. apply (splitting_ok ln10_leaf ln_join _ (2 ^ 55) (2 ^ 24)); auto.
  - discriminate.
  - exact ln10_leaf_good.
  - intros a0 m b0 x y H1 H2 G1 G2. apply (ln_join_good (powR (81 / 121)) ln10_term 64 (2 ^ 24) (2 ^ 55)) with (m := m); auto; try reflexivity; try discriminate.
    + intros k _. apply powR_pos. lra.
    + intros a' b' H'. pose proof (ln10_sum_pos a' b' H'). lra.
  - change (2 ^ Z.of_nat 64) with (2 ^ 9 * 2 ^ 55). lia.
Qed.

(** ** pi *)
Lemma chud_weight_pos k : (0 < chud_weight k)%R.
Proof.
  unfold chud_weight. apply Rdiv_lt_0_compat; [apply factR_pos|]. apply Rmult_lt_0_compat; [apply Rmult_lt_0_compat; [apply factR_pos|]|].
  - apply pow_lt, factR_pos.
  - apply powR_pos. lra.
Qed.
Lemma chud_weight_succ b : 0 < b -> (chud_weight b * IZR (10939058860032000 * b ^ 3) = chud_weight (b - 1) * IZR ((6 * b - 5) * (2 * b - 1) * (6 * b - 1)))%R.
Proof.
  intros H. unfold chud_weight. set (f6 := factR (6 * (b - 1))). set (f3 := factR (3 * (b - 1))). set (f1 := factR (b - 1)). set (pw := powR 640320 (3 * (b - 1))).
  assert (E6 : factR (6 * b) = (IZR (6 * b) * IZR (6 * b - 1) * IZR (6 * b - 2) * IZR (6 * b - 3) * IZR (6 * b - 4) * IZR (6 * b - 5) * f6)%R).
  { rewrite (factR_succ (6 * b)), (factR_succ (6 * b - 1)), (factR_succ (6 * b - 1 - 1)), (factR_succ (6 * b - 1 - 1 - 1)), (factR_succ (6 * b - 1 - 1 - 1 - 1)), (factR_succ (6 * b - 1 - 1 - 1 - 1 - 1)) by lia.
    replace (6 * b - 1 - 1) with (6 * b - 2) by ring. replace (6 * b - 2 - 1) with (6 * b - 3) by ring. replace (6 * b - 3 - 1) with (6 * b - 4) by ring. replace (6 * b - 4 - 1) with (6 * b - 5) by ring.
    unfold f6. replace (6 * (b - 1)) with (6 * b - 5 - 1) by ring. ring. }
  assert (E3 : factR (3 * b) = (IZR (3 * b) * IZR (3 * b - 1) * IZR (3 * b - 2) * f3)%R).
  { rewrite (factR_succ (3 * b)), (factR_succ (3 * b - 1)), (factR_succ (3 * b - 1 - 1)) by lia. replace (3 * b - 1 - 1) with (3 * b - 2) by ring. unfold f3. replace (3 * (b - 1)) with (3 * b - 2 - 1) by ring. ring. }
  assert (E1 : factR b = (IZR b * f1)%R) by (apply factR_succ; exact H).
  assert (EP : powR 640320 (3 * b) = (640320 * 640320 * 640320 * pw)%R).
  { rewrite (powR_succ _ (3 * b)), (powR_succ _ (3 * b - 1)), (powR_succ _ (3 * b - 1 - 1)) by lia. unfold pw. replace (3 * (b - 1)) with (3 * b - 1 - 1 - 1) by ring. ring. }
  rewrite E6, E3, E1, EP. replace (b ^ 3) with (b * b * b) by ring.
  rewrite ?mult_IZR, ?minus_IZR, ?mult_IZR. assert (P3 : (0 < f3)%R) by apply factR_pos. assert (P1 : (0 < f1)%R) by apply factR_pos. assert (PP : (0 < pw)%R) by (apply powR_pos; lra).
  assert (HB : (1 <= IZR b)%R) by (apply IZR_le; lia). clear E6 E3 E1 EP. clearbody f6 f3 f1 pw. revert HB. generalize (IZR b). intros B HB.
  field. repeat split; lra.
Qed.

(** Alternating sums with decreasing terms do not vanish. *)
Lemma alt_sum (u v : Z -> R) : (forall k, 0 < k -> u k = (powR (-1) k * v k)%R) -> (forall k, 0 < k -> (0 < v k)%R) -> (forall k, 0 < k -> (v (k + 1)%Z < v k)%R) ->
  forall n a, 0 <= a -> (0 < powR (-1) (a + 1) * rsum u a (a + 1 + Z.of_nat n) <= v (a + 1)%Z)%R.
Proof.
  intros Hu Hv Hd. assert (SQ : forall k, (powR (-1) k * powR (-1) k = 1)%R). { intros k. unfold powR. rewrite <- Rpow_mult_distr. replace (-1 * -1)%R with 1%R by ring. apply pow1. }
  induction n as [|n IH]; intros a Ha.
  - replace (a + 1 + Z.of_nat 0) with (a + 1) by lia. assert (E : rsum u a (a + 1) = u (a + 1)). { replace a with (a + 1 - 1) at 1 by ring. apply rsum_one. }
    rewrite E, Hu, <- Rmult_assoc, SQ by lia. pose proof (Hv (a + 1) ltac:(lia)). lra.
  - rewrite (rsum_split u a (a + 1)) by lia. assert (E : rsum u a (a + 1) = u (a + 1)). { replace a with (a + 1 - 1) at 1 by ring. apply rsum_one. }
    rewrite E, Hu, Rmult_plus_distr_l, <- Rmult_assoc, SQ by lia. specialize (IH (a + 1) ltac:(lia)). rewrite (powR_succ _ (a + 1 + 1)) in IH by lia. replace (a + 1 + 1 - 1) with (a + 1) in IH by ring.
    replace (a + 1 + Z.of_nat (S n)) with (a + 1 + 1 + Z.of_nat n) by lia. pose proof (Hd (a + 1) ltac:(lia)). pose proof (Hv (a + 1) ltac:(lia)). lra.
Qed.

Definition chud_abs (k : Z) : R := (IZR (13591409 + 545140134 * k) * chud_weight k)%R.
Lemma chud_abs_decr k : 0 < k -> (chud_abs (k + 1) < chud_abs k)%R.
Proof.
  intros H. unfold chud_abs. pose proof (chud_weight_succ (k + 1) ltac:(lia)) as E. replace (k + 1 - 1) with k in E by ring. pose proof (chud_weight_pos k) as W.
  set (r := (6 * (k + 1) - 5) * (2 * (k + 1) - 1) * (6 * (k + 1) - 1)) in *. set (q := 10939058860032000 * (k + 1) ^ 3) in *.
  assert (Hq : 0 < q) by (unfold q; nia). assert (Hr : 0 < r) by (unfold r; repeat apply Z.mul_pos_pos; lia).
  assert (HQ : (0 < IZR q)%R) by (apply IZR_lt; exact Hq). assert (X : (chud_weight (k + 1) = chud_weight k * IZR r / IZR q)%R). { apply Rmult_eq_reg_r with (IZR q); [|lra]. rewrite E. field. lra. }
  rewrite X. assert (L : (13591409 + 545140134 * (k + 1)) * r < (13591409 + 545140134 * k) * q).
  { assert (r <= 72 * (k + 1) ^ 3) by (unfold r; nia). assert (0 < (k + 1) ^ 3) by (apply Z.pow_pos_nonneg; lia). unfold q. nia. }
  apply IZR_lt in L. rewrite !mult_IZR in L. apply Rmult_lt_reg_r with (IZR q); [exact HQ|].
  replace (IZR (13591409 + 545140134 * (k + 1)) * (chud_weight k * IZR r / IZR q) * IZR q)%R with (IZR (13591409 + 545140134 * (k + 1)) * IZR r * chud_weight k)%R by (field; lra).
  replace (IZR (13591409 + 545140134 * k) * chud_weight k * IZR q)%R with (IZR (13591409 + 545140134 * k) * IZR q * chud_weight k)%R by ring.
  apply Rmult_lt_compat_r; assumption.
Qed.
Lemma chud_abs_pos k : 0 <= k -> (0 < chud_abs k)%R.
Proof. intros H. unfold chud_abs. apply Rmult_lt_0_compat; [apply IZR_lt; lia|apply chud_weight_pos]. Qed.
Lemma chud_sum_alt a b : 0 <= a < b -> (0 < powR (-1) (a + 1) * rsum chud_term a b <= chud_abs (a + 1)%Z)%R.
Proof.
  intros H. replace b with (a + 1 + Z.of_nat (Z.to_nat (b - a - 1))) by lia. apply alt_sum.
  - intros k _. unfold chud_term, chud_abs. ring.
  - intros k Hk. apply chud_abs_pos. lia.
  - exact chud_abs_decr.
  - lia.
Qed.
Lemma chud_sum_nonzero a b : 0 <= a < b -> rsum chud_term a b <> 0%R.
Proof. intros H E. pose proof (chud_sum_alt a b H) as L. rewrite E, Rmult_0_r in L. lra. Qed.

Lemma pi_small a b c X Y : 0 < a < 2 ^ X -> 0 < b < 2 ^ Y -> X + Y <= c -> 0 <= X -> 0 <= Y -> 0 < a * b < 2 ^ c.
Proof.
  intros Ha Hb Hc HX HY. assert (2 ^ (X + Y) <= 2 ^ c) by (apply Z.pow_le_mono_r; lia). rewrite Z.pow_add_r in H by lia. nia.
Qed.
Lemma pi_nobig N c : 0 < N < 2 ^ c -> 0 <= c <= 171 -> big N -> 2 ^ 23 < 1.
Proof. intros HN Hc HB. exfalso. apply (small_not_big N c); auto; lia. Qed.

Lemma pi_leaf_good b : 0 < b <= 2 ^ 33 -> outcome (pi_leaf b) (tri_good chud_weight chud_term 170 (b - 1) b) (2 ^ 23 < 1).
Proof.
  intros H. unfold pi_leaf.
  rewrite (chk_ok (6 * b - 5)) by lia. cbn [bind]. destruct (whole_u64 (6 * b - 5) ltac:(lia)) as (x0 & -> & W0). cbn [bind].
  rewrite (chk_ok (2 * b - 1)) by lia. cbn [bind]. destruct (whole_u64 (2 * b - 1) ltac:(lia)) as (x1 & -> & W1). cbn [bind].
  rewrite (chk_ok (6 * b - 1)) by lia. cbn [bind]. destruct (whole_u64 (6 * b - 1) ltac:(lia)) as (x2 & -> & W2). cbn [bind].
  assert (B0 : 0 < 6 * b - 5 < 2 ^ 36) by lia. assert (B1 : 0 < 2 * b - 1 < 2 ^ 34) by lia. assert (B2 : 0 < 6 * b - 1 < 2 ^ 36) by lia. assert (Bb : 0 < b < 2 ^ 34) by lia.
  assert (B01 : 0 < (6 * b - 5) * (2 * b - 1) < 2 ^ 70) by (apply (pi_small _ _ _ 36 34); lia || assumption).
  assert (BR : 0 < (6 * b - 5) * (2 * b - 1) * (6 * b - 1) < 2 ^ 106) by (apply (pi_small _ _ _ 70 36); lia || assumption).
  assert (Bbb : 0 < b * b < 2 ^ 68) by (apply (pi_small _ _ _ 34 34); lia || assumption).
  assert (Bbbb : 0 < b * b * b < 2 ^ 102) by (apply (pi_small _ _ _ 68 34); lia || assumption).
  assert (BQ : 0 < 10939058860032000 * (b * b * b) < 2 ^ 156) by (apply (pi_small _ _ _ 54 102); lia || assumption).
  assert (BA : 0 < 13591409 + 545140134 * b < 2 ^ 64) by lia.
  assert (BP : 0 < (6 * b - 5) * (2 * b - 1) * (6 * b - 1) * (13591409 + 545140134 * b) < 2 ^ 170) by (apply (pi_small _ _ _ 106 64); lia || assumption).
  eapply outcome_bind; [exact (whole_mul x0 x1 _ _ W0 W1 ltac:(lia) ltac:(lia))|apply (pi_nobig _ 70); lia|]. intros n3 Wn3.
  eapply outcome_bind; [exact (whole_mul n3 x2 _ _ Wn3 W2 ltac:(lia) ltac:(lia))|apply (pi_nobig _ 106); lia|]. intros r Wr.
  destruct (whole_u64 10939058860032000 ltac:(lia)) as (y0 & -> & Y0). cbn [bind]. destruct (whole_u64 b ltac:(lia)) as (y1 & -> & Y1). cbn [bind].
  eapply outcome_bind; [exact (whole_mul y1 y1 _ _ Y1 Y1 ltac:(lia) ltac:(lia))|apply (pi_nobig _ 68); lia|]. intros y2 Y2.
  eapply outcome_bind; [exact (whole_mul y2 y1 _ _ Y2 Y1 ltac:(lia) ltac:(lia))|apply (pi_nobig _ 102); lia|]. intros y3 Y3.
  eapply outcome_bind; [exact (whole_mul y0 y3 _ _ Y0 Y3 ltac:(lia) ltac:(lia))|apply (pi_nobig _ 156); lia|]. intros q Wq.
  rewrite (chk_ok (13591409 + 545140134 * b)) by lia. cbn [bind]. destruct (whole_u64 (13591409 + 545140134 * b) ltac:(lia)) as (z0 & -> & Z0). cbn [bind].
  eapply outcome_bind; [exact (whole_mul r z0 _ _ Wr Z0 ltac:(lia) ltac:(lia))|apply (pi_nobig _ 170); lia|]. intros p Wp.
  cbn [outcome tri_good]. replace (b - (b - 1)) with 1 by lia. rewrite !Z.mul_1_r.
  set (R := (6 * b - 5) * (2 * b - 1) * (6 * b - 1)) in *. set (A := 13591409 + 545140134 * b) in *.
  pose proof (chud_weight_succ b ltac:(lia)) as Ew. fold R in Ew. replace (10939058860032000 * b ^ 3) with (10939058860032000 * (b * b * b)) in Ew by ring.
  set (Q := 10939058860032000 * (b * b * b)) in *. assert (HQ : (0 < IZR Q)%R) by (apply IZR_lt; lia).
  assert (EW : (chud_weight b = chud_weight (b - 1) * IZR R / IZR Q)%R). { apply Rmult_eq_reg_r with (IZR Q); [|lra]. rewrite Ew. field. lra. }
  assert (L : Z.land b 1 = b mod 2) by (change 1 with (Z.ones 1); rewrite Z.land_ones by lia; reflexivity).
  assert (SG : powR (-1) b = if negb (Z.land b 1 =? 0) then (-1)%R else 1%R).
  { rewrite L. unfold powR. pose proof (Z.div_mod b 2 ltac:(lia)) as D. pose proof (Z.mod_pos_bound b 2 ltac:(lia)). assert (0 <= b / 2) by (apply Z.div_pos; lia).
    destruct (Z.eqb_spec (b mod 2) 0) as [E0|E0]; cbn [negb].
    - replace (Z.to_nat b) with (2 * Z.to_nat (b / 2))%nat by lia. apply pow_1_even.
    - replace (Z.to_nat b) with (S (2 * Z.to_nat (b / 2)))%nat by lia. apply pow_1_odd. }
  exists (if negb (Z.land b 1 =? 0) then - (R * A) else R * A), Q, R.
  split; [destruct (negb (Z.land b 1 =? 0)); [now apply whole_neg|exact Wp]|]. split; [exact Wq|]. split; [exact Wr|].
  split; [destruct (negb (Z.land b 1 =? 0)); lia|]. split; [change (2 ^ (170 + 1)) with (2 * 2 ^ 170); destruct (negb (Z.land b 1 =? 0)); lia|]. split; [lia|]. split; [lia|].
  rewrite rsum_one. unfold chud_term. fold A. rewrite EW, SG. split; [|field; lra].
  destruct (negb (Z.land b 1 =? 0)); rewrite ?opp_IZR, mult_IZR; field; lra.
Qed.

Theorem pi_pqr_ok a b : 0 <= a < b -> b <= 2 ^ 33 -> outcome (pi_pqr a b) (tri_good chud_weight chud_term 170 a b) (2 ^ 23 < b - a).
Proof.
  intros Ha Hb. unfold pi_pqr. apply (splitting_ok pi_leaf pi_join _ (2 ^ 33) (2 ^ 23)); auto.
  - discriminate.
  - exact pi_leaf_good.
  - intros a0 m b0 x y H1 H2 G1 G2. apply (pi_join_good chud_weight chud_term 170 (2 ^ 23) (2 ^ 33)) with (m := m); auto; try reflexivity; try discriminate.
    + intros k _. apply chud_weight_pos.
    + exact chud_sum_nonzero.
  - change (2 ^ Z.of_nat 64) with (2 ^ 31 * 2 ^ 33). lia.
Qed.

(** ** Extending a range *)
Lemma splitting_fuel {T} (leaf : Z -> result T) join : forall f g a b, a < b -> b - a <= 2 ^ Z.of_nat (Nat.pred f) -> b - a <= 2 ^ Z.of_nat (Nat.pred g) -> (0 < f)%nat -> (0 < g)%nat -> splitting leaf join f a b = splitting leaf join g a b.
Proof.
  induction f as [|f IH]; [intros; lia|]. intros [|g] a b Hab Hf Hg Pf Pg; [lia|]. cbn [splitting Nat.pred] in *. destruct (Z.eqb_spec a (b - 1)) as [|N]; [reflexivity|].
  destruct f as [|f]; [change (2 ^ Z.of_nat 0) with 1 in Hf; lia|]. destruct g as [|g]; [change (2 ^ Z.of_nat 0) with 1 in Hg; lia|].
  rewrite Nat2Z.inj_succ, Z.pow_succ_r in Hf, Hg by lia. set (m := (a + b) / 2). assert (a < m < b) by (unfold m; split; dlia).
  assert (Hd : m - a <= (b - a) / 2 + 1 /\ 2 * (m - a) <= b - a /\ 2 * (b - m) <= b - a + 1) by (unfold m; clear; dlia).
  cbn [Nat.pred] in *. rewrite (IH (S g) a m), (IH (S g) m b); try reflexivity; cbn [Nat.pred]; lia.
Qed.
Lemma splitting_S {T} (leaf : Z -> result T) join f a b : splitting leaf join (S f) a b =
  if a =? b - 1 then leaf b else do x <- splitting leaf join f a ((a + b) / 2); do y <- splitting leaf join f ((a + b) / 2) b; join x y.
Proof. reflexivity. Qed.
Lemma splitting_double {T} (leaf : Z -> result T) join m : 0 < m <= 2 ^ 62 ->
  splitting leaf join 65 0 (2 * m) = (do x <- splitting leaf join 65 0 m; do y <- splitting leaf join 65 m (2 * m); join x y).
Proof.
  intros H. assert (E : splitting leaf join 65 0 (2 * m) = (do x <- splitting leaf join 64 0 m; do y <- splitting leaf join 64 m (2 * m); join x y)).
  { rewrite (splitting_S leaf join 64). replace (0 =? 2 * m - 1) with false by lia. replace ((0 + 2 * m) / 2) with m by dlia. reflexivity. }
  rewrite E. change (2 ^ 62) with 4611686018427387904 in H. rewrite (splitting_fuel leaf join 64 65 0 m), (splitting_fuel leaf join 64 65 m (2 * m)); try reflexivity; try lia; cbn [Nat.pred];
  try (change (2 ^ Z.of_nat 63) with 9223372036854775808); try (change (2 ^ Z.of_nat 64) with 18446744073709551616); lia.
Qed.

Definition extends {T} (split : Z -> Z -> result T) (inc : T -> Z -> result (T * Z)) : Prop :=
  forall m x, 0 < m <= 2 ^ 62 -> split 0 m = Ok x -> inc x m = (do y <- split 0 (2 * m); Ok (y, 2 * m)).
Lemma bind_assoc {A B C} (r : result A) (f : A -> result B) (g : B -> result C) : (do y <- (do x <- r; f x); g y) = (do x <- r; do y <- f x; g y).
Proof. destruct r; reflexivity. Qed.
Lemma inc_extends {T} (leaf : Z -> result T) join m x : 0 < m <= 2 ^ 62 -> splitting leaf join 65 0 m = Ok x ->
  (do b <- chk (m * 2); do y <- splitting leaf join 65 m b; do r <- join x y; Ok (r, b)) = (do y <- splitting leaf join 65 0 (2 * m); Ok (y, 2 * m)).
Proof.
  intros H. pose proof (splitting_double leaf join m H) as D. revert D. generalize (splitting leaf join 65). intros sp D E. rewrite D, E, chk_ok by lia. cbn [bind]. rewrite (Z.mul_comm m 2). symmetry. apply bind_assoc.
Qed.
(* Only the order of unfolding during conversion: the recursion comes last. *)
Strategy 1000 [splitting].
Theorem e_extends : extends e_pq e_inc.
Proof. intros m x H E. exact (inc_extends e_leaf e_join m x H E). Qed.
Theorem pi_extends : extends pi_pqr pi_inc.
Proof. intros m x H E. exact (inc_extends pi_leaf pi_join m x H E). Qed.
Theorem ln2_extends : extends ln2_pqr ln2_inc.
Proof. intros m x H E. exact (inc_extends ln2_leaf ln_join m x H E). Qed.
Theorem ln10_extends : extends ln10_pqr ln10_inc.
Proof. intros m x H E. exact (inc_extends ln10_leaf ln_join m x H E). Qed.
