(** The forward and the reverse transform (Fft.v). *)

From Coq Require Import ZArith List Bool Lia.
From Verif Require Import Words IntModel Fft SpecZ WordsP WordsP2 IntP MulToom FftP1.
Import ListNotations.
Open Scope Z_scope.
Ltac Zify.zify_post_hook ::= idtac.
Ltac dlia := Z.div_mod_to_equations; lia.
Arguments Z.mul : simpl never.
Arguments Z.add : simpl never.
Arguments Z.pow : simpl never.
Arguments Z.sub : simpl never.
#[local] Arguments Z.opp : simpl never.
Arguments Z.of_nat : simpl never.
#[local] Arguments Nat.pow : simpl never.

(** ** Bit reversal *)
Fixpoint brev (k : nat) (i : Z) : Z :=
  match k with
  | O => 0
  | S k => brev k (i / 2) + (if Z.odd i then 2 ^ Z.of_nat k else 0)
  end.

Lemma brev_bound k : forall i, 0 <= brev k i < 2 ^ Z.of_nat k.
Proof.
  induction k as [|k IH]; intros i; cbn [brev]; [change (2 ^ Z.of_nat 0) with 1; lia|].
  pose proof (IH (i / 2)). rewrite Nat2Z.inj_succ, Z.pow_succ_r by lia. destruct (Z.odd i); lia.
Qed.

Lemma brev_even k i : 0 <= i -> brev (S k) (2 * i) = brev k i.
Proof. intros. cbn [brev]. rewrite Z.odd_mul. change (Z.odd 2) with false. cbn [andb]. rewrite Z.mul_comm, Z.div_mul by lia. lia. Qed.
Lemma brev_odd k i : 0 <= i -> brev (S k) (2 * i + 1) = brev k i + 2 ^ Z.of_nat k.
Proof.
  intros. cbn [brev]. rewrite Z.odd_add, Z.odd_mul. change (Z.odd 2) with false. change (Z.odd 1) with true. cbn [andb xorb].
  replace ((2 * i + 1) / 2) with i by dlia. reflexivity.
Qed.

Lemma brev_lo_hi k : forall i, 0 <= i < 2 ^ Z.of_nat k -> brev (S k) i = 2 * brev k i /\ brev (S k) (2 ^ Z.of_nat k + i) = 2 * brev k i + 1.
Proof.
  induction k as [|k IH]; intros i Hi.
  - change (2 ^ Z.of_nat 0) with 1 in *. assert (i = 0) by lia. subst i. split; reflexivity.
  - rewrite Nat2Z.inj_succ, Z.pow_succ_r in * by lia.
    destruct (IH (i / 2)) as (H1 & H2); [dlia|].
    assert (R : forall x, brev (S (S k)) x = brev (S k) (x / 2) + (if Z.odd x then 2 ^ Z.of_nat (S k) else 0)) by reflexivity.
    assert (Q : brev (S k) i = brev k (i / 2) + (if Z.odd i then 2 ^ Z.of_nat k else 0)) by reflexivity.
    rewrite !R, Q, Nat2Z.inj_succ, Z.pow_succ_r by lia. split.
    + rewrite H1. destruct (Z.odd i); ring.
    + replace ((2 * 2 ^ Z.of_nat k + i) / 2) with (2 ^ Z.of_nat k + i / 2) by dlia. rewrite H2.
      rewrite Z.odd_add, Z.odd_mul. change (Z.odd 2) with false. cbn [andb xorb]. destruct (Z.odd i); ring.
Qed.

Lemma small_testbit a k n : 0 <= k -> 0 <= a < 2 ^ k -> k <= n -> Z.testbit a n = false.
Proof.
  intros Hk Ha Hn. destruct (Z.eq_dec a 0) as [->|]; [apply Z.bits_0|]. apply Z.bits_above_log2; [lia|].
  assert (Z.log2 a < k) by (apply Z.log2_lt_pow2; lia). lia.
Qed.

Lemma brev_bits k : forall i n, 0 <= i < 2 ^ Z.of_nat k -> 0 <= n < Z.of_nat k -> Z.testbit (brev k i) n = Z.testbit i (Z.of_nat k - 1 - n).
Proof.
  induction k as [|k IH]; intros i n Hi Hn; [change (Z.of_nat 0) with 0 in Hn; lia|].
  rewrite Nat2Z.inj_succ in *. rewrite Z.pow_succ_r in Hi by lia. cbn [brev].
  pose proof (brev_bound k (i / 2)) as B. pose proof (pow2_gt0 (Z.of_nat k) ltac:(lia)) as P2.
  assert (Hd : 0 <= i / 2 < 2 ^ Z.of_nat k) by dlia.
  assert (E : brev k (i / 2) + (if Z.odd i then 2 ^ Z.of_nat k else 0) = Z.lor (if Z.odd i then 2 ^ Z.of_nat k else 0) (brev k (i / 2))).
  { rewrite (lor_disjoint_add _ _ (Z.of_nat k)); [ring|lia| |exact B]. destruct (Z.odd i); [apply Z.mod_same; lia|apply Z.mod_0_l; lia]. }
  rewrite E, Z.lor_spec. destruct (Z.eq_dec n (Z.of_nat k)) as [->|Hne].
  - rewrite (small_testbit (brev k (i / 2)) (Z.of_nat k)) by lia.
    rewrite orb_false_r. replace (Z.succ (Z.of_nat k) - 1 - Z.of_nat k) with 0 by lia. rewrite Z.bit0_odd. destruct (Z.odd i); [apply Z.pow2_bits_true; lia|apply Z.bits_0].
  - rewrite IH by lia. replace (Z.succ (Z.of_nat k) - 1 - n) with (Z.succ (Z.of_nat k - 1 - n)) by lia.
    rewrite <- (Z.div2_bits i) by lia.
    destruct (Z.odd i); [rewrite Z.pow2_bits_false by lia|rewrite Z.bits_0]; reflexivity.
Qed.

Lemma testbit_wshl a s n : 0 <= s -> 0 <= n < 64 -> Z.testbit (wshl a s) n = Z.testbit a (n - s).
Proof. intros. unfold wshl. change WORD_BASE with (2 ^ 64). rewrite Z.mod_pow2_bits_low by lia. apply Z.shiftl_spec. lia. Qed.
Lemma testbit_wshr a s n : 0 <= n -> Z.testbit (wshr a s) n = Z.testbit a (n + s).
Proof. intros. unfold wshr. apply Z.shiftr_spec. lia. Qed.

Lemma swap_bits_spec j s mask n : 0 <= s -> 0 <= n < 64 ->
  Z.testbit (swap_bits j s mask) n = Z.testbit j (n + s) && Z.testbit mask n || Z.testbit j (n - s) && Z.testbit mask (n - s).
Proof. intros. unfold swap_bits. rewrite Z.lor_spec, Z.land_spec, testbit_wshr, testbit_wshl, Z.land_spec by lia. reflexivity. Qed.

Lemma in_64 (n : Z) : 0 <= n < 64 -> In n (map Z.of_nat (seq 0 64)).
Proof. intros. apply in_map_iff. exists (Z.to_nat n). split; [lia|]. apply in_seq. lia. Qed.

Lemma word_testbit_hi j n : 0 <= j < 2 ^ 64 -> 64 <= n -> Z.testbit j n = false.
Proof.
  intros Hj Hn. destruct (Z.eq_dec j 0) as [->|]; [apply Z.bits_0|]. apply Z.bits_above_log2; [lia|].
  assert (Z.log2 j < 64) by (apply Z.log2_lt_pow2; lia). lia.
Qed.

(** One exchange of neighbouring groups of [s] bits. *)
Definition swapped (s n : Z) : Z := if Z.odd (n / s) then n - s else n + s.
Definition mask_ok (s mask : Z) : bool :=
  forallb (fun n => Bool.eqb (Z.testbit mask n) (negb (Z.odd (n / s))) && Bool.eqb (Z.testbit mask (n - s)) (Z.odd (n / s))) (map Z.of_nat (seq 0 64)).

Lemma swap_stage j s mask n : mask_ok s mask = true -> 0 <= s -> 0 <= n < 64 -> Z.testbit (swap_bits j s mask) n = Z.testbit j (swapped s n).
Proof.
  intros M S H. rewrite swap_bits_spec by lia. unfold mask_ok in M. rewrite forallb_forall in M. specialize (M n (in_64 n H)). cbv beta in M.
  apply andb_prop in M. destruct M as (M1 & M2). apply Bool.eqb_prop in M1. apply Bool.eqb_prop in M2. rewrite M1, M2. unfold swapped.
  destruct (Z.odd (n / s)); cbn [negb]; rewrite ?andb_true_r, ?andb_false_r, ?orb_false_r, ?orb_false_l; reflexivity.
Qed.

Lemma swap_bits_hi j s mask n : 0 <= mask < 2 ^ 64 -> 64 <= n -> Z.testbit (swap_bits j s mask) n = false.
Proof.
  intros M H. unfold swap_bits. rewrite Z.lor_spec, Z.land_spec, (word_testbit_hi mask) by lia. rewrite andb_false_r. apply word_testbit_hi; [apply wshl_bound|lia].
Qed.

Lemma swapped_range : forallb (fun n => forallb (fun s => (0 <=? swapped s n) && (swapped s n <? 64)) [1; 2; 4; 8; 16]) (map Z.of_nat (seq 0 64)) = true.
Proof. vm_compute. reflexivity. Qed.
Lemma swapped_all : forallb (fun n => swapped 1 (swapped 2 (swapped 4 (swapped 8 (swapped 16 (swapped 32 n))))) =? 63 - n) (map Z.of_nat (seq 0 64)) = true.
Proof. vm_compute. reflexivity. Qed.

Lemma fft_w_shift_ok j k : 0 <= j < 2 ^ Z.of_nat k -> (1 <= k <= 64)%nat -> fft_w_shift j (Z.of_nat k) = brev k j.
Proof.
  intros Hj Hk. assert (Hj64 : 0 <= j < 2 ^ 64) by (assert (2 ^ Z.of_nat k <= 2 ^ 64) by (apply Z.pow_le_mono_r; lia); lia).
  unfold fft_w_shift. set (j1 := swap_bits j 1 _). set (j2 := swap_bits j1 2 _). set (j3 := swap_bits j2 4 _). set (j4 := swap_bits j3 8 _). set (j5 := swap_bits j4 16 _).
  assert (R : forall n s, 0 <= n < 64 -> In s [1; 2; 4; 8; 16] -> 0 <= swapped s n < 64).
  { intros n s Hn Hs. pose proof swapped_range as G. rewrite forallb_forall in G. specialize (G n (in_64 n Hn)). cbv beta in G. rewrite forallb_forall in G. specialize (G s Hs). cbv beta in G.
    apply andb_prop in G. rewrite Z.leb_le, Z.ltb_lt in G. exact G. }
  assert (B5 : forall n, 0 <= n < 64 -> Z.testbit j5 n = Z.testbit j (swapped 1 (swapped 2 (swapped 4 (swapped 8 (swapped 16 n)))))).
  { intros n Hn. assert (R5 := R n 16 Hn ltac:(cbn; auto 10)). assert (R4 := R _ 8 R5 ltac:(cbn; auto 10)). assert (R3 := R _ 4 R4 ltac:(cbn; auto 10)). assert (R2 := R _ 2 R3 ltac:(cbn; auto 10)).
    unfold j5. rewrite swap_stage by (reflexivity || lia). unfold j4. rewrite swap_stage by (reflexivity || lia). unfold j3. rewrite swap_stage by (reflexivity || lia).
    unfold j2. rewrite swap_stage by (reflexivity || lia). unfold j1. rewrite swap_stage by (reflexivity || lia). reflexivity. }
  assert (B5h : forall n, 64 <= n -> Z.testbit j5 n = false) by (intros n Hn; apply swap_bits_hi; lia).
  clearbody j5. clear j1 j2 j3 j4.
  assert (B6 : forall n, 0 <= n < 64 -> Z.testbit (Z.lor (wshr j5 32) (wshl j5 32)) n = Z.testbit j (63 - n)).
  { intros n Hn. rewrite Z.lor_spec, testbit_wshr, testbit_wshl by lia.
    pose proof swapped_all as G. rewrite forallb_forall in G. specialize (G n (in_64 n Hn)). cbv beta in G. apply Z.eqb_eq in G.
    assert (S32 : swapped 32 n = if n <? 32 then n + 32 else n - 32).
    { unfold swapped. destruct (Z.ltb_spec n 32); [rewrite Z.div_small by lia; reflexivity|]. replace (n / 32) with 1 by dlia. reflexivity. }
    rewrite S32 in G. destruct (Z.ltb_spec n 32).
    - rewrite (Z.testbit_neg_r j5 (n - 32)) by lia. rewrite orb_false_r, B5, G by lia. reflexivity.
    - rewrite (B5h (n + 32)) by lia. rewrite orb_false_l, B5, G by lia. reflexivity. }
  assert (B6h : forall n, 64 <= n -> Z.testbit (Z.lor (wshr j5 32) (wshl j5 32)) n = false).
  { intros n Hn. rewrite Z.lor_spec, testbit_wshr, B5h by lia. rewrite (word_testbit_hi (wshl j5 32)) by (try apply wshl_bound; lia). reflexivity. }
  set (j6 := Z.lor _ _) in *. clearbody j6. pose proof (brev_bound k j) as Bb.
  apply Z.bits_inj'. intros n Hn. rewrite testbit_wshr by lia. destruct (Z.lt_ge_cases n (Z.of_nat k)) as [Hlt|Hge].
  - rewrite B6, brev_bits by lia. f_equal. lia.
  - rewrite B6h by lia. symmetry. destruct (Z.eq_dec (brev k j) 0) as [->|]; [apply Z.bits_0|]. apply Z.bits_above_log2; [lia|].
    assert (Z.log2 (brev k j) < Z.of_nat k) by (apply Z.log2_lt_pow2; lia). lia.
Qed.

(** ** Finite sums *)
Fixpoint sm (n : nat) (f : Z -> Z) : Z :=
  match n with O => 0 | S n => sm n f + f (Z.of_nat n) end.

Lemma sm_ext n f g : (forall j, 0 <= j < Z.of_nat n -> f j = g j) -> sm n f = sm n g.
Proof. induction n as [|n IH]; intros H; cbn [sm]; [reflexivity|]. rewrite IH, H by (intros; try apply H; lia). reflexivity. Qed.
Lemma sm_cg F n f g : (forall j, 0 <= j < Z.of_nat n -> cg F (f j) (g j)) -> cg F (sm n f) (sm n g).
Proof. induction n as [|n IH]; intros H; cbn [sm]; [apply cg_refl|]. apply cg_add; [apply IH; intros; apply H; lia|apply H; lia]. Qed.
Lemma sm_add n f g : sm n (fun j => f j + g j) = sm n f + sm n g.
Proof. induction n as [|n IH]; cbn [sm]; [reflexivity|]. rewrite IH. ring. Qed.
Lemma sm_scale n c f : sm n (fun j => c * f j) = c * sm n f.
Proof. induction n as [|n IH]; cbn [sm]; [ring|]. rewrite IH. ring. Qed.
Lemma sm_zero n f : (forall j, 0 <= j < Z.of_nat n -> f j = 0) -> sm n f = 0.
Proof. induction n as [|n IH]; intros H; cbn [sm]; [reflexivity|]. rewrite IH, H by (intros; try apply H; lia). reflexivity. Qed.
Lemma sm_le n f g : (forall j, 0 <= j < Z.of_nat n -> f j <= g j) -> sm n f <= sm n g.
Proof. induction n as [|n IH]; intros H; cbn [sm]; [lia|]. pose proof (IH ltac:(intros; apply H; lia)). pose proof (H (Z.of_nat n) ltac:(lia)). lia. Qed.
Lemma sm_app n m f : sm (n + m) f = sm n f + sm m (fun j => f (Z.of_nat n + j)).
Proof.
  induction m as [|m IH]; cbn [sm]; [rewrite Nat.add_0_r; lia|]. rewrite Nat.add_succ_r. cbn [sm]. rewrite IH, Nat2Z.inj_add. ring.
Qed.
Lemma sm_even_odd n f : sm (2 * n) f = sm n (fun j => f (2 * j)) + sm n (fun j => f (2 * j + 1)).
Proof.
  induction n as [|n IH]; [reflexivity|]. replace (2 * S n)%nat with (S (S (2 * n))) by lia. cbn [sm]. rewrite IH.
  replace (Z.of_nat (S (2 * n))) with (2 * Z.of_nat n + 1) by lia. replace (Z.of_nat (2 * n)) with (2 * Z.of_nat n) by lia. ring.
Qed.

(** ** The parts *)
Definition plen (ps : list sws) : Z := Z.of_nat (length ps).
Definition pv (ps : list sws) (i : Z) : Z := val (sw (pget i ps)).

Lemma lset_length v ps : forall i, length (lset i v ps) = length ps.
Proof. induction ps as [|a ps IH]; intros [|i]; cbn; auto. Qed.
Lemma lset_same v d ps : forall i, (i < length ps)%nat -> nth i (lset i v ps) d = v.
Proof. induction ps as [|a ps IH]; intros [|i] H; cbn in *; [lia|lia|reflexivity|]. apply IH. lia. Qed.
Lemma lset_other v d ps : forall i j, i <> j -> nth j (lset i v ps) d = nth j ps d.
Proof. induction ps as [|a ps IH]; intros [|i] [|j] H; cbn; try reflexivity; [congruence|]. apply IH. congruence. Qed.
Lemma plen_pset i v ps : plen (pset i v ps) = plen ps.
Proof. unfold plen, pset. rewrite lset_length. reflexivity. Qed.
Lemma pget_same i v ps : 0 <= i < plen ps -> pget i (pset i v ps) = v.
Proof. intros. unfold pget, pset. apply lset_same. unfold plen in *. lia. Qed.
Lemma pget_other i j v ps : 0 <= i -> 0 <= j -> i <> j -> pget j (pset i v ps) = pget j ps.
Proof. intros. unfold pget, pset. apply lset_other. lia. Qed.

Lemma pow_nat k : Z.of_nat (2 ^ k)%nat = 2 ^ Z.of_nat k.
Proof. rewrite Nat2Z.inj_pow. reflexivity. Qed.

Section Transforms.
Variable N : Z.
Hypothesis HN : 2 <= N.
Let n1 := 64 * N.
Let F := 2 ^ n1 + 1.
Variable md : sws.
Hypothesis Hmd : sok md /\ sval md = F /\ zlen (sw md) = N + 1.
Let tl := 3 * (N + 1).
Let gp := gp N.

Lemma pow_2q q : 0 <= q -> cg F (2 ^ (n1 * (2 * q))) 1.
Proof.
  intros. pose proof (pow_q N HN md Hmd (2 * q) ltac:(lia)) as H0. fold n1 F in H0. rewrite Z.odd_mul in H0. exact H0.
Qed.

Lemma mulmod_gp p j : gp p -> 0 <= j -> exists r, fft_mul_mod p j n1 md tl = Ok r /\ gp r /\ cg F (val (sw r)) (val (sw p) * 2 ^ j).
Proof.
  intros [W S L V] J. destruct (mul_mod_ok N HN md Hmd p j W L V J) as (r & E & W' & S' & L' & V' & C). exists r. split; [exact E|]. split; [split; auto; congruence|exact C].
Qed.

Lemma butterfly_at_ok ia ib b ps : 0 <= ia < plen ps -> 0 <= ib < plen ps -> ia <> ib -> gp (pget ia ps) -> gp b ->
  exists ps', butterfly_at n1 md ia ib b ps = Ok ps' /\ plen ps' = plen ps /\ gp (pget ia ps') /\ gp (pget ib ps') /\
    cg F (pv ps' ia) (pv ps ia + val (sw b)) /\ cg F (pv ps' ib) (pv ps ia - val (sw b)) /\
    (forall q, 0 <= q -> q <> ia -> q <> ib -> pget q ps' = pget q ps).
Proof.
  intros Ha Hb Hne Ga Gb. unfold butterfly_at. destruct (butterfly_ok N HN md Hmd (pget ia ps) b Ga Gb) as (a' & b' & E & G1 & G2 & C1 & C2).
  fold n1 in E. rewrite E. cbn [bind]. exists (pset ib b' (pset ia a' ps)). split; [reflexivity|].
  assert (Ea : pget ia (pset ib b' (pset ia a' ps)) = a') by (rewrite pget_other by lia; apply pget_same; lia).
  assert (Eb : pget ib (pset ib b' (pset ia a' ps)) = b') by (apply pget_same; rewrite plen_pset; lia).
  unfold pv. rewrite Ea, Eb. split; [rewrite !plen_pset; reflexivity|]. split; [exact G1|]. split; [exact G2|]. split; [exact C1|]. split; [exact C2|].
  intros q Hq N1 N2. rewrite !pget_other by lia. reflexivity.
Qed.

(** ** The transform as a sum *)
Definition tr (w : Z) (x : Z -> Z) (K : nat) (r : Z) : Z := sm K (fun j => x j * 2 ^ (w * j * r)).

Lemma tr_ext w x y K r : (forall j, 0 <= j < Z.of_nat K -> x j = y j) -> tr w x K r = tr w y K r.
Proof. intros H. apply sm_ext. intros j Hj. rewrite H by auto. reflexivity. Qed.
Lemma tr_cg w x y K r : (forall j, 0 <= j < Z.of_nat K -> cg F (x j) (y j)) -> cg F (tr w x K r) (tr w y K r).
Proof. intros H. apply sm_cg. intros j Hj. apply cg_mul_r. auto. Qed.

Lemma tr_even_odd w x K r : 0 <= w -> 0 <= r ->
  tr w x (2 * K) r = tr (w * 2) (fun j => x (2 * j)) K r + 2 ^ (w * r) * tr (w * 2) (fun j => x (2 * j + 1)) K r.
Proof.
  intros Hw Hr. unfold tr. rewrite sm_even_odd. f_equal.
  - apply sm_ext. intros j Hj. do 2 f_equal. ring.
  - rewrite <- sm_scale. apply sm_ext. intros j Hj. replace (w * (2 * j + 1) * r) with (w * r + w * 2 * j * r) by ring. rewrite (pow2_split (w * r)) by nia. ring.
Qed.

Lemma tr_period w x K r P : 0 <= w -> 0 <= r -> 0 <= P -> w * P = n1 * 2 -> cg F (tr w x K (r + P)) (tr w x K r).
Proof.
  intros Hw Hr HP E. apply sm_cg. intros j Hj. apply cg_mul_l.
  replace (w * j * (r + P)) with (w * j * r + n1 * (2 * j)) by (rewrite Z.mul_add_distr_l; f_equal; replace (w * j * P) with (w * P * j) by ring; rewrite E; ring).
  rewrite pow2_split; [|nia|unfold n1; nia]. eapply cg_trans; [apply cg_mul_l, pow_2q; lia|]. apply cg_eq. ring.
Qed.

(** Halves. *)
Lemma tr_halves_even w x K r : 0 <= w -> 0 <= r -> w * Z.of_nat K = n1 ->
  cg F (tr w x (K + K) (2 * r)) (tr (w * 2) (fun j => x j + x (Z.of_nat K + j)) K r).
Proof.
  intros Hw Hr E. unfold tr. rewrite sm_app, <- sm_add. apply sm_cg. intros j Hj.
  replace (w * (Z.of_nat K + j) * (2 * r)) with (w * 2 * j * r + n1 * (2 * r)) by (rewrite <- E; ring).
  replace (w * j * (2 * r)) with (w * 2 * j * r) by ring.
  rewrite (pow2_split (w * 2 * j * r) (n1 * (2 * r))); [|nia|unfold n1; nia]. rewrite Z.mul_add_distr_r. apply cg_add; [apply cg_refl|].
  apply cg_mul_l. eapply cg_trans; [apply cg_mul_l, pow_2q; lia|]. apply cg_eq. ring.
Qed.

Lemma tr_halves_odd w x K r : 0 <= w -> 0 <= r -> w * Z.of_nat K = n1 ->
  cg F (tr w x (K + K) (2 * r + 1)) (tr (w * 2) (fun j => (x j - x (Z.of_nat K + j)) * 2 ^ (w * j)) K r).
Proof.
  intros Hw Hr E. unfold tr. rewrite sm_app, <- sm_add. apply sm_cg. intros j Hj.
  replace (w * (Z.of_nat K + j) * (2 * r + 1)) with (w * j + w * 2 * j * r + (n1 * (2 * r) + n1)) by (rewrite <- E; ring).
  replace (w * j * (2 * r + 1)) with (w * j + w * 2 * j * r) by ring.
  rewrite (pow2_split (w * j + w * 2 * j * r)); [|nia|unfold n1; nia]. rewrite (pow2_split (n1 * (2 * r)) n1); [|unfold n1; nia|unfold n1; nia].
  rewrite (pow2_split (w * j)) by nia.
  eapply cg_trans; [apply cg_add; [apply cg_refl|apply cg_mul_l, cg_mul_l, cg_mul; [apply pow_2q; lia|apply (cg_n1 N)]]|]. apply cg_eq. ring.
Qed.

(** ** Forward transform *)
Lemma stride_inj o s i j : 1 <= s -> o + i * s = o + j * s -> i = j.
Proof. intros Hs H. apply Z.mul_reg_r with s; lia. Qed.

Lemma fwd_loop_ok kk o w s : (1 <= kk <= 64)%nat -> 0 <= o -> 1 <= s -> 0 <= w -> forall f j ps, 0 <= j -> j + Z.of_nat f <= 2 ^ Z.of_nat kk ->
  (forall i, 2 * j <= i < 2 * (j + Z.of_nat f) -> o + i * s < plen ps /\ gp (pget (o + i * s) ps)) ->
  exists ps', fwd_loop n1 md tl f j ps o w (Z.of_nat kk) s = Ok ps' /\ plen ps' = plen ps /\
    (forall i, j <= i < j + Z.of_nat f -> gp (pget (o + (2 * i) * s) ps') /\ gp (pget (o + (2 * i + 1) * s) ps') /\
      cg F (pv ps' (o + (2 * i) * s)) (pv ps (o + (2 * i) * s) + pv ps (o + (2 * i + 1) * s) * 2 ^ (brev kk i * w)) /\
      cg F (pv ps' (o + (2 * i + 1) * s)) (pv ps (o + (2 * i) * s) - pv ps (o + (2 * i + 1) * s) * 2 ^ (brev kk i * w))) /\
    (forall q, 0 <= q -> (forall i, 2 * j <= i < 2 * (j + Z.of_nat f) -> q <> o + i * s) -> pget q ps' = pget q ps).
Proof.
  intros Hkk Ho Hs Hw. induction f as [|f IH]; intros j ps Hj Hjf Hps.
  - exists ps. cbn [fwd_loop]. split; [reflexivity|]. split; [reflexivity|]. split; [intros i Hi; change (Z.of_nat 0) with 0 in Hi; lia|]. auto.
  - rewrite Nat2Z.inj_succ in *. cbn [fwd_loop].
    replace (o + j * (s * 2)) with (o + 2 * j * s) by ring. replace (o + 2 * j * s + s) with (o + (2 * j + 1) * s) by ring.
    destruct (Hps (2 * j) ltac:(lia)) as (La & Ga). destruct (Hps (2 * j + 1) ltac:(lia)) as (Lb & Gb).
    rewrite fft_w_shift_ok by lia. pose proof (brev_bound kk j) as Bb.
    set (ia := o + 2 * j * s) in *. set (ib := o + (2 * j + 1) * s) in *.
    assert (Hia : 0 <= ia) by (unfold ia; nia). assert (Hib : ib = ia + s) by (unfold ia, ib; ring).
    destruct (mulmod_gp (pget ib ps) (brev kk j * w) Gb ltac:(nia)) as (b & Eb & Gb' & Cb). rewrite Eb. cbn [bind].
    destruct (butterfly_at_ok ia ib b ps) as (ps1 & E1 & L1 & G1 & G2 & C1 & C2 & U1); auto; try lia. rewrite E1. cbn [bind].
    destruct (IH (j + 1) ps1) as (ps' & E' & L' & R' & U'); [lia|lia| |].
    { intros i Hi. destruct (Hps i ltac:(lia)) as (Li & Gi). rewrite L1. split; [lia|]. rewrite U1; auto; [nia| |].
      - unfold ia. intros E. apply stride_inj in E; lia.
      - unfold ib. intros E. apply stride_inj in E; lia. }
    exists ps'. split; [exact E'|]. split; [lia|].
    assert (Ua : forall i, 2 * j <= i < 2 * (j + 1) -> pget (o + i * s) ps' = pget (o + i * s) ps1).
    { intros i Hi. apply U'; [nia|]. intros i' Hi' E. apply stride_inj in E; lia. }
    split.
    + intros i Hi. destruct (Z.eq_dec i j) as [->|Hne].
      * unfold pv. rewrite !Ua by lia. fold ia ib. fold (pv ps1 ia) (pv ps1 ib) (pv ps ia) (pv ps ib). split; [exact G1|]. split; [exact G2|]. split.
        -- eapply cg_trans; [exact C1|]. apply cg_add; [apply cg_refl|exact Cb].
        -- eapply cg_trans; [exact C2|]. apply cg_sub; [apply cg_refl|exact Cb].
      * destruct (R' i ltac:(lia)) as (T1 & T2 & T3 & T4). split; [exact T1|]. split; [exact T2|].
        assert (P : forall i', 2 * (j + 1) <= i' -> pv ps1 (o + i' * s) = pv ps (o + i' * s)).
        { intros i' Hi'. unfold pv. rewrite U1; [reflexivity|nia| |].
          - unfold ia. intros E. apply stride_inj in E; lia.
          - unfold ib. intros E. apply stride_inj in E; lia. }
        rewrite !P in T3, T4 by lia. split; [exact T3|exact T4].
    + intros q Hq Hn. rewrite U' by (auto; intros i Hi; apply Hn; lia). apply U1; auto; unfold ia, ib; apply Hn; lia.
Qed.

Lemma forward_ok : forall k, (1 <= k <= 64)%nat -> forall ps o w s, 0 <= o -> 1 <= s -> 0 <= w -> w * 2 ^ (Z.of_nat k - 1) = n1 ->
  (forall i, 0 <= i < 2 ^ Z.of_nat k -> o + i * s < plen ps /\ gp (pget (o + i * s) ps)) ->
  exists ps', fft_forward n1 md tl k ps o w (2 ^ Z.of_nat k) (Z.of_nat k) s = Ok ps' /\ plen ps' = plen ps /\
    (forall i, 0 <= i < 2 ^ Z.of_nat k -> gp (pget (o + i * s) ps') /\ cg F (pv ps' (o + i * s)) (tr w (fun j => pv ps (o + j * s)) (2 ^ k) (brev k i))) /\
    (forall q, 0 <= q -> (forall i, 0 <= i < 2 ^ Z.of_nat k -> q <> o + i * s) -> pget q ps' = pget q ps).
Proof.
  induction k as [|k IH]; [lia|]. intros Hk ps o w s Ho Hs Hw Hwk Hps. cbn [fft_forward].
  destruct (Nat.eq_dec k 0) as [->|Hk0].
  - change (2 ^ Z.of_nat 1) with 2 in *. change (2 =? 2) with true. cbv iota. change (Z.of_nat 1 - 1) with 0 in Hwk. rewrite Z.pow_0_r, Z.mul_1_r in Hwk.
    destruct (Hps 0 ltac:(lia)) as (L0 & G0). destruct (Hps 1 ltac:(lia)) as (L1 & G1). rewrite Z.mul_0_l, Z.add_0_r in L0, G0. rewrite Z.mul_1_l in L1, G1.
    destruct (butterfly_at_ok o (o + s) (pget (o + s) ps) ps) as (ps' & E & L & A & B & C1 & C2 & U); auto; try lia.
    exists ps'. split; [exact E|]. split; [exact L|]. split.
    + intros i Hi. assert (D : i = 0 \/ i = 1) by lia. change (2 ^ 1)%nat with 2%nat. unfold tr. cbn [sm]. change (Z.of_nat 0) with 0. change (Z.of_nat 1) with 1. rewrite !Z.mul_0_l, !Z.mul_0_r, !Z.mul_0_l, !Z.mul_1_l, !Z.add_0_r.
      destruct D as [->| ->].
      * rewrite Z.mul_0_l, Z.add_0_r. change (brev 1 0) with 0. rewrite !Z.mul_0_r, !Z.pow_0_r, !Z.mul_1_r. split; [exact A|]. rewrite Z.add_0_l. exact C1.
      * rewrite Z.mul_1_l. change (brev 1 1) with 1. rewrite !Z.pow_0_r, !Z.mul_1_r, Hwk. split; [exact B|]. rewrite Z.add_0_l. eapply cg_trans; [exact C2|]. fold (pv ps (o + s)).
        replace (pv ps o - pv ps (o + s)) with (pv ps o + pv ps (o + s) * -1) by ring. apply cg_add; [apply cg_refl|]. apply cg_mul_l, cg_sym. apply (cg_n1 N).
    + intros q Hq Hn. apply U; auto; [specialize (Hn 0 ltac:(lia)); lia|specialize (Hn 1 ltac:(lia)); lia].
  - assert (Hk1 : (1 <= k <= 64)%nat) by lia. specialize (IH Hk1).
    assert (E2 : 2 ^ Z.of_nat (S k) = 2 * 2 ^ Z.of_nat k) by (rewrite Nat2Z.inj_succ, Z.pow_succ_r by lia; reflexivity). rewrite E2 in *.
    assert (P2 : 2 <= 2 ^ Z.of_nat k) by (change 2 with (2 ^ 1) at 1; apply Z.pow_le_mono_r; lia).
    rewrite (proj2 (Z.eqb_neq _ 2)) by lia. replace (2 * 2 ^ Z.of_nat k / 2) with (2 ^ Z.of_nat k) by (rewrite Z.mul_comm, Z.div_mul; lia).
    replace (Z.of_nat (S k) - 1) with (Z.of_nat k) in * by lia.
    assert (Hw2 : w * 2 * 2 ^ (Z.of_nat k - 1) = n1).
    { rewrite <- Hwk. replace (Z.of_nat k) with (1 + (Z.of_nat k - 1)) at 2 by lia. rewrite pow2_split by lia. change (2 ^ 1) with 2. ring. }
    set (K := 2 ^ Z.of_nat k) in *.
    destruct (IH ps o (w * 2) (s * 2) Ho ltac:(lia) ltac:(lia) Hw2) as (ps1 & E1 & L1 & R1 & U1).
    { intros i Hi. destruct (Hps (2 * i) ltac:(lia)) as (Li & Gi). replace (o + i * (s * 2)) with (o + 2 * i * s) by ring. auto. }
    rewrite E1. cbn [bind].
    assert (Ne : forall i i', o + s + i * (s * 2) <> o + i' * (s * 2)).
    { intros i i' E. assert (o + (2 * i + 1) * s = o + (2 * i') * s) as G by lia. apply stride_inj in G; lia. }
    destruct (IH ps1 (o + s) (w * 2) (s * 2) ltac:(lia) ltac:(lia) ltac:(lia) Hw2) as (ps2 & E2' & L2 & R2 & U2).
    { intros i Hi. destruct (Hps (2 * i + 1) ltac:(lia)) as (Li & Gi). replace (o + (2 * i + 1) * s) with (o + s + i * (s * 2)) in Li, Gi by ring. rewrite L1. split; [exact Li|].
      rewrite U1; [exact Gi|nia|]. intros i' _. apply Ne. }
    rewrite E2'. cbn [bind].
    assert (Ev : forall i, 0 <= i < K -> gp (pget (o + 2 * i * s) ps2) /\ cg F (pv ps2 (o + 2 * i * s)) (tr (w * 2) (fun j => pv ps (o + 2 * j * s)) (2 ^ k) (brev k i))).
    { intros i Hi. destruct (R1 i Hi) as (G & C). replace (o + i * (s * 2)) with (o + 2 * i * s) in G, C by ring.
      unfold pv at 1. rewrite U2; [|nia|intros i' _; replace (o + 2 * i * s) with (o + i * (s * 2)) by ring; apply not_eq_sym, Ne]. split; [exact G|]. eapply cg_trans; [exact C|].
      apply cg_eq, tr_ext. intros j Hj. f_equal. ring. }
    assert (Od : forall i, 0 <= i < K -> gp (pget (o + (2 * i + 1) * s) ps2) /\ cg F (pv ps2 (o + (2 * i + 1) * s)) (tr (w * 2) (fun j => pv ps (o + (2 * j + 1) * s)) (2 ^ k) (brev k i))).
    { intros i Hi. destruct (R2 i Hi) as (G & C). replace (o + s + i * (s * 2)) with (o + (2 * i + 1) * s) in G, C by ring. split; [exact G|]. eapply cg_trans; [exact C|].
      apply cg_eq, tr_ext. intros j Hj. unfold pv. rewrite U1; [do 3 f_equal; ring|nia|]. intros i' _. apply Ne. }
    destruct (fwd_loop_ok k o w s Hk1 Ho Hs Hw (Z.to_nat K) 0 ps2) as (ps' & E' & L' & R' & U'); [lia|lia| |].
    { rewrite Z2Nat.id by lia. intros i Hi. split; [rewrite L2, L1; apply Hps; lia|].
      destruct (Z.Even_or_Odd i) as [(c & ->)|(c & ->)]; [apply Ev; lia|apply Od; lia]. }
    rewrite Z2Nat.id in R', U' by lia. exists ps'. split; [exact E'|]. split; [lia|]. split.
    + intros i Hi. change (2 ^ S k)%nat with (2 * 2 ^ k)%nat. pose proof (brev_bound (S k) i) as Bi. rewrite tr_even_odd by lia.
      destruct (Z.Even_or_Odd i) as [(c & ->)|(c & ->)]; destruct (R' c ltac:(lia)) as (T1 & T2 & T3 & T4); destruct (Ev c ltac:(lia)) as (_ & V1); destruct (Od c ltac:(lia)) as (_ & V2).
      * split; [exact T1|]. rewrite brev_even in * by lia. eapply cg_trans; [exact T3|]. apply cg_add; [exact V1|].
        rewrite Z.mul_comm, (Z.mul_comm (brev k c)). apply cg_mul_l. exact V2.
      * split; [exact T2|]. rewrite brev_odd in * by lia. pose proof (brev_bound k c) as Bc. fold K in Bc |- *. eapply cg_trans; [exact T4|].
        assert (Hper : w * 2 * K = n1 * 2) by (rewrite <- Hwk; fold K; ring).
        replace (pv ps2 (o + 2 * c * s) - pv ps2 (o + (2 * c + 1) * s) * 2 ^ (brev k c * w)) with (pv ps2 (o + 2 * c * s) + (-1 * 2 ^ (brev k c * w)) * pv ps2 (o + (2 * c + 1) * s)) by ring.
        apply cg_add.
        -- eapply cg_trans; [exact V1|]. apply cg_sym, tr_period; lia.
        -- apply cg_mul.
           ++ replace (w * (brev k c + K)) with (n1 + brev k c * w) by (rewrite <- Hwk; fold K; ring). rewrite pow2_split; [|unfold n1; lia|nia]. apply cg_mul_r. apply cg_sym, (cg_n1 N).
           ++ eapply cg_trans; [exact V2|]. apply cg_sym, tr_period; lia.
    + intros q Hq Hn. rewrite U' by (auto; intros i Hi; apply Hn; lia). rewrite U2; auto.
      * apply U1; auto. intros i Hi E. apply (Hn (2 * i)); [lia|]. rewrite E. ring.
      * intros i Hi E. apply (Hn (2 * i + 1)); [lia|]. rewrite E. ring.
Qed.

(** ** Reverse transform *)
Lemma rev_loop_ok K o w : 0 < K -> 0 <= o -> 0 <= w -> forall f i ps, 0 <= i -> i + Z.of_nat f <= K ->
  o + 2 * K <= plen ps ->
  (forall c, i <= c < i + Z.of_nat f -> gp (pget (o + c) ps) /\ gp (pget (o + K + c) ps)) ->
  exists ps', rev_loop n1 md tl f i ps o w (2 * K) = Ok ps' /\ plen ps' = plen ps /\
    (forall c, i <= c < i + Z.of_nat f -> gp (pget (o + c) ps') /\ gp (pget (o + K + c) ps') /\
      cg F (pv ps' (o + c)) (pv ps (o + c) + pv ps (o + K + c) * 2 ^ (w * (2 * K - c))) /\
      cg F (pv ps' (o + K + c)) (pv ps (o + c) - pv ps (o + K + c) * 2 ^ (w * (2 * K - c)))) /\
    (forall q, 0 <= q -> (forall c, i <= c < i + Z.of_nat f -> q <> o + c /\ q <> o + K + c) -> pget q ps' = pget q ps).
Proof.
  intros HK Ho Hw. induction f as [|f IH]; intros i ps Hi Hif Hl Hps.
  - exists ps. cbn [rev_loop]. split; [reflexivity|]. split; [reflexivity|]. split; [intros c Hc; change (Z.of_nat 0) with 0 in Hc; lia|]. auto.
  - rewrite Nat2Z.inj_succ in *. cbn [rev_loop]. replace (2 * K / 2) with K by (rewrite Z.mul_comm, Z.div_mul; lia).
    destruct (Hps i ltac:(lia)) as (Ga & Gb).
    destruct (mulmod_gp (pget (o + K + i) ps) (w * (2 * K - i)) Gb ltac:(nia)) as (b & Eb & Gb' & Cb). rewrite Eb. cbn [bind].
    destruct (butterfly_at_ok (o + i) (o + K + i) b ps) as (ps1 & E1 & L1 & G1 & G2 & C1 & C2 & U1); auto; try lia. rewrite E1. cbn [bind].
    destruct (IH (i + 1) ps1) as (ps' & E' & L' & R' & U'); [lia|lia|lia| |].
    { intros c Hc. destruct (Hps c ltac:(lia)) as (A & B). rewrite !U1 by lia. auto. }
    exists ps'. split; [exact E'|]. split; [lia|]. split.
    + intros c Hc. destruct (Z.eq_dec c i) as [->|Hne].
      * unfold pv. rewrite !U' by (try (intros c' Hc'); lia). fold (pv ps1 (o + i)) (pv ps1 (o + K + i)) (pv ps (o + i)) (pv ps (o + K + i)). split; [exact G1|]. split; [exact G2|]. split.
        -- eapply cg_trans; [exact C1|]. apply cg_add; [apply cg_refl|exact Cb].
        -- eapply cg_trans; [exact C2|]. apply cg_sub; [apply cg_refl|exact Cb].
      * destruct (R' c ltac:(lia)) as (T1 & T2 & T3 & T4). split; [exact T1|]. split; [exact T2|].
        assert (P : pv ps1 (o + c) = pv ps (o + c) /\ pv ps1 (o + K + c) = pv ps (o + K + c)) by (unfold pv; rewrite !U1 by lia; auto).
        destruct P as (P1 & P2). rewrite P1, P2 in T3, T4. auto.
    + intros q Hq Hn. rewrite U' by (auto; intros c Hc; apply Hn; lia). specialize (Hn i ltac:(lia)). apply U1; tauto.
Qed.

Lemma reverse_ok : forall k, (1 <= k <= 64)%nat -> forall ps o w x, 0 <= o -> 0 <= w -> w * 2 ^ (Z.of_nat k - 1) = n1 -> o + 2 ^ Z.of_nat k <= plen ps ->
  (forall i, 0 <= i < 2 ^ Z.of_nat k -> gp (pget (o + i) ps) /\ cg F (pv ps (o + i)) (tr w x (2 ^ k) (brev k i))) ->
  exists ps', fft_reverse n1 md tl k ps o w (2 ^ Z.of_nat k) = Ok ps' /\ plen ps' = plen ps /\
    (forall i, 0 <= i < 2 ^ Z.of_nat k -> gp (pget (o + i) ps') /\ cg F (pv ps' (o + i)) (2 ^ Z.of_nat k * x i)) /\
    (forall q, 0 <= q -> q < o \/ o + 2 ^ Z.of_nat k <= q -> pget q ps' = pget q ps).
Proof.
  induction k as [|k IH]; [lia|]. intros Hk ps o w x Ho Hw Hwk Hl Hps. cbn [fft_reverse].
  destruct (Nat.eq_dec k 0) as [->|Hk0].
  - change (2 ^ Z.of_nat 1) with 2 in *. change (2 =? 2) with true. cbv iota. change (Z.of_nat 1 - 1) with 0 in Hwk. rewrite Z.pow_0_r, Z.mul_1_r in Hwk.
    destruct (Hps 0 ltac:(lia)) as (G0 & V0). destruct (Hps 1 ltac:(lia)) as (G1 & V1). rewrite Z.add_0_r in G0, V0.
    destruct (butterfly_at_ok o (o + 1) (pget (o + 1) ps) ps) as (ps' & E & L & A & B & C1 & C2 & U); auto; try lia. fold (pv ps (o + 1)) in C1, C2.
    change (2 ^ 1)%nat with 2%nat in V0, V1. unfold tr in V0, V1. cbn [sm] in V0, V1. change (Z.of_nat 0) with 0 in V0, V1. change (Z.of_nat 1) with 1 in V0, V1.
    change (brev 1 0) with 0 in V0. change (brev 1 1) with 1 in V1. rewrite ?Z.mul_0_r, ?Z.mul_0_l, ?Z.mul_1_r, ?Z.pow_0_r, ?Z.mul_1_r, ?Z.add_0_l in V0, V1. rewrite !Z.mul_0_r, !Z.pow_0_r, ?Z.mul_1_r in V0. rewrite Hwk, ?Z.mul_1_r in V1.
    assert (V1' : cg F (pv ps (o + 1)) (x 0 - x 1)).
    { eapply cg_trans; [exact V1|]. replace (x 0 - x 1) with (x 0 + x 1 * -1) by ring. apply cg_add; [apply cg_refl|]. apply cg_mul_l, (cg_n1 N). }
    exists ps'. split; [exact E|]. split; [exact L|]. split.
    + intros i Hi. assert (D : i = 0 \/ i = 1) by lia. destruct D as [->| ->].
      * rewrite Z.add_0_r. split; [exact A|]. eapply cg_trans; [exact C1|]. eapply cg_trans; [apply cg_add; [exact V0|exact V1']|]. apply cg_eq. ring.
      * split; [exact B|]. eapply cg_trans; [exact C2|]. eapply cg_trans; [apply cg_sub; [exact V0|exact V1']|]. apply cg_eq. ring.
    + intros q Hq Hn. apply U; auto; lia.
  - assert (Hk1 : (1 <= k <= 64)%nat) by lia. specialize (IH Hk1).
    assert (E2 : 2 ^ Z.of_nat (S k) = 2 * 2 ^ Z.of_nat k) by (rewrite Nat2Z.inj_succ, Z.pow_succ_r by lia; reflexivity). rewrite E2 in *.
    assert (P2 : 2 <= 2 ^ Z.of_nat k) by (change 2 with (2 ^ 1) at 1; apply Z.pow_le_mono_r; lia).
    rewrite (proj2 (Z.eqb_neq _ 2)) by lia. replace (2 * 2 ^ Z.of_nat k / 2) with (2 ^ Z.of_nat k) by (rewrite Z.mul_comm, Z.div_mul; lia).
    replace (Z.of_nat (S k) - 1) with (Z.of_nat k) in * by lia.
    assert (Hw2 : w * 2 * 2 ^ (Z.of_nat k - 1) = n1).
    { rewrite <- Hwk. replace (Z.of_nat k) with (1 + (Z.of_nat k - 1)) at 2 by lia. rewrite pow2_split by lia. change (2 ^ 1) with 2. ring. }
    assert (EK : Z.of_nat (2 ^ k) = 2 ^ Z.of_nat k) by apply pow_nat.
    assert (EN : (2 ^ S k = 2 ^ k + 2 ^ k)%nat) by (change (2 ^ S k)%nat with (2 * 2 ^ k)%nat; lia). rewrite EN in Hps. clear EN.
    set (u := fun j => x j + x (2 ^ Z.of_nat k + j)). set (v := fun j => (x j - x (2 ^ Z.of_nat k + j)) * 2 ^ (w * j)).
    destruct (IH ps o (w * 2) u Ho ltac:(lia) Hw2 ltac:(lia)) as (ps1 & E1 & L1 & R1 & U1).
    { intros i Hi. destruct (Hps i ltac:(lia)) as (G & C). split; [exact G|]. rewrite (proj1 (brev_lo_hi k i Hi)) in C.
      eapply cg_trans; [exact C|]. pose proof (brev_bound k i). eapply cg_trans; [apply tr_halves_even; [lia|lia|rewrite EK; exact Hwk]|]. rewrite EK. apply cg_refl. }
    rewrite E1. cbn [bind].
    destruct (IH ps1 (o + 2 ^ Z.of_nat k) (w * 2) v ltac:(lia) ltac:(lia) Hw2 ltac:(lia)) as (ps2 & E2' & L2 & R2 & U2).
    { intros i Hi. destruct (Hps (2 ^ Z.of_nat k + i) ltac:(lia)) as (G & C). rewrite Z.add_assoc in G, C. unfold pv. rewrite U1 by lia. split; [exact G|].
      rewrite (proj2 (brev_lo_hi k i Hi)) in C.
      eapply cg_trans; [exact C|]. pose proof (brev_bound k i). eapply cg_trans; [apply tr_halves_odd; [lia|lia|rewrite EK; exact Hwk]|]. rewrite EK. apply cg_refl. }
    rewrite E2'. cbn [bind]. set (K := 2 ^ Z.of_nat k) in *.
    assert (A : forall c, 0 <= c < K -> gp (pget (o + c) ps2) /\ cg F (pv ps2 (o + c)) (K * u c)).
    { intros c Hc. destruct (R1 c Hc) as (G & C). unfold pv. rewrite U2 by lia. auto. }
    destruct (A 0 ltac:(lia)) as (GA & CA). destruct (R2 0 ltac:(lia)) as (GB & CB). rewrite Z.add_0_r in GA, CA, GB, CB.
    destruct (butterfly_at_ok o (o + K) (pget (o + K) ps2) ps2) as (ps3 & E3 & L3 & G3 & G4 & C3 & C4 & U3); auto; try lia. fold (pv ps2 (o + K)) in C3, C4. rewrite E3. cbn [bind].
    destruct (rev_loop_ok K o w ltac:(lia) Ho Hw (Z.to_nat (K - 1)) 1 ps3) as (ps' & E' & L' & R' & U'); [lia|lia|lia| |].
    { intros c Hc. rewrite Z2Nat.id in Hc by lia. rewrite !U3 by lia. split; [apply A; lia|apply R2; lia]. }
    rewrite Z2Nat.id in R', U' by lia. exists ps'. split; [exact E'|]. split; [lia|].
    assert (Hpair : forall c, 0 <= c < K -> gp (pget (o + c) ps') /\ gp (pget (o + K + c) ps') /\ cg F (pv ps' (o + c)) (2 * K * x c) /\ cg F (pv ps' (o + K + c)) (2 * K * x (K + c))).
    { intros c Hc. destruct (Z.eq_dec c 0) as [->|Hne].
      - rewrite !Z.add_0_r. unfold pv. rewrite !U' by (try (intros c' Hc'); lia). fold (pv ps3 o) (pv ps3 (o + K)). split; [exact G3|]. split; [exact G4|].
        unfold u in CA. unfold v in CB. rewrite Z.mul_0_r, Z.pow_0_r, Z.mul_1_r in CB. rewrite Z.add_0_r in CA, CB. split.
        + eapply cg_trans; [exact C3|]. eapply cg_trans; [apply cg_add; [exact CA|exact CB]|]. apply cg_eq. ring.
        + eapply cg_trans; [exact C4|]. eapply cg_trans; [apply cg_sub; [exact CA|exact CB]|]. apply cg_eq. ring.
      - destruct (R' c ltac:(lia)) as (T1 & T2 & T3 & T4). split; [exact T1|]. split; [exact T2|]. destruct (A c Hc) as (_ & CAc). destruct (R2 c Hc) as (_ & CBc).
        assert (P : pv ps3 (o + c) = pv ps2 (o + c) /\ pv ps3 (o + K + c) = pv ps2 (o + K + c)) by (unfold pv; rewrite !U3 by lia; auto).
        destruct P as (P1 & P3). rewrite P1, P3 in T3, T4.
        assert (Tw : cg F (pv ps2 (o + K + c) * 2 ^ (w * (2 * K - c))) (K * (x c - x (K + c)))).
        { eapply cg_trans; [apply cg_mul_r; exact CBc|]. unfold v.
          replace (K * ((x c - x (K + c)) * 2 ^ (w * c)) * 2 ^ (w * (2 * K - c))) with (K * (x c - x (K + c)) * (2 ^ (w * c) * 2 ^ (w * (2 * K - c)))) by ring.
          rewrite <- pow2_split by nia. replace (w * c + w * (2 * K - c)) with (n1 * (2 * 1)) by (rewrite <- Hwk; ring).
          eapply cg_trans; [apply cg_mul_l, pow_2q; lia|]. apply cg_eq. ring. }
        unfold u in CAc. split.
        + eapply cg_trans; [exact T3|]. eapply cg_trans; [apply cg_add; [exact CAc|exact Tw]|]. apply cg_eq. ring.
        + eapply cg_trans; [exact T4|]. eapply cg_trans; [apply cg_sub; [exact CAc|exact Tw]|]. apply cg_eq. ring. }
    split.
    + intros i Hi. destruct (Z.lt_ge_cases i K) as [Hlt|Hge]; [destruct (Hpair i ltac:(lia)) as (T1 & _ & T3 & _); auto|].
      destruct (Hpair (i - K) ltac:(lia)) as (_ & T2 & _ & T4). replace (o + K + (i - K)) with (o + i) in T2, T4 by ring. replace (K + (i - K)) with i in T4 by ring. auto.
    + intros q Hq Hn. rewrite U' by (try (intros c' Hc'); lia). rewrite U3 by lia. rewrite U2 by lia. apply U1; lia.
Qed.
End Transforms.
