(** Results of [for_prec] for e, ln 2 and ln 10. *)

From Coq Require Import ZArith Znumtheory Zpow_facts Reals List Bool Lia Lra.
From Flocq Require Import Core.
From Verif Require Import Words Mantissa Num Ext Consts SpecZ WordsP WordsP2 RoundP Spec SpecConst RealP RealP2 NumP CmpP SetP AddNum MulNum DivNum RootP RootNum ArithTop Conv2Num RoundableNum PowNum ConstP SeriesP LoopP ConstNum.
Import ListNotations.
Open Scope Z_scope.
Ltac Zify.zify_post_hook ::= idtac.
Arguments Z.mul : simpl never.
Arguments Z.add : simpl never.
Arguments Z.pow : simpl never.
Arguments Z.sub : simpl never.
Arguments Z.of_nat : simpl never.
Ltac dlia := Z.div_mod_to_equations; lia.

(** ** Accepting a value *)
Lemma try_outcome v k rm s : wf v -> normal v -> 0 < k < 64 * wlen v -> k mod 64 = 0 -> s mod 64 = 0 -> k <= s <= 64 * wlen v ->
  match try_set_precision v k rm s with
  | Ok (y, true) => wf y /\ 64 * wlen y = k /\ ns y = ns v /\ (ninexact v = true -> ninexact y = true) /\ value y = rnd_prec k rm (value v)
  | Ok (_, false) => True
  | r => overflows r
  end.
Proof.
  intros W N Hk Hk64 Hs64 Hs. pose proof (wf_lim v W) as HL. assert (HP : prec_up k < P_LIM) by (unfold prec_up; clear - Hk Hk64 HL; dlia).
  pose proof (set_precision_spec v k rm W ltac:(lia) HP ltac:(right; left; auto)) as [SE SO]. assert (GN : rnd_grad k rm (value v) = rnd_prec k rm (value v)) by (apply grad_normal; apply normal_iff; auto). rewrite GN in SE, SO.
  pose proof (try_any v k rm s W N Hk Hk64 Hs64 Hs) as T. destruct (try_set_precision v k rm s) as [[y [|]]|e|]; [|trivial|..].
  - destruct (Rle_or_lt (bpow radix2 EMAX) (Rabs (rnd_prec k rm (value v)))) as [O|O]; [rewrite (SE O) in T; discriminate T|].
    destruct (SO O) as (y' & Ey & Wy & Ly & Sy & Vy & Iy). rewrite T in Ey. injection Ey as <-. split; [exact Wy|]. split; [rewrite Ly; clear - Hk64; dlia|]. split; [exact Sy|]. split; [intros X; apply Iy; left; exact X|exact Vy].
  - destruct (Rle_or_lt (bpow radix2 EMAX) (Rabs (rnd_prec k rm (value v)))) as [O|O]; [rewrite (SE O) in T; injection T as <-; exact I|].
    destruct (SO O) as (y' & Ey & _). rewrite T in Ey. discriminate Ey.
  - destruct T.
Qed.
Lemma accept_directed r v k rm s y : wf v -> normal v -> ninexact v = true -> 0 < k < 64 * wlen v -> s mod 64 = 0 -> k <= s <= 64 * wlen v -> (Rabs (r - value v) < bpow radix2 (ne v - s))%R ->
  rm <> RNone -> nearest rm = false -> try_set_precision v k rm s = Ok (y, true) -> value y = rnd_prec k rm r /\ value y <> r.
Proof.
  intros W N I Hk Hs64 Hs Hr R1 R2 T. pose proof (try_sound v k rm s r W N I Hk Hs64 Hs R1 ltac:(congruence) Hr) as TS. rewrite T in TS. destruct TS as (_ & _ & _ & T1 & T2 & T3 & _). auto.
Qed.

Lemma value_pos_sign v : wf v -> (0 < value v)%R -> ns v = Pos.
Proof.
  intros W Hpos. destruct (ns v) eqn:S; [|reflexivity]. exfalso. unfold value, F2R in Hpos. cbn [Fnum Fexp] in Hpos. rewrite S in Hpos. cbn [sgnZ] in Hpos.
  assert (IZR (-1 * magnitude v) <= 0)%R. { apply IZR_le. pose proof (val_bound _ (wf_words v W)) as HM. unfold magnitude. lia. } pose proof (bpow_gt_0 radix2 (ne v - 64 * wlen v)). nra.
Qed.
Lemma accept_const c e k rm s v y : wf v -> normal v -> ninexact v = true -> (0 < value v)%R -> ne v = e -> 0 < k -> k mod 64 = 0 -> s mod 64 = 0 -> k + 64 <= s <= 64 * wlen v ->
  (Rabs (c - value v) < bpow radix2 (e - s))%R -> try_set_precision v k rm s = Ok (y, true) -> const_result c e k rm y.
Proof.
  intros W N I Hpos He Hk Hk64 Hs64 Hs Hc T. pose proof (try_outcome v k rm s W N ltac:(lia) Hk64 Hs64 ltac:(lia)) as O. rewrite T in O. destruct O as (O1 & O2 & O3 & O5 & O4).
  split; [exact O1|]. split; [exact O2|]. split.
  { rewrite O3. now apply value_pos_sign. }
  split; [exact (O5 I)|]. split; [exists (value v); split; [|exact O4]|].
  - eapply Rlt_le_trans; [exact Hc|]. apply bpow_le. lia.
  - intros R1 R2. apply (accept_directed c v k rm s y); auto; try lia. rewrite He. exact Hc.
Qed.

(** ** e *)
Lemma factR_grow m j : 0 <= m -> (factR m * IZR m ^ j <= factR (m + Z.of_nat j))%R.
Proof.
  intros Hm. induction j as [|j IH]; [change (Z.of_nat 0) with 0; rewrite Z.add_0_r; cbn; lra|]. rewrite (factR_succ (m + Z.of_nat (S j))) by lia. replace (m + Z.of_nat (S j) - 1) with (m + Z.of_nat j) by lia. cbn [pow].
  assert (0 <= IZR m)%R by (apply IZR_le; lia). assert (IZR m <= IZR (m + Z.of_nat (S j)))%R by (apply IZR_le; lia). pose proof (factR_pos m). pose proof (pow_le (IZR m) j H). pose proof (factR_pos (m + Z.of_nat j)).
  replace (factR m * (IZR m * IZR m ^ j))%R with (IZR m * (factR m * IZR m ^ j))%R by ring. apply Rmult_le_compat; auto. apply Rmult_le_pos; lra.
Qed.
Lemma bpow_pow e j : (bpow radix2 e ^ j)%R = bpow radix2 (e * Z.of_nat j).
Proof. induction j as [|j IH]; [change (Z.of_nat 0) with 0; rewrite Z.mul_0_r; reflexivity|]. cbn [pow]. rewrite IH, <- bpow_plus. f_equal. rewrite Nat2Z.inj_succ. ring. Qed.
Lemma fact_pow2 i : (bpow radix2 ((Z.of_nat i - 2) * 2 ^ Z.of_nat i) <= factR (2 ^ Z.of_nat i))%R.
Proof.
  induction i as [|i IH].
  - change ((Z.of_nat 0 - 2) * 2 ^ Z.of_nat 0) with (-2). change (factR (2 ^ Z.of_nat 0)) with 1%R. change (bpow radix2 (-2)) with (/ 4)%R. lra.
  - rewrite Nat2Z.inj_succ. set (z := Z.of_nat i) in *. assert (Hz : 0 <= z) by (unfold z; lia). clearbody z. rewrite Z.pow_succ_r by lia. set (m := 2 ^ z) in *. assert (Hm : 0 < m) by (apply Z.pow_pos_nonneg; lia).
    pose proof (factR_grow m (Z.to_nat m) ltac:(lia)) as G. rewrite Z2Nat.id in G by lia. replace (m + m) with (2 * m) in G by ring. eapply Rle_trans; [|exact G].
    replace (IZR m) with (bpow radix2 z) by (unfold m; apply bpow_IZR; lia). rewrite bpow_pow, Z2Nat.id by lia. replace ((Z.succ z - 2) * (2 * m)) with ((z - 2) * m + z * m) by ring. rewrite bpow_plus.
    apply Rmult_le_compat_r; [apply bpow_ge_0|exact IH].
Qed.
Lemma fact_pow2_Z i : 0 <= i -> (bpow radix2 ((i - 2) * 2 ^ i) <= factR (2 ^ i))%R.
Proof. intros H. pose proof (fact_pow2 (Z.to_nat i)) as F. rewrite Z2Nat.id in F by lia. exact F. Qed.

Definition e_fits (s b : Z) : Prop := (bpow radix2 s <= factR b)%R.

Lemma b_factor_ok s : 128 <= s < 2 ^ 63 -> exists kx, b_factor s = Ok kx /\ 1 <= kx /\ forall i, 0 <= i -> kx < 2 ^ i -> e_fits s (2 ^ i).
Proof.
  intros Hs. unfold b_factor. rewrite (log2_floor_spec s) by lia. set (L := Z.log2 s). assert (HL : 7 <= L < 63). { split; [apply Z.log2_le_pow2; lia|apply Z.log2_lt_pow2; lia]. }
  rewrite (log2_floor_spec L) by lia. set (l := Z.log2 L). pose proof (Z.log2_spec s ltac:(lia)) as [S1 S2]. fold L in S1, S2. pose proof (Z.log2_spec L ltac:(lia)) as [L1 L2]. fold l in L1, L2.
  assert (Hl : l < L - 3). { apply Z.log2_lt_pow2; [lia|]. pose proof (Z.pow_gt_lin_r 2 (L - 7) ltac:(lia) ltac:(lia)) as G. replace (L - 3) with (4 + (L - 7)) by ring. rewrite Z.pow_add_r by lia. change (2 ^ 4) with 16. lia. }
  assert (Hl0 : 0 <= l) by apply Z.log2_nonneg. set (d := L - l - 3) in *. replace (d <=? 0) with false by (unfold d; lia). exists (s / d). split; [reflexivity|]. split.
  - apply Z.div_le_lower_bound; unfold d; lia.
  - intros i Hi Hk. unfold e_fits. eapply Rle_trans; [|apply fact_pow2_Z; exact Hi]. apply bpow_le. assert (Hd : 0 < d) by (unfold d; lia).
    assert (SD : s < d * 2 ^ i). { pose proof (Z.mul_succ_div_gt s d Hd) as M. assert (d * Z.succ (s / d) <= d * 2 ^ i) by (apply Z.mul_le_mono_nonneg_l; lia). lia. }
    assert (I : L - l <= i).
    { assert (D2 : d * 2 ^ i < 2 ^ (Z.succ l) * 2 ^ i) by (apply Z.mul_lt_mono_pos_r; [apply Z.pow_pos_nonneg; lia|unfold d; lia]). rewrite <- Z.pow_add_r in D2 by lia.
      assert (Q : 2 ^ L < 2 ^ (Z.succ l + i)) by lia. apply Z.pow_lt_mono_r_iff in Q; lia. }
    assert (d * 2 ^ i <= (i - 2) * 2 ^ i); [|lia]. apply Z.mul_le_mono_nonneg_r; [apply Z.pow_nonneg; lia|unfold d; lia].
Qed.

Definition e_cache_ok := cache_ok e_pq e_val 6.

Lemma e_val_facts s b v k : e_val b v -> e_fits s b -> s mod 64 = 0 -> 0 < k -> k + 64 <= s -> 4 <= b -> s + 64 <= 64 * wlen v /\ (Rabs (exp 1 - value v) < bpow radix2 (2 - s))%R.
Proof.
  intros (W & N & I & E & F & A) Hf Hs Hk Hks Hb. unfold e_fits in Hf. assert (L : s < 64 * wlen v) by (apply (lt_bpow radix2); eapply Rle_lt_trans; eassumption).
  assert (L2 : s + 64 <= 64 * wlen v) by (clear - L Hs; dlia). split; [exact L2|]. eapply Rle_lt_trans; [exact A|].
  assert (A1 : (bpow radix2 (- (64 * wlen v)) <= bpow radix2 (- s) * / 64)%R).
  { change (/ 64)%R with (bpow radix2 (-6)). rewrite <- bpow_plus. apply bpow_le. lia. }
  assert (A2 : (/ (factR b * IZR b) <= bpow radix2 (- s))%R). { rewrite bpow_opp. apply Rinv_le_contravar; [apply bpow_gt_0|]. assert (1 <= IZR b)%R by (apply IZR_le; lia). pose proof (factR_pos b). nra. }
  replace (2 - s) with (- s + 2) by ring. rewrite bpow_plus. change (bpow radix2 2) with 4%R. pose proof (bpow_gt_0 radix2 (- s)). lra.
Qed.

Lemma e_val_len b v : e_val b v -> 4 <= b -> (0 < value v)%R.
Proof.
  intros (W & N & I & E & F & A) Hb. pose proof (exp_ineq1 1 ltac:(lra)) as X. pose proof (wlen_pos v W ltac:(apply N)) as LV. pose proof (bpow_small (- (64 * wlen v)) ltac:(lia)) as BS.
  assert (A2 : (/ (factR b * IZR b) <= / 8)%R). { apply Rinv_le_contravar; [lra|]. assert (4 <= IZR b)%R by (apply IZR_le; lia). pose proof (factR_ge b ltac:(lia)). nra. }
  apply Rabs_le_inv in A. lra.
Qed.

Lemma pow2_even i : 0 < i -> Z.even (2 ^ i) = true.
Proof. intros H. replace i with (1 + (i - 1)) by ring. rewrite Z.pow_add_r, Z.even_mul by lia. reflexivity. Qed.
Lemma pow2_ge4 i : 2 <= i -> 4 <= 2 ^ i.
Proof. intros H. change 4 with (2 ^ 2). apply Z.pow_le_mono_r; lia. Qed.

Lemma e_sums_ok i x : sums e_pq 6 i x -> e_good 0 (2 ^ i) x.
Proof.
  intros (H0 & Hi & E). assert (P : 0 < 2 ^ i) by (apply Z.pow_pos_nonneg; lia). assert (2 ^ i <= 2 ^ 63) by (apply Z.pow_le_mono_r; lia). pose proof (e_pq_ok 0 (2 ^ i) ltac:(lia) H) as O. rewrite E in O. exact O.
Qed.
Lemma e_split_ok i : 0 <= i <= 30 -> outcome (e_pq 0 (2 ^ i)) (fun _ => i < 30) True.
Proof.
  intros Hi. assert (P : 0 < 2 ^ i) by (apply Z.pow_pos_nonneg; lia). assert (2 ^ i <= 2 ^ 63) by (apply Z.pow_le_mono_r; lia). pose proof (e_pq_ok 0 (2 ^ i) ltac:(lia) H) as O.
  destruct (e_pq 0 (2 ^ i)) as [[p q]|[s| | |]|]; cbn [outcome] in *; auto. destruct O as (P' & Q & _ & WQ & _ & BQ & _ & F). assert (F0 : factR 0 = 1%R) by reflexivity. rewrite F0, Rmult_1_r in F.
  pose proof (whole_range q Q WQ ltac:(lia)) as R. apply IZR_lt in R. rewrite abs_IZR, F, <- bpow_IZR, Rabs_pos_eq in R by (try (left; apply factR_pos); vm_compute; discriminate).
  pose proof (fact_pow2_Z i ltac:(lia)) as FF. assert (X : (i - 2) * 2 ^ i < EMAX) by (apply (lt_bpow radix2); eapply Rle_lt_trans; eassumption).
  destruct (Z.eq_dec i 30) as [->|]; [|lia]. exfalso. revert X. vm_compute. discriminate.
Qed.

Lemma e_vgood_pow i v : e_val (2 ^ i) v -> 2 <= i -> 4 <= 2 ^ i.
Proof. intros _. apply pow2_ge4. Qed.

Theorem e_for_prec_ok f c k rm : e_cache_ok c -> 64 <= k < 2 ^ 62 -> k mod 64 = 0 -> (31 <= f)%nat ->
  exists c' r, e_for_prec f c k rm = Some (c', r) /\ e_cache_ok c' /\ match r with Ok y => const_result (exp 1) 2 k rm y | _ => overflows r end.
Proof.
  intros Hc Hk Hk64 Hf.
  set (vg := fun b v => 4 <= b /\ e_val b v).
  assert (Hc' : cache_ok e_pq vg 6 c). { destruct Hc as (i & C1 & C2 & C3). exists i. split; [exact C1|]. split; [exact C2|]. destruct C3 as [C3|C3]; [now left|]. right. split; [|exact C3]. rewrite C1. apply pow2_ge4. destruct C2. lia. }
  assert (Hr : round_p k = k). { unfold round_p. rewrite Z.min_l by lia. clear - Hk64. dlia. }
  destruct (for_prec_ok e_pq e_inc e_calc e_kext k rm vg e_fits 6) with (f := f) (c := c) as (c' & r & E & C & R); auto.
  - exact e_extends.
  - exact e_split_ok.
  - intros i x Hi Hs. pose proof (e_sums_ok i x Hs) as G. assert (Hi6 : 6 <= i) by (destruct Hs; lia). destruct (calc_e_ok (2 ^ i) x (pow2_ge4 i ltac:(lia)) (pow2_even i Hi) G) as (v & Ev & Vv).
    unfold e_calc. rewrite Ev. split; [apply pow2_ge4; lia|exact Vv].
  - intros s Hs. destruct (b_factor_ok s Hs) as (kx & B1 & B2 & _). exists kx. split; [exact B1|exact B2].
  - intros s kx i -> Ek Hi Hx. destruct (b_factor_ok (k + 64) ltac:(lia)) as (kx' & B1 & _ & B3). unfold e_kext in Ek. rewrite B1 in Ek. injection Ek as <-. apply B3; [lia|exact Hx].
  - intros s d kx i j _ Hs Hd Hsd Ek Hx Hij Hj. destruct (b_factor_ok (s + d) ltac:(lia)) as (kx' & B1 & _ & B3). unfold e_kext in Ek. rewrite B1 in Ek. injection Ek as <-. apply B3; [lia|exact Hx].
  - intros s b v [Hb V] F Hs Hks. destruct (e_val_facts s b v k V F Hs ltac:(lia) Hks Hb) as [L _]. destruct V as (W & N & _). pose proof (try_outcome v k rm s W N ltac:(lia) Hk64 Hs ltac:(lia)) as O.
    destruct (try_set_precision v k rm s) as [[y [|]]|e|]; auto.
  - intros s b v [Hb V] F Hs. pose proof V as (W & N & I & E & FL & A). unfold e_fits in F. assert (L : s < 64 * wlen v) by (apply (lt_bpow radix2); eapply Rle_lt_trans; eassumption). pose proof (wf_lim v W). lia.
  - exists c', r. split; [exact E|]. split.
    + destruct C as (i & C1 & C2 & C3). exists i. split; [exact C1|]. split; [exact C2|]. destruct C3 as [C3|[_ C3]]; [now left|now right].
    + destruct r as [y|e|]; auto. destruct R as (s & S1 & S2 & [Hb V] & S4 & S5). destruct (e_val_facts s _ _ k V S4 S2 ltac:(lia) S1 Hb) as [L A]. pose proof (e_val_len _ _ V Hb) as P0. destruct V as (W & N & I & Ee & _ & _).
      apply (accept_const (exp 1) 2 k rm s (c_val c')); auto; lia.
Qed.

Theorem e_new_ok : exists c, e_new = Ok c /\ e_cache_ok c.
Proof.
  unfold e_new, new_cache. pose proof (e_split_ok 6 ltac:(lia)) as O. change (2 ^ 6) with 64 in O. pose proof (e_pq_ok 0 64 ltac:(lia) ltac:(lia)) as G. destruct (e_pq 0 64) as [x|[s| | |]|] eqn:E; cbn [outcome] in *; try (exfalso; lia || contradiction).
  cbn [bind]. destruct (calc_e_ok 64 x ltac:(lia) eq_refl G) as (v & Ev & Vv). unfold e_calc. rewrite Ev. cbn [bind]. eexists. split; [reflexivity|]. exists 6. cbn [c_b c_sum c_val]. split; [reflexivity|]. split; [split; [lia|]; split; [lia|exact E]|]. right. exact Vv.
Qed.

(** ** ln 2 *)
Definition ln2_fits (s b : Z) : Prop := s + 2 <= 3 * b.
Definition ln2_cache_ok := cache_ok ln2_pqr ln2_val 0.

Lemma pow2_le i j : 0 <= i -> i < j -> 2 * 2 ^ i <= 2 ^ j.
Proof. intros H1 H2. replace (2 * 2 ^ i) with (2 ^ (i + 1)) by (rewrite Z.pow_add_r by lia; ring). apply Z.pow_le_mono_r; lia. Qed.
Lemma pow2_range i : 0 <= i <= 30 -> 0 < 2 ^ i <= 2 ^ 55.
Proof. intros H. split; [apply Z.pow_pos_nonneg; lia|apply Z.pow_le_mono_r; lia]. Qed.
Lemma whole_bits q Q n : whole q Q -> 0 < Q -> (bpow radix2 n <= IZR Q)%R -> n < EMAX.
Proof.
  intros WQ HQ H. pose proof (whole_range q Q WQ ltac:(lia)) as R. apply IZR_lt in R. rewrite abs_IZR, Rabs_pos_eq in R by (apply IZR_le; apply Z.lt_le_incl; exact HQ). rewrite <- bpow_IZR in R by (vm_compute; discriminate).
  apply (lt_bpow radix2). eapply Rle_lt_trans; eassumption.
Qed.

Lemma ln2_sums_ok i x : sums ln2_pqr 0 i x -> ln_good (powR (/ 9)) ln2_term 0 (2 ^ i) x.
Proof. intros (H0 & Hi & E). pose proof (pow2_range i ltac:(lia)) as P. pose proof (ln2_sums 0 (2 ^ i) ltac:(lia) ltac:(lia)) as O. rewrite E in O. exact O. Qed.
Lemma ln10_sums_ok i x : sums ln10_pqr 0 i x -> ln_good (powR (81 / 121)) ln10_term 0 (2 ^ i) x.
Proof. intros (H0 & Hi & E). pose proof (pow2_range i ltac:(lia)) as P. pose proof (ln10_sums 0 (2 ^ i) ltac:(lia) ltac:(lia)) as O. rewrite E in O. exact O. Qed.
Lemma outcome_weak {T} (r : result T) (P Q : T -> Prop) (A : Prop) : (forall x, P x -> Q x) -> outcome r P A -> outcome r Q True.
Proof. intros H O. destruct r as [x|[s| | |]|]; cbn [outcome] in *; auto. Qed.
Lemma three_pow i c : 0 <= i <= 30 -> 3 <= c -> c * 2 ^ i < EMAX -> i < 30.
Proof. intros Hi Hc H. destruct (Z.eq_dec i 30) as [->|]; [|lia]. exfalso. change (2 ^ 30) with 1073741824 in H. lia. Qed.

Lemma ln2_den b Q R : 0 <= b -> 0 < Q -> 0 < R -> (IZR R = powR (/ 9) b * IZR Q)%R -> (bpow radix2 (3 * b) <= IZR Q)%R.
Proof.
  intros Hb HQ HR E. apply (ln_den (powR (/ 9)) 3 b Q R); auto. split; [apply powR_pos; lra|]. apply powR_bpow; [lia|]. change (bpow radix2 (- (3))) with (/ 8)%R. lra.
Qed.
Lemma ln2_split_ok i : 0 <= i <= 30 -> outcome (ln2_pqr 0 (2 ^ i)) (fun _ => i < 30) True.
Proof.
  intros Hi. pose proof (pow2_range i Hi) as P. refine (outcome_weak _ _ _ _ _ (ln2_sums 0 (2 ^ i) ltac:(lia) ltac:(lia))). intros x G.
  destruct (ln_numbers _ _ (2 ^ i) x eq_refl G) as (p & q & r & P' & Q & R & -> & WP & WQ & HQ & OQ & HR & HS & HW). apply (three_pow i 3); [lia..|]. apply (whole_bits q Q _ WQ HQ). apply (ln2_den _ Q R); auto. lia.
Qed.
Lemma ln10_split_ok i : 0 <= i <= 30 -> outcome (ln10_pqr 0 (2 ^ i)) (fun _ => i < 30) True.
Proof.
  intros Hi. pose proof (pow2_range i Hi) as P. refine (outcome_weak _ _ _ _ _ (ln10_sums 0 (2 ^ i) ltac:(lia) ltac:(lia))). intros x G.
  destruct (ln_numbers _ _ (2 ^ i) x eq_refl G) as (p & q & r & P' & Q & R & -> & WP & WQ & HQ & OQ & HR & HS & HW). apply (three_pow i 6); [lia..|]. apply (whole_bits q Q _ WQ HQ). apply (ln10_den _ Q R); auto. lia.
Qed.

Lemma ln2_val_facts s b v k : ln2_val b v -> ln2_fits s b -> s mod 64 = 0 -> 0 < k -> k + 64 <= s -> s + 64 <= 64 * wlen v /\ (Rabs (ln 2 - value v) < bpow radix2 (0 - s))%R.
Proof.
  intros (W & N & I & E & L & V & A) Hf Hs Hk Hks. unfold ln2_fits in Hf. assert (L2 : s + 64 <= 64 * wlen v) by (clear - L Hf Hs; dlia). split; [exact L2|]. eapply Rle_lt_trans; [exact A|].
  assert (A1 : (bpow radix2 (- (64 * wlen v)) <= bpow radix2 (- s) * / 64)%R). { change (/ 64)%R with (bpow radix2 (-6)). rewrite <- bpow_plus. apply bpow_le. lia. }
  assert (A2 : (powR (/ 9) b <= bpow radix2 (- s) * / 4)%R).
  { eapply Rle_trans; [apply (powR_bpow (/ 9) 3 b); [lia|]; change (bpow radix2 (- (3))) with (/ 8)%R; lra|]. change (/ 4)%R with (bpow radix2 (-2)). rewrite <- bpow_plus. apply bpow_le. lia. }
  replace (0 - s) with (- s) by ring. pose proof (bpow_gt_0 radix2 (- s)). lra.
Qed.
Lemma ln2_fit1 k i : 64 <= k -> k mod 64 = 0 -> 0 <= i -> k / 2 + 4 < 2 ^ i -> ln2_fits (k + 64) (2 ^ i).
Proof.
  intros Hk Hm Hi H. unfold ln2_fits. destruct (Z.eq_dec k 64) as [->|]; [|set (b := 2 ^ i) in *; clearbody b; dlia]. change (64 / 2 + 4) with 36 in H.
  destruct (Z_lt_le_dec i 6) as [L|L]; [exfalso; assert (2 ^ i <= 2 ^ 5) by (apply Z.pow_le_mono_r; lia); change (2 ^ 5) with 32 in *; lia|]. assert (2 ^ 6 <= 2 ^ i) by (apply Z.pow_le_mono_r; lia). change (2 ^ 6) with 64 in *. lia.
Qed.

Theorem ln2_for_prec_ok f c k rm : ln2_cache_ok c -> 64 <= k < 2 ^ 62 -> k mod 64 = 0 -> (31 <= f)%nat ->
  exists c' r, ln2_for_prec f c k rm = Some (c', r) /\ ln2_cache_ok c' /\ match r with Ok y => const_result (ln 2) 0 k rm y | _ => overflows r end.
Proof.
  intros Hc Hk Hk64 Hf. assert (Hr : round_p k = k). { unfold round_p. rewrite Z.min_l by lia. clear - Hk64. dlia. }
  destruct (for_prec_ok ln2_pqr ln2_inc ln2_calc ln2_kext k rm ln2_val ln2_fits 0) with (f := f) (c := c) as (c' & r & E & C & R); auto.
  - exact ln2_extends.
  - exact ln2_split_ok.
  - intros i x Hi Hs. destruct (calc_ln2_ok (2 ^ i) x) as (v & Ev & Vv); [apply Z.pow_pos_nonneg; lia|now apply ln2_sums_ok|]. unfold ln2_calc. rewrite Ev. exact Vv.
  - intros s Hs. exists (k / 2 + 4). split; [reflexivity|]. clear - Hk. dlia.
  - intros s kx i -> Ek Hi Hx. injection Ek as <-. apply ln2_fit1; auto; lia.
  - intros s d kx i j F Hs Hd Hsd Ek Hx Hij Hj. unfold ln2_fits in *. pose proof (pow2_le i j ltac:(lia) ltac:(lia)). lia.
  - intros s b v V F Hs Hks. destruct (ln2_val_facts s b v k V F Hs ltac:(lia) Hks) as [L _]. destruct V as (W & N & _). pose proof (try_outcome v k rm s W N ltac:(lia) Hk64 Hs ltac:(lia)) as O.
    destruct (try_set_precision v k rm s) as [[y [|]]|e|]; auto.
  - intros s b v (W & N & I & E & L & V & A) F Hs. unfold ln2_fits in F. pose proof (wf_lim v W). lia.
  - exists c', r. split; [exact E|]. split; [exact C|]. destruct r as [y|e|]; auto. destruct R as (s & S1 & S2 & V & S4 & S5). destruct (ln2_val_facts s _ _ k V S4 S2 ltac:(lia) S1) as [L A]. destruct V as (W & N & I & Ee & _ & P0 & _).
    apply (accept_const (ln 2) 0 k rm s (c_val c')); auto; lia.
Qed.
Theorem ln2_new_ok : exists c, ln2_new = Ok c /\ ln2_cache_ok c.
Proof.
  unfold ln2_new, new_cache. pose proof (ln2_split_ok 0 ltac:(lia)) as O. change (2 ^ 0) with 1 in O. pose proof (ln2_sums 0 1 ltac:(lia) ltac:(lia)) as G. destruct (ln2_pqr 0 1) as [x|[s| | |]|] eqn:E; cbn [outcome] in *; try (exfalso; lia || contradiction).
  cbn [bind]. destruct (calc_ln2_ok 1 x ltac:(lia) G) as (v & Ev & Vv). unfold ln2_calc. rewrite Ev. cbn [bind]. eexists. split; [reflexivity|]. exists 0. cbn [c_b c_sum c_val]. split; [reflexivity|]. split; [split; [lia|]; split; [lia|exact E]|]. now left.
Qed.

(** ** ln 10 *)
(** ln10.rs takes more than 1.728 k + 4 terms, each worth log2 (121/81) = 0.579
    bits: this is enough for the k bits asked for, and a few more. *)
Definition ln10_fits (k s b : Z) : Prop := s < 6 * b /\ 1728 * k + 4000 <= 1000 * b.
Definition ln10_cache_ok := cache_ok ln10_pqr ln10_val 0.

Lemma rate_of u v c d : 0 < u -> 0 < v -> 0 <= c -> 0 <= d -> u ^ c * 2 ^ d <= v ^ c -> (powR (IZR u / IZR v) c <= bpow radix2 (- d))%R.
Proof.
  intros Hu Hv Hc Hd H. apply IZR_le in H. rewrite mult_IZR, <- bpow_IZR in H by lia. assert (P1 : (0 < IZR (v ^ c))%R) by (apply IZR_lt; apply Z.pow_pos_nonneg; lia). assert (V0 : (0 < IZR v)%R) by (apply IZR_lt; lia).
  assert (E : (powR (IZR u / IZR v) c * IZR (v ^ c) = IZR (u ^ c))%R). { unfold powR. rewrite <- (Z2Nat.id c Hc) at 2 3. rewrite <- !pow_IZR, <- Rpow_mult_distr. f_equal. field. lra. }
  rewrite bpow_opp. pose proof (bpow_gt_0 radix2 d). set (C := bpow radix2 d) in *. apply Rmult_le_reg_r with (IZR (v ^ c) * C)%R; [apply Rmult_lt_0_compat; assumption|]. replace (/ C * (IZR (v ^ c) * C))%R with (IZR (v ^ c)) by (field; lra). rewrite <- Rmult_assoc, E. exact H.
Qed.
Lemma ln10_rate : (powR (81 / 121) 216 <= bpow radix2 (- (125)))%R.
Proof. apply (rate_of 81 121); [lia..|vm_compute; discriminate]. Qed.
Lemma powR_mono x a b : (0 < x <= 1)%R -> 0 <= a <= b -> (powR x b <= powR x a)%R.
Proof.
  intros Hx Hab. unfold powR. replace (Z.to_nat b) with (Z.to_nat a + Z.to_nat (b - a))%nat by lia. rewrite pow_add. pose proof (pow_lt x (Z.to_nat a) ltac:(lra)). assert (x ^ Z.to_nat (b - a) <= 1)%R; [|nra].
  induction (Z.to_nat (b - a)) as [|n IH]; cbn [pow]; [lra|]. pose proof (pow_lt x n ltac:(lra)). nra.
Qed.
Lemma powR_mult x a b : 0 <= a -> 0 <= b -> powR x (a * b) = powR (powR x a) b.
Proof. intros Ha Hb. unfold powR. rewrite <- pow_mult. f_equal. apply Z2Nat.inj_mul; lia. Qed.
Lemma root_le x y n : (0 < x)%R -> (0 < y)%R -> (x ^ S n <= y ^ S n)%R -> (x <= y)%R.
Proof.
  intros Hx Hy H. destruct (Rle_or_lt x y) as [L|L]; [exact L|exfalso]. assert (G : (y ^ S n < x ^ S n)%R); [|lra]. clear H. induction n as [|n IH]; [cbn; lra|]. cbn [pow] in *. pose proof (pow_lt y n Hy). apply Rmult_le_0_lt_compat; [lra|apply Rmult_le_pos; lra|exact L|exact IH].
Qed.
Lemma root_powR x y n : 0 < n -> (0 < x)%R -> (0 < y)%R -> (powR x n <= powR y n)%R -> (x <= y)%R.
Proof. intros Hn Hx Hy H. unfold powR in H. replace (Z.to_nat n) with (S (Z.to_nat (n - 1))) in H by lia. exact (root_le x y _ Hx Hy H). Qed.
Lemma powR_of_bpow e n : 0 <= n -> powR (bpow radix2 e) n = bpow radix2 (e * n).
Proof. intros H. unfold powR. rewrite bpow_pow, Z2Nat.id by lia. reflexivity. Qed.
Lemma tail_root x c d m b k : 0 < d -> 0 < c -> 0 <= k -> 0 <= b -> 0 <= m -> (0 < x <= 1)%R -> (powR x c <= bpow radix2 (- d))%R -> c * (k + m) <= d * b -> (powR x b <= bpow radix2 (- (k + m)))%R.
Proof.
  intros Hd Hc Hk Hb Hm Hx R0 H. apply (root_powR _ _ d Hd); [apply powR_pos; lra|apply bpow_gt_0|]. rewrite <- powR_mult, powR_of_bpow by lia.
  apply Rle_trans with (powR x (c * (k + m))); [apply powR_mono; [lra|lia]|]. rewrite powR_mult by lia. replace (- (k + m) * d) with (- (d * (k + m))) by ring. apply powR_bpow; [lia|]. split; [apply powR_pos; lra|exact R0].
Qed.
Lemma ln10_tail k b : 0 <= k -> 1728 * k + 4000 <= 1000 * b -> (powR (81 / 121) b <= bpow radix2 (- (k + 2)))%R.
Proof. intros Hk Hb. apply (tail_root _ 216 125); [lia..|lra|exact ln10_rate|lia]. Qed.

Lemma ln10_val_facts k s b v : ln10_val b v -> ln10_fits k s b -> s mod 64 = 0 -> 64 <= k -> k + 64 <= s -> s + 64 <= 64 * wlen v /\ (Rabs (ln 10 - value v) < bpow radix2 (2 - (k + 9)))%R.
Proof.
  intros (W & N & I & E & L & V & A) [F1 F2] Hs Hk Hks. assert (L2 : s + 64 <= 64 * wlen v) by (clear - L F1 Hs; dlia). split; [exact L2|].
  assert (A1 : (bpow radix2 (- (64 * wlen v)) <= bpow radix2 (- (k + 7)) * / 1024)%R). { change (/ 1024)%R with (bpow radix2 (-10)). rewrite <- bpow_plus. apply bpow_le. lia. }
  assert (A2 : (powR (81 / 121) b * (729 / 220) / IZR (2 * b + 3) <= bpow radix2 (- (k + 7)) * / 2)%R).
  { assert (Z2 : (229 <= IZR (2 * b + 3))%R) by (apply IZR_le; lia). pose proof (ln10_tail k b ltac:(lia) F2) as T. pose proof (powR_pos (81 / 121) b ltac:(lra)). replace (- (k + 2)) with (- (k + 7) + 5) in T by ring. rewrite bpow_plus in T. change (bpow radix2 5) with 32%R in T.
    pose proof (bpow_gt_0 radix2 (- (k + 7))). apply Rmult_le_reg_r with (IZR (2 * b + 3)); [lra|]. unfold Rdiv at 1. rewrite Rmult_assoc, Rinv_l by lra. nra. }
  pose proof (ln10_bounds b ltac:(lia)) as LB. pose proof (bpow_gt_0 radix2 (- (k + 7))). apply Rabs_le_inv in A. replace (2 - (k + 9)) with (- (k + 7)) by ring. apply Rabs_lt. split; lra.
Qed.

Theorem ln10_for_prec_ok f c k rm : ln10_cache_ok c -> 64 <= k < 2 ^ 62 -> k mod 64 = 0 -> (31 <= f)%nat ->
  exists c' r, ln10_for_prec f c k rm = Some (c', r) /\ ln10_cache_ok c' /\ match r with Ok y => const_near (ln 10) 2 9 k rm y | _ => overflows r end.
Proof.
  intros Hc Hk Hk64 Hf. assert (Hr : round_p k = k). { unfold round_p. rewrite Z.min_l by lia. clear - Hk64. dlia. }
  assert (KX : forall b, k * 1728 / 1000 + 4 < b -> 1728 * k + 4000 <= 1000 * b) by (intros b Hb; clear - Hb; dlia).
  destruct (for_prec_ok ln10_pqr ln10_inc ln10_calc ln10_kext k rm ln10_val (ln10_fits k) 0) with (f := f) (c := c) as (c' & r & E & C & R); auto.
  - exact ln10_extends.
  - exact ln10_split_ok.
  - intros i x Hi Hs. destruct (calc_ln10_ok (2 ^ i) x) as (v & Ev & Vv); [apply Z.pow_pos_nonneg; lia|now apply ln10_sums_ok|]. unfold ln10_calc. rewrite Ev. exact Vv.
  - intros s Hs. exists (k * 1728 / 1000 + 4). split; [reflexivity|]. clear - Hk. dlia.
  - intros s kx i -> Ek Hi Hx. injection Ek as <-. pose proof (KX _ Hx). split; lia.
  - intros s d kx i j [F1 F2] Hs Hd Hsd Ek Hx Hij Hj. injection Ek as <-. pose proof (KX _ Hx). pose proof (pow2_le i j ltac:(lia) ltac:(lia)). split; lia.
  - intros s b v V F Hs Hks. destruct (ln10_val_facts k s b v V F Hs ltac:(lia) Hks) as [L _]. destruct V as (W & N & _). pose proof (try_outcome v k rm s W N ltac:(lia) Hk64 Hs ltac:(lia)) as O.
    destruct (try_set_precision v k rm s) as [[y [|]]|e|]; auto.
  - intros s b v (W & N & I & E & L & V & A) [F _] Hs. pose proof (wf_lim v W). lia.
  - exists c', r. split; [exact E|]. split; [exact C|]. destruct r as [y|e|]; auto. destruct R as (s & S1 & S2 & V & S4 & S5). destruct (ln10_val_facts k s _ _ V S4 S2 ltac:(lia) S1) as [L A]. destruct V as (W & N & I & Ee & _ & P0 & _).
    pose proof (try_outcome (c_val c') k rm s W N ltac:(lia) Hk64 S2 ltac:(lia)) as O. rewrite S5 in O. destruct O as (O1 & O2 & O3 & _ & O4). split; [exact O1|]. split; [exact O2|]. split; [rewrite O3; now apply value_pos_sign|]. exists (value (c_val c')). split; [exact A|exact O4].
Qed.
Theorem ln10_new_ok : exists c, ln10_new = Ok c /\ ln10_cache_ok c.
Proof.
  unfold ln10_new, new_cache. pose proof (ln10_split_ok 0 ltac:(lia)) as O. change (2 ^ 0) with 1 in O. pose proof (ln10_sums 0 1 ltac:(lia) ltac:(lia)) as G. destruct (ln10_pqr 0 1) as [x|[s| | |]|] eqn:E; cbn [outcome] in *; try (exfalso; lia || contradiction).
  cbn [bind]. destruct (calc_ln10_ok 1 x ltac:(lia) G) as (v & Ev & Vv). unfold ln10_calc. rewrite Ev. cbn [bind]. eexists. split; [reflexivity|]. exists 0. cbn [c_b c_sum c_val]. split; [reflexivity|]. split; [split; [lia|]; split; [lia|exact E]|]. now left.
Qed.

(** ** The working precision of ln 10 *)
Lemma rate_ge u v c d : 0 < u -> 0 < v -> 0 <= c -> 0 <= d -> v ^ c <= u ^ c * 2 ^ d -> (bpow radix2 (- d) <= powR (IZR u / IZR v) c)%R.
Proof.
  intros Hu Hv Hc Hd H. apply IZR_le in H. rewrite mult_IZR, <- (bpow_IZR d) in H by lia. assert (P1 : (0 < IZR (v ^ c))%R) by (apply IZR_lt; apply Z.pow_pos_nonneg; lia). assert (V0 : (0 < IZR v)%R) by (apply IZR_lt; lia).
  assert (E : (powR (IZR u / IZR v) c * IZR (v ^ c) = IZR (u ^ c))%R). { unfold powR. rewrite <- (Z2Nat.id c Hc) at 2 3. rewrite <- !pow_IZR, <- Rpow_mult_distr. f_equal. field. lra. }
  rewrite bpow_opp. pose proof (bpow_gt_0 radix2 d). set (C := bpow radix2 d) in *. apply Rmult_le_reg_r with (IZR (v ^ c) * C)%R; [apply Rmult_lt_0_compat; assumption|]. replace (/ C * (IZR (v ^ c) * C))%R with (IZR (v ^ c)) by (field; lra). rewrite <- Rmult_assoc, E. exact H.
Qed.
Lemma ln10_short v : ln10_val 128 v -> (bpow radix2 (-84) <= ln 10 - value v)%R.
Proof.
  intros (W & N & I & E & L & V & A). pose proof (ln10_bounds 129 ltac:(lia)) as [B _]. rewrite (rsum_last ln10_term 0 129) in B by lia. change (129 - 1) with 128 in B. set (S0 := rsum ln10_term 0 128) in *.
  assert (T : (bpow radix2 (-75) * / 259 <= ln10_term 129)%R). { unfold ln10_term. change (2 * 129 + 1) with 259. apply Rmult_le_compat_r; [lra|]. apply (rate_ge 81 121 129 75); [lia..|vm_compute; discriminate]. }
  change (bpow radix2 (-75)) with (/ 37778931862957161709568)%R in T. assert (K : (bpow radix2 (- (64 * wlen v)) <= bpow radix2 (-100))%R) by (apply bpow_le; lia). change (bpow radix2 (-100)) with (/ 1267650600228229401496703205376)%R in K. change (bpow radix2 (-84)) with (/ 19342813113834066795298816)%R.
  apply Rabs_le_inv in A. lra.
Qed.
