(** ln 2 in the mode None: the first value of the cache that is long enough is taken, so
    no overflow can happen. *)

From Coq Require Import ZArith Reals List Bool Lia Lra.
From Flocq Require Import Core.
From Verif Require Import Words Mantissa Num Consts SpecZ WordsP Spec SpecConst SpecReach RealP RealP2 NumP CmpP SetP ConstP LoopP ConstNum ConstTop ConstReach SeriesP ApproxR ApproxNum SinhTop ExpNum AddNum.
Open Scope Z_scope.
Ltac Zify.zify_post_hook ::= idtac.
Arguments Z.mul : simpl never.
Arguments Z.add : simpl never.
Arguments Z.pow : simpl never.
Arguments Z.sub : simpl never.
Arguments Z.of_nat : simpl never.
Ltac dlia := Z.div_mod_to_equations; lia.

Lemma ln2_inc_small i x : sums ln2_pqr 0 i x -> i < 24 -> exists y, ln2_inc x (2 ^ i) = Ok (y, 2 ^ (i + 1)) /\ sums ln2_pqr 0 (i + 1) y.
Proof.
  intros (H0 & Hi & Hx) H. assert (P : 0 < 2 ^ i <= 2 ^ 62) by (split; [apply Z.pow_pos_nonneg; lia|apply Z.pow_le_mono_r; lia]). rewrite (ln2_extends (2 ^ i) x P Hx).
  replace (2 * 2 ^ i) with (2 ^ (i + 1)) by (rewrite Z.pow_add_r by lia; ring). assert (Q : 0 < 2 ^ (i + 1) <= 2 ^ 24) by (split; [apply Z.pow_pos_nonneg; lia|apply Z.pow_le_mono_r; lia]).
  assert (Q2 : 2 ^ (i + 1) <= 2 ^ 55) by (eapply Z.le_trans; [apply Q|vm_compute; discriminate]). pose proof (ln2_sums 0 (2 ^ (i + 1)) ltac:(lia) Q2) as O. destruct (ln2_pqr 0 (2 ^ (i + 1))) as [y|[s| | |]|] eqn:E; cbn [outcome] in O; try contradiction; [|exfalso; lia].
  exists y. split; [reflexivity|]. split; [lia|]. split; [lia|exact E].
Qed.
Lemma ln2_grow_small f : forall i x kx, sums ln2_pqr 0 i x -> kx < 2 ^ 23 -> 24 - i <= Z.of_nat f -> exists y j, grow ln2_inc f x (2 ^ i) kx = Ok (y, 2 ^ j) /\ sums ln2_pqr 0 j y /\ kx < 2 ^ j.
Proof.
  induction f as [|f IH]; intros i x kx Hs Hk Hf; cbn [grow]; destruct (Z.leb_spec (2 ^ i) kx) as [L|L]; try (exists x, i; split; [reflexivity|split; [exact Hs|exact L]]).
  - exfalso. assert (2 ^ 24 <= 2 ^ i) by (apply Z.pow_le_mono_r; lia). change (2 ^ 24) with (2 * 2 ^ 23) in H. lia.
  - assert (Hi : i < 24). { destruct (Z.lt_ge_cases i 24) as [X|X]; [exact X|]. exfalso. assert (2 ^ 24 <= 2 ^ i) by (apply Z.pow_le_mono_r; lia). change (2 ^ 24) with (2 * 2 ^ 23) in H. lia. }
    destruct (ln2_inc_small i x Hs Hi) as (y & -> & Hy). cbn [bind]. apply IH; [exact Hy|exact Hk|lia].
Qed.
Lemma ln2_none_ok c k : ln2_cache_ok c -> 64 <= k <= 2 ^ 22 -> k mod 64 = 0 -> exists c' y, ln2_for_prec 31 c k RNone = Some (c', Ok y).
Proof.
  intros (i & B & Hs & Hv) Hk Hk64. unfold ln2_for_prec, for_prec. assert (Hr : round_p k = k). { unfold round_p. rewrite Z.min_l by lia. clear - Hk64. dlia. } rewrite Hr.
  assert (HkP : 0 < k < P_LIM) by (split; [lia|]; eapply Z.le_lt_trans; [apply Hk|vm_compute; reflexivity]).
  set (kx := k / 2 + 4). assert (B3 : 0 <= kx <= 2 ^ 21 + 4) by (unfold kx; clear - Hk; dlia). destruct (try_none (c_val c) k (k + 64) HkP) as (y & Ey).
  change 31%nat with (S (S 29)). generalize 29%nat. intros f. rewrite (loop_S _ _ _ (S f)). unfold ln2_kext at 1. fold kx. cbv zeta. destruct (Z.ltb_spec kx (c_b c)) as [L|L]; [rewrite Ey; eexists; eexists; reflexivity|].
  unfold extend_cache. rewrite B in L |- *. assert (Hi : i < 24). { destruct (Z.lt_ge_cases i 24) as [X|X]; [exact X|]. exfalso. assert (2 ^ 24 <= 2 ^ i) by (apply Z.pow_le_mono_r; lia). lia. }
  destruct (ln2_inc_small i _ Hs Hi) as (x1 & -> & H1). cbn [bind]. destruct (ln2_grow_small 65 (i + 1) x1 kx H1 ltac:(lia) ltac:(destruct Hs; lia)) as (x2 & j & -> & H2 & L2). cbn [bind].
  assert (Hj : 0 <= j) by (destruct H2; lia). destruct (calc_ln2_ok (2 ^ j) x2 ltac:(apply Z.pow_pos_nonneg; lia) (ln2_sums_ok j x2 H2)) as (v & Ev & _). unfold ln2_calc at 1. rewrite Ev. cbn [bind].
  rewrite (loop_S _ _ _ f). unfold ln2_kext at 1. fold kx. cbn [c_b c_val]. replace (kx <? 2 ^ j) with true by lia.
  destruct (try_none v k (k + 64) HkP) as (z & ->). eexists. eexists. reflexivity.
Qed.
Theorem ln2_num_ok c p : reachable ln2_new ln2_for_prec c -> 0 < p -> prec_up p <= 2 ^ 22 ->
  exists c' y, const_num ln2_for_prec 31 c p RNone = Some (c', Ok y) /\ reachable ln2_new ln2_for_prec c' /\ const_result (ln 2) 0 (prec_up p) RNone y.
Proof.
  intros H Hp HP. assert (Hl : 0 < p <= P_LIM). { split; [exact Hp|]. apply Z.le_trans with (2 ^ 22); [unfold prec_up in HP; clear - HP; dlia|vm_compute; discriminate]. }
  pose proof (reach_ok ln2_new ln2_for_prec ln2_cache_ok (const_result (ln 2) 0) ln2_new_ok ln2_for_prec_ok c H) as K. destruct (deliver ln2_new ln2_for_prec ln2_cache_ok (const_result (ln 2) 0) ln2_new_ok ln2_for_prec_ok c p RNone H Hl) as (c1 & r & E & G).
  destruct (round_p_range p Hl) as (R0 & R1 & R2). destruct (ln2_none_ok c (round_p p) K ltac:(rewrite R0 in *; lia) R2) as (c2 & y & E2). pose proof (eq_trans (eq_sym E) E2) as X. injection X as -> ->.
  exists c2, y. split; [exact E2|]. split; [|exact G]. exact (reach_call _ _ c p RNone c2 (Ok y) H Hl E2).
Qed.

(** ** Bounds of ln 2 *)
Lemma ln2_range : (2 / 3 < ln 2 < 7 / 10)%R.
Proof.
  pose proof (atanh_bounds (/ 3) 2 ltac:(lra)) as [A B]. replace ((1 + / 3) / (1 - / 3))%R with 2%R in A, B by field. cbn [atanh_sum] in A, B. change (2 * 0 + 1)%nat with 1%nat in *. change (2 * 1 + 1)%nat with 3%nat in *. change (2 * 2 + 1)%nat with 5%nat in *.
  replace (INR 1) with 1%R in * by (cbn; ring). replace (INR 3) with 3%R in * by (cbn; ring). replace (INR 5) with 5%R in B by (cbn; ring). cbn [pow] in A, B. split; [eapply Rlt_le_trans; [|exact A]; lra|eapply Rle_lt_trans; [exact B|]; lra].
Qed.
Lemma ln2_apx P y : 128 <= P -> const_result (ln 2) 0 P RNone y -> apx P Pos 2 (ln 2) y.
Proof.
  intros HP (W & L & S & I & (a & Ha & Va) & _). pose proof ln2_range as E.
  assert (B : (bpow radix2 (0 - (P + 64)) <= / 4 * bpow radix2 (1 - P))%R) by (change (/ 4)%R with (bpow radix2 (-2)); rewrite <- bpow_plus; apply bpow_le; lia). assert (B2 : (bpow radix2 (1 - P) <= bpow radix2 (-126))%R) by (apply bpow_le; lia).
  assert (B3 : (bpow radix2 (-126) <= / 1024)%R) by (change (/ 1024)%R with (bpow radix2 (-10)); apply bpow_le; lia). pose proof (bpow_ge_0 radix2 (1 - P)) as B0.
  assert (Q1 : lc (eps P) (ln 2) a).
  { replace (eps P) with (2 * bpow radix2 (1 - P))%R by (unfold eps; replace (2 - P) with (1 + (1 - P)) by ring; rewrite bpow_plus; reflexivity). apply lc_round; [lra|lra|]. rewrite Rabs_minus_sym. eapply Rle_trans; [left; exact Ha|]. nra. }
  assert (A2 : (/ 2 <= a)%R). { apply Rabs_def2 in Ha as [Ha1 Ha2]. lra. }
  assert (Q2 : lc (eps P) a (Rabs (value y))). { rewrite Va. pose proof (rnd_lc P P RNone a ltac:(lia) ltac:(lra)) as Q. rewrite (Rabs_pos_eq a) in Q by lra. exact Q. }
  assert (Q : lc (IZR 2 * eps P) (ln 2) (Rabs (value y))) by (replace (IZR 2 * eps P)%R with (eps P + eps P)%R by ring; eapply lc_trans; eassumption).
  split; [exact W|]. split; [|split; [exact S|exact Q]]. apply normal_iff; [exact W|]. pose proof (lc_two _ _ _ (eps_quarter P 2 HP ltac:(lia)) Q). apply Rle_trans with (bpow radix2 (-2)); [apply bpow_le; vm_compute; discriminate|]. change (bpow radix2 (-2)) with (/ 4)%R. lra.
Qed.
