(** ln 10 in the mode None, as LnConst for ln 2. *)

From Coq Require Import ZArith Reals List Bool Lia Lra.
From Flocq Require Import Core.
From Verif Require Import Words Mantissa Num Consts SpecZ WordsP Spec SpecConst SpecReach RealP RealP2 NumP CmpP SetP ConstP LoopP ConstNum ConstTop ConstReach SeriesP ApproxR ApproxNum SinhTop ExpNum AddNum.
Open Scope Z_scope.
Ltac Zify.zify_post_hook ::= idtac.
Arguments Z.mul : simpl never.
Arguments Z.add : simpl never.
Arguments Z.pow : simpl never.
Arguments Z.sub : simpl never.
Arguments Z.of_nat : simpl never.
Ltac dlia := Z.div_mod_to_equations; lia.

Lemma ln10_inc_small i x : sums ln10_pqr 0 i x -> i < 24 -> exists y, ln10_inc x (2 ^ i) = Ok (y, 2 ^ (i + 1)) /\ sums ln10_pqr 0 (i + 1) y.
Proof.
  intros (H0 & Hi & Hx) H. assert (P : 0 < 2 ^ i <= 2 ^ 62) by (split; [apply Z.pow_pos_nonneg; lia|apply Z.pow_le_mono_r; lia]). rewrite (ln10_extends (2 ^ i) x P Hx).
  replace (2 * 2 ^ i) with (2 ^ (i + 1)) by (rewrite Z.pow_add_r by lia; ring). assert (Q : 0 < 2 ^ (i + 1) <= 2 ^ 24) by (split; [apply Z.pow_pos_nonneg; lia|apply Z.pow_le_mono_r; lia]).
  assert (Q2 : 2 ^ (i + 1) <= 2 ^ 55) by (eapply Z.le_trans; [apply Q|vm_compute; discriminate]). pose proof (ln10_sums 0 (2 ^ (i + 1)) ltac:(lia) Q2) as O. destruct (ln10_pqr 0 (2 ^ (i + 1))) as [y|[s| | |]|] eqn:E; cbn [outcome] in O; try contradiction; [|exfalso; lia].
  exists y. split; [reflexivity|]. split; [lia|]. split; [lia|exact E].
Qed.
Lemma ln10_grow_small f : forall i x kx, sums ln10_pqr 0 i x -> kx < 2 ^ 23 -> 24 - i <= Z.of_nat f -> exists y j, grow ln10_inc f x (2 ^ i) kx = Ok (y, 2 ^ j) /\ sums ln10_pqr 0 j y /\ kx < 2 ^ j.
Proof.
  induction f as [|f IH]; intros i x kx Hs Hk Hf; cbn [grow]; destruct (Z.leb_spec (2 ^ i) kx) as [L|L]; try (exists x, i; split; [reflexivity|split; [exact Hs|exact L]]).
  - exfalso. assert (2 ^ 24 <= 2 ^ i) by (apply Z.pow_le_mono_r; lia). change (2 ^ 24) with (2 * 2 ^ 23) in H. lia.
  - assert (Hi : i < 24). { destruct (Z.lt_ge_cases i 24) as [X|X]; [exact X|]. exfalso. assert (2 ^ 24 <= 2 ^ i) by (apply Z.pow_le_mono_r; lia). change (2 ^ 24) with (2 * 2 ^ 23) in H. lia. }
    destruct (ln10_inc_small i x Hs Hi) as (y & -> & Hy). cbn [bind]. apply IH; [exact Hy|exact Hk|lia].
Qed.
Lemma ln10_none_ok c k : ln10_cache_ok c -> 64 <= k <= 2 ^ 20 -> k mod 64 = 0 -> exists c' y, ln10_for_prec 31 c k RNone = Some (c', Ok y).
Proof.
  intros (i & B & Hs & Hv) Hk Hk64. unfold ln10_for_prec, for_prec. assert (Hr : round_p k = k). { unfold round_p. rewrite Z.min_l by lia. clear - Hk64. dlia. } rewrite Hr.
  assert (HkP : 0 < k < P_LIM) by (split; [lia|]; eapply Z.le_lt_trans; [apply Hk|vm_compute; reflexivity]).
  set (kx := k * 1728 / 1000 + 4). assert (B3 : 0 <= kx < 2 ^ 23) by (unfold kx; change (2 ^ 20) with 1048576 in Hk; change (2 ^ 23) with 8388608; clear - Hk; dlia). destruct (try_none (c_val c) k (k + 64) HkP) as (y & Ey).
  change 31%nat with (S (S 29)). generalize 29%nat. intros f. rewrite (loop_S _ _ _ (S f)). unfold ln10_kext at 1. fold kx. cbv zeta. destruct (Z.ltb_spec kx (c_b c)) as [L|L]; [rewrite Ey; eexists; eexists; reflexivity|].
  unfold extend_cache. rewrite B in L |- *. assert (Hi : i < 24). { destruct (Z.lt_ge_cases i 24) as [X|X]; [exact X|]. exfalso. assert (2 ^ 24 <= 2 ^ i) by (apply Z.pow_le_mono_r; lia). change (2 ^ 24) with (2 * 2 ^ 23) in H. lia. }
  destruct (ln10_inc_small i _ Hs Hi) as (x1 & -> & H1). cbn [bind]. destruct (ln10_grow_small 65 (i + 1) x1 kx H1 ltac:(lia) ltac:(destruct Hs; lia)) as (x2 & j & -> & H2 & L2). cbn [bind].
  assert (Hj : 0 <= j) by (destruct H2; lia). destruct (calc_ln10_ok (2 ^ j) x2 ltac:(apply Z.pow_pos_nonneg; lia) (ln10_sums_ok j x2 H2)) as (v & Ev & _). unfold ln10_calc at 1. rewrite Ev. cbn [bind].
  rewrite (loop_S _ _ _ f). unfold ln10_kext at 1. fold kx. cbn [c_b c_val]. replace (kx <? 2 ^ j) with true by lia.
  destruct (try_none v k (k + 64) HkP) as (z & ->). eexists. eexists. reflexivity.
Qed.
Theorem ln10_num_ok c p : reachable ln10_new ln10_for_prec c -> 0 < p -> prec_up p <= 2 ^ 20 ->
  exists c' y, const_num ln10_for_prec 31 c p RNone = Some (c', Ok y) /\ reachable ln10_new ln10_for_prec c' /\ const_near (ln 10) 2 9 (prec_up p) RNone y.
Proof.
  intros H Hp HP. assert (Hl : 0 < p <= P_LIM). { split; [exact Hp|]. apply Z.le_trans with (2 ^ 20); [unfold prec_up in HP; clear - HP; dlia|vm_compute; discriminate]. }
  pose proof (reach_ok ln10_new ln10_for_prec ln10_cache_ok (const_near (ln 10) 2 9) ln10_new_ok ln10_for_prec_ok c H) as K. destruct (deliver ln10_new ln10_for_prec ln10_cache_ok (const_near (ln 10) 2 9) ln10_new_ok ln10_for_prec_ok c p RNone H Hl) as (c1 & r & E & G).
  destruct (round_p_range p Hl) as (R0 & R1 & R2). destruct (ln10_none_ok c (round_p p) K ltac:(rewrite R0 in *; lia) R2) as (c2 & y & E2). pose proof (eq_trans (eq_sym E) E2) as X. injection X as -> ->.
  exists c2, y. split; [exact E2|]. split; [|exact G]. exact (reach_call _ _ c p RNone c2 (Ok y) H Hl E2).
Qed.
