(** Real analysis for the logarithm: iterated square roots, and the inverse hyperbolic
    tangent as half a logarithm. *)

From Coq Require Import ZArith Reals Lra Lia.
From Flocq Require Import Core.
From Verif Require Import ApproxR SeriesP SeriesNum.
Open Scope R_scope.

(** ** Iterated square roots *)
Fixpoint roots (n : nat) (a : R) : R := match n with O => a | S n => roots n (sqrt a) end.
Lemma roots_pos n : forall a, 0 < a -> 0 < roots n a.
Proof. induction n as [|n IH]; intros a H; [exact H|]. cbn [roots]. apply IH. now apply sqrt_lt_R0. Qed.
Lemma sqrt_range a : 0 < a < 1 -> a < sqrt a < 1.
Proof.
  intros H. pose proof (sqrt_lt_R0 a ltac:(lra)) as S0. pose proof (sqrt_sqrt a ltac:(lra)) as SS. split; [|nra]. destruct (Rle_or_lt 1 (sqrt a)); [nra|nra].
Qed.
Lemma roots_range n : forall a, 0 < a < 1 -> a <= roots n a < 1.
Proof.
  induction n as [|n IH]; intros a H; cbn [roots]; [lra|]. pose proof (sqrt_range a H). specialize (IH (sqrt a) ltac:(lra)). lra.
Qed.
Lemma roots_ln n : forall a, 0 < a -> ln a = 2 ^ n * ln (roots n a).
Proof.
  induction n as [|n IH]; intros a H; cbn [roots pow]; [lra|]. pose proof (sqrt_lt_R0 a H) as S0. rewrite Rmult_assoc, <- (IH (sqrt a) S0). rewrite <- (sqrt_sqrt a) at 1 by lra. rewrite ln_mult by assumption. ring.
Qed.
Lemma roots_gap n : forall a, 0 < a < 1 -> 1 - a <= 2 ^ n * (1 - roots n a).
Proof.
  induction n as [|n IH]; intros a H; cbn [roots pow]; [lra|]. pose proof (sqrt_range a H) as S. pose proof (sqrt_sqrt a ltac:(lra)) as SS. specialize (IH (sqrt a) ltac:(lra)). nra.
Qed.

Lemma ln_quot a b : 0 < a -> 0 < b -> ln (a / b) = ln a - ln b.
Proof. intros A B. unfold Rdiv. rewrite ln_mult by (try apply Rinv_0_lt_compat; assumption). rewrite ln_Rinv by exact B. ring. Qed.

(** ** Twice the inverse hyperbolic tangent *)
Definition dath (t : R) : R := ln ((1 + t) / (1 - t)).
Lemma ln_1p x : -1 < x -> ln (1 + x) <= x.
Proof. intros H. apply Rnot_lt_le. intros C. apply exp_increasing in C. rewrite exp_ln in C by lra. pose proof (exp_ineq1_le x). lra. Qed.
Lemma dath_cayley a : 0 < a -> dath ((1 - a) / (1 + a)) = - ln a.
Proof. intros H. unfold dath. rewrite <- ln_Rinv by exact H. f_equal. field. lra. Qed.
Lemma dath_ge t : 0 < t < 1 -> 2 * t <= dath t.
Proof. intros H. pose proof (atanh_bounds t 1 H) as [B _]. cbn [atanh_sum] in B. change (2 * 0 + 1)%nat with 1%nat in B. cbn [INR pow] in B. unfold dath. lra. Qed.
Lemma dath_diff a b : 0 < a <= b -> b < 1 -> dath b - dath a <= 2 * (b - a) / (1 - b) /\ 0 <= dath b - dath a.
Proof.
  intros H B. unfold dath. rewrite !ln_quot by lra. assert (E : ln (1 + b) - ln (1 - b) - (ln (1 + a) - ln (1 - a)) = ln (((1 + b) * (1 - a)) / ((1 - b) * (1 + a)))).
  { rewrite ln_quot, !ln_mult by (try apply Rmult_lt_0_compat; lra). ring. }
  rewrite E. assert (E2 : (1 + b) * (1 - a) / ((1 - b) * (1 + a)) = 1 + 2 * (b - a) / ((1 - b) * (1 + a))) by (field; lra). rewrite E2.
  assert (D : 0 < (1 - b) * (1 + a)) by (apply Rmult_lt_0_compat; lra). assert (Q : 0 <= 2 * (b - a) / ((1 - b) * (1 + a))) by (apply Rmult_le_pos; [lra|left; now apply Rinv_0_lt_compat]). split.
  - eapply Rle_trans; [apply ln_1p; lra|]. unfold Rdiv. apply Rmult_le_compat_l; [lra|]. apply Rinv_le_contravar; [lra|]. nra.
  - rewrite <- ln_1. destruct Q as [Q|Q]; [left; apply ln_increasing; lra|rewrite <- Q, Rplus_0_r; lra].
Qed.
(** A relative error of the argument, while both are at most 2/5. *)
Lemma lc_dath d a b : 0 <= d <= / 8 -> a <= 2 / 5 -> b <= 2 / 5 -> lc d a b -> lc (4 * d) (dath a) (dath b).
Proof.
  assert (M : forall d a b, 0 <= d <= / 8 -> 0 < a <= b -> b <= 2 / 5 -> b <= a * exp d -> dath a <= dath b <= dath a + (4 * d) * dath a).
  { intros d' a' b' D A B U. destruct (dath_diff a' b' A ltac:(lra)) as [U1 U2]. split; [lra|]. pose proof (dath_ge a' ltac:(lra)) as G. pose proof (exp_upper d' ltac:(lra)) as E.
    assert (b' - a' <= 2 * d' * a'). { assert (a' * exp d' <= a' * (1 + 2 * d')) by (apply Rmult_le_compat_l; lra). lra. }
    assert (2 * (b' - a') / (1 - b') <= 2 * (2 * d' * a') * 2). { unfold Rdiv. apply Rmult_le_compat; [lra|left; apply Rinv_0_lt_compat; lra|lra|]. replace 2 with (/ (1 / 2)) by field. apply Rinv_le_contravar; lra. }
    nra. }
  intros D A B L. pose proof (lc_pos _ _ _ L) as B0. pose proof L as (A0 & L1 & L2). destruct (Rle_or_lt a b) as [C|C].
  - apply lc_tail; [pose proof (dath_ge a ltac:(lra)); lra|lra|]. apply (M d a b D ltac:(lra) B L2).
  - apply lc_sym. apply lc_tail; [pose proof (dath_ge b ltac:(lra)); lra|lra|]. apply (M d b a D ltac:(lra) A). apply lc_sym in L. apply L.
Qed.

(** ** The partial sums *)
Definition aC (j : nat) : R := / INR (2 * j + 3).
Lemma psum_atanh b n : b + b * (b * b) * psum aC (b * b) 0 n = atanh_sum b (S n).
Proof.
  induction n as [|n IH]; [cbn; field|]. remember (S n) as k. cbn [atanh_sum]. subst k. rewrite <- IH. cbn [psum]. rewrite Nat.add_0_l. unfold aC, Rdiv. replace (2 * S n + 1)%nat with (2 * n + 3)%nat by lia.
  replace (b ^ (2 * n + 3)) with (b * (b * b) * (b * b) ^ n); [ring|]. rewrite pow_add, pow_mult. replace (b ^ 2) with (b * b) by ring. cbn [pow]. ring.
Qed.
Lemma aC_range j : 0 < aC j <= 1.
Proof. unfold aC. assert (1 <= INR (2 * j + 3)) by (change 1 with (INR 1); apply le_INR; lia). split; [apply Rinv_0_lt_compat; lra|]. rewrite <- Rinv_1. apply Rinv_le; lra. Qed.
Lemma aC_decr j : aC (S j) <= aC j.
Proof. unfold aC. apply Rinv_le; [apply lt_0_INR; lia|]. apply le_INR. lia. Qed.
