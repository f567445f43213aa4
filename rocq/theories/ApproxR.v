(** Closeness of positive real numbers, measured by the logarithm of their quotient. *)

From Coq Require Import ZArith Reals Lra Lia.
From Flocq Require Import Core.
Open Scope R_scope.

Definition lc (d a v : R) : Prop := 0 < a /\ a * exp (- d) <= v <= a * exp d.

Lemma exp_opp d : exp d * exp (- d) = 1.
Proof. rewrite <- exp_plus. replace (d + - d) with 0 by ring. apply exp_0. Qed.
Lemma exp_ge1 d : 0 <= d -> 1 <= exp d.
Proof. intros H. pose proof (exp_ineq1_le d). lra. Qed.
Lemma exp_mono a b : a <= b -> exp a <= exp b.
Proof. intros [H| ->]; [left; now apply exp_increasing|right; reflexivity]. Qed.

Lemma lc_pos d a v : lc d a v -> 0 < v.
Proof. intros (A & L & _). eapply Rlt_le_trans; [|exact L]. apply Rmult_lt_0_compat; [exact A|apply exp_pos]. Qed.
Lemma lc_refl a : 0 < a -> lc 0 a a.
Proof. intros H. split; [exact H|]. rewrite Ropp_0, exp_0. lra. Qed.
Lemma lc_weak d d' a v : d <= d' -> lc d a v -> lc d' a v.
Proof.
  intros H (A & L & U). split; [exact A|]. split.
  - eapply Rle_trans; [|exact L]. apply Rmult_le_compat_l; [lra|]. apply exp_mono. lra.
  - eapply Rle_trans; [exact U|]. apply Rmult_le_compat_l; [lra|]. now apply exp_mono.
Qed.
Lemma lc_same d a b v : a = b -> lc d a v -> lc d b v.
Proof. intros ->. exact (fun H => H). Qed.
Lemma lc_trans d e a b c : lc d a b -> lc e b c -> lc (d + e) a c.
Proof.
  intros (A & L1 & U1) (B & L2 & U2). split; [exact A|]. replace (- (d + e)) with (- d + - e) by ring. rewrite !exp_plus, <- !Rmult_assoc. split.
  - eapply Rle_trans; [|exact L2]. apply Rmult_le_compat_r; [left; apply exp_pos|exact L1].
  - eapply Rle_trans; [exact U2|]. apply Rmult_le_compat_r; [left; apply exp_pos|exact U1].
Qed.
Lemma lc_sym d a v : lc d a v -> lc d v a.
Proof.
  intros H. pose proof (lc_pos _ _ _ H) as V. destruct H as (A & L & U). split; [exact V|]. pose proof (exp_opp d) as E. pose proof (exp_pos d) as E1. pose proof (exp_pos (- d)) as E2. split.
  - apply Rle_trans with (a * exp d * exp (- d)); [apply Rmult_le_compat_r; lra|]. rewrite Rmult_assoc, E. lra.
  - apply Rle_trans with (a * exp (- d) * exp d); [|apply Rmult_le_compat_r; lra]. rewrite Rmult_assoc, (Rmult_comm (exp (- d))), E. lra.
Qed.
Lemma lc_mul d e a b v w : lc d a v -> lc e b w -> lc (d + e) (a * b) (v * w).
Proof.
  intros H K. pose proof (lc_pos _ _ _ H) as V. pose proof (lc_pos _ _ _ K) as W. destruct H as (A & L1 & U1), K as (B & L2 & U2).
  pose proof (exp_pos (- d)) as E1. pose proof (exp_pos (- e)) as E2.
  assert (0 < a * exp (- d)) by (apply Rmult_lt_0_compat; lra). assert (0 < b * exp (- e)) by (apply Rmult_lt_0_compat; lra).
  split; [apply Rmult_lt_0_compat; lra|]. replace (- (d + e)) with (- d + - e) by ring. rewrite !exp_plus. split.
  - replace (a * b * (exp (- d) * exp (- e))) with ((a * exp (- d)) * (b * exp (- e))) by ring. apply Rmult_le_compat; lra.
  - replace (a * b * (exp d * exp e)) with ((a * exp d) * (b * exp e)) by ring. apply Rmult_le_compat; lra.
Qed.
Lemma lc_inv d a v : lc d a v -> lc d (/ a) (/ v).
Proof.
  intros H. pose proof (lc_pos _ _ _ H) as V. destruct H as (A & L & U). split; [now apply Rinv_0_lt_compat|].
  pose proof (exp_opp d) as E. pose proof (exp_pos d) as E1. pose proof (exp_pos (- d)) as E2. split.
  - apply (Rmult_le_reg_l v); [exact V|]. rewrite Rinv_r by lra. apply (Rmult_le_reg_l a); [exact A|]. replace (a * (v * (/ a * exp (- d)))) with (v * exp (- d)) by (field; lra). 
    apply Rle_trans with (a * exp d * exp (- d)); [apply Rmult_le_compat_r; lra|]. rewrite Rmult_assoc, E. lra.
  - apply (Rmult_le_reg_l v); [exact V|]. rewrite Rinv_r by lra. apply (Rmult_le_reg_l a); [exact A|]. replace (a * (v * (/ a * exp d))) with (v * exp d) by (field; lra). 
    apply Rle_trans with (a * exp (- d) * exp d); [|apply Rmult_le_compat_r; lra]. rewrite Rmult_assoc, (Rmult_comm (exp (- d))), E. lra.
Qed.
Lemma lc_div d e a b v w : lc d a v -> lc e b w -> lc (d + e) (a / b) (v / w).
Proof. intros H K. apply lc_mul; [exact H|now apply lc_inv]. Qed.
Lemma lc_add d a b v w : lc d a v -> lc d b w -> lc d (a + b) (v + w).
Proof. intros (A & L1 & U1) (B & L2 & U2). split; [lra|]. rewrite !Rmult_plus_distr_r. lra. Qed.
Lemma lc_scale d a v c : 0 < c -> lc d a v -> lc d (c * a) (c * v).
Proof. intros C H. replace d with (0 + d) by ring. apply lc_mul; [now apply lc_refl|exact H]. Qed.
Lemma lc_pow d a v n : lc d a v -> lc (INR n * d) (a ^ n) (v ^ n).
Proof.
  intros H. induction n as [|n IH]; [cbn [pow INR]; rewrite Rmult_0_l; apply lc_refl; lra|].
  rewrite S_INR. cbn [pow]. replace ((INR n + 1) * d) with (d + INR n * d) by ring. now apply lc_mul.
Qed.
Lemma lc_sqrt d a v : lc d a v -> lc (d / 2) (sqrt a) (sqrt v).
Proof.
  intros H. pose proof (lc_pos _ _ _ H) as V. destruct H as (A & L & U). split; [now apply sqrt_lt_R0|].
  assert (S : forall t, sqrt (exp t) = exp (t / 2)). { intros t. rewrite <- (sqrt_square (exp (t / 2))) by (left; apply exp_pos). f_equal. rewrite <- exp_plus. f_equal. field. }
  replace (- (d / 2)) with (- d / 2) by field. rewrite <- !S, <- !sqrt_mult_alt by lra. split; apply sqrt_le_1_alt; assumption.
Qed.
(** Rounding errors. *)
Lemma exp_half_lower e : 0 <= e <= / 2 -> exp (- (2 * e)) <= 1 - e.
Proof.
  intros H. pose proof (exp_ineq1_le (2 * e)) as E. pose proof (exp_opp (2 * e)) as X. pose proof (exp_pos (- (2 * e))) as Y.
  apply (Rmult_le_reg_l (exp (2 * e))); [lra|]. rewrite X. apply Rle_trans with ((1 + 2 * e) * (1 - e)); [nra|]. apply Rmult_le_compat_r; lra.
Qed.
Lemma lc_round e r v : 0 < r -> 0 <= e <= / 2 -> Rabs (v - r) <= e * r -> lc (2 * e) r v.
Proof.
  intros R E H. split; [exact R|]. apply Rabs_le_inv in H. pose proof (exp_half_lower e E) as L. pose proof (exp_ineq1_le (2 * e)) as U. split.
  - apply Rle_trans with (r * (1 - e)); [apply Rmult_le_compat_l; lra|lra].
  - apply Rle_trans with (r * (1 + 2 * e)); [nra|apply Rmult_le_compat_l; lra].
Qed.
Lemma lc_tail e a b : 0 < a -> 0 <= e -> a <= b <= a + e * a -> lc e a b.
Proof.
  intros A E H. split; [exact A|]. pose proof (exp_ineq1_le e) as U. pose proof (exp_opp e) as X. pose proof (exp_pos (- e)) as Y. split.
  - apply Rle_trans with (a * 1); [apply Rmult_le_compat_l; [lra|]|lra]. rewrite <- X. rewrite <- (Rmult_1_l (exp (- e))) at 1. apply Rmult_le_compat_r; lra.
  - apply Rle_trans with (a * (1 + e)); [lra|apply Rmult_le_compat_l; lra].
Qed.
Lemma exp_upper d : 0 <= d <= / 2 -> exp d <= 1 + 2 * d.
Proof.
  intros H. pose proof (exp_ineq1_le (- d)) as E. pose proof (exp_opp d) as X. pose proof (exp_pos d) as Y.
  assert (exp d * (1 - d) <= 1) by (rewrite <- X; apply Rmult_le_compat_l; lra). apply (Rmult_le_reg_r (1 - d)); [lra|]. nra.
Qed.
Lemma lc_abs d a v : 0 <= d <= / 2 -> lc d a v -> Rabs (v - a) <= 2 * d * a.
Proof.
  intros D (A & L & U). pose proof (exp_upper d D) as X. pose proof (exp_ineq1_le (- d)) as Y. apply Rabs_le. split.
  - assert (a * (1 - d) <= v) by (eapply Rle_trans; [|exact L]; apply Rmult_le_compat_l; lra). nra.
  - assert (v <= a * (1 + 2 * d)) by (eapply Rle_trans; [exact U|]; apply Rmult_le_compat_l; lra). nra.
Qed.
(** Numbers at most [exp 1] away: within a factor of 4. *)
Lemma lc_factor d a v : d <= 1 -> lc d a v -> a / 4 <= v <= a * 4.
Proof.
  intros D H. apply (lc_weak d 1) in H; [|exact D]. destruct H as (A & L & U). pose proof exp_le_3 as E. pose proof (exp_opp 1) as X. pose proof (exp_pos (- (1))) as Y. split.
  - eapply Rle_trans; [|exact L]. apply Rmult_le_compat_l; [lra|]. nra.
  - eapply Rle_trans; [exact U|]. apply Rmult_le_compat_l; lra.
Qed.
