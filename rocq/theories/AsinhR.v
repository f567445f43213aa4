(** Real analysis for asinh and acosh. *)
From Coq Require Import Reals Lra.
From Verif Require Import SpecInvHyp LnR.
Open Scope R_scope.

Lemma ln_mono x y : 0 < x <= y -> ln x <= ln y.
Proof. intros [X [Y|Y]]; [left; apply ln_increasing; lra|rewrite Y; lra]. Qed.
Lemma ln_lower x : 0 < x -> 1 - / x <= ln x.
Proof. intros H. assert (I : 0 < / x) by now apply Rinv_0_lt_compat. pose proof (ln_1p (/ x - 1) ltac:(lra)) as Q. replace (1 + (/ x - 1)) with (/ x) in Q by ring. rewrite ln_Rinv in Q by exact H. lra. Qed.
Lemma ln_upper x : 0 < x -> ln x <= x - 1.
Proof. intros H. pose proof (ln_1p (x - 1) ltac:(lra)) as Q. replace (1 + (x - 1)) with x in Q by ring. exact Q. Qed.

(** ** asinh *)
Lemma asinh_root v : 0 < v -> let s := sqrt (v * v + 1) in 1 <= s /\ v <= s /\ s * s = v * v + 1.
Proof.
  intros V s. assert (S : s * s = v * v + 1) by (apply sqrt_sqrt; nra). assert (S0 : 0 <= s) by apply sqrt_pos. split; [|split; [|exact S]]; apply Rnot_lt_le; intros L; nra.
Qed.
Lemma arcsinh_root v : arcsinh v = ln (v + sqrt (v * v + 1)).
Proof. unfold arcsinh. replace (v ^ 2 + 1) with (v * v + 1) by ring. reflexivity. Qed.
Lemma asinh_low v : 0 < v -> v / (1 + v) <= ln (v + sqrt (v * v + 1)).
Proof.
  intros V. destruct (asinh_root v V) as (S1 & S2 & _). set (s := sqrt (v * v + 1)) in *. apply Rle_trans with (ln (1 + v)); [|apply ln_mono; lra]. pose proof (ln_lower (1 + v) ltac:(lra)) as Q. replace (v / (1 + v)) with (1 - / (1 + v)) by (field; lra). exact Q.
Qed.
Lemma asinh_large v : 1 <= v -> Rabs (ln (2 * v) - ln (v + sqrt (v * v + 1))) <= / (v * v).
Proof.
  intros V. destruct (asinh_root v ltac:(lra)) as (S1 & S2 & S3). set (s := sqrt (v * v + 1)) in *. clearbody s. assert (V2 : 0 < / (v * v)) by (apply Rinv_0_lt_compat; nra). assert (LE : ln (2 * v) <= ln (v + s)) by (apply ln_mono; lra).
  assert (I : 0 < / (2 * v)) by (apply Rinv_0_lt_compat; lra). assert (U : ln ((v + s) * / (2 * v)) <= / (v * v)).
  { eapply Rle_trans; [apply ln_upper; apply Rmult_lt_0_compat; lra|]. assert (SU : s <= v + / v). { assert (0 < / v) by (apply Rinv_0_lt_compat; lra). assert (v * / v = 1) by (apply Rinv_r; lra). apply Rnot_lt_le. intros L. nra. }
    replace ((v + s) * / (2 * v) - 1) with ((s - v) * / (2 * v)) by (field; lra). apply Rle_trans with (/ v * / (2 * v)); [apply Rmult_le_compat_r; lra|]. replace (/ v * / (2 * v)) with (/ 2 * / (v * v)) by (field; lra). lra. }
  rewrite ln_mult, ln_Rinv in U by lra. rewrite Rabs_left1 by lra. lra.
Qed.

(** ** acosh *)
Lemma acosh_root v : 1 < v -> let s := sqrt (v * v - 1) in 0 < s /\ s <= v /\ s * s = v * v - 1.
Proof.
  intros V s. destruct (arcosh_arg v ltac:(lra)) as [[S0 S1] S2]. fold s in S0, S1, S2. split; [|split; assumption]. destruct S0 as [S0|S0]; [exact S0|]. exfalso. rewrite <- S0 in S2. nra.
Qed.
Lemma acosh_low v : 1 < v -> (v - 1) / v <= arcosh v.
Proof.
  intros V. destruct (acosh_root v V) as (S1 & S2 & _). unfold arcosh. set (s := sqrt (v * v - 1)) in *. apply Rle_trans with (ln v); [|apply ln_mono; lra]. pose proof (ln_lower v ltac:(lra)) as Q. replace ((v - 1) / v) with (1 - / v) by (field; lra). exact Q.
Qed.
(** The share of the root in the sum. *)
Lemma acosh_share v : 1 < v -> sqrt (v * v - 1) / (v + sqrt (v * v - 1)) <= arcosh v.
Proof.
  intros V. destruct (acosh_root v V) as (S1 & S2 & S3). unfold arcosh. set (s := sqrt (v * v - 1)) in *. clearbody s. pose proof (ln_lower (v + s) ltac:(lra)) as Q. eapply Rle_trans; [|exact Q].
  apply Rmult_le_reg_r with (v + s); [lra|]. unfold Rdiv. rewrite Rmult_assoc, Rinv_l, Rmult_1_r by lra. rewrite Rmult_minus_distr_r, Rinv_l by lra. lra.
Qed.
Lemma acosh_large v : 2 <= v -> Rabs (ln (2 * v) - arcosh v) <= / (v * v).
Proof.
  intros V. destruct (acosh_root v ltac:(lra)) as (S1 & S2 & S3). unfold arcosh. set (s := sqrt (v * v - 1)) in *. clearbody s. assert (V2 : 0 < / (v * v)) by (apply Rinv_0_lt_compat; nra). assert (LE : ln (v + s) <= ln (2 * v)) by (apply ln_mono; lra).
  assert (I : 0 < / (v + s)) by (apply Rinv_0_lt_compat; lra). assert (U : ln (2 * v * / (v + s)) <= / (v * v)).
  { eapply Rle_trans; [apply ln_upper; apply Rmult_lt_0_compat; lra|]. replace (2 * v * / (v + s) - 1) with (/ ((v + s) * (v + s))). - apply Rinv_le_contravar; nra. - apply Rmult_eq_reg_r with ((v + s) * (v + s)); [|nra]. field_simplify; [nra|lra|lra]. }
  rewrite ln_mult, ln_Rinv in U by lra. rewrite Rabs_pos_eq by lra. lra.
Qed.
(** The square against its difference to 1. *)
Lemma acosh_cancel v t : 0 < t -> 1 + t <= v -> v * v <= (1 + / (2 * t)) * (v * v - 1).
Proof.
  intros T V. assert (I : 0 < / (2 * t)) by (apply Rinv_0_lt_compat; lra). assert (E : / (2 * t) * (2 * t) = 1) by (apply Rinv_l; lra). set (i := / (2 * t)) in *. clearbody i. assert (2 * t <= v * v - 1) by nra. assert (i * (2 * t) <= i * (v * v - 1)) by (apply Rmult_le_compat_l; lra). lra.
Qed.
