(** The inverse of cosh on the non-negative numbers. *)
From Coq Require Import Reals Lra.
Open Scope R_scope.

Definition arcosh (v : R) : R := ln (v + sqrt (v * v - 1)).

Lemma arcosh_arg v : 1 <= v -> 0 <= sqrt (v * v - 1) <= v /\ sqrt (v * v - 1) * sqrt (v * v - 1) = v * v - 1.
Proof.
  intros H. assert (P : 0 <= v * v - 1) by nra. split; [split; [apply sqrt_pos|]|apply sqrt_sqrt; exact P].
  apply Rle_trans with (sqrt (v * v)); [apply sqrt_le_1; nra|rewrite sqrt_square by lra; lra].
Qed.
Theorem arcosh_spec v : 1 <= v -> 0 <= arcosh v /\ cosh (arcosh v) = v.
Proof.
  intros H. destruct (arcosh_arg v H) as [[S0 S1] S2]. set (s := sqrt (v * v - 1)) in *. unfold arcosh. fold s. split.
  - rewrite <- ln_1. destruct (Req_dec (v + s) 1) as [->|E]; [lra|left; apply ln_increasing; lra].
  - unfold cosh. rewrite exp_Ropp, exp_ln by lra. apply Rmult_eq_reg_r with (2 * (v + s)); [|lra]. field_simplify; [|lra]. nra.
Qed.
Theorem arcosh_unique v r : 1 <= v -> 0 <= r -> cosh r = v -> r = arcosh v.
Proof.
  intros H R C. destruct (arcosh_arg v H) as [[S0 S1] S2]. assert (E : exp r = v + sqrt (v * v - 1)).
  { assert (X : 0 <= sinh r). { unfold sinh. assert (exp (- r) <= exp r); [|lra]. destruct R as [R|R]; [left; apply exp_increasing; lra|rewrite <- R, Ropp_0; lra]. }
    assert (Y : sinh r = sqrt (v * v - 1)). { rewrite <- C. replace (cosh r * cosh r - 1) with (sinh r * sinh r). - symmetry. apply sqrt_square. exact X. - pose proof (exp_pos r). unfold cosh, sinh. rewrite exp_Ropp. field. lra. }
    rewrite <- Y, <- C. unfold cosh, sinh. field. }
  unfold arcosh. rewrite <- E. symmetry. apply ln_exp.
Qed.
