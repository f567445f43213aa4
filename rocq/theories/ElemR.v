(** Elementary functions near zero: inequalities over the reals. *)

From Coq Require Import Reals Lra Lia ZArith.
Open Scope R_scope.

(** Inverse hyperbolic tangent; the standard library has the others. *)
Definition artanh (x : R) : R := / 2 * ln ((1 + x) / (1 - x)).

Lemma grows f f' x : 0 < x -> f 0 = 0 -> (forall t, 0 <= t <= x -> derivable_pt_lim f t (f' t)) -> (forall t, 0 < t < x -> 0 < f' t) -> 0 < f x.
Proof.
  intros Hx H0 D P. destruct (MVT_cor2 f f' 0 x Hx D) as (c & E & C). specialize (P c C). rewrite H0 in E. nra.
Qed.

Lemma d_eq f t a b : derivable_pt_lim f t a -> a = b -> derivable_pt_lim f t b.
Proof. now intros H <-. Qed.
Lemma d_sq c t : derivable_pt_lim (fun x => c * (x * x)) t (2 * c * t).
Proof. 
  replace (2 * c * t) with (c * (1 * t + t * 1)) by ring. apply (derivable_pt_lim_scal (fun x => x * x)). apply (derivable_pt_lim_mult id id); apply derivable_pt_lim_id.
Qed.
Lemma d_cube c t : derivable_pt_lim (fun x => c * (x * x * x)) t (3 * c * (t * t)).
Proof. 
  replace (3 * c * (t * t)) with (c * ((1 * t + t * 1) * t + (t * t) * 1)) by ring. apply (derivable_pt_lim_scal (fun x => x * x * x)).
  apply (derivable_pt_lim_mult (fun x => x * x) id); [|apply derivable_pt_lim_id]. apply (derivable_pt_lim_mult id id); apply derivable_pt_lim_id.
Qed.
Lemma d_lin c t : derivable_pt_lim (fun x => c * x) t c.
Proof. eapply d_eq; [apply (derivable_pt_lim_scal id); apply derivable_pt_lim_id|ring]. Qed.
Lemma d_minus f g t a b : derivable_pt_lim f t a -> derivable_pt_lim g t b -> derivable_pt_lim (fun x => f x - g x) t (a - b).
Proof. intros. now apply (derivable_pt_lim_minus f g). Qed.
Lemma d_plus f g t a b : derivable_pt_lim f t a -> derivable_pt_lim g t b -> derivable_pt_lim (fun x => f x + g x) t (a + b).
Proof. intros. now apply (derivable_pt_lim_plus f g). Qed.
Lemma d_const c t : derivable_pt_lim (fun _ => c) t 0.
Proof. apply derivable_pt_lim_const. Qed.

(** ** Trigonometric functions *)
Lemma cos_lower x : 0 < x -> 0 < cos x - 1 + / 2 * (x * x).
Proof.
  intros Hx. apply (grows (fun x => cos x - 1 + / 2 * (x * x)) (fun t => - sin t - 0 + 2 * / 2 * t)); auto.
  - rewrite cos_0. ring.
  - intros t _. apply d_plus; [|apply d_sq]. apply d_minus; [apply derivable_pt_lim_cos|apply d_const].
  - intros t [T _]. pose proof (sin_lt_x t T). lra.
Qed.

Lemma sin_pos x : 0 < x <= / 4 -> 0 < sin x.
Proof. intros. apply sin_gt_0; [lra|]. pose proof PI2_3_2. lra. Qed.

Lemma cos_upper x : 0 < x <= / 4 -> cos x < 1.
Proof.
  intros Hx. enough (0 < 1 - cos x) by lra. apply (grows (fun x => 1 - cos x) (fun t => 0 - - sin t)); [lra| | |].
  - rewrite cos_0. ring.
  - intros t _. apply d_minus; [apply d_const|apply derivable_pt_lim_cos].
  - intros t T. pose proof (sin_pos t ltac:(lra)). lra.
Qed.

Lemma cos_near x : 0 < x <= / 4 -> 0 < 1 - cos x < x * x.
Proof. intros Hx. pose proof (cos_upper x Hx). pose proof (cos_lower x ltac:(lra)). split; [lra|]. nra. Qed.

Lemma sin_near x : 0 < x <= / 4 -> 0 < x - sin x < / 5 * (x * x * x).
Proof.
  intros Hx. pose proof (sin_lt_x x ltac:(lra)). split; [lra|].
  enough (0 < / 5 * (x * x * x) - 1 * x + sin x) by lra.
  apply (grows (fun x => / 5 * (x * x * x) - 1 * x + sin x) (fun t => 3 * / 5 * (t * t) - 1 + cos t)); [lra| | |].
  - rewrite sin_0. ring.
  - intros t _. apply d_plus; [|apply derivable_pt_lim_sin]. apply d_minus; [apply d_cube|apply d_lin].
  - intros t T. pose proof (cos_lower t ltac:(lra)). nra.
Qed.

Lemma cos_pos x : 0 <= x <= / 4 -> 0 < cos x.
Proof. intros. apply cos_gt_0; pose proof PI2_3_2; lra. Qed.

Lemma tan_small x : 0 < x <= / 4 -> 0 < tan x < 11 / 10 * x.
Proof.
  intros Hx. pose proof (cos_lower x ltac:(lra)) as C. pose proof (sin_lt_x x ltac:(lra)) as L. pose proof (sin_pos x Hx) as P. unfold tan.
  assert (31 / 32 < cos x) by nra. split; [apply Rdiv_lt_0_compat; lra|]. apply Rmult_lt_reg_r with (cos x); [lra|]. unfold Rdiv at 1. rewrite Rmult_assoc, Rinv_l by lra. nra.
Qed.

Lemma d_tan t : 0 <= t <= / 4 -> derivable_pt_lim tan t (1 + tan t * tan t).
Proof.
  intros T. pose proof (cos_pos t T) as P. unfold tan. eapply d_eq. { apply (derivable_pt_lim_div sin cos t _ _ (derivable_pt_lim_sin t) (derivable_pt_lim_cos t)). lra. }
  unfold Rsqr. field. lra.
Qed.

Lemma tan_near x : 0 < x <= / 4 -> 0 < tan x - x < / 2 * (x * x * x).
Proof.
  intros Hx. split.
  - enough (0 < tan x - 1 * x) by lra. apply (grows (fun x => tan x - 1 * x) (fun t => (1 + tan t * tan t) - 1)); [lra|rewrite tan_0; ring| |].
    + intros t T. apply d_minus; [apply d_tan; lra|apply d_lin].
    + intros t T. pose proof (tan_small t ltac:(lra)). nra.
  - enough (0 < / 2 * (x * x * x) - (tan x - 1 * x)) by lra.
    apply (grows (fun x => / 2 * (x * x * x) - (tan x - 1 * x)) (fun t => 3 * / 2 * (t * t) - ((1 + tan t * tan t) - 1))); [lra|rewrite tan_0; ring| |].
    + intros t T. apply d_minus; [apply d_cube|]. apply d_minus; [apply d_tan; lra|apply d_lin].
    + intros t T. pose proof (tan_small t ltac:(lra)). nra.
Qed.

Lemma atan_near x : 0 < x <= / 4 -> 0 < x - atan x < / 2 * (x * x * x).
Proof.
  intros Hx. assert (K : forall t, 0 < t -> / (1 + t * t) * (1 + t * t) = 1) by (intros t T; field; nra).
  assert (P : forall t, 0 < t -> 0 < / (1 + t * t)) by (intros t T; apply Rinv_0_lt_compat; nra).
  split.
  - enough (0 < 1 * x - atan x) by lra. apply (grows (fun x => 1 * x - atan x) (fun t => 1 - / (1 + t * t))); [lra|rewrite atan_0; ring| |].
    + intros t T. apply d_minus; [apply d_lin|]. eapply d_eq; [apply derivable_pt_lim_atan|]. unfold Rsqr. field. nra.
    + intros t T. specialize (K t ltac:(lra)). specialize (P t ltac:(lra)). nra.
  - enough (0 < / 2 * (x * x * x) - (1 * x - atan x)) by lra.
    apply (grows (fun x => / 2 * (x * x * x) - (1 * x - atan x)) (fun t => 3 * / 2 * (t * t) - (1 - / (1 + t * t)))); [lra|rewrite atan_0; ring| |].
    + intros t T. apply d_minus; [apply d_cube|]. apply d_minus; [apply d_lin|]. eapply d_eq; [apply derivable_pt_lim_atan|]. unfold Rsqr. field. nra.
    + intros t T. specialize (K t ltac:(lra)). specialize (P t ltac:(lra)). set (i := / (1 + t * t)) in *. nra.
Qed.

Lemma asin_near x : 0 < x <= / 8 -> 0 < asin x - x < / 4 * (x * x * x).
Proof.
  intros Hx. set (y := asin x). pose proof PI2_3_2 as P3.
  assert (S : sin y = x) by (apply sin_asin; lra).
  assert (B : - (PI / 2) < y < PI / 2) by (apply asin_bound_lt; lra).
  assert (Y0 : 0 < y). { destruct (Rlt_le_dec 0 y) as [|H]; [auto|]. exfalso. pose proof (sin_ge_0 (- y) ltac:(lra) ltac:(lra)). rewrite sin_neg in H0. lra. }
  assert (Y4 : y < / 4). { apply sin_increasing_0; try lra. rewrite S. pose proof (sin_near (/ 4) ltac:(lra)). lra. }
  pose proof (sin_near y ltac:(lra)) as [N1 N2]. rewrite S in *. split; [lra|]. assert (19 / 20 * y < x) by nra.
  apply Rlt_le_trans with (1 := N2). assert (19 / 20 * y * (19 / 20 * y) <= x * x) by nra. assert (19 / 20 * y * (19 / 20 * y) * (19 / 20 * y) <= x * x * x) by nra. 
  assert (0 < y * y * y) by nra. nra.
Qed.

(** ** Hyperbolic functions *)
Lemma exp_quarter x : 0 <= x <= / 4 -> exp x < 3 / 2.
Proof.
  intros Hx. apply Rle_lt_trans with (exp (/ 4)). { destruct (Req_dec x (/ 4)) as [->|]; [lra|]. apply Rlt_le, exp_increasing. lra. }
  pose proof exp_le_3 as E. replace 1 with (/ 4 + / 4 + (/ 4 + / 4)) in E by field. rewrite !exp_plus in E. pose proof (exp_pos (/ 4)).
  destruct (Rlt_le_dec (exp (/ 4)) (3 / 2)) as [|H1]; [auto|]. assert (9 / 4 <= exp (/ 4) * exp (/ 4)) by nra. nra.
Qed.

Lemma exp_near_pos x : 0 < x <= / 4 -> 0 < exp x - 1 < 2 * x.
Proof.
  intros Hx. pose proof (exp_ineq1 x ltac:(lra)). split; [lra|]. enough (0 < 2 * x - (exp x - 1)) by lra.
  apply (grows (fun x => 2 * x - (exp x - 1)) (fun t => 2 - (exp t - 0))); [lra|rewrite exp_0; ring| |].
  - intros t T. apply d_minus; [apply d_lin|]. apply d_minus; [apply derivable_pt_lim_exp|apply d_const].
  - intros t T. pose proof (exp_quarter t ltac:(lra)). lra.
Qed.

Lemma exp_near_neg x : 0 < x -> 0 < 1 - exp (- x) < 2 * x.
Proof.
  intros Hx. pose proof (exp_ineq1 (- x) ltac:(lra)). split; [|lra]. rewrite <- exp_0 at 1. pose proof (exp_increasing (- x) 0 ltac:(lra)). lra.
Qed.

Lemma sinh_pos x : 0 < x -> 0 < sinh x.
Proof. intros. unfold sinh. pose proof (exp_increasing (- x) x ltac:(lra)). lra. Qed.

Lemma cosh_gt x : 0 < x -> 1 < cosh x.
Proof.
  intros Hx. enough (0 < cosh x - 1) by lra. apply (grows (fun x => cosh x - 1) (fun t => sinh t - 0)); auto.
  - rewrite cosh_0. ring.
  - intros t _. apply d_minus; [apply derivable_pt_lim_cosh|apply d_const].
  - intros t [T _]. pose proof (sinh_pos t T). lra.
Qed.

Lemma sinh_gt x : 0 < x -> x < sinh x.
Proof.
  intros Hx. enough (0 < sinh x - 1 * x) by lra. apply (grows (fun x => sinh x - 1 * x) (fun t => cosh t - 1)); auto.
  - rewrite sinh_0. ring.
  - intros t _. apply d_minus; [apply derivable_pt_lim_sinh|apply d_lin].
  - intros t [T _]. pose proof (cosh_gt t T). lra.
Qed.

Lemma sinh_small x : 0 < x <= / 4 -> sinh x < 3 / 2 * x.
Proof.
  intros Hx. enough (0 < 3 / 2 * x - sinh x) by lra. apply (grows (fun x => 3 / 2 * x - sinh x) (fun t => 3 / 2 - cosh t)); [lra|rewrite sinh_0; ring| |].
  - intros t _. apply d_minus; [apply d_lin|apply derivable_pt_lim_sinh].
  - intros t T. unfold cosh. pose proof (exp_quarter t ltac:(lra)). pose proof (exp_increasing (- t) t ltac:(lra)). lra.
Qed.

Lemma cosh_near x : 0 < x <= / 4 -> 0 < cosh x - 1 < 3 / 4 * (x * x).
Proof.
  intros Hx. pose proof (cosh_gt x ltac:(lra)). split; [lra|]. enough (0 < 3 / 4 * (x * x) - (cosh x - 1)) by lra.
  apply (grows (fun x => 3 / 4 * (x * x) - (cosh x - 1)) (fun t => 2 * (3 / 4) * t - (sinh t - 0))); [lra|rewrite cosh_0; ring| |].
  - intros t _. apply d_minus; [apply d_sq|]. apply d_minus; [apply derivable_pt_lim_cosh|apply d_const].
  - intros t T. pose proof (sinh_small t ltac:(lra)). lra.
Qed.

Lemma sinh_near x : 0 < x <= / 4 -> 0 < sinh x - x < / 4 * (x * x * x).
Proof.
  intros Hx. pose proof (sinh_gt x ltac:(lra)). split; [lra|]. enough (0 < / 4 * (x * x * x) - (sinh x - 1 * x)) by lra.
  apply (grows (fun x => / 4 * (x * x * x) - (sinh x - 1 * x)) (fun t => 3 * / 4 * (t * t) - (cosh t - 1))); [lra|rewrite sinh_0; ring| |].
  - intros t _. apply d_minus; [apply d_cube|]. apply d_minus; [apply derivable_pt_lim_sinh|apply d_lin].
  - intros t T. pose proof (cosh_near t ltac:(lra)). lra.
Qed.

Lemma sinh_neg x : sinh (- x) = - sinh x.
Proof. unfold sinh. rewrite Ropp_involutive. lra. Qed.
Lemma cosh_neg x : cosh (- x) = cosh x.
Proof. unfold cosh. rewrite Ropp_involutive. lra. Qed.

Lemma arcsinh_near x : 0 < x <= / 4 -> 0 < x - arcsinh x < / 4 * (x * x * x).
Proof.
  intros Hx. set (y := arcsinh x). assert (S : sinh y = x) by apply sinh_arcsinh.
  assert (Y0 : 0 < y). { destruct (Rtotal_order 0 y) as [|[H|H]]; [auto| |]. - rewrite <- H, sinh_0 in S. lra.
    - pose proof (sinh_pos (- y) ltac:(lra)). rewrite sinh_neg in H0. lra. }
  pose proof (sinh_gt y Y0). pose proof (sinh_near y ltac:(lra)) as [N1 N2]. rewrite S in *. split; [lra|]. apply Rlt_trans with (1 := N2).
  assert (y * y < x * x) by nra. nra.
Qed.

Lemma cosh_pos x : 0 < cosh x.
Proof. unfold cosh. pose proof (exp_pos x). pose proof (exp_pos (- x)). lra. Qed.

Lemma cosh_sinh x : cosh x * cosh x - sinh x * sinh x = 1.
Proof. unfold cosh, sinh. assert (E : exp x * exp (- x) = 1) by (rewrite <- exp_plus, Rplus_opp_r; apply exp_0). nra. Qed.

Lemma d_tanh t : derivable_pt_lim tanh t (1 - tanh t * tanh t).
Proof.
  unfold tanh. eapply d_eq. { apply (derivable_pt_lim_div sinh cosh t _ _ (derivable_pt_lim_sinh t) (derivable_pt_lim_cosh t)). pose proof (cosh_pos t). lra. }
  unfold Rsqr. pose proof (cosh_pos t). field. lra.
Qed.

Lemma tanh_pos x : 0 < x -> 0 < tanh x.
Proof. intros. unfold tanh. apply Rdiv_lt_0_compat; [now apply sinh_pos|apply cosh_pos]. Qed.

Lemma tanh_near x : 0 < x -> 0 < x - tanh x < / 2 * (x * x * x).
Proof.
  intros Hx. assert (L : forall x, 0 < x -> 0 < 1 * x - tanh x).
  { clear. intros x Hx. apply (grows (fun x => 1 * x - tanh x) (fun t => 1 - (1 - tanh t * tanh t))); auto.
    - unfold tanh. rewrite sinh_0. lra.
    - intros t _. apply d_minus; [apply d_lin|apply d_tanh].
    - intros t [T _]. pose proof (tanh_pos t T). nra. }
  split; [specialize (L x Hx); lra|]. enough (0 < / 2 * (x * x * x) - (1 * x - tanh x)) by lra.
  apply (grows (fun x => / 2 * (x * x * x) - (1 * x - tanh x)) (fun t => 3 * / 2 * (t * t) - (1 - (1 - tanh t * tanh t)))); auto.
  - unfold tanh. rewrite sinh_0. lra.
  - intros t _. apply d_minus; [apply d_cube|]. apply d_minus; [apply d_lin|apply d_tanh].
  - intros t [T _]. pose proof (tanh_pos t T). specialize (L t T). nra.
Qed.

Lemma tanh_neg x : tanh (- x) = - tanh x.
Proof. unfold tanh. rewrite sinh_neg, cosh_neg. pose proof (cosh_pos x). field. lra. Qed.

Lemma d_artanh t : -1 < t < 1 -> derivable_pt_lim artanh t (/ (1 - t * t)).
Proof.
  intros T. unfold artanh. assert (Q : 0 < (1 + t) / (1 - t)) by (apply Rdiv_lt_0_compat; lra).
  eapply d_eq. { apply (derivable_pt_lim_scal (fun x => ln ((1 + x) / (1 - x)))). apply (derivable_pt_lim_comp (fun x => (1 + x) / (1 - x)) ln); [|now apply derivable_pt_lim_ln].
    apply (derivable_pt_lim_div (fun x => 1 + x) (fun x => 1 - x)); [|  |lra].
    - eapply d_eq; [apply d_plus; [apply d_const|apply derivable_pt_lim_id]|reflexivity].
    - eapply d_eq; [apply d_minus; [apply d_const|apply derivable_pt_lim_id]|reflexivity]. }
  unfold Rsqr. field. repeat split; nra.
Qed.

Lemma artanh_near x : 0 < x <= / 4 -> 0 < artanh x - x < / 2 * (x * x * x).
Proof.
  intros Hx. assert (K : forall t, 0 < t < / 4 -> / (1 - t * t) * (1 - t * t) = 1) by (intros t T; apply Rinv_l; nra).
  assert (P : forall t, 0 < t < / 4 -> 0 < / (1 - t * t)) by (intros t T; apply Rinv_0_lt_compat; nra).
  assert (Z : artanh 0 = 0) by (unfold artanh; replace ((1 + 0) / (1 - 0)) with 1 by field; rewrite ln_1; ring).
  split.
  - enough (0 < artanh x - 1 * x) by lra. apply (grows (fun x => artanh x - 1 * x) (fun t => / (1 - t * t) - 1)); [lra|rewrite Z; ring| |].
    + intros t T. apply d_minus; [apply d_artanh; lra|apply d_lin].
    + intros t T. specialize (K t ltac:(lra)). specialize (P t ltac:(lra)). set (i := / (1 - t * t)) in *. assert (0 < i * (t * t)) by (apply Rmult_lt_0_compat; nra). nra.
  - enough (0 < / 2 * (x * x * x) - (artanh x - 1 * x)) by lra.
    apply (grows (fun x => / 2 * (x * x * x) - (artanh x - 1 * x)) (fun t => 3 * / 2 * (t * t) - (/ (1 - t * t) - 1))); [lra|rewrite Z; ring| |].
    + intros t T. apply d_minus; [apply d_cube|]. apply d_minus; [apply d_artanh; lra|apply d_lin].
    + intros t T. specialize (K t ltac:(lra)). specialize (P t ltac:(lra)). set (i := / (1 - t * t)) in *. assert (T2 : t * t < / 16) by nra. assert (I : i < 3 / 2).
      { destruct (Rlt_le_dec i (3 / 2)) as [|H]; [auto|]. exfalso. assert (3 / 2 * (1 - t * t) <= i * (1 - t * t)) by (apply Rmult_le_compat_r; lra). lra. }
       assert (0 < (3 / 2 - i) * (t * t)) by (apply Rmult_lt_0_compat; nra). nra.
Qed.

Lemma artanh_neg x : -1 < x < 1 -> artanh (- x) = - artanh x.
Proof.
  intros Hx. unfold artanh. replace ((1 + - x) / (1 - - x)) with (/ ((1 + x) / (1 - x))) by (field; lra).
  rewrite ln_Rinv by (apply Rdiv_lt_0_compat; lra). ring.
Qed.
