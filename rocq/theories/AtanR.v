(** Facts about the arctangent over the reals. *)

From Coq Require Import Reals Lra Lia.
From Verif Require Import ApproxR ElemR SinhR SeriesNum LnR.
Open Scope R_scope.

Lemma atan_pos a : 0 < a -> 0 < atan a.
Proof. intros H. rewrite <- atan_0. now apply atan_increasing. Qed.
Lemma atan_mono a b : a <= b -> atan a <= atan b.
Proof. intros [H| ->]; [left; now apply atan_increasing|lra]. Qed.
Lemma sq1_pos t : 0 < 1 + t * t. Proof. nra. Qed.
Lemma d_atan t : derivable_pt_lim atan t (/ (1 + t * t)).
Proof. eapply d_eq; [apply derivable_pt_lim_atan|]. unfold Rsqr. pose proof (sq1_pos t). field. nra. Qed.
Lemma inv_sq_le a b : 0 <= a <= b -> / (1 + b * b) <= / (1 + a * a).
Proof. intros H. apply Rinv_le_contravar; [apply sq1_pos|]. nra. Qed.

Lemma atan_scale c y : 1 <= c -> 0 <= y -> atan (c * y) <= c * atan y.
Proof.
  intros Hc Hy. assert (0 <= c * atan y - atan (c * y)); [|lra].
  apply (nonneg (fun u => c * atan u - atan (c * u)) (fun u => c * / (1 + u * u) - c * / (1 + c * u * (c * u))) y); [exact Hy|rewrite Rmult_0_r, atan_0; ring| |].
  - intros t _. apply d_minus; [apply (derivable_pt_lim_scal atan c); apply d_atan|]. eapply d_eq; [apply (derivable_pt_lim_comp (fun u => c * u) atan t c (/ (1 + c * t * (c * t)))); [apply d_lin|apply d_atan]|]. ring.
  - intros t Ht. assert (t <= c * t) by nra. pose proof (inv_sq_le t (c * t) ltac:(lra)) as I. assert (c * / (1 + c * t * (c * t)) <= c * / (1 + t * t)) by (apply Rmult_le_compat_l; lra). lra.
Qed.
(** Increasing functions that grow at most in proportion keep a relative error. *)
Lemma lc_concave f d x y : 0 <= d -> (forall a, 0 < a -> 0 < f a) -> (forall a b, 0 < a -> a <= b -> f a <= f b) -> (forall c a, 1 <= c -> 0 < a -> f (c * a) <= c * f a) ->
  lc d x y -> lc d (f x) (f y).
Proof.
  intros Hd F0 FM FS (X & L & U). pose proof (exp_ge1 d Hd) as E1. pose proof (exp_pos (- d)) as E0. assert (EE : exp d * exp (- d) = 1) by (rewrite <- exp_plus, Rplus_opp_r; apply exp_0).
  assert (Y : 0 < y) by (eapply Rlt_le_trans; [|exact L]; apply Rmult_lt_0_compat; lra). split; [now apply F0|]. split.
  - assert (X2 : x <= exp d * y). { apply (Rmult_le_compat_r (exp d)) in L; [|lra]. replace (x * exp (- d) * exp d) with (x * (exp d * exp (- d))) in L by ring. rewrite EE in L. lra. }
    pose proof (FM x _ X X2) as A. pose proof (FS (exp d) y E1 Y) as B. assert (S : f x <= exp d * f y) by lra. apply (Rmult_le_compat_r (exp (- d))) in S; [|lra]. replace (exp d * f y * exp (- d)) with (f y * (exp d * exp (- d))) in S by ring. rewrite EE in S. lra.
  - eapply Rle_trans; [apply (FM y _ Y U)|]. rewrite (Rmult_comm x), (Rmult_comm (f x)). now apply FS.
Qed.
Lemma lc_atan d x y : 0 <= d -> lc d x y -> lc d (atan x) (atan y).
Proof. intros Hd. apply lc_concave; [exact Hd|apply atan_pos| |]. - intros a b _ H. now apply atan_mono. - intros c a H1 H2. apply atan_scale; lra. Qed.

(** ** Halving *)
Definition half (x : R) : R := x / (1 + sqrt (1 + x * x)).
Lemma sqrt_sq1 x : 1 <= sqrt (1 + x * x) <= 1 + Rabs x.
Proof.
  pose proof (Rabs_pos x). assert (E : Rabs x * Rabs x = x * x) by (rewrite <- Rabs_mult; apply Rabs_pos_eq; nra). split.
  - rewrite <- sqrt_1 at 1. apply sqrt_le_1_alt. nra.
  - rewrite <- (sqrt_square (1 + Rabs x)) by lra. apply sqrt_le_1_alt. nra.
Qed.
Lemma half_atan x : atan x = 2 * atan (half x).
Proof.
  pose proof (sqrt_sq1 x) as [S1 _]. assert (S2 : sqrt (1 + x * x) * sqrt (1 + x * x) = 1 + x * x) by (apply sqrt_sqrt; nra). set (s := sqrt (1 + x * x)) in *.
  set (y := half x). assert (Y1 : y * y < 1). { unfold y, half. fold s. replace (x / (1 + s) * (x / (1 + s))) with (x * x * / ((1 + s) * (1 + s))) by (field; lra). apply (Rmult_lt_reg_r ((1 + s) * (1 + s))); [nra|]. rewrite Rmult_assoc, Rinv_l by nra. nra. }
  assert (Y2 : -1 < y < 1) by nra. pose proof (atan_bound y) as B. assert (B1 : - (PI / 4) < atan y < PI / 4). { rewrite <- atan_1, <- atan_opp. split; apply atan_increasing; lra. }
  assert (T : tan (2 * atan y) = x).
  { rewrite tan_2a; rewrite ?tan_atan.
    - unfold y, half. fold s. assert (Q : (1 + s) * (1 + s) - x * x = 2 * (1 + s)) by nra.
      replace (1 - x / (1 + s) * (x / (1 + s))) with (((1 + s) * (1 + s) - x * x) / ((1 + s) * (1 + s))) by (field; lra). rewrite Q. field. lra.
    - apply Rgt_not_eq. apply cos_gt_0; lra.
    - apply Rgt_not_eq. apply cos_gt_0; lra.
    - nra. }
  rewrite <- T at 1. apply atan_tan. lra.
Qed.
Lemma half_bounds x : 0 < x <= 1 -> x / 4 <= half x <= x / 2.
Proof.
  intros H. destruct (sqrt_sq1 x) as [A B]. rewrite Rabs_pos_eq in B by lra. unfold half, Rdiv. split; apply Rmult_le_compat_l; try lra; apply Rinv_le_contravar; lra.
Qed.
Lemma half_pos x : 0 < x -> 0 < half x.
Proof. intros H. destruct (sqrt_sq1 x) as [A B]. unfold half. apply Rdiv_lt_0_compat; lra. Qed.
Lemma half_mono a b : 0 < a -> a <= b -> half a <= half b.
Proof.
  intros A B. destruct (Rle_lt_dec (half a) (half b)) as [T|T]; [exact T|exfalso]. apply atan_increasing in T. pose proof (half_atan a). pose proof (half_atan b). pose proof (atan_mono a b B). lra.
Qed.
Lemma half_scale c a : 1 <= c -> 0 < a -> half (c * a) <= c * half a.
Proof.
  intros C A. unfold half. destruct (sqrt_sq1 a) as [A1 _]. unfold Rdiv. rewrite Rmult_assoc. apply Rmult_le_compat_l; [lra|]. apply Rmult_le_compat_l; [lra|]. apply Rinv_le_contravar; [lra|]. apply Rplus_le_compat_l. apply sqrt_le_1_alt. assert (a <= c * a) by nra. nra.
Qed.
Lemma lc_half d x y : 0 <= d -> lc d x y -> lc d (half x) (half y).
Proof. intros Hd. apply lc_concave; [exact Hd|exact half_pos|exact half_mono|exact half_scale]. Qed.

Fixpoint halves (n : nat) (x : R) : R := match n with O => x | S n => halves n (half x) end.
Lemma halves_atan n : forall x, atan x = 2 ^ n * atan (halves n x).
Proof. induction n as [|n IH]; intros x; cbn [halves pow]; [ring|]. rewrite half_atan, (IH (half x)). ring. Qed.
Lemma halves_bounds n : forall x, 0 < x <= 1 -> x * (/ 4) ^ n <= halves n x <= x * (/ 2) ^ n.
Proof.
  induction n as [|n IH]; intros x H; cbn [halves pow]; [lra|]. pose proof (half_bounds x H) as B. pose proof (half_pos x ltac:(lra)) as P. destruct (IH (half x) ltac:(lra)) as [L U]. pose proof (pow_lt (/ 4) n ltac:(lra)) as P4. pose proof (pow_lt (/ 2) n ltac:(lra)) as P2. split.
  - eapply Rle_trans; [|exact L]. rewrite <- Rmult_assoc. apply Rmult_le_compat_r; lra.
  - eapply Rle_trans; [exact U|]. rewrite <- Rmult_assoc. apply Rmult_le_compat_r; lra.
Qed.

(** ** The Taylor polynomials *)
Definition ap (M : nat) (b : R) : R := b - b * (b * b) * psum aC (- (b * b)) 0 M.
Lemma neg1_pow X i : (- X) ^ i = (-1) ^ i * X ^ i.
Proof. rewrite <- Rpow_mult_distr. f_equal. ring. Qed.
Lemma ap_S M b : ap (S M) b = ap M b - (-1) ^ M * (b ^ (2 * M + 3) / INR (2 * M + 3)).
Proof.
  unfold ap. cbn [psum]. rewrite Nat.add_0_l. unfold aC, Rdiv. rewrite neg1_pow. replace (b ^ (2 * M + 3)) with (b * (b * b) * (b * b) ^ M); [ring|]. rewrite pow_add, pow_mult. replace (b ^ 2) with (b * b) by ring. cbn [pow]. ring.
Qed.
Lemma d_power k t : derivable_pt_lim (fun b => b ^ S k / INR (S k)) t (t ^ k).
Proof.
  unfold Rdiv. eapply d_eq; [apply (derivable_pt_lim_mult (fun b => b ^ S k) (fun _ => / INR (S k))); [apply derivable_pt_lim_pow|apply derivable_pt_lim_const]|]. cbn [pred]. rewrite Rmult_0_r, Rplus_0_r. field. apply not_0_INR. lia.
Qed.
Lemma d_ap M t : derivable_pt_lim (ap M) t ((1 - (-1) ^ S M * (t * t) ^ S M) * / (1 + t * t)).
Proof.
  pose proof (sq1_pos t) as Q. induction M as [|M IH].
  - apply (derivable_pt_lim_ext (fun b => 1 * b)); [intros b; unfold ap; cbn [psum]; ring|]. eapply d_eq; [apply d_lin|]. cbn [pow]. field. nra.
  - apply (derivable_pt_lim_ext (fun b => ap M b - (-1) ^ M * (b ^ (2 * M + 3) / INR (2 * M + 3)))); [intros b; symmetry; apply ap_S|].
    eapply d_eq; [apply d_minus; [exact IH|]; apply (derivable_pt_lim_scal (fun b => b ^ (2 * M + 3) / INR (2 * M + 3)) ((-1) ^ M)); replace (2 * M + 3)%nat with (S (2 * M + 2)) by lia; apply d_power|].
    replace (t ^ (2 * M + 2)) with (t * t * (t * t) ^ M) by (rewrite pow_add, pow_mult; replace (t ^ 2) with (t * t) by ring; ring). cbn [pow]. field. nra.
Qed.
Lemma neg1_sq M : (-1) ^ M * (-1) ^ M = 1.
Proof. rewrite <- Rpow_mult_distr. replace (-1 * -1) with 1 by ring. apply pow1. Qed.
Lemma atan_taylor b M : 0 <= b -> Rabs (atan b - ap M b) <= b * (b * b) * (b * b) ^ M * aC M.
Proof.
  intros Hb. set (e := (-1) ^ S M).
  assert (EE : e * e = 1) by apply neg1_sq. assert (E1 : Rabs e = 1) by (unfold e; apply pow_1_abs).
  assert (A0 : ap M 0 = 0) by (unfold ap; ring).
  assert (D : forall t, derivable_pt_lim (fun u => e * (atan u - ap M u)) t ((t * t) ^ S M * / (1 + t * t))).
  { intros t. eapply d_eq; [apply (derivable_pt_lim_scal (fun u => atan u - ap M u) e); apply d_minus; [apply d_atan|apply d_ap]|]. fold e. pose proof (sq1_pos t). replace (e * (/ (1 + t * t) - (1 - e * (t * t) ^ S M) * / (1 + t * t))) with (e * e * (t * t) ^ S M * / (1 + t * t)) by ring. rewrite EE. ring. }
  assert (PT : forall t, 0 <= (t * t) ^ S M) by (intros t; apply pow_le; nra).
  assert (IT : forall t, 0 < / (1 + t * t) <= 1). { intros t. pose proof (sq1_pos t). split; [now apply Rinv_0_lt_compat|]. rewrite <- Rinv_1. apply Rinv_le_contravar; nra. }
  assert (L : 0 <= e * (atan b - ap M b)).
  { apply (nonneg (fun u => e * (atan u - ap M u)) (fun t => (t * t) ^ S M * / (1 + t * t)) b Hb); [rewrite atan_0, A0; ring|intros; apply D|]. intros t _. pose proof (IT t). apply Rmult_le_pos; [apply PT|lra]. }
  assert (U : 0 <= b ^ (2 * M + 3) / INR (2 * M + 3) - e * (atan b - ap M b)).
  { apply (nonneg (fun u => u ^ (2 * M + 3) / INR (2 * M + 3) - e * (atan u - ap M u)) (fun t => t ^ (2 * M + 2) - (t * t) ^ S M * / (1 + t * t)) b Hb).
    - rewrite atan_0, A0. rewrite pow_i by lia. unfold Rdiv. ring.
    - intros t _. apply d_minus; [|apply D]. replace (2 * M + 3)%nat with (S (2 * M + 2)) by lia. apply d_power.
    - intros t _. replace (t ^ (2 * M + 2)) with ((t * t) ^ S M) by (replace (2 * M + 2)%nat with (2 * S M)%nat by lia; rewrite pow_mult; f_equal; ring). pose proof (PT t). pose proof (IT t). assert ((t * t) ^ S M * / (1 + t * t) <= (t * t) ^ S M * 1) by (apply Rmult_le_compat_l; lra). lra. }
  assert (EB : b ^ (2 * M + 3) / INR (2 * M + 3) = b * (b * b) * (b * b) ^ M * aC M). { unfold aC, Rdiv. f_equal. rewrite pow_add, pow_mult. replace (b ^ 2) with (b * b) by ring. cbn [pow]. ring. }
  rewrite <- EB. replace (Rabs (atan b - ap M b)) with (e * (atan b - ap M b)); [lra|]. rewrite <- (Rabs_pos_eq _ L), Rabs_mult, E1. ring.
Qed.
Lemma atan_le_id x : 0 <= x -> atan x <= x.
Proof.
  intros H. assert (0 <= 1 * x - atan x); [|lra]. apply (nonneg (fun u => 1 * u - atan u) (fun t => 1 - / (1 + t * t)) x H); [rewrite atan_0; ring| |].
  - intros t _. apply d_minus; [apply d_lin|apply d_atan].
  - intros t _. assert (/ (1 + t * t) <= 1) by (rewrite <- Rinv_1; apply Rinv_le_contravar; nra). lra.
Qed.
