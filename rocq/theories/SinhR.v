(** Facts about the hyperbolic sine: its Taylor polynomial, tripling, and how a relative
    change of the argument changes the value. *)

From Coq Require Import Reals Lra Arith Lia.
From Verif Require Import ElemR ApproxR.
Open Scope R_scope.

(** ** Taylor polynomials of cosh and sinh with the terms of degree below [n] *)
Fixpoint tpair (n : nat) (t : R) : R * R :=
  match n with
  | O => (0, 0)
  | S k => (snd (tpair k t), fst (tpair k t) + t ^ k / INR (fact k))
  end.
Definition tp (n : nat) (t : R) : R := fst (tpair n t).
Lemma tp0 t : tp 0 t = 0. Proof. reflexivity. Qed.
Lemma tp1 t : tp 1 t = 0. Proof. reflexivity. Qed.
Lemma tp_step k t : tp (S (S k)) t = tp k t + t ^ k / INR (fact k).
Proof. reflexivity. Qed.

Definition hyp (n : nat) : R -> R := if Nat.even n then cosh else sinh.
Lemma hyp_succ n t : derivable_pt_lim (hyp (S n)) t (hyp n t).
Proof. unfold hyp. rewrite Nat.even_succ. unfold Nat.odd. destruct (Nat.even n); cbn [negb]; [apply derivable_pt_lim_sinh|apply derivable_pt_lim_cosh]. Qed.

Lemma INR_fact_pos n : 0 < INR (fact n).
Proof. apply lt_0_INR, lt_O_fact. Qed.
Lemma d_term k t : derivable_pt_lim (fun x => x ^ S k / INR (fact (S k))) t (t ^ k / INR (fact k)).
Proof.
  apply d_eq with (INR (S k) * t ^ k * / INR (fact (S k))).
  - unfold Rdiv. eapply d_eq; [apply (derivable_pt_lim_mult (fun x => x ^ S k) (fun _ => / INR (fact (S k)))); [apply derivable_pt_lim_pow|apply derivable_pt_lim_const]|]. cbn [pred]. ring.
  - replace (fact (S k)) with (S k * fact k)%nat by reflexivity. rewrite mult_INR. pose proof (INR_fact_pos k). assert (0 < INR (S k)) by (apply lt_0_INR; lia). field. lra.
Qed.
Lemma d_tp n : (forall t, derivable_pt_lim (tp (S n)) t (tp n t)) /\ (forall t, derivable_pt_lim (tp (S (S n))) t (tp (S n) t)).
Proof.
  induction n as [|n [IH1 IH2]].
  - split; intros t.
    + apply (d_eq (fun _ => 0) t 0 0); [apply derivable_pt_lim_const|reflexivity].
    + apply (d_eq (fun x => 0 + x ^ 0 / INR (fact 0)) t 0); [|reflexivity]. cbn [pow fact INR]. apply derivable_pt_lim_const.
  - split; [exact IH2|]. intros t. apply (d_eq (fun x => tp (S n) x + x ^ S n / INR (fact (S n))) t (tp n t + t ^ n / INR (fact n))).
    + apply (derivable_pt_lim_plus (tp (S n)) (fun x => x ^ S n / INR (fact (S n)))); [apply IH1|apply d_term].
    + rewrite tp_step. reflexivity.
Qed.

Lemma nonneg f f' x : 0 <= x -> f 0 = 0 -> (forall t, 0 <= t <= x -> derivable_pt_lim f t (f' t)) -> (forall t, 0 <= t <= x -> 0 <= f' t) -> 0 <= f x.
Proof.
  intros [H| <-] F0 D P; [|lra]. destruct (MVT_cor2 f f' 0 x H D) as (c & E & Hc). rewrite F0 in E. pose proof (P c ltac:(lra)) as Q. assert (0 <= f' c * (x - 0)) by (apply Rmult_le_pos; lra). lra.
Qed.

Lemma hyp_at0 n : hyp (S n) 0 - tp (S n) 0 = 0 /\ hyp (S (S n)) 0 - tp (S (S n)) 0 = 0.
Proof.
  induction n as [|n [IH1 IH2]].
  - split; [unfold hyp; cbn [Nat.even]; rewrite tp1, sinh_0; lra|]. unfold hyp. cbn [Nat.even]. rewrite tp_step, tp0, cosh_0. cbn. lra.
  - split; [exact IH2|]. rewrite tp_step. change (hyp (S (S (S n)))) with (hyp (S n)). rewrite pow_i by lia. unfold Rdiv. rewrite Rmult_0_l. lra.
Qed.

Lemma cosh_le a b : 0 <= a <= b -> cosh a <= cosh b.
Proof.
  intros [A [B| ->]]; [|lra]. destruct (MVT_cor2 cosh sinh a b B) as (c & E & Hc); [intros; apply derivable_pt_lim_cosh|].
  assert (0 <= sinh c) by (left; apply sinh_pos; lra). assert (0 <= sinh c * (b - a)) by (apply Rmult_le_pos; lra). lra.
Qed.

Lemma taylor x n : 0 <= x -> forall t, 0 <= t <= x -> 0 <= hyp n t - tp n t <= cosh x * (t ^ n / INR (fact n)).
Proof.
  intros Hx. induction n as [|n IH]; intros t Ht.
  - unfold hyp. cbn [Nat.even pow fact INR]. rewrite tp0. pose proof (cosh_pos t). pose proof (cosh_le t x Ht). lra.
  - split.
    + apply (nonneg (fun u => hyp (S n) u - tp (S n) u) (fun u => hyp n u - tp n u) t); [lra|apply (hyp_at0 n)| |].
      * intros u _. apply d_minus; [apply hyp_succ|apply (d_tp n)].
      * intros u Hu. apply IH. lra.
    + assert (0 <= cosh x * (t ^ S n / INR (fact (S n))) - (hyp (S n) t - tp (S n) t)); [|lra].
      apply (nonneg (fun u => cosh x * (u ^ S n / INR (fact (S n))) - (hyp (S n) u - tp (S n) u)) (fun u => cosh x * (u ^ n / INR (fact n)) - (hyp n u - tp n u)) t); [lra| | |].
      * rewrite (proj1 (hyp_at0 n)). rewrite pow_i by lia. unfold Rdiv. ring.
      * intros u _. apply d_minus; [|apply d_minus; [apply hyp_succ|apply (d_tp n)]]. eapply d_eq; [apply (derivable_pt_lim_scal (fun u => u ^ S n / INR (fact (S n))) (cosh x)); apply d_term|reflexivity].
      * intros u Hu. specialize (IH u ltac:(lra)). lra.
Qed.

Lemma taylor_sinh n x : 0 <= x -> 0 <= sinh x - tp (2 * n + 3) x <= cosh x * (x ^ (2 * n + 3) / INR (fact (2 * n + 3))).
Proof.
  intros H. pose proof (taylor x (2 * n + 3) H x ltac:(lra)) as T. unfold hyp in T. replace (Nat.even (2 * n + 3)) with false in T; [exact T|].
  symmetry. replace (2 * n + 3)%nat with (S (2 * (n + 1)))%nat by lia. rewrite Nat.even_succ. rewrite Nat.odd_mul. reflexivity.
Qed.

(** ** Tripling, scaling *)
Lemma sinh_triple y : sinh (3 * y) = 3 * sinh y + 4 * (sinh y * sinh y * sinh y).
Proof.
  unfold sinh. replace (3 * y) with (y + y + y) by ring. replace (- (y + y + y)) with (- y + - y + - y) by ring. rewrite !exp_plus. set (a := exp y). set (b := exp (- y)).
  assert (E : a * b = 1) by (unfold a, b; rewrite <- exp_plus, Rplus_opp_r; apply exp_0). clearbody a b.
  assert (E1 : a * a * b = a) by (rewrite Rmult_assoc, E; ring). assert (E2 : a * b * b = b) by (rewrite E; ring). nra.
Qed.
Lemma exp_sinh x : exp x = sinh x + sqrt (sinh x * sinh x + 1).
Proof.
  replace (sinh x * sinh x + 1) with (cosh x * cosh x) by (pose proof (cosh_sinh x); lra). rewrite sqrt_square by (left; apply cosh_pos). unfold sinh, cosh. lra.
Qed.

Lemma sinh_le a b : a <= b -> sinh a <= sinh b.
Proof. intros [H| ->]; [left; now apply sinh_lt|lra]. Qed.
Lemma d_sinh_scale c t : derivable_pt_lim (fun u => sinh (c * u)) t (c * cosh (c * t)).
Proof.
  eapply d_eq; [apply (derivable_pt_lim_comp (fun u => c * u) sinh t c (cosh (c * t))); [apply d_lin|apply derivable_pt_lim_sinh]|]. ring.
Qed.
Lemma sinh_scale c y : 1 <= c -> 0 <= y -> c * sinh y <= sinh (c * y).
Proof.
  intros Hc Hy. assert (0 <= sinh (c * y) - c * sinh y); [|lra].
  apply (nonneg (fun u => sinh (c * u) - c * sinh u) (fun u => c * cosh (c * u) - c * cosh u) y); [exact Hy|rewrite Rmult_0_r, sinh_0; ring| |].
  - intros t _. apply d_minus; [apply d_sinh_scale|]. eapply d_eq; [apply (derivable_pt_lim_scal sinh c); apply derivable_pt_lim_sinh|reflexivity].
  - intros t Ht. assert (cosh t <= cosh (c * t)) by (apply cosh_le; nra). assert (c * cosh t <= c * cosh (c * t)) by (apply Rmult_le_compat_l; lra). lra.
Qed.
Lemma exp_32 : exp (3 / 2) <= 6.
Proof.
  replace (3 / 2) with (1 + / 2) by lra. rewrite exp_plus. pose proof exp_le_3 as E. assert (exp (/ 2) * exp (/ 2) <= 3) by (rewrite <- exp_plus; replace (/ 2 + / 2) with 1 by lra; exact E). pose proof (exp_pos (/ 2)). assert (exp (/ 2) <= 2) by nra. pose proof (exp_pos 1). nra.
Qed.
Lemma cosh_32 u : 0 <= u <= 3 / 2 -> cosh u <= 4.
Proof.
  intros H. pose proof (cosh_le u (3 / 2) H) as L. unfold cosh in L at 2. pose proof exp_32. assert (exp (- (3 / 2)) <= exp 0) by (left; apply exp_increasing; lra). rewrite exp_0 in *. lra.
Qed.
Lemma sinh_scale4 c y : 1 <= c -> 0 < y -> c * y <= 3 / 2 -> sinh (c * y) <= c ^ 4 * sinh y.
Proof.
  intros [Hc| <-] Hy Hu; [|rewrite Rmult_1_l; cbn [pow]; lra].
  assert (D : forall t, derivable_pt_lim (fun t => t ^ 4 * sinh y - sinh (t * y)) t (4 * t ^ 3 * sinh y - y * cosh (t * y))).
  { intros t. apply d_minus.
    - eapply d_eq; [apply (derivable_pt_lim_mult (fun t => t ^ 4) (fun _ => sinh y)); [apply derivable_pt_lim_pow|apply derivable_pt_lim_const]|]. cbn [pred INR pow]. ring.
    - eapply d_eq; [apply (derivable_pt_lim_comp (fun t => t * y) sinh t y (cosh (t * y))); [|apply derivable_pt_lim_sinh]|ring].
      eapply d_eq; [apply (derivable_pt_lim_mult (fun t => t) (fun _ => y)); [apply derivable_pt_lim_id|apply derivable_pt_lim_const]|]. ring. }
  destruct (MVT_cor2 _ _ 1 c Hc (fun t _ => D t)) as (z & E & Hz). cbn beta in E. rewrite Rmult_1_l, pow1 in E.
  pose proof (sinh_gt y Hy) as G. assert (Z1 : 0 <= z * y <= 3 / 2) by nra. pose proof (cosh_32 _ Z1) as K. assert (1 <= z ^ 3) by (apply pow_R1_Rle; lra).
  assert (sinh y <= z ^ 3 * sinh y) by nra. assert (y * cosh (z * y) <= y * 4) by (apply Rmult_le_compat_l; lra).
  assert (0 <= (4 * z ^ 3 * sinh y - y * cosh (z * y)) * (c - 1)) by (apply Rmult_le_pos; lra). lra.
Qed.

(** Relative closeness of values and of arguments. *)
Lemma lc_arcsinh d y v : 0 <= d -> 0 < y -> lc d (sinh y) v -> lc d y (arcsinh v).
Proof.
  intros Hd Hy (A & L & U). split; [exact Hy|]. pose proof (exp_ge1 d Hd) as E1. pose proof (exp_pos (- d)) as E0. split.
  - rewrite <- (arcsinh_sinh (y * exp (- d))). assert (sinh (y * exp (- d)) <= v).
    { eapply Rle_trans; [|exact L]. pose proof (sinh_scale (exp d) (y * exp (- d)) E1 ltac:(apply Rmult_le_pos; lra)) as S. replace (exp d * (y * exp (- d))) with y in S; [|rewrite (Rmult_comm y), <- Rmult_assoc, <- exp_plus, Rplus_opp_r, exp_0; ring].
      apply (Rmult_le_compat_r (exp (- d))) in S; [|lra]. replace (exp d * sinh (y * exp (- d)) * exp (- d)) with (sinh (y * exp (- d))) in S; [exact S|].
      rewrite (Rmult_comm (exp d)), Rmult_assoc, <- exp_plus, Rplus_opp_r, exp_0. ring. }
    destruct H as [H| ->]; [left; now apply arcsinh_lt|lra].
  - rewrite <- (arcsinh_sinh (y * exp d)). assert (v <= sinh (y * exp d)).
    { eapply Rle_trans; [exact U|]. rewrite Rmult_comm, (Rmult_comm y). apply sinh_scale; lra. }
    destruct H as [H| ->]; [left; now apply arcsinh_lt|lra].
Qed.
Lemma exp_mul4 d : exp d ^ 4 = exp (4 * d).
Proof. cbn [pow]. replace (4 * d) with (d + (d + (d + d))) by ring. rewrite !exp_plus. ring. Qed.
Lemma lc_sinh d x y : 0 <= d -> 0 < x -> x * exp d <= 3 / 2 -> lc d x y -> lc (4 * d) (sinh x) (sinh y).
Proof.
  intros Hd Hx HB (_ & L & U). pose proof (exp_ge1 d Hd) as E1. pose proof (exp_pos (- d)) as E0. split; [now apply sinh_pos|]. split.
  - assert (0 < x * exp (- d)) by (apply Rmult_lt_0_compat; lra).
    pose proof (sinh_scale4 (exp d) (x * exp (- d)) E1 H) as S. replace (exp d * (x * exp (- d))) with x in S; [|rewrite (Rmult_comm x), <- Rmult_assoc, <- exp_plus, Rplus_opp_r, exp_0; ring].
    assert (x <= 3 / 2) by nra. specialize (S H0). rewrite exp_mul4 in S. apply (Rmult_le_compat_r (exp (- (4 * d)))) in S; [|left; apply exp_pos].
    eapply Rle_trans; [exact S|]. rewrite (Rmult_comm (exp (4 * d))), Rmult_assoc, <- exp_plus, Rplus_opp_r, exp_0, Rmult_1_r. now apply sinh_le.
  - eapply Rle_trans; [apply sinh_le; exact U|]. rewrite <- exp_mul4, (Rmult_comm (sinh x)), (Rmult_comm x). apply sinh_scale4; [exact E1|exact Hx|lra].
Qed.
