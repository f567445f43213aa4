(** A sharper bound of the error of the series of the logarithm: the logarithm of a number
    between 1/2 and 3/4 is found within eight roundings. *)

From Coq Require Import ZArith List Bool Lia Reals Lra.
From Flocq Require Import Core Relative.
From Verif Require Import Words IntModel Mantissa Num Pow Consts Elem Series Ln SpecZ SpecOps SpecConst WordsP Spec RealP RealP2 NumP CmpP AddP SetP AddNum MulNum DivNum RootNum ArithTop ConvNum Conv2Num RootP ConstP ConstNum ExtP PowExt Refute1 ElemR ElemDom ApproxR ApproxNum SeriesP SeriesNum SinhNum SinhTop ExpNum LnR LnConst LnNum.
Import ListNotations.
Open Scope Z_scope.
Ltac Zify.zify_post_hook ::= idtac.
Arguments Z.mul : simpl never.
Arguments Z.add : simpl never.
Arguments Z.pow : simpl never.
Arguments Z.sub : simpl never.
Arguments Z.of_nat : simpl never.
Ltac dlia := Z.div_mod_to_equations; lia.

(** ** One rounding *)
Definition eta (W : Z) : R := (65 / 64 * bpow radix2 (1 - W))%R.
Lemma eta_pos W : (0 < eta W)%R.
Proof. unfold eta. pose proof (bpow_gt_0 radix2 (1 - W)). lra. Qed.
Lemma eps_eta W : (eps W = 128 / 65 * eta W)%R.
Proof. unfold eps, eta. replace (2 - W) with (1 + (1 - W)) by ring. rewrite bpow_plus. change (bpow radix2 1) with 2%R. field. Qed.
Lemma eta_small W : 128 <= W -> (eta W <= / 1152921504606846976)%R.
Proof. intros H. unfold eta. assert (B : (bpow radix2 (1 - W) <= bpow radix2 (-61))%R) by (apply bpow_le; lia). change (bpow radix2 (-61)) with (/ 2305843009213693952)%R in B. lra. Qed.
Lemma lc_near e r v : (0 < r)%R -> (0 <= e <= / 128)%R -> (Rabs (v - r) <= e * r)%R -> lc (65 / 64 * e) r v.
Proof.
  intros R E H. split; [exact R|]. apply Rabs_le_inv in H. set (d := (65 / 64 * e)%R). pose proof (exp_ineq1_le d) as U. split.
  - apply Rle_trans with (r * (1 - e))%R; [|lra]. apply Rmult_le_compat_l; [lra|]. assert (1 <= exp d * (1 - e))%R. { apply Rle_trans with ((1 + d) * (1 - e))%R; [unfold d; assert (0 <= e * (/ 128 - e))%R by (apply Rmult_le_pos; lra); lra|apply Rmult_le_compat_r; lra]. }
    apply Rmult_le_reg_l with (exp d); [apply exp_pos|]. assert (X1 : (exp d * exp (- d) = 1)%R) by (rewrite <- exp_plus, Rplus_opp_r; apply exp_0). lra.
  - apply Rle_trans with (r * (1 + e))%R; [lra|]. apply Rmult_le_compat_l; [lra|]. unfold d in *. lra.
Qed.
Lemma exp_near d : (0 <= d <= / 128)%R -> (exp d <= 1 + 65 / 64 * d)%R.
Proof.
  intros D. assert (E : (exp d * (1 - d) <= 1)%R). { pose proof (exp_ineq1_le (- d)). assert (X1 : (exp d * exp (- d) = 1)%R) by (rewrite <- exp_plus, Rplus_opp_r; apply exp_0). pose proof (exp_pos d). assert (exp d * (1 - d) <= exp d * exp (- d))%R by (apply Rmult_le_compat_l; lra). lra. }
  apply Rmult_le_reg_r with (1 - d)%R; [lra|]. eapply Rle_trans; [exact E|]. assert (0 <= d * (/ 128 - d))%R by (apply Rmult_le_pos; lra). lra.
Qed.
Lemma lc_abs_near d a v : (0 <= d <= / 128)%R -> lc d a v -> (Rabs (v - a) <= 65 / 64 * d * a)%R.
Proof.
  intros D (A & L & U). pose proof (exp_near d D) as X. pose proof (exp_ineq1_le (- d)) as Y. apply Rabs_le. split.
  - assert (a * (1 - d) <= v)%R by (eapply Rle_trans; [|exact L]; apply Rmult_le_compat_l; lra). nra.
  - assert (v <= a * (1 + 65 / 64 * d))%R by (eapply Rle_trans; [exact U|]; apply Rmult_le_compat_l; lra). nra.
Qed.
(** A sum whose second part is small. *)
Lemma lc_wadd d1 d2 a b v w t : (0 <= d1)%R -> (0 <= d2 <= / 2)%R -> (0 <= t <= 1)%R -> (b <= t * a)%R -> lc d1 a v -> lc d2 b w -> lc (d1 + 2 * t * d2) (a + b) (v + w).
Proof.
  intros D1 D2 T B (A & L1 & U1) (B0 & L2 & U2). split; [lra|]. pose proof (exp_upper d2 D2) as X. pose proof (exp_ineq1_le (- d2)) as Y. pose proof (exp_ge1 d1 D1) as E1. pose proof (exp_pos (- d1)) as E2. assert (E4 : (exp (- d1) <= 1)%R) by (rewrite <- exp_0; apply exp_mono; lra).
  assert (T0 : (0 <= t * d2 <= / 2)%R) by nra. split.
  - replace (- (d1 + 2 * t * d2))%R with (- d1 + - (2 * (t * d2)))%R by ring. rewrite exp_plus. pose proof (exp_half_lower (t * d2) T0) as H.
    apply Rle_trans with (exp (- d1) * ((a + b) * (1 - t * d2)))%R.
    { replace ((a + b) * (exp (- d1) * exp (- (2 * (t * d2)))))%R with (exp (- d1) * ((a + b) * exp (- (2 * (t * d2)))))%R by ring. apply Rmult_le_compat_l; [lra|]. apply Rmult_le_compat_l; lra. }
    apply Rle_trans with (exp (- d1) * (a + b * (1 - d2)))%R; [apply Rmult_le_compat_l; [lra|nra]|]. assert (b * (1 - d2) <= w)%R by (eapply Rle_trans; [|exact L2]; apply Rmult_le_compat_l; lra).
    assert (exp (- d1) * (b * (1 - d2)) <= w)%R; [|lra]. assert (0 <= b * (1 - d2))%R by (apply Rmult_le_pos; lra). nra.
  - rewrite exp_plus. pose proof (exp_ineq1_le (2 * t * d2)) as H.
    apply Rle_trans with (exp d1 * ((a + b) * (1 + 2 * t * d2)))%R.
    2:{ replace ((a + b) * (exp d1 * exp (2 * t * d2)))%R with (exp d1 * ((a + b) * exp (2 * t * d2)))%R by ring. apply Rmult_le_compat_l; [lra|]. apply Rmult_le_compat_l; lra. }
    assert (w <= b * (1 + 2 * d2))%R by (eapply Rle_trans; [exact U2|]; apply Rmult_le_compat_l; lra).
    apply Rle_trans with (exp d1 * (a + b * (1 + 2 * d2)))%R; [|apply Rmult_le_compat_l; [lra|nra]]. assert (w <= exp d1 * (b * (1 + 2 * d2)))%R; [|lra]. assert (0 <= b * (1 + 2 * d2))%R by (apply Rmult_le_pos; lra). nra.
Qed.

Definition near (d : R) (s : sign) (a : R) (v : num) : Prop := wf v /\ normal v /\ ns v = s /\ lc d a (Rabs (value v)).
Lemma near_apx P s k a v : apx P s k a v -> near (IZR k * eps P) s a v.
Proof. exact (fun H => H). Qed.
Lemma near_weak d d' s a v : (d <= d')%R -> near d s a v -> near d' s a v.
Proof. intros H (W & N & S & L). split; [exact W|]. split; [exact N|]. split; [exact S|]. eapply lc_weak; eassumption. Qed.
Lemma near_trans d e s a b v : lc d a b -> near e s b v -> near (d + e) s a v.
Proof. intros H (W & N & S & L). split; [exact W|]. split; [exact N|]. split; [exact S|]. eapply lc_trans; eassumption. Qed.
Lemma near_round q rm r s ix res d a : correctly_rounded q rm r s ix res -> 128 <= q -> lc d a (Rabs r) -> (d <= 1)%R -> mid a ->
  exists v, res = Ok v /\ near (d + eta q) s a v /\ 64 * wlen v = q /\ (ix = true -> ninexact v = true).
Proof.
  intros C HQ L D [M1 M2]. destruct (lc_factor _ _ _ D L) as [F1 F2].
  assert (RR : (bpow radix2 (- HX - 8) <= Rabs r <= bpow radix2 (HX + 8))%R).
  { replace (- HX - 8) with (-8 + - HX) by ring. rewrite Z.add_comm, !bpow_plus. change (bpow radix2 (-8)) with (/ 256)%R. change (bpow radix2 8) with 256%R.
    pose proof (bpow_gt_0 radix2 (- HX)) as G1. pose proof (bpow_gt_0 radix2 HX) as G2. clear - F1 F2 M1 M2 G1 G2. set (b1 := bpow radix2 (- HX)) in *. set (b2 := bpow radix2 HX) in *. clearbody b1 b2. split; lra. }
  destruct (cut_apx q q rm r s ix res C ltac:(lia) RR) as (v & E & W & N & S & Lq & _ & I).
  unfold correctly_rounded in C. cbv zeta in C. destruct C as [_ C]. assert (Hq : 0 < q) by lia. destruct RR as [R1 R2].
  assert (Z1 : (bpow radix2 (- HX - 8) <= Rabs (rnd_prec q rm r))%R). { unfold rnd_prec. apply abs_round_ge_generic; [apply FLX_exp_valid; exact Hq|apply rnd_valid| |exact R1]. apply generic_format_bpow. unfold FLX_exp. lia. }
  assert (Z2 : (Rabs (rnd_prec q rm r) <= bpow radix2 (HX + 8))%R). { unfold rnd_prec. apply abs_round_le_generic; [apply FLX_exp_valid; exact Hq|apply rnd_valid| |exact R2]. apply generic_format_bpow. unfold FLX_exp. lia. }
  assert (L1 : (bpow radix2 (HX + 8) < bpow radix2 EMAX)%R) by (apply bpow_lt; vm_compute; reflexivity). assert (L2 : (bpow radix2 (EMIN - 1) <= bpow radix2 (- HX - 8))%R) by (apply bpow_le; vm_compute; discriminate).
  destruct C as (v' & E' & _ & _ & _ & Nv & _); [eapply Rle_lt_trans; [exact Z2|exact L1]|]. rewrite E in E'. injection E' as <-. destruct Nv as [V _]; [eapply Rle_trans; [exact L2|exact Z1]|].
  exists v. split; [exact E|]. split; [|split; [exact Lq|exact I]]. split; [exact W|]. split; [exact N|]. split; [exact S|].
  pose proof (bpow_gt_0 radix2 (- HX - 8)) as G. assert (NZ : r <> 0%R). { intros ->. rewrite Rabs_R0 in R1. apply (Rlt_irrefl 0). eapply Rlt_le_trans; [exact G|exact R1]. }
  assert (Rp : (0 < Rabs r)%R) by now apply Rabs_pos_lt.
  pose proof (relative_error_FLX radix2 q Hq (rnd rm) r NZ) as RE. fold (rnd_prec q rm r) in RE. rewrite <- V in RE. replace (- q + 1) with (1 - q) in RE by ring.
  eapply lc_trans; [exact L|]. unfold eta. pose proof (bpow_ge_0 radix2 (1 - q)) as E0. assert (E2 : (bpow radix2 (1 - q) <= bpow radix2 (-7))%R) by (apply bpow_le; lia). change (bpow radix2 (-7)) with (/ 128)%R in E2.
  apply lc_near; [exact Rp|lra|]. eapply Rle_trans; [apply Rabs_triang_inv2|]. left. exact RE.
Qed.

Section Ops.
Variables (W p : Z) (rm : rmode).
Hypothesis HW : 128 <= W.
Hypothesis HWp : prec_up p = W.
Hypothesis HL : W < P_LIM.
Let Pp : 0 < p.
Proof. clear HL. unfold prec_up in HWp. dlia. Qed.
Let HL' : prec_up p < P_LIM.
Proof. clear - HWp HL. lia. Qed.
Lemma near_mul s t d e a b v w : near d s a v -> near e t b w -> (d + e <= 1)%R -> mid (a * b) ->
  exists q, n_mul v w p rm = Ok q /\ near (d + e + eta W) (sign_mul s t) (a * b) q /\ 64 * wlen q = W /\ (ninexact v || ninexact w = true -> ninexact q = true).
Proof.
  intros (Wv & [_ Nv] & <- & Lv) (Ww & [_ Nw] & <- & Lw) Hk M. pose proof (mul_nonzero v w p rm Wv Ww Nv Nw Pp HL') as C. rewrite HWp in C.
  apply (near_round W rm _ _ _ _ (d + e) (a * b) C HW); [|exact Hk|exact M]. rewrite Rabs_mult. now apply lc_mul.
Qed.
Lemma near_div s t d e a b v w : near d s a v -> near e t b w -> (d + e <= 1)%R -> mid (a / b) ->
  exists q, n_div v w p rm = Ok q /\ near (d + e + eta W) (sign_mul s t) (a / b) q /\ 64 * wlen q = W /\ (ninexact v || ninexact w = true -> ninexact q = true).
Proof.
  intros (Wv & [_ Nv] & <- & Lv) (Ww & [_ Nw] & <- & Lw) Hk M. pose proof (div_nonzero v w p rm Wv Ww Nv Nw Pp HL') as C. rewrite HWp in C.
  apply (near_round W rm _ _ _ _ (d + e) (a / b) C HW); [|exact Hk|exact M]. unfold Rdiv. rewrite Rabs_mult, Rabs_inv. apply lc_mul; [exact Lv|now apply lc_inv].
Qed.
Lemma near_add s d1 d2 a b v w D : near d1 s a v -> near d2 s b w -> (D <= 1)%R -> lc D (a + b) (Rabs (value v) + Rabs (value w)) -> mid (a + b) ->
  exists q, n_add v w p rm = Ok q /\ near (D + eta W) s (a + b) q /\ 64 * wlen q = W /\ (ninexact v || ninexact w = true -> ninexact q = true).
Proof.
  intros (Wv & [_ Nv] & Sv & Lv) (Ww & [_ Nw] & Sw & Lw) Hk LD M.
  pose proof (add_sub_nonzero v w p 1 rm Wv Ww Nv Nw (or_introl eq_refl) Pp HL') as [C _]. rewrite Rmult_1_l in C.
  pose proof (value_has_sign v Wv Nv) as V. pose proof (value_has_sign w Ww Nw) as W0. rewrite Sv in V. rewrite Sw in W0.
  assert (A : Rabs (value v + value w) = (Rabs (value v) + Rabs (value w))%R /\ has_sign s (value v + value w)).
  { unfold has_sign in *. destruct s; cbn [sgnZ] in *; (split; [|lra]); [rewrite !Rabs_left by lra; lra|rewrite !Rabs_pos_eq by lra; lra]. }
  destruct A as [A Hs]. destruct C as (t & Ht & C). { intros E. rewrite E in Hs. unfold has_sign in Hs. lra. }
  assert (t = s) as ->. { unfold has_sign in *. destruct s, t; auto; cbn [sgnZ] in *; exfalso; lra. }
  rewrite HWp in C. apply (near_round W rm _ _ _ _ D (a + b) C HW); [|exact Hk|exact M]. rewrite A. exact LD.
Qed.
End Ops.

Lemma psum_C0 C X : (forall j, (0 < C j <= 1)%R) -> (forall j, (C (S j) <= C j)%R) -> (0 < X <= / 2)%R -> forall j n, (0 <= psum C X j n <= 2 * C j)%R.
Proof.
  intros HC HCd HX. assert (B : forall n j, (0 <= psum C X j n <= 2 * C j - 2 * C j * X ^ n)%R).
  2:{ intros j n. specialize (B n j). assert (0 <= X ^ n)%R by (apply pow_le; lra). specialize (HC j). nra. }
  assert (CL : forall j n, (C (j + n)%nat <= C j)%R). { intros j n. induction n as [|n IH]; [rewrite Nat.add_0_r; lra|]. rewrite Nat.add_succ_r. eapply Rle_trans; [apply HCd|exact IH]. }
  intros n j. induction n as [|n IH]; [cbn [psum pow]; lra|]. cbn [psum pow]. specialize (CL j n). pose proof (HC (j + n)%nat) as H1. assert (0 <= X ^ n)%R by (apply pow_le; lra). 
  assert (0 <= C (j + n)%nat * X ^ n <= C j * X ^ n)%R by (split; [apply Rmult_le_pos; lra|apply Rmult_le_compat_r; lra]). split; [nra|]. assert (C j * (X * X ^ n) <= C j * (/ 2 * X ^ n))%R by (pose proof (HC j); apply Rmult_le_compat_l; [lra|]; apply Rmult_le_compat_r; lra). lra.
Qed.
