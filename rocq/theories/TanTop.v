(** The tangent for arguments below one in magnitude. *)

From Coq Require Import ZArith List Bool Lia Reals Lra.
From Flocq Require Import Core.
From Verif Require Import Words IntModel Mantissa Num Pow Consts Elem Series Exp Sin Ln Cos Tan SpecZ SpecOps SpecConst SpecPow SpecElem WordsP Spec RealP RealP2 NumP CmpP AddP SetP AddNum MulNum DivNum ArithTop ConvNum Conv2Num RootP ConstP ConstNum ExtP PowExt Refute1 ElemR ElemDom SmallP ElemNum ApproxR ApproxNum SeriesNum SinhR SinhNum SinhTop ExpNum RetryNum ConstReach SpecReach ExpTop HypNum HypTop TanhNum AltNum SinTop CosTop AtanR LnMant.
Import ListNotations.
Open Scope Z_scope.
Ltac Zify.zify_post_hook ::= idtac.
Arguments Z.mul : simpl never.
Arguments Z.add : simpl never.
Arguments Z.pow : simpl never.
Arguments Z.sub : simpl never.
Arguments Z.of_nat : simpl never.

(** ** Facts about the tangent *)
Lemma cos_low b : (0 <= b <= 102 / 100)%R -> (2 / 5 <= cos b)%R.
Proof. intros H. pose proof (pre_cos_bound b 0 ltac:(lra) ltac:(lra)) as [B _]. unfold cos_approx, cos_term in B. cbn in B. nra. Qed.
Lemma sin_low b : (0 <= b <= 102 / 100)%R -> (b / 2 <= sin b <= b)%R.
Proof. intros H. pose proof (pre_sin_bound b 0 ltac:(lra) ltac:(lra)) as [B C]. unfold sin_approx, sin_term in B. cbn in B. split; [nra|]. destruct (Req_dec b 0) as [->|N]; [rewrite sin_0; lra|]. left. apply sin_lt_x. lra. Qed.
Lemma tan_low b : (0 <= b <= 102 / 100)%R -> (b / 2 <= tan b <= 5 / 2 * b)%R.
Proof.
  intros H. pose proof (cos_low b H) as C. pose proof (sin_low b H) as S. pose proof (COS_bound b) as [_ C2]. unfold tan. split.
  - apply Rmult_le_reg_r with (cos b); [lra|]. unfold Rdiv at 2. rewrite Rmult_assoc, Rinv_l by lra. nra.
  - apply Rmult_le_reg_r with (cos b); [lra|]. unfold Rdiv at 1. rewrite Rmult_assoc, Rinv_l by lra. nra.
Qed.
Lemma tan_step_up a c : (0 < a)%R -> (1 <= c)%R -> (c * a <= 102 / 100)%R -> (tan a <= tan (c * a) <= tan a * (1 + 5 * (c - 1)))%R.
Proof.
  intros A C H. assert (A1 : (a <= c * a)%R) by nra. pose proof (cos_low a ltac:(lra)) as Ca. pose proof (cos_low (c * a) ltac:(lra)) as Cc. pose proof (sin_low a ltac:(lra)) as Sa. pose proof (sin_low (c * a - a) ltac:(lra)) as Sd.
  assert (E : (tan (c * a) - tan a = sin (c * a - a) / (cos (c * a) * cos a))%R). { unfold tan. rewrite sin_minus. field. lra. }
  assert (T : (tan a = sin a / cos a)%R) by reflexivity. assert (D0 : (0 < cos (c * a) * cos a)%R) by (apply Rmult_lt_0_compat; lra). split.
  - assert (0 <= sin (c * a - a) / (cos (c * a) * cos a))%R; [|lra]. unfold Rdiv. apply Rmult_le_pos; [lra|]. left. now apply Rinv_0_lt_compat.
  - assert (sin (c * a - a) / (cos (c * a) * cos a) <= tan a * (5 * (c - 1)))%R; [|lra]. rewrite T. apply Rmult_le_reg_r with (cos (c * a) * cos a)%R; [exact D0|]. unfold Rdiv at 1. rewrite Rmult_assoc, Rinv_l, Rmult_1_r by lra.
    replace (sin a / cos a * (5 * (c - 1)) * (cos (c * a) * cos a))%R with (5 * (c - 1) * (sin a * cos (c * a)))%R by (field; lra). assert (a / 2 * (2 / 5) <= sin a * cos (c * a))%R by (apply Rmult_le_compat; lra).
    apply Rle_trans with (c * a - a)%R; [lra|]. replace (c * a - a)%R with (5 * (c - 1) * (a / 2 * (2 / 5)))%R by field. apply Rmult_le_compat_l; lra.
Qed.
Lemma one_exp t : (0 <= t)%R -> (1 + t <= exp t)%R.
Proof. intros H. destruct (Req_dec t 0) as [->|N]; [rewrite exp_0; lra|]. left. apply exp_ineq1. lra. Qed.
Lemma tan_scale_exp a c d : (0 < a)%R -> (1 <= c <= exp d)%R -> (0 <= d <= / 2)%R -> (c * a <= 102 / 100)%R -> (tan a <= tan (c * a) <= tan a * exp (10 * d))%R.
Proof.
  intros A C D H. pose proof (tan_step_up a c A ltac:(lra) H) as [T1 T2]. split; [exact T1|]. eapply Rle_trans; [exact T2|]. pose proof (tan_low a) as TL. assert (a <= c * a)%R by nra. specialize (TL ltac:(lra)). apply Rmult_le_compat_l; [lra|]. pose proof (exp_upper d D) as U. eapply Rle_trans; [|apply one_exp; lra]. lra.
Qed.
Lemma lc_tan d a b : (0 <= d <= / 1024)%R -> (a <= 1)%R -> lc d a b -> lc (10 * d) (tan a) (tan b).
Proof.
  intros D A1 (A & B1 & B2). pose proof (exp_upper d ltac:(lra)) as U. pose proof (exp_ge1 d ltac:(lra)) as G. pose proof (exp_opp d) as EO. assert (EP : (0 < exp (- d))%R) by apply exp_pos.
  assert (b <= 102 / 100)%R by nra. assert (B0 : (0 < b)%R) by (eapply Rlt_le_trans; [|exact B1]; apply Rmult_lt_0_compat; lra). pose proof (tan_low a ltac:(lra)) as Ta. pose proof (tan_low b ltac:(lra)) as Tb.
  assert (E10 : (exp (10 * d) * exp (- (10 * d)) = 1)%R) by apply exp_opp. pose proof (exp_ge1 (10 * d) ltac:(lra)) as G10. assert (EP10 : (0 < exp (- (10 * d)))%R) by apply exp_pos.
  split; [lra|]. destruct (Rle_or_lt a b) as [L|L].
  - assert (C : (1 <= b / a <= exp d)%R). { split; apply Rmult_le_reg_r with a; try lra; unfold Rdiv; rewrite Rmult_assoc, Rinv_l by lra; lra. }
    pose proof (tan_scale_exp a (b / a) d A C ltac:(lra)) as T. replace (b / a * a)%R with b in T by (field; lra). specialize (T ltac:(lra)). split; [|lra]. assert (tan a * exp (- (10 * d)) <= tan a * 1)%R by (apply Rmult_le_compat_l; [lra|]; nra). lra.
  - assert (AB : (a <= b * exp d)%R). { replace a with (a * exp (- d) * exp d)%R by (rewrite Rmult_assoc, (Rmult_comm (exp (- d))), EO; ring). apply Rmult_le_compat_r; lra. }
    assert (C : (1 <= a / b <= exp d)%R). { split; apply Rmult_le_reg_r with b; try lra; unfold Rdiv; rewrite Rmult_assoc, Rinv_l by lra; lra. }
    pose proof (tan_scale_exp b (a / b) d B0 C ltac:(lra)) as T. replace (a / b * b)%R with a in T by (field; lra). specialize (T ltac:(lra)). split.
    + apply Rle_trans with (tan b * exp (10 * d) * exp (- (10 * d)))%R; [apply Rmult_le_compat_r; lra|]. rewrite Rmult_assoc, E10. lra.
    + assert (tan a * 1 <= tan a * exp (10 * d))%R by (apply Rmult_le_compat_l; lra). lra.
Qed.
(** The doubling step in terms of the angle. *)
Lemma atan_double u : (0 < u <= 3 / 5)%R -> (atan (2 * u / (1 - u * u)) = 2 * atan u)%R.
Proof.
  intros H. pose proof (atan_right_inv u) as T. pose proof (atan_le_id u ltac:(lra)) as A. pose proof (atan_pos u ltac:(lra)) as A0. pose proof one_lt_pi2 as P2. set (t := atan u) in *. assert (S : (2 * t < PI / 2)%R).
  { assert (P4 : (t < PI / 4)%R). { rewrite <- atan_1. unfold t. apply atan_increasing. lra. } lra. }
  assert (C1 : (0 < cos t)%R) by (apply cos_gt_0; lra). assert (C2 : (0 < cos (2 * t))%R) by (apply cos_gt_0; lra). rewrite <- T, <- tan_2a; [|lra|lra|rewrite T; nra]. rewrite atan_tan by lra. reflexivity.
Qed.

(** ** Restoration *)
Lemma double_apx P s k a v : apx P s k a v -> (bpow radix2 (- 2 ^ 28) <= Rabs (value v) <= 64)%R -> apx P s k (2 * a) (set_exponent v (ne v + 1)) /\ ninexact (set_exponent v (ne v + 1)) = ninexact v.
Proof.
  intros (W & N & S & L) [V1 V2]. destruct (normal_range v W N) as [N1 N2].
  assert (E1 : ne v - 1 <= 6) by (apply (le_bpow radix2); eapply Rle_trans; [exact N1|]; change (bpow radix2 6) with 64%R; exact V2). assert (E2 : - 2 ^ 28 < ne v) by (apply (lt_bpow radix2); eapply Rle_lt_trans; [exact V1|exact N2]).
  pose proof (set_exponent_spec v (ne v + 1) W ltac:(change EMIN with (-2147483648); change EMAX with 2147483647; clear - E1 E2; lia)) as SE. cbv zeta in SE. destruct SE as (W1 & L1 & S1 & I1 & VV). set (q := set_exponent v (ne v + 1)) in *. replace (ne v + 1 - ne v) with 1 in VV by ring. change (bpow radix2 1) with 2%R in VV. split; [|exact I1].
  assert (AV : Rabs (value q) = (2 * Rabs (value v))%R) by (rewrite VV, Rabs_mult, (Rabs_pos_eq 2) by lra; ring).
  split; [exact W1|]. split; [|split; [now rewrite S1|rewrite AV; apply lc_scale; [lra|exact L]]]. apply normal_iff; [exact W1|]. rewrite AV. eapply Rle_trans with (bpow radix2 (- 2 ^ 28)); [apply bpow_le; vm_compute; discriminate|]. pose proof (bpow_gt_0 radix2 (- 2 ^ 28)). lra.
Qed.
Section Restore.
Variables (P PO : Z).
Hypothesis HP : 128 <= P <= PO.
Hypothesis HPO : PO <= 2 ^ 22.
Hypothesis HP64 : prec_up PO = PO.
Let HPP : 128 <= P <= prec_up PO.
Proof. clear - HP HP64. lia. Qed.
Let HL : prec_up PO < P_LIM.
Proof. rewrite HP64. eapply Z.le_lt_trans; [exact HPO|]. vm_compute. reflexivity. Qed.
(** [v] is the tangent of an angle within [k] units of [y]. *)
Definition tapx (s : sign) (k : Z) (y : R) (v : num) : Prop := wf v /\ normal v /\ ns v = s /\ lc (IZR k * eps P) y (atan (Rabs (value v))).
Lemma tan_restore_ok s n : forall k y v, tapx s k y v -> 0 <= k -> k + 32 * Z.of_nat n <= 2 ^ 59 -> (bpow radix2 (- 2 ^ 27) <= y)%R -> (2 ^ n * y <= 1)%R -> 64 * wlen v = PO -> ninexact v = true ->
  exists q, tan_restore_loop n PO RNone v = Ok q /\ tapx s (k + 32 * Z.of_nat n) (2 ^ n * y) q /\ 64 * wlen q = PO /\ ninexact q = true.
Proof.
  induction n as [|n IH]; intros k y v Hv Hk HK Y1 Y2 Lv Iv.
  - exists v. cbn [tan_restore_loop pow]. split; [reflexivity|]. split; [|auto]. rewrite Rmult_1_l. replace (k + 32 * Z.of_nat 0) with k by lia. exact Hv.
  - cbn [tan_restore_loop pow] in *. assert (T1 : (1 <= 2 ^ n)%R) by (apply pow_R1_Rle; lra). assert (Y0 : (0 < y)%R) by (eapply Rlt_le_trans; [apply bpow_gt_0|exact Y1]). assert (Y3 : (2 * y <= 1)%R) by nra.
    destruct Hv as (W & N & S & L). set (u := Rabs (value v)) in *. assert (U0 : (0 < u)%R) by (apply Rabs_pos_lt; rewrite value_zero_iff; apply N).
    pose proof (eps_small P k ltac:(lia) ltac:(lia)) as KE. assert (KE2 : (bpow radix2 (-66) <= / 1024)%R) by (change (/ 1024)%R with (bpow radix2 (-10)); apply bpow_le; lia). pose proof (eps_pos P) as Ep. assert (D0 : (0 <= IZR k * eps P)%R) by (apply Rmult_le_pos; [apply IZR_le; lia|lra]).
    assert (D1 : (IZR k * eps P <= / 1024)%R) by lra. assert (D2 : (0 <= IZR k * eps P <= / 2)%R) by lra. pose proof (lc_abs _ _ _ D2 L) as LA. assert (LB : (Rabs (atan u - y) <= / 512 * y)%R) by (eapply Rle_trans; [exact LA|]; apply Rmult_le_compat_r; lra). apply Rabs_le_inv in LB.
    assert (UT : u = tan (atan u)) by now rewrite atan_right_inv. assert (U1 : (u <= 3 / 5)%R).
    { assert (AT : (0 < atan u <= 51 / 100)%R) by (split; [apply atan_pos; lra|lra]). set (t := atan u) in *. rewrite UT. unfold tan. pose proof (sin_low t ltac:(lra)) as [_ St]. pose proof (pre_cos_bound t 0 ltac:(lra) ltac:(lra)) as [B _]. unfold cos_approx, cos_term in B. cbn in B. assert (C : (86 / 100 <= cos t)%R) by nra. apply Rmult_le_reg_r with (cos t); [lra|]. unfold Rdiv at 1. rewrite Rmult_assoc, Rinv_l by lra. lra. }
    assert (UL : (bpow radix2 (- 2 ^ 27 - 1) <= u)%R). { pose proof (atan_le_id u ltac:(lra)). unfold Z.sub at 1. rewrite bpow_plus. change (bpow radix2 (- (1))) with (/ 2)%R. lra. }
    assert (Av : apx P s 0 u v) by (rewrite <- S; now apply apx_self).
    assert (UU : (bpow radix2 ((- 2 ^ 27 - 1) + (- 2 ^ 27 - 1)) <= u * u)%R) by now apply low_mul. assert (V2 : (0 < u * u <= 9 / 25)%R) by nra.
    assert (MH : forall j a, (bpow radix2 j <= a)%R -> (a <= 1024)%R -> - HX <= j -> mid a) by (intros j a J1 J2 J; apply (mid_range j 10); [exact J|vm_compute; discriminate|split; assumption]).
    destruct (apx_mul P PO RNone HPP HL _ _ _ _ _ _ _ _ Av Av ltac:(lia)) as (c1 & -> & A1 & _ & I1); [apply (MH _ _ UU); [lra|vm_compute; discriminate]|]. cbn [bind]. replace (sign_mul s s) with Pos in A1 by (destruct s; reflexivity).
    apply apx_sab in A1; [|lia|lia]. change (IZR (0 + 0 + 1)) with 1%R in A1. change (sr Pos) with 1%R in A1. rewrite Rmult_1_l in A1. assert (AO : sab 0 1 ONE) by (split; [exact ONE_wf|]; split; [exact ONE_normal|]; rewrite ONE_value, Rminus_diag_eq, Rabs_R0 by reflexivity; lra).
    assert (EU : (eps P <= / 1024)%R) by (change (/ 1024)%R with (bpow radix2 (-10)); unfold eps; apply bpow_le; lia). assert (EUU : (eps P * (u * u) <= eps P * 1)%R) by (apply Rmult_le_compat_l; lra). assert (EA : Rabs (1 - u * u) = (1 - u * u)%R) by (apply Rabs_pos_eq; lra).
    destruct (sab_sub P PO RNone HPP HL _ _ _ _ _ _ AO A1) as (c2 & -> & A2 & _ & I2); [rewrite EA; lra|rewrite EA; apply (MH (-1)); [change (bpow radix2 (-1)) with (/ 2)%R; lra|lra|vm_compute; discriminate]|]. cbn [bind]. rewrite EA in A2.
    assert (A3 : apx P Pos 20 (1 - u * u) c2). { rewrite <- (Rmult_1_l (1 - u * u)) in A2 at 2. change 1%R with (sr Pos) in A2 at 3. eapply (sab_apx P Pos 20 (1 - u * u)); [lia|lra|lia|exact A2|]. assert (eps P * / 2 <= eps P * (1 - u * u))%R by (apply Rmult_le_compat_l; lra). lra. }
    destruct (double_apx P s 0 u v Av) as [A4 I4]; [fold u; split; [eapply Rle_trans; [|exact UL]; apply bpow_le; lia|lra]|].
    assert (MD : (2 * u <= 2 * u / (1 - u * u) <= 4 * u)%R). { split; apply Rmult_le_reg_r with (1 - u * u)%R; try lra; unfold Rdiv; rewrite ?Rmult_assoc, ?Rinv_l by lra; nra. }
    destruct (apx_div P PO RNone HPP HL _ _ _ _ _ _ _ _ A4 A3 ltac:(lia)) as (q & -> & A5 & L5 & I5); [apply (MH (- 2 ^ 27 - 1)); [lra|lra|vm_compute; discriminate]|]. cbn [bind]. rewrite sign_mul_pos_r in A5. destruct A5 as (W5 & N5 & S5 & LC5).
    apply lc_atan in LC5; [|apply Rmult_le_pos; [apply IZR_le; lia|lra]]. rewrite (atan_double u ltac:(lra)) in LC5.
    destruct (IH (k + 32) (2 * y)%R q) as (r & -> & R1 & R2 & R3).
    + split; [exact W5|]. split; [exact N5|]. split; [exact S5|]. rewrite plus_IZR, Rmult_plus_distr_r. eapply lc_trans; [apply (lc_scale _ _ _ 2 ltac:(lra) L)|]. eapply lc_weak; [|exact LC5]. apply Rmult_le_compat_r; [lra|apply IZR_le; lia].
    + lia. + lia. + lra. + nra. + rewrite L5. exact HP64.
    + apply I5. apply orb_true_iff. left. now rewrite I4.
    + exists r. split; [reflexivity|]. split; [|auto]. replace (2 * 2 ^ n * y)%R with (2 ^ n * (2 * y))%R by ring. replace (k + 32 * Z.of_nat (Datatypes.S n)) with (k + 32 + 32 * Z.of_nat n) by lia. exact R1.
Qed.
End Restore.

(** ** The number of reductions *)
Definition tan_unit (p : Z) : Z := 2 * calc_mul_cost p + calc_add_cost p.
Lemma tan_iter_le p : 128 <= p -> 0 < tan_unit p /\ 0 <= tan_iter_cost p <= 5 * tan_unit p.
Proof. intros Hp. pose proof (mul_cost_nonneg p ltac:(lia)) as M. unfold tan_unit, tan_iter_cost, calc_add_cost. lia. Qed.
Lemma tan_loop_opt f p m step B : 128 <= p -> 1 <= step -> forall times c1,
  0 <= times -> match c1 with None => True | Some c => c <= B /\ step <= times /\ (times - step) * tan_unit p <= c end ->
  (c1 = None -> tan_iter_cost p * (series_niter p (tan_red_effect times m) / 1) + tan_red_cost times p <= B) ->
  (forall t, 0 <= t -> 0 <= series_niter p (tan_red_effect t m) / 1) ->
  forall n niter e, tan_optimize_loop f p m step times c1 = Some (n, niter, e) ->
  times - step <= n /\ (c1 = None -> times <= n) /\ n * tan_unit p <= B /\ e = tan_red_effect (n + step) m.
Proof.
  intros Hp Hs. destruct (tan_iter_le p Hp) as [U0 [U1 _]]. induction f as [|f IH]; intros times c1 Ht Hc1 HB HN n niter e E; [discriminate E|]. cbn [tan_optimize_loop] in E. cbv zeta in E.
  set (c2 := tan_iter_cost p * _ + tan_red_cost times p) in E.
  assert (C2 : times * tan_unit p <= c2). { unfold c2, tan_red_cost. fold (tan_unit p). pose proof (Z.mul_nonneg_nonneg _ _ U1 (HN times Ht)). lia. }
  destruct (match c1 with None => true | Some c => c2 <? c end) eqn:T.
  - apply IH in E; [|lia| |discriminate|exact HN].
    + destruct E as (E1 & _ & E3 & E4). split; [lia|]. split; [intros _; lia|]. auto.
    + split; [|split; [lia|replace (times + step - step) with times by ring; exact C2]]. destruct c1 as [c|]; [apply Z.ltb_lt in T; lia|]. apply HB. reflexivity.
  - destruct c1 as [c|]; [|discriminate T]. injection E as <- <- <-. destruct Hc1 as (Q1 & Q2 & Q3). split; [lia|]. split; [discriminate|]. split; [lia|]. replace (times - step + step) with times by ring. reflexivity.
Qed.
Lemma tan_optimize_spec f p m n niter e : 128 <= p <= 2 ^ 22 -> 0 <= m -> tan_optimize f p m = Some (n, niter, e) ->
  exists step, 3 <= step <= 11 /\ 0 <= n /\ step <= m + n /\ n <= p + 11 /\ e = n + step + m.
Proof.
  intros Hp Hm E. unfold tan_optimize in E. rewrite log2_floor_spec in E by lia. assert (L7 : 7 <= Z.log2 p) by (apply Z.log2_le_pow2; lia). assert (L22 : Z.log2 p <= 22). { change 22 with (Z.log2 (2 ^ 22)). apply Z.log2_le_mono. lia. }
  set (step := Z.log2 p / 2) in *. assert (HS : 3 <= step <= 11) by (unfold step; clear - L7 L22; dlia). clearbody step.
  set (r0 := if m <? step then step - m else 0) in *. assert (R0 : 0 <= r0 <= 11 /\ step <= m + r0) by (unfold r0; destruct (Z.ltb_spec m step); lia). clearbody r0.
  assert (NI : forall t, 0 <= t -> 0 <= series_niter p (tan_red_effect t m) / 1 /\ (series_niter p (tan_red_effect t m) / 1) * (t + m + 2) <= p).
  { intros t Ht. rewrite Z.div_1_r. unfold tan_red_effect. pose proof (niter_le p (t + m) ltac:(lia) ltac:(lia)) as [N1 N2]. split; [lia|]. assert (D : p / (t + m + 2) * (t + m + 2) <= p) by (rewrite Z.mul_comm; apply Z.mul_div_le; lia). assert (series_niter p (t + m) * (t + m + 2) <= p / (t + m + 2) * (t + m + 2)) by (apply Z.mul_le_mono_nonneg_r; lia). lia. }
  pose proof (NI r0 ltac:(lia)) as [N0 N1]. set (it0 := series_niter p (tan_red_effect r0 m) / 1) in *. assert (IT : 5 * it0 <= p) by nia. destruct (tan_iter_le p ltac:(lia)) as [U0 [U1 U2]].
  pose proof (tan_loop_opt f p m step ((5 * it0 + r0) * tan_unit p) ltac:(lia) ltac:(lia) r0 None ltac:(lia) I) as O.
  specialize (O ltac:(intros _; unfold tan_red_cost; fold (tan_unit p) it0; pose proof (Z.mul_le_mono_nonneg_r _ _ it0 N0 U2); lia) (fun t Ht => proj1 (NI t Ht)) n niter e E). destruct O as (_ & O2 & O3 & O4). specialize (O2 eq_refl).
  assert (n <= 5 * it0 + r0) by (apply Zmult_le_reg_r with (tan_unit p); lia).
  exists step. split; [exact HS|]. split; [lia|]. split; [lia|]. split; [lia|]. rewrite O4. unfold tan_red_effect. ring.
Qed.

(** ** The factorials *)
Lemma full_int v w a b : wf v -> normal v -> ns v = Pos -> value v = IZR a -> wf w -> normal w -> ns w = Pos -> value w = IZR b -> 0 < a -> 0 < b -> mid (IZR (a * b)) ->
  exists q, n_mul_full_prec v w = Ok q /\ wf q /\ normal q /\ ns q = Pos /\ value q = IZR (a * b).
Proof.
  intros Wv Nv Sv Vv Ww Nw Sw Vw Ha Hb [M1 M2]. pose proof (mul_full v w Wv Ww (proj2 Nv) (proj2 Nw)) as [_ M]. rewrite Vv, Vw, <- mult_IZR, Sv, Sw in M. assert (AB : 0 < a * b) by now apply Z.mul_pos_pos. assert (AR : Rabs (IZR (a * b)) = IZR (a * b)) by (apply Rabs_pos_eq, IZR_le; lia).
  destruct M as (q & -> & V & S & I & Ho & Nq & Hb2 & He & Hl).
  { rewrite AR. split; [eapply Rle_trans; [|exact M1]; apply bpow_le; vm_compute; discriminate|eapply Rle_lt_trans; [exact M2|]; apply bpow_lt; vm_compute; reflexivity]. }
  exists q. split; [reflexivity|]. split; [exact (trimmed_wf q (a * b) Ho Nq Hb2 He Hl V)|]. auto.
Qed.
Definition zfact (n : nat) : Z := Z.of_nat (fact n).
Lemma zfact_pos n : 0 < zfact n.
Proof. unfold zfact. pose proof (lt_O_fact n). lia. Qed.
Lemma zfact_S n : zfact (S n) = zfact n * (Z.of_nat n + 1).
Proof. unfold zfact. replace (fact (S n)) with (S n * fact n)%nat by reflexivity. rewrite Nat2Z.inj_mul. lia. Qed.
Lemma zfact_mid n : Z.of_nat n <= 2 ^ 24 -> mid (IZR (zfact n)).
Proof.
  intros H. apply (mid_range 0 (25 * 2 ^ 24)); [vm_compute; discriminate|vm_compute; discriminate|]. split; [change (bpow radix2 0) with (IZR 1); apply IZR_le; pose proof (zfact_pos n); lia|]. unfold zfact. rewrite <- INR_IZR_INZ. eapply Rle_trans; [apply (fact_pow 25)|]; [lia|lia|]. apply bpow_le. lia.
Qed.
Lemma count_next m v : counts m v -> 1 <= m < 2 ^ 40 -> exists q, n_add v ONE (mantissa_max_bit_len v) RNone = Ok q /\ counts (m + 1) q.
Proof.
  intros (Wi & Ni & Si & Li & Vi) Hm. rewrite max_len, Li.
  pose proof (add_sub_nonzero v ONE 64 1 RNone Wi ONE_wf ltac:(destruct Ni; assumption) ONE_nonzero (or_introl eq_refl) ltac:(lia) ltac:(vm_compute; reflexivity)) as [C _].
  rewrite Rmult_1_l, Vi, ONE_value in C. replace (IZR m + 1)%R with (IZR (m + 1)) in C by (rewrite plus_IZR; ring). change (prec_up 64) with 64 in C. assert (V0 : (0 < IZR (m + 1))%R) by (apply IZR_lt; lia).
  destruct C as (sg & HS & C); [lra|]. assert (sg = Pos) by (destruct sg; [|reflexivity]; unfold has_sign in HS; cbn [sgnZ] in HS; exfalso; lra). subst sg.
  apply cut_exact in C; [|lia|apply int_format; lia|rewrite Rabs_pos_eq by lra; apply mid_int; lia]. destruct C as (q & E & W & N & S & L & V). exists q. split; [exact E|]. unfold counts. auto.
Qed.
Section Series.
Variables (P PO : Z).
Hypothesis HP : 128 <= P <= PO.
Hypothesis HPO : PO <= 32640.
Hypothesis HP64 : prec_up PO = PO.
Let HPP : 128 <= P <= prec_up PO.
Proof. clear - HP HP64. lia. Qed.
Let HL : prec_up PO < P_LIM.
Proof. rewrite HP64. eapply Z.le_lt_trans; [exact HPO|]. vm_compute. reflexivity. Qed.
(** [fct] and [inc] when they stand at [n]; [fct] is exact while it is short. *)
Definition fct_at (n : nat) (fct inc : num) : Prop :=
  counts (Z.of_nat n) inc /\ apx P Pos (Z.of_nat n) (IZR (zfact n)) fct /\ (value fct = IZR (zfact n) \/ PO <= 64 * wlen fct).
Lemma tan_fct_ok n fct inc : fct_at n fct inc -> 1 <= Z.of_nat n < 2 ^ 24 -> exists f' i', tan_fct PO RNone fct inc = Ok (f', i') /\ fct_at (S n) f' i'.
Proof.
  intros (Hi & Hf & HE) Hn. unfold tan_fct. destruct (count_next _ _ Hi ltac:(lia)) as (i' & -> & Hi'). cbn [bind]. assert (EN : Z.of_nat n + 1 = Z.of_nat (S n)) by lia. pose proof Hi' as (Wi & Ni & Si & _ & Vi). assert (Ai : apx P Pos 0 (IZR (Z.of_nat n + 1)) i') by now apply apx_exact.
  pose proof (zfact_mid (S n) ltac:(lia)) as M. rewrite zfact_S in M. rewrite max_len. destruct (Z.ltb_spec (64 * wlen fct) PO) as [Q|Q].
  - destruct HE as [HE|HE]; [|exfalso; lia]. destruct Hf as (Wf & Nf & Sf & _).
    destruct (full_int fct i' _ _ Wf Nf Sf HE Wi Ni Si Vi (zfact_pos n) ltac:(lia) M) as (q & -> & Wq & Nq & Sq & Vq). cbn [bind]. exists q, i'. split; [reflexivity|]. rewrite <- zfact_S in Vq. unfold fct_at. rewrite <- EN at 1. split; [exact Hi'|]. split; [|now left]. eapply apx_weak; [|apply (apx_exact P q _ Wq Nq Sq Vq)]. lia.
  - rewrite mult_IZR in M. destruct (apx_mul P PO RNone HPP HL _ _ _ _ _ _ _ _ Hf Ai ltac:(lia) M) as (q & -> & Aq & Lq & _). cbn [bind sign_mul] in *. rewrite <- mult_IZR, <- zfact_S in Aq. exists q, i'. split; [reflexivity|]. unfold fct_at. rewrite <- EN at 1. split; [exact Hi'|]. split; [|right; lia]. eapply apx_weak; [|exact Aq]. lia.
Qed.

(** ** A step of a fraction *)
Definition frac (c e : R) (A : Z) (p q : num) : Prop :=
  wf p /\ normal p /\ wf q /\ normal q /\ (1 <= value q <= bpow radix2 A)%R /\ (Rabs (value p / value q - c) <= e)%R.
Lemma pos_sign_of v : wf v -> normal v -> (0 < value v)%R -> ns v = Pos.
Proof. intros W N V. pose proof (value_has_sign v W (proj2 N)) as H. unfold has_sign in H. destruct (ns v); cbn [sgnZ] in H; [lra|reflexivity]. Qed.
Lemma sr_le s t : (0 <= t)%R -> (- t <= sr s * t <= t)%R.
Proof. intros H. unfold sr. destruct s; cbn [sgnZ]; lra. Qed.
Lemma tan_frac_ok kT kF s a b A B C c e xxacc fct p q : frac c e A p q -> apx P s kT a xxacc -> apx P Pos kF b fct -> 0 <= kT -> 0 <= kF -> kT + kF <= 2 ^ 40 ->
  (2 <= b <= bpow radix2 B)%R -> (bpow radix2 (- C) <= a <= 1)%R -> 0 <= C <= 2 ^ 29 -> 0 <= A -> 0 <= B -> A + B + 4 <= HX ->
  (/ 2 <= c <= 1)%R -> (/ 2 <= c + sr s * (a / b) <= 1)%R -> (e <= / 16)%R -> (IZR (kT + kF) * (a / b) <= 16)%R ->
  exists p' q', tan_frac PO RNone xxacc fct p q = Ok (p', q') /\ frac (c + sr s * (a / b)) (e + 64 * eps P) (A + B + 2) p' q'.
Proof.
  intros (Wp & Np & Wq & Nq & HQ & Hr) HT HF KT KF KK Hb Ha HC HA HB HAB Hc Hc2 He Hk.
  pose proof (pos_sign_of q Wq Nq ltac:(lra)) as Sq. set (Q := value q) in *. set (r := (value p / Q)%R) in *. pose proof (Rabs_le_inv _ _ Hr) as Hr2. assert (R1 : (7 / 16 <= r <= 17 / 16)%R) by lra.
  assert (VP : value p = (r * Q)%R) by (unfold r; field; lra). assert (RQ : (0 < r * Q)%R) by (apply Rmult_lt_0_compat; lra). pose proof (pos_sign_of p Wp Np ltac:(lra)) as Sp.
  pose proof (apx_exact P p _ Wp Np Sp VP) as Ap. pose proof (apx_exact P q Q Wq Nq Sq eq_refl) as Aq.
  assert (EE : (0 < eps P <= / 1024)%R) by (split; [apply eps_pos|]; change (/ 1024)%R with (bpow radix2 (-10)); unfold eps; apply bpow_le; lia).
  destruct HT as (WT & NT & ST & LT). destruct HF as (WF & NF & SF & LF). pose proof (apx_self P xxacc WT NT) as AT. pose proof (apx_self P fct WF NF) as AF. rewrite ST in AT. rewrite SF in AF. set (T := Rabs (value xxacc)) in *. set (F := Rabs (value fct)) in *.
  assert (ES : forall k, 0 <= k <= 2 ^ 40 -> (0 <= IZR k * eps P <= / 1024)%R). { intros k K. split; [apply Rmult_le_pos; [apply IZR_le; lia|lra]|]. eapply Rle_trans; [apply eps_small; lia|]. change (/ 1024)%R with (bpow radix2 (-10)). apply bpow_le. lia. }
  pose proof (ES kT ltac:(lia)) as ET. pose proof (ES kF ltac:(lia)) as EF. pose proof (ES (kT + kF) ltac:(lia)) as ETF.
  assert (T1 : (Rabs (T - a) <= / 512 * a)%R). { eapply Rle_trans; [apply lc_abs; [|exact LT]; lra|]. apply Rmult_le_compat_r; [|lra]. pose proof (bpow_gt_0 radix2 (- C)); lra. } apply Rabs_le_inv in T1. pose proof (bpow_gt_0 radix2 (- C)) as GC.
  assert (F1 : (Rabs (F - b) <= / 512 * b)%R). { eapply Rle_trans; [apply lc_abs; [|exact LF]; lra|]. apply Rmult_le_compat_r; lra. } apply Rabs_le_inv in F1.
  set (t := (T / F)%R). assert (TF : T = (t * F)%R) by (unfold t; field; lra). assert (LTF : lc (IZR (kT + kF) * eps P) (a / b) t). { rewrite plus_IZR, Rmult_plus_distr_r. now apply lc_div. }
  assert (D1 : (Rabs (t - a / b) <= 32 * eps P)%R). { eapply Rle_trans; [apply lc_abs; [|exact LTF]; lra|]. replace (2 * (IZR (kT + kF) * eps P) * (a / b))%R with (2 * eps P * (IZR (kT + kF) * (a / b)))%R by ring. replace (32 * eps P)%R with (2 * eps P * 16)%R by ring. apply Rmult_le_compat_l; lra. } apply Rabs_le_inv in D1.
  assert (AB : (0 < a / b <= / 2)%R). { split; [apply Rdiv_lt_0_compat; lra|]. apply Rmult_le_reg_r with b; [lra|]. unfold Rdiv. rewrite Rmult_assoc, Rinv_l by lra. lra. }
  assert (T0 : (0 < t <= 1)%R) by (split; [unfold t; apply Rdiv_lt_0_compat; lra|lra]).
  set (ab := (a / b)%R) in *. clearbody ab. set (Z := (Q * F)%R). assert (QF : (1 * (3 / 2) <= Q * F)%R) by (apply Rmult_le_compat; lra). fold Z in QF.
  assert (ZU : (Z <= bpow radix2 (A + B + 1))%R). { unfold Z. rewrite !bpow_plus. change (bpow radix2 1) with 2%R. rewrite Rmult_assoc. apply Rmult_le_compat; lra. } assert (ZU4 : (4 * bpow radix2 (A + B + 1) <= bpow radix2 HX)%R). { change 4%R with (bpow radix2 2). rewrite <- bpow_plus. apply bpow_le. lia. }
  assert (HXL : (bpow radix2 (- HX) <= / 8)%R) by (change (/ 8)%R with (bpow radix2 (-3)); apply bpow_le; vm_compute; discriminate).
  unfold tan_frac. assert (M1 : (r * Q * F = r * Z)%R) by (unfold Z; ring).
  destruct (apx_mul P PO RNone HPP HL _ _ _ _ _ _ _ _ Ap AF ltac:(lia)) as (m1 & -> & A1 & _ & _); [rewrite M1; split; nra|]. cbn [bind]. rewrite M1 in A1.
  assert (M2 : (T * Q = t * Z)%R) by (rewrite TF; unfold Z; ring). destruct (apx_mul P PO RNone HPP HL _ _ _ _ _ _ _ _ AT Aq ltac:(lia)) as (n1 & -> & A2 & _ & _).
  { split; [|rewrite M2; nra]. apply Rle_trans with (bpow radix2 (- C - 1)); [apply bpow_le; unfold HX; lia|]. unfold Z.sub. rewrite bpow_plus. change (bpow radix2 (- (1))) with (/ 2)%R. apply Rle_trans with (T * 1)%R; [lra|]. apply Rmult_le_compat_l; lra. }
  cbn [bind]. rewrite M2 in A2. rewrite sign_mul_pos_r in A2. cbn [sign_mul] in A1. apply apx_sab in A1; [|lia|lia]. apply apx_sab in A2; [|lia|lia]. change (IZR (0 + 0 + 1)) with 1%R in A1, A2. change (sr (sign_mul Pos Pos)) with 1%R in A1.
  set (h := (r + sr s * t)%R). assert (EW : (1 * (r * Z) + sr s * (t * Z) = h * Z)%R) by (unfold h; ring). pose proof (sr_le s t ltac:(lra)) as SL.
  assert (HH : (Rabs (h - (c + sr s * ab)) <= e + 32 * eps P)%R). { unfold h. replace (r + sr s * t - (c + sr s * ab))%R with ((r - c) + sr s * (t - ab))%R by ring. unfold sr. apply Rabs_le. destruct s; cbn [sgnZ]; lra. } apply Rabs_le_inv in HH. assert (H1 : (3 / 8 <= h <= 9 / 8)%R) by lra.
  assert (HZ : (3 / 8 * Z <= h * Z <= 9 / 8 * Z)%R) by (split; apply Rmult_le_compat_r; lra). assert (RZ : (0 <= r * Z <= 17 / 16 * Z)%R) by (split; [apply Rmult_le_pos; lra|apply Rmult_le_compat_r; lra]). assert (TZ : (0 <= t * Z <= 1 * Z)%R) by (split; [apply Rmult_le_pos; lra|apply Rmult_le_compat_r; lra]). assert (EH : Rabs (h * Z) = (h * Z)%R) by (apply Rabs_pos_eq; lra).
  assert (EZ : (0 < eps P * Z <= / 1024 * Z)%R) by (split; [apply Rmult_lt_0_compat; lra|apply Rmult_le_compat_r; lra]). assert (ER : (eps P * (r * Z) <= eps P * (17 / 16 * Z))%R) by (apply Rmult_le_compat_l; lra). assert (ETZ : (eps P * (t * Z) <= eps P * (1 * Z))%R) by (apply Rmult_le_compat_l; lra). assert (EHZ : (eps P * (h * Z) <= eps P * (9 / 8 * Z))%R) by (apply Rmult_le_compat_l; lra).
  destruct (sab_add P PO RNone HPP HL _ _ _ _ _ _ A1 A2) as (p' & -> & A3 & _ & _); [rewrite EW, EH; lra|rewrite EW, EH; split; lra|]. cbn [bind]. rewrite EW, EH in A3. destruct A3 as (Wp' & Np' & A3).
  destruct (apx_mul P PO RNone HPP HL _ _ _ _ _ _ _ _ Aq AF ltac:(lia)) as (q' & -> & A4 & _ & _); [fold Z; split; lra|]. cbn [bind sign_mul] in *. fold Z in A4. destruct A4 as (Wq' & Nq' & Sq' & L4). change (sign_mul Pos Pos) with Pos in Sq'. change (IZR (0 + 0 + 1)) with 1%R in L4. rewrite Rmult_1_l in L4.
  pose proof (value_has_sign q' Wq' (proj2 Nq')) as V4. rewrite Sq' in V4. unfold has_sign in V4. cbn [sgnZ] in V4. rewrite Rabs_pos_eq in L4 by lra. apply lc_abs in L4; [|lra]. set (Q' := value q') in *. set (P' := value p') in *.
  exists p', q'. split; [reflexivity|]. split; [exact Wp'|]. split; [exact Np'|]. split; [exact Wq'|]. split; [exact Nq'|]. fold Q' P'. pose proof (Rabs_le_inv _ _ L4) as L5. split; [split; [lra|]|].
  - replace (A + B + 2) with (1 + (A + B + 1)) by ring. rewrite bpow_plus. change (bpow radix2 1) with 2%R. lra.
  - assert (D2 : (Rabs (P' / Q' - h) <= 21 * eps P)%R).
    { replace (P' / Q' - h)%R with ((P' - h * Z + h * (Z - Q')) / Q')%R by (field; lra). unfold Rdiv. rewrite Rabs_mult, (Rabs_pos_eq (/ Q')) by (left; apply Rinv_0_lt_compat; lra). apply Rmult_le_reg_r with Q'; [lra|]. rewrite Rmult_assoc, Rinv_l, Rmult_1_r by lra.
      eapply Rle_trans; [apply Rabs_triang|]. rewrite Rabs_mult, (Rabs_pos_eq h) by lra. rewrite Rabs_minus_sym in L4. assert (h * Rabs (Z - Q') <= 9 / 8 * (2 * eps P * Z))%R by (apply Rmult_le_compat; [lra|apply Rabs_pos|lra|exact L4]). assert (eps P * (/ 2 * Z) <= eps P * Q')%R by (apply Rmult_le_compat_l; lra). clear - H H0 A3 ER ETZ EHZ EZ. clearbody Z h t r Q' P'. eapply Rle_trans; [apply Rplus_le_compat; [exact A3|exact H]|]. lra. }
    apply Rabs_le_inv in D2. apply Rabs_le. lra.
Qed.

(** ** The loop of the series *)
Variable xx : num.
Hypothesis Wx : wf xx.
Hypothesis Nx : normal xx.
Hypothesis Sx : ns xx = Neg.
Variable M : Z.
Hypothesis HM : 0 <= M <= 2 ^ 24.
Notation X := (Rabs (value xx)).
Hypothesis HX1 : (bpow radix2 (- M) <= X <= / 2)%R.
Let X0 : (0 < X <= / 2)%R.
Proof. pose proof (bpow_gt_0 radix2 (- M)). lra. Qed.
Definition C1 (k : nat) : R := (1 - X * psum cC (- X) 0 k)%R.
Definition C2 (k : nat) : R := (1 - X * psum sC (- X) 0 k)%R.
Lemma sr_before k Y : (sr (before k) * Y ^ k = (- Y) ^ k)%R.
Proof. rewrite neg_pow. f_equal. unfold before, sr. induction k as [|k IH]; [cbn; lra|]. rewrite Nat.even_succ, <- Nat.negb_even. cbn [pow]. rewrite <- IH. destruct (Nat.even k); cbn; lra. Qed.
Lemma C1_S k : C1 (S k) = (C1 k + sr (before (S k)) * (X ^ S k / IZR (zfact (2 * k + 2))))%R.
Proof. unfold Rdiv. rewrite <- Rmult_assoc, sr_before. unfold C1. cbn [psum pow]. unfold cC, zfact. rewrite <- INR_IZR_INZ. cbn [Nat.add]. ring. Qed.
Lemma C2_S k : C2 (S k) = (C2 k + sr (before (S k)) * (X ^ S k / IZR (zfact (2 * k + 3))))%R.
Proof. unfold Rdiv. rewrite <- Rmult_assoc, sr_before. unfold C2. cbn [psum pow]. unfold sC, zfact. rewrite <- INR_IZR_INZ. cbn [Nat.add]. ring. Qed.
Lemma C1_range k : (/ 2 <= C1 k <= 1)%R.
Proof. unfold C1. pose proof (alt_range cC X cC_range cC_ratio X0 k 0) as A. pose proof (cC_range 0) as C. assert (0 <= X * psum cC (- X) 0 k <= / 2 * 1)%R by (split; [apply Rmult_le_pos; lra|apply Rmult_le_compat; lra]). lra. Qed.
Lemma C2_range k : (/ 2 <= C2 k <= 1)%R.
Proof. unfold C2. pose proof (alt_range sC X sC_range sC_ratio X0 k 0) as A. pose proof (sC_range 0) as C. assert (0 <= X * psum sC (- X) 0 k <= / 2 * 1)%R by (split; [apply Rmult_le_pos; lra|apply Rmult_le_compat; lra]). lra. Qed.
Lemma frac_weak c e e' A A' p q : (e <= e')%R -> A <= A' -> frac c e A p q -> frac c e' A' p q.
Proof. intros H1 H2 (Wp & Np & Wq & Nq & [Q1 Q2] & R). split; [exact Wp|]. split; [exact Np|]. split; [exact Wq|]. split; [exact Nq|]. split; [|lra]. split; [exact Q1|]. eapply Rle_trans; [exact Q2|]. now apply bpow_le. Qed.
Lemma zfact_ge n : Z.of_nat n <= zfact n.
Proof. destruct n as [|n]; [vm_compute; discriminate|]. rewrite zfact_S. pose proof (zfact_pos n). nia. Qed.
Lemma zfact_pow n : 2 ^ Z.of_nat n <= 2 * zfact n.
Proof. induction n as [|[|n] IH]; [vm_compute; discriminate|vm_compute; discriminate|]. rewrite zfact_S. rewrite (Nat2Z.inj_succ (S n)), Z.pow_succ_r by lia. pose proof (zfact_pos (S n)). nia. Qed.
Definition tan_inv (k : nat) (s : tan_state) : Prop :=
  apx P (before k) (Z.of_nat k) (X ^ k) (t_xxacc s) /\ fct_at (2 * k + 2) (t_fct s) (t_inc s) /\
  frac (C1 k) (64 * INR k * eps P) (Z.of_nat k * (PO + 64)) (t_p1 s) (t_q1 s) /\ frac (C2 k) (64 * INR k * eps P) (Z.of_nat k * (PO + 64)) (t_p2 s) (t_q2 s).
Lemma Xk k : (0 < X ^ k <= 1)%R.
Proof. split; [apply pow_lt; lra|]. rewrite <- (pow1 k). apply pow_incr. lra. Qed.
(** What the exponents tell. *)
Lemma inv_exps k s : tan_inv k s -> Z.of_nat k <= 2 ^ 20 -> ne (t_xxacc s) <= 1 /\ 2 * Z.of_nat k < ne (t_fct s) /\ (IZR (zfact (2 * k + 2)) <= bpow radix2 (ne (t_fct s) + 1))%R /\ (bpow radix2 (ne (t_xxacc s) - 2) <= X ^ k)%R /\
  (X ^ k * / IZR (zfact (2 * k + 2)) <= bpow radix2 (3 + ne (t_xxacc s) - ne (t_fct s)))%R.
Proof.
  intros ((Wa & Na & _ & La) & (_ & (Wf & Nf & _ & Lf) & _) & _) Hk. destruct (normal_range _ Wa Na) as [A1 A2]. destruct (normal_range _ Wf Nf) as [F1 F2].
  assert (ES : forall j, 0 <= j <= 2 ^ 40 -> (0 <= IZR j * eps P <= / 1024)%R). { intros j K. pose proof (eps_pos P). split; [apply Rmult_le_pos; [apply IZR_le; lia|lra]|]. eapply Rle_trans; [apply eps_small; lia|]. change (/ 1024)%R with (bpow radix2 (-10)). apply bpow_le. lia. }
  pose proof (Xk k) as X1. pose proof (zfact_pos (2 * k + 2)) as Z0. apply IZR_lt in Z0.
  pose proof (ES (Z.of_nat k) ltac:(lia)) as E1. pose proof (ES (Z.of_nat (2 * k + 2)) ltac:(lia)) as E2. apply lc_abs in La; [|lra]. apply lc_abs in Lf; [|lra].
  set (T := Rabs (value (t_xxacc s))) in *. set (F := Rabs (value (t_fct s))) in *. set (a := (X ^ k)%R) in *. set (b := IZR (zfact (2 * k + 2))) in *. set (d1 := (IZR (Z.of_nat k) * eps P)%R) in *. set (d2 := (IZR (Z.of_nat (2 * k + 2)) * eps P)%R) in *.
  assert (G1 : (2 * d1 * a <= / 2 * a)%R) by (apply Rmult_le_compat_r; lra). assert (G2 : (2 * d2 * b <= / 2 * b)%R) by (apply Rmult_le_compat_r; lra). apply Rabs_le_inv in La. apply Rabs_le_inv in Lf. assert (T1 : (/ 2 * a <= T <= 3 / 2 * a)%R) by lra. assert (T2 : (/ 2 * b <= F <= 3 / 2 * b)%R) by lra.
  assert (B1 : (bpow radix2 (2 * Z.of_nat k + 1) <= b)%R). { pose proof (zfact_pow (2 * k + 2)) as Q. apply IZR_le in Q. rewrite mult_IZR in Q. fold b in Q. rewrite <- bpow_IZR in Q by lia. replace (Z.of_nat (2 * k + 2)) with (1 + (2 * Z.of_nat k + 1)) in Q by lia. rewrite bpow_plus in Q. change (bpow radix2 1) with 2%R in Q. lra. }
  assert (EF : (bpow radix2 (ne (t_fct s)) = 2 * bpow radix2 (ne (t_fct s) - 1))%R) by (change 2%R with (bpow radix2 1); rewrite <- bpow_plus; f_equal; ring). assert (EA : (bpow radix2 (ne (t_xxacc s)) = 2 * bpow radix2 (ne (t_xxacc s) - 1))%R) by (change 2%R with (bpow radix2 1); rewrite <- bpow_plus; f_equal; ring).
  split; [|split; [|split; [|split]]].
  - assert (ne (t_xxacc s) - 1 < 1); [|lia]. apply (lt_bpow radix2). change (bpow radix2 1) with 2%R. lra.
  - apply (lt_bpow radix2). rewrite bpow_plus in B1. change (bpow radix2 1) with 2%R in B1. lra.
  - rewrite bpow_plus. change (bpow radix2 1) with 2%R. lra.
  - replace (ne (t_xxacc s) - 2) with (-1 + (ne (t_xxacc s) - 1)) by ring. rewrite bpow_plus. change (bpow radix2 (-1)) with (/ 2)%R. lra.
  - apply Rmult_le_reg_r with b; [lra|]. rewrite Rmult_assoc, Rinv_l, Rmult_1_r by lra. apply Rle_trans with (bpow radix2 (3 + ne (t_xxacc s) - ne (t_fct s)) * bpow radix2 (ne (t_fct s) - 2))%R.
    + rewrite <- bpow_plus. replace (3 + ne (t_xxacc s) - ne (t_fct s) + (ne (t_fct s) - 2)) with (1 + ne (t_xxacc s)) by ring. rewrite bpow_plus. change (bpow radix2 1) with 2%R. lra.
    + apply Rmult_le_compat_l; [apply bpow_ge_0|]. replace (ne (t_fct s) - 2) with (-1 + (ne (t_fct s) - 1)) by ring. rewrite bpow_plus. change (bpow radix2 (-1)) with (/ 2)%R. lra.
Qed.
Lemma tan_step_ok k s : tan_inv k s -> Z.of_nat k <= 2 ^ 20 -> ne (t_fct s) - ne (t_xxacc s) <= PO -> 2 * Z.of_nat k <= PO /\ exists s', tan_step PO RNone xx s = Ok s' /\ tan_inv (S k) s'.
Proof.
  intros I Hk G. destruct (inv_exps k s I Hk) as (E1 & E2 & E3 & E4 & _). destruct I as (Ia & If & I1 & I2). assert (K1 : 2 * Z.of_nat k <= PO) by lia. split; [exact K1|].
  assert (FU : (IZR (zfact (2 * k + 2)) <= bpow radix2 (PO + 2))%R) by (eapply Rle_trans; [exact E3|]; apply bpow_le; lia).
  assert (XL : (bpow radix2 (- (PO + 1 + M)) <= X ^ S k)%R). { cbn [pow]. rewrite Rmult_comm. replace (- (PO + 1 + M)) with (- (PO + 1) + - M) by ring. rewrite bpow_plus. apply Rmult_le_compat; [apply bpow_ge_0|apply bpow_ge_0| |apply HX1]. eapply Rle_trans; [|exact E4]. apply bpow_le. lia. }
  pose proof (Xk (S k)) as X1. pose proof (apx_self P xx Wx Nx) as Ax. rewrite Sx in Ax.
  unfold tan_step. assert (MX : mid (X ^ k * X)). { replace (X ^ k * X)%R with (X ^ S k)%R by (cbn [pow]; ring). apply (mid_range (- (PO + 1 + M)) 0); [unfold HX; lia|vm_compute; discriminate|]. change (bpow radix2 0) with 1%R. lra. }
  destruct (apx_mul P PO RNone HPP HL _ _ _ _ _ _ _ _ Ia Ax ltac:(lia) MX) as (xa & -> & Aa & _ & _). cbn [bind].
  replace (sign_mul (before k) Neg) with (before (S k)) in Aa by (unfold before; rewrite Nat.even_succ, <- Nat.negb_even; destruct (Nat.even k); reflexivity). replace (X ^ k * X)%R with (X ^ S k)%R in Aa by (cbn [pow]; ring). replace (Z.of_nat k + 0 + 1) with (Z.of_nat (S k)) in Aa by lia.
  pose proof (eps_pos P) as Ep. assert (EB : (64 * INR k * eps P <= / 16)%R). { rewrite INR_IZR_INZ, <- mult_IZR. eapply Rle_trans; [apply eps_small; lia|]. change (/ 16)%R with (bpow radix2 (-4)). apply bpow_le. lia. }
  assert (EN : (64 * INR k * eps P + 64 * eps P = 64 * INR (S k) * eps P)%R) by (rewrite S_INR; ring).
  assert (KB : forall n, Z.of_nat n <= 2 * Z.of_nat k + 3 -> 2 * Z.of_nat k + 2 <= Z.of_nat n -> (IZR (Z.of_nat (S k) + Z.of_nat n) * (X ^ S k / IZR (zfact n)) <= 16)%R).
  { intros n N1 N2. pose proof (zfact_ge n) as ZG. assert (F0 : (0 < IZR (zfact n))%R) by (apply (IZR_lt 0); apply zfact_pos). apply Rle_trans with (IZR (2 * Z.of_nat n) * (1 / IZR (zfact n)))%R.
    - apply Rmult_le_compat; [apply IZR_le; lia|apply Rmult_le_pos; [lra|left; now apply Rinv_0_lt_compat]|apply IZR_le; lia|]. apply Rmult_le_compat_r; [left; now apply Rinv_0_lt_compat|lra].
    - apply Rmult_le_reg_r with (IZR (zfact n)); [exact F0|]. unfold Rdiv. rewrite Rmult_1_l, Rmult_assoc, Rinv_l, Rmult_1_r by lra. apply IZR_le in ZG. rewrite mult_IZR. lra. }
  assert (AB : Z.of_nat k * (PO + 64) + (PO + 40) + 4 <= HX). { unfold HX. assert (Z.of_nat k * (PO + 64) <= 16320 * 32704) by (apply Z.mul_le_mono_nonneg; lia). lia. }
  assert (B2 : forall n, (2 <= n)%nat -> (2 <= IZR (zfact n))%R) by (intros n N; apply IZR_le; pose proof (zfact_ge n); lia).
  pose proof (C1_range k) as R1. pose proof (C1_range (S k)) as R2. rewrite C1_S in R2. pose proof (C2_range k) as R3. pose proof (C2_range (S k)) as R4. rewrite C2_S in R4.
  destruct (tan_frac_ok _ _ _ _ _ _ (PO + 40) (PO + 1 + M) _ _ _ _ _ _ I1 Aa (proj1 (proj2 If))) as (p1 & q1 & -> & J1); [clear; lia|clear; lia|clear - K1 HPO; lia| |split; [exact XL|apply X1]|clear - HP HPO HM; lia|clear - HP; nia|clear - HP; lia|exact AB|exact R1|exact R2|exact EB|apply KB; clear; lia|].
  { split; [apply B2; lia|]. eapply Rle_trans; [exact FU|]. apply bpow_le. lia. }
  cbn [bind]. destruct (tan_fct_ok _ _ _ If ltac:(lia)) as (f1 & i1 & -> & If1). cbn [bind fst snd]. replace (S (2 * k + 2)) with (2 * k + 3)%nat in If1 by lia.
  destruct (tan_frac_ok _ _ _ _ _ _ (PO + 40) (PO + 1 + M) _ _ _ _ _ _ I2 Aa (proj1 (proj2 If1))) as (p2 & q2 & -> & J2); [clear; lia|clear; lia|clear - K1 HPO; lia| |split; [exact XL|apply X1]|clear - HP HPO HM; lia|clear - HP; nia|clear - HP; lia|exact AB|exact R3|exact R4|exact EB|apply KB; clear; lia|].
  { split; [apply B2; lia|]. replace (2 * k + 3)%nat with (S (2 * k + 2)) by lia. rewrite zfact_S, mult_IZR. replace (PO + 40) with (PO + 2 + 38) by ring. rewrite bpow_plus. apply Rmult_le_compat; [apply (IZR_le 0); pose proof (zfact_pos (2 * k + 2)); lia|apply (IZR_le 0); lia|exact FU|]. rewrite bpow_IZR by lia. apply IZR_le. change (2 ^ 38) with 274877906944. clear - K1 HPO. lia. }
  cbn [bind]. destruct (tan_fct_ok _ _ _ If1 ltac:(lia)) as (f2 & i2 & -> & If2). cbn [bind fst snd]. replace (S (2 * k + 3)) with (2 * S k + 2)%nat in If2 by lia.
  eexists. split; [reflexivity|]. unfold tan_inv. cbn [t_xxacc t_fct t_inc t_p1 t_q1 t_p2 t_q2]. split; [exact Aa|]. split; [exact If2|]. rewrite C1_S, C2_S. split; (eapply frac_weak; [| |eassumption]; [rewrite EN; apply Rle_refl|lia]).
Qed.
Lemma tan_run_ok g : forall k s, tan_inv k s -> Z.of_nat k <= 2 ^ 19 -> (k = 0%nat \/ 2 * (Z.of_nat k - 1) <= PO) -> ends (tan_run_loop g PO RNone xx s) (fun s' => exists k', tan_inv k' s' /\ 2 * (Z.of_nat k' - 1) <= PO /\ (X ^ k' * / IZR (zfact (2 * k' + 2)) <= eps P)%R).
Proof.
  induction g as [|g IH]; intros k s I Hk HK; [left; reflexivity|]. cbn [tan_run_loop]. destruct (Z.leb_spec (ne (t_fct s) - ne (t_xxacc s)) PO) as [G|G].
  - destruct (tan_step_ok k s I ltac:(lia) G) as (K1 & s' & -> & I'). cbn [rbind done]. apply (IH (S k)); [exact I'|lia|right; lia].
  - right. eexists. split; [reflexivity|]. exists k. split; [exact I|]. split; [destruct HK; lia|]. destruct (inv_exps k s I ltac:(lia)) as (_ & _ & _ & _ & E). eapply Rle_trans; [exact E|]. unfold eps. apply bpow_le. lia.
Qed.
End Series.

Lemma lc_eq a b : (0 < a)%R -> a = b -> lc 0 a b.
Proof. intros H <-. now apply lc_refl. Qed.
Definition KT : Z := 2 ^ 26.
Theorem tan_series_run_ok g x P PO s : 128 <= P <= PO -> PO <= 32640 -> prec_up PO = PO -> wf x -> normal x -> ns x = s -> 64 * wlen x = PO -> (bpow radix2 (- 2 ^ 22) <= Rabs (value x) <= / 8)%R ->
  ends (tan_series_run g x RNone) (fun q => tapx P s KT (Rabs (value x)) q /\ 64 * wlen q = PO /\ ninexact q = true).
Proof.
  intros HP HPO HP64 W N S Lx HX0. assert (HPP : 128 <= P <= prec_up PO) by (clear - HP HP64; lia). assert (HL : prec_up PO < P_LIM) by (rewrite HP64; eapply Z.le_lt_trans; [exact HPO|]; vm_compute; reflexivity).
  pose proof (bpow_gt_0 radix2 (- 2 ^ 22)) as B0. pose proof (apx_self P x W N) as Ax. rewrite S in Ax. set (a := Rabs (value x)) in *. assert (A0 : (0 < a <= / 8)%R) by lra. assert (AL : (bpow radix2 (- 2 ^ 22 + - 2 ^ 22) <= a * a)%R) by (apply low_mul; lra). assert (AA : (0 < a * a <= / 64)%R) by nra.
  assert (EE : (0 < eps P <= / 1024)%R) by (split; [apply eps_pos|]; change (/ 1024)%R with (bpow radix2 (-10)); unfold eps; apply bpow_le; lia).
  unfold tan_series_run. rewrite max_len, Lx.
  destruct (apx_mul P PO RNone HPP HL _ _ _ _ _ _ _ _ Ax Ax ltac:(lia)) as (x2 & -> & A2 & _ & _). { apply (mid_range (- 2 ^ 22 + - 2 ^ 22) 0); [vm_compute; discriminate|vm_compute; discriminate|]. change (bpow radix2 0) with 1%R. lra. }
  cbn [rbind done]. replace (sign_mul s s) with Pos in A2 by (destruct s; reflexivity). assert (NX : n_neg x2 = set_sign x2 Neg) by (unfold n_neg; destruct A2 as (_ & _ & -> & _); reflexivity). rewrite NX. apply (apx_sign P Pos Neg) in A2. set (xx := set_sign x2 Neg) in *. clearbody xx. change (0 + 0 + 1) with 1 in A2. destruct A2 as (Wxx & Nxx & Sxx & L2). rewrite Rmult_1_l in L2.
  assert (E2 : (0 <= eps P <= / 2)%R) by lra. pose proof (lc_abs _ _ _ E2 L2) as L3. set (X := Rabs (value xx)) in *. assert (L4 : (Rabs (X - a * a) <= / 512 * (a * a))%R) by (eapply Rle_trans; [exact L3|]; apply Rmult_le_compat_r; lra). apply Rabs_le_inv in L4.
  assert (HM : 0 <= 2 ^ 23 + 1 <= 2 ^ 24) by (clear; lia). assert (XM : (bpow radix2 (- (2 ^ 23 + 1)) <= X <= / 2)%R). { split; [|lra]. apply Rle_trans with (/ 2 * (a * a))%R; [|lra]. replace (- (2 ^ 23 + 1)) with (-1 + (- 2 ^ 22 + - 2 ^ 22)) by lia. rewrite bpow_plus. change (bpow radix2 (-1)) with (/ 2)%R. lra. }
  destruct (from_word_spec 1 1 ltac:(lia) ltac:(lia) ltac:(vm_compute; reflexivity)) as (one & -> & W1 & Ln1 & S1 & _ & V1). destruct (from_word_spec 2 1 ltac:(lia) ltac:(lia) ltac:(vm_compute; reflexivity)) as (two & -> & W2 & Ln2 & S2 & _ & V2). cbn [rbind done].
  assert (N1 : normal one) by now apply normal_one. assert (N2 : normal two). { apply normal_iff; [exact W2|]. rewrite V2, Rabs_pos_eq by lra. change 2%R with (bpow radix2 1). apply bpow_le. vm_compute. discriminate. }
  assert (I0 : tan_inv P PO xx 0 (mk_tan one two two one one one one)).
  { assert (F : frac 1 0 0 one one). { split; [exact W1|]. split; [exact N1|]. split; [exact W1|]. split; [exact N1|]. rewrite V1. change (bpow radix2 0) with 1%R. split; [lra|]. replace (IZR 1 / IZR 1 - 1)%R with 0%R by field. rewrite Rabs_R0. lra. }
    unfold tan_inv. cbn [t_xxacc t_fct t_inc t_p1 t_q1 t_p2 t_q2]. split; [cbn [pow]; now apply apx_exact|]. split; [|].
    - unfold fct_at. change (2 * 0 + 2)%nat with 2%nat. change (zfact 2) with 2. change (Z.of_nat 2) with 2. split; [unfold counts; auto|]. split; [|now left]. eapply apx_weak; [|now apply apx_exact]. lia.
    - unfold C1, C2. cbn [psum]. change (INR 0) with 0%R. rewrite ?Rmult_0_r, ?Rmult_0_l, ?Rminus_0_r. change (Z.of_nat 0 * (PO + 64)) with 0. split; exact F. }
  eapply ends_bind; [exact (tan_run_ok P PO HP HPO HP64 xx Wxx Nxx Sxx (2 ^ 23 + 1) HM XM g 0 _ I0 ltac:(lia) (or_introl eq_refl))|]. intros st (k & I & HK & HT). cbv beta.
  pose proof (Xk xx (2 ^ 23 + 1) XM k) as XK. fold X in XK, HT.
  assert (K1 : (1 <= k)%nat). { destruct k as [|k]; [|lia]. exfalso. cbn [pow] in HT. change (2 * 0 + 2)%nat with 2%nat in HT. change (zfact 2) with 2 in HT. lra. }
  destruct I as (_ & _ & (Wp1 & Np1 & Wq1 & Nq1 & HQ1 & HR1) & (Wp2 & Np2 & Wq2 & Nq2 & HQ2 & HR2)).
  pose proof (C1_range xx (2 ^ 23 + 1) XM k) as C1r. pose proof (C2_range xx (2 ^ 23 + 1) XM k) as C2r.
  set (e := (64 * INR k * eps P)%R) in *. assert (KZ : Z.of_nat k <= 16321) by lia. assert (E0 : (0 <= e <= / 1024)%R). { unfold e. rewrite INR_IZR_INZ, <- mult_IZR. split; [apply Rmult_le_pos; [apply IZR_le; lia|lra]|]. eapply Rle_trans; [apply eps_small; lia|]. change (/ 1024)%R with (bpow radix2 (-10)). apply bpow_le. lia. }
  pose proof (Rabs_le_inv _ _ HR1) as HR1'. pose proof (Rabs_le_inv _ _ HR2) as HR2'. set (Q1 := value (t_q1 st)) in *. set (Q2 := value (t_q2 st)) in *. set (r1 := (value (t_p1 st) / Q1)%R) in *. set (r2 := (value (t_p2 st) / Q2)%R) in *.
  assert (VP1 : value (t_p1 st) = (r1 * Q1)%R) by (unfold r1; field; lra). assert (VP2 : value (t_p2 st) = (r2 * Q2)%R) by (unfold r2; field; lra). clearbody r1 r2.
  assert (R1 : (/ 4 <= r1 <= 2)%R) by lra. assert (R2 : (/ 4 <= r2 <= 2)%R) by lra.
  assert (P1 : (/ 4 * 1 <= r1 * Q1)%R) by (apply Rmult_le_compat; lra). assert (P2 : (/ 4 * 1 <= r2 * Q2)%R) by (apply Rmult_le_compat; lra).
  pose proof (apx_exact P _ _ Wp1 Np1 (pos_sign_of _ Wp1 Np1 ltac:(lra)) VP1) as Ap1. pose proof (apx_exact P _ _ Wp2 Np2 (pos_sign_of _ Wp2 Np2 ltac:(lra)) VP2) as Ap2.
  pose proof (apx_exact P _ Q1 Wq1 Nq1 (pos_sign_of _ Wq1 Nq1 ltac:(unfold Q1 in HQ1; lra)) eq_refl) as Aq1. pose proof (apx_exact P _ Q2 Wq2 Nq2 (pos_sign_of _ Wq2 Nq2 ltac:(unfold Q2 in HQ2; lra)) eq_refl) as Aq2.
  assert (AZ : Z.of_nat k * (PO + 64) <= 2 ^ 29 - 8). { assert (Z.of_nat k * (PO + 64) <= 16321 * 32704) by (apply Z.mul_le_mono_nonneg; lia). lia. } set (A := Z.of_nat k * (PO + 64)) in *. clearbody A.
  assert (QQ : (1 <= Q1 * Q2 <= bpow radix2 (2 ^ 30 - 16))%R). { split; [nra|]. apply Rle_trans with (bpow radix2 A * bpow radix2 A)%R; [apply Rmult_le_compat; lra|]. rewrite <- bpow_plus. apply bpow_le. lia. }
  assert (BH : (bpow radix2 HX = 65536 * bpow radix2 (2 ^ 30 - 16))%R). { change 65536%R with (bpow radix2 16). rewrite <- bpow_plus. reflexivity. } assert (BL : (bpow radix2 (- HX) <= / 4 * bpow radix2 (- 2 ^ 22))%R). { change (/ 4)%R with (bpow radix2 (-2)). rewrite <- bpow_plus. apply bpow_le. vm_compute. discriminate. } assert (BS : (bpow radix2 (- 2 ^ 22) <= / 8)%R) by lra.
  set (BB := bpow radix2 (2 ^ 30 - 16)) in *. clearbody BB. assert (F1 : (r2 * Q2 * Q1 = r2 * (Q1 * Q2))%R) by ring. assert (F2 : (r2 * Q2 * Q1 * a = r2 * a * (Q1 * Q2))%R) by ring. assert (F3 : (r1 * Q1 * Q2 = r1 * (Q1 * Q2))%R) by ring. set (QP := (Q1 * Q2)%R) in *.
  assert (G1 : (/ 4 * 1 <= r2 * QP <= 2 * BB)%R) by (split; apply Rmult_le_compat; lra). assert (G3 : (/ 4 * 1 <= r1 * QP <= 2 * BB)%R) by (split; apply Rmult_le_compat; lra). assert (RA : (/ 4 * bpow radix2 (- 2 ^ 22) <= r2 * a <= 2 * 1)%R) by (split; apply Rmult_le_compat; lra).
  assert (G2 : (/ 4 * bpow radix2 (- 2 ^ 22) * 1 <= r2 * a * QP <= 2 * BB)%R) by (split; apply Rmult_le_compat; lra).
  destruct (apx_mul P PO RNone HPP HL _ _ _ _ _ _ _ _ Ap2 Aq1 ltac:(lia)) as (n0 & -> & An0 & _ & _); [rewrite F1; split; lra|]. cbn [rbind done].
  destruct (apx_mul P PO RNone HPP HL _ _ _ _ _ _ _ _ An0 Ax ltac:(lia)) as (n1 & -> & An1 & _ & _); [rewrite F2; split; lra|]. cbn [rbind done].
  destruct (apx_mul P PO RNone HPP HL _ _ _ _ _ _ _ _ Ap1 Aq2 ltac:(lia)) as (n2 & -> & An2 & _ & _); [rewrite F3; split; lra|]. cbn [rbind done].
  assert (F4 : (r2 * Q2 * Q1 * a / (r1 * Q1 * Q2) = a * (r2 / r1))%R) by (field; lra). assert (RR : (/ 8 <= r2 / r1 <= 8)%R). { split; apply Rmult_le_reg_r with r1; try lra; unfold Rdiv; rewrite ?Rmult_assoc, ?Rinv_l by lra; lra. }
  destruct (apx_div P PO RNone HPP HL _ _ _ _ _ _ _ _ An1 An2 ltac:(lia)) as (ret & -> & Ar & Lr & _). { rewrite F4. apply (mid_range (- 2 ^ 22 - 3) 0); [vm_compute; discriminate|vm_compute; discriminate|]. unfold Z.sub. rewrite bpow_plus. change (bpow radix2 (- (3))) with (/ 8)%R. change (bpow radix2 0) with 1%R. split; [apply Rmult_le_compat; lra|]. apply Rle_trans with (/ 8 * 8)%R; [apply Rmult_le_compat; lra|lra]. }
  cbn [rbind done]. rewrite F4 in Ar. right. eexists. split; [reflexivity|]. split; [|split; [|reflexivity]; change (64 * wlen ret = PO); lia].
  destruct Ar as (Wr & Nr & Sr & LC). unfold tapx. split; [now apply wf_inexact|]. split; [exact Nr|]. split; [change (ns ret = s); rewrite Sr; destruct s; reflexivity|]. change (value (set_inexact ret true)) with (value ret).
  set (y := sqrt X). assert (X0 : (0 < X)%R) by lra. assert (YY : (y * y = X)%R) by (apply sqrt_sqrt; lra). assert (Y0 : (0 < y)%R) by now apply sqrt_lt_R0. assert (Y1 : (y <= 1)%R) by (apply Rnot_lt_le; intros Yc; assert (1 * 1 < y * y)%R by (clear - Yc; nra); lra).
  assert (LY : lc (eps P / 2) a y). { apply lc_sqrt in L2. rewrite sqrt_square in L2 by lra. exact L2. }
  (* the series at y *)
  assert (CT : (Rabs (cos y - C1 xx k) <= eps P)%R). { pose proof (cos_taylor y k ltac:(lra) K1) as T. rewrite YY in T. fold X in T. eapply Rle_trans; [exact T|]. unfold cC. unfold zfact in HT. rewrite <- INR_IZR_INZ in HT. rewrite Rmult_assoc. rewrite <- (Rmult_1_l (eps P)). apply Rmult_le_compat; [lra| |lra|exact HT]. apply Rmult_le_pos; [lra|]. left. apply Rinv_0_lt_compat, INR_fact_pos. }
  assert (ST : (Rabs (sin y / y - C2 xx k) <= eps P)%R).
  { pose proof (sin_taylor y k ltac:(lra) K1) as T. rewrite YY in T. replace (sin y / y - C2 xx k)%R with ((sin y - (y - y * X * psum sC (- X) 0 k)) * / y)%R by (unfold C2; fold X; field; lra). rewrite Rabs_mult, (Rabs_pos_eq (/ y)) by (left; now apply Rinv_0_lt_compat). apply Rmult_le_reg_r with y; [exact Y0|]. rewrite Rmult_assoc, Rinv_l, Rmult_1_r by lra. eapply Rle_trans; [exact T|]. rewrite !Rmult_assoc, (Rmult_comm (eps P)). apply Rmult_le_compat_l; [lra|].
    rewrite <- (Rmult_1_l (eps P)). assert (SF : (X ^ k * sC k <= X ^ k * / IZR (zfact (2 * k + 2)))%R). { apply Rmult_le_compat_l; [lra|]. unfold sC, zfact. rewrite <- INR_IZR_INZ. apply Rinv_le; [apply INR_fact_pos|]. apply le_INR. apply fact_le. lia. } apply Rmult_le_compat; [lra| |lra|lra]. apply Rmult_le_pos; [lra|]. pose proof (sC_range k). lra. }
  pose proof (cos_half y ltac:(lra)) as CY. pose proof (sin_low y ltac:(lra)) as SY. assert (SQ : (/ 2 <= sin y / y)%R). { apply Rmult_le_reg_r with y; [lra|]. unfold Rdiv. rewrite Rmult_assoc, Rinv_l by lra. lra. }
  set (e1 := (e + eps P)%R). assert (E1 : (0 <= 2 * e1 <= / 2)%R) by (unfold e1; lra). fold X in HR1, HR2.
  assert (LR1 : lc (2 * (2 * e1)) (cos y) r1). { apply lc_round; [lra|exact E1|]. apply Rle_trans with (2 * e1 * / 2)%R; [|apply Rmult_le_compat_l; lra]. apply Rabs_le_inv in CT. apply Rabs_le. unfold e1. lra. }
  assert (LR2 : lc (2 * (2 * e1)) (sin y / y) r2). { apply lc_round; [lra|exact E1|]. apply Rle_trans with (2 * e1 * / 2)%R; [|apply Rmult_le_compat_l; lra]. apply Rabs_le_inv in ST. apply Rabs_le. unfold e1. lra. }
  assert (LA : lc (eps P / 2) 1 (a / y)). { pose proof (lc_scale _ _ _ a ltac:(lra) (lc_inv _ _ _ LY)) as Q. rewrite Rinv_r in Q by lra. exact Q. }
  assert (D2 : (0 <= eps P / 2 <= / 1024)%R) by lra. assert (A1 : (a <= 1)%R) by lra. pose proof (lc_tan _ _ _ D2 A1 LY) as LT. pose proof (lc_mul _ _ _ _ _ _ LT LA) as LM. rewrite Rmult_1_r in LM. replace (tan y * (a / y))%R with (a * ((sin y / y) / cos y))%R in LM by (unfold tan; field; lra).
  pose proof (lc_scale _ _ _ a ltac:(lra) (lc_div _ _ _ _ _ _ LR2 LR1)) as LS. pose proof (lc_trans _ _ _ _ _ LM LS) as L5. pose proof (lc_trans _ _ _ _ _ L5 LC) as L6. apply lc_weak with (d' := (IZR KT * eps P)%R) in L6.
  - apply lc_atan in L6; [|apply Rmult_le_pos; [apply IZR_le; vm_compute; discriminate|lra]]. pose proof one_lt_pi2 as P22. rewrite atan_tan in L6 by lra. exact L6.
  - unfold e1, e. change (IZR (0 + 0 + 1 + 0 + 1 + (0 + 0 + 1) + 1)) with 4%R. assert (KI : (INR k <= 16321)%R) by (rewrite INR_IZR_INZ; apply IZR_le; exact KZ). change (IZR KT) with 67108864%R. assert (INR k * eps P <= 16321 * eps P)%R by (apply Rmult_le_compat_r; lra). lra.
Qed.

(** ** The series with its reduction: tan.rs 113-144 *)
Definition KA : Z := 2 ^ 31.
Theorem tan_series_ok g x P s : 128 <= P <= 8000 -> wf x -> normal x -> ns x = s -> 64 * wlen x = P -> - 2 ^ 21 <= ne x <= 0 ->
  ends (tan_series g x RNone) (fun q => apx P s KA (tan (Rabs (value x))) q /\ P <= 64 * wlen q /\ ninexact q = true).
Proof.
  intros HP W N S L He. unfold tan_series. cbv zeta. rewrite max_len, L. assert (HP64 : prec_up P = P) by (unfold prec_up; clear - L; dlia).
  destruct (tan_optimize g P (- ne x)) as [[[n niter] e]|] eqn:EO; [|left; reflexivity].
  destruct (tan_optimize_spec g P (- ne x) n niter e ltac:(clear - HP; lia) ltac:(clear - He; lia) EO) as (step & Hst & Hn0 & Hsn & Hn & Ee). clear EO.
  set (m := - ne x) in *. assert (Hm : 0 <= m <= 2 ^ 21) by (unfold m; clear - He; lia).
  set (p_arg := P + (if 0 <? n * 4 + 9 - e then n * 4 + 9 - e else 0)) in *. assert (Hpa : P <= p_arg <= 4 * P + 39). { unfold p_arg. clear - Hn Ee Hst Hn0 Hm HP. destruct (Z.ltb_spec 0 (n * 4 + 9 - e)); lia. }
  clearbody p_arg. set (PO := prec_up p_arg). assert (HPO : P <= PO <= 32640) by (unfold PO; clear - Hpa HP HP64; rewrite <- HP64 at 1; unfold prec_up; dlia). assert (HPO64 : prec_up PO = PO) by (unfold PO, prec_up; clear; dlia).
  assert (HL : PO < P_LIM) by (eapply Z.le_lt_trans; [apply HPO|]; vm_compute; reflexivity).
  assert (EP : 0 < p_arg) by (clear - HP Hpa; lia).
  pose proof (apx_self P x W N) as Ax. destruct (normal_range x W N) as [X1 X2].
  destruct (apx_len_up P _ 0 _ x p_arg Ax ltac:(fold PO; clear - L HPO; lia) EP ltac:(fold PO; exact HL)) as (x1 & -> & (W1 & N1 & S1 & _) & L1 & V1). fold PO in L1. cbn [done rbind].
  assert (Hn20 : 0 <= n <= 2 ^ 20) by (clear - Hn Hn0 HP; lia).
  set (ax := Rabs (value x)) in *. assert (AX1 : (bpow radix2 (- m - 1) <= ax)%R) by (unfold m; rewrite Z.opp_involutive; exact X1). assert (AX2 : (ax <= bpow radix2 (- m))%R) by (unfold m; rewrite Z.opp_involutive; left; exact X2).
  assert (AX3 : (ax <= 1)%R). { eapply Rle_trans; [exact AX2|]. change 1%R with (bpow radix2 0). apply bpow_le. clear - Hm. lia. }
  destruct (normal_range x1 W1 N1) as [Y1 Y2]. rewrite V1 in Y1, Y2. fold ax in Y1, Y2.
  assert (NE : - 2 ^ 22 <= ne x1 <= 2 ^ 20). { split; [assert (- m - 1 < ne x1); [|clear - H Hm; lia]; apply (lt_bpow radix2); eapply Rle_lt_trans; [exact AX1|exact Y2]|]. assert (ne x1 - 1 <= 0); [|clear - H; lia]. apply (le_bpow radix2). eapply Rle_trans; [exact Y1|exact AX3]. }
  unfold tan_arg_reduce. destruct (halved_ok x1 n W1 N1 Hn20 NE) as (arg & -> & Wa & Na & Sa & La & Va). cbn [done rbind].
  set (t := (ax * bpow radix2 (- n))%R). assert (AV : Rabs (value arg) = t). { rewrite Va, V1, Rabs_mult, (Rabs_pos_eq (bpow _ _)) by apply bpow_ge_0. reflexivity. }
  pose proof (bpow_gt_0 radix2 (- n)) as Bn. assert (A0 : (0 < ax)%R) by (eapply Rlt_le_trans; [apply bpow_gt_0|exact AX1]).
  assert (TL : (bpow radix2 (- m - 1 + - n) <= t)%R) by (apply low_mul; [exact AX1|right; reflexivity]).
  assert (TL2 : (bpow radix2 (- 2 ^ 22) <= t)%R) by (eapply Rle_trans; [|exact TL]; apply bpow_le; clear - Hm Hn HP; lia).
  assert (TL3 : (bpow radix2 (- 2 ^ 27) <= t)%R) by (eapply Rle_trans; [|exact TL2]; apply bpow_le; clear; lia).
  assert (TU : (t <= / 8)%R). { change (/ 8)%R with (bpow radix2 (-3)). apply Rle_trans with (bpow radix2 (- m) * bpow radix2 (- n))%R; [apply Rmult_le_compat_r; lra|]. rewrite <- bpow_plus. apply bpow_le. clear - Hsn Hst. lia. }
  assert (TN : (2 ^ Z.to_nat n * t = ax)%R). { rewrite pow2 by exact Hn0. unfold t. replace (bpow radix2 n * (ax * bpow radix2 (- n)))%R with (ax * (bpow radix2 n * bpow radix2 (- n)))%R by ring. rewrite <- bpow_plus. replace (n + - n) with 0 by ring. change (bpow radix2 0) with 1%R. ring. }
  assert (HPP : 128 <= P <= PO) by (clear - HP HPO; lia). assert (SA : ns arg = s) by congruence. assert (LA : 64 * wlen arg = PO) by (rewrite La; exact L1).
  pose proof (tan_series_run_ok g arg P PO s HPP (proj2 HPO) HPO64 Wa Na SA LA) as RUN. rewrite AV in RUN. specialize (RUN (conj TL2 TU)).
  destruct RUN as [->|(ret & -> & Rret & Lret & Iret)]; [left; reflexivity|]. cbn [rbind].
  assert (K0 : 0 <= KT) by (vm_compute; discriminate). assert (NN : Z.of_nat (Z.to_nat n) = n) by (apply Z2Nat.id; exact Hn0).
  assert (KB : KT + 32 * n <= 2 ^ 59) by (change KT with (2 ^ 26); clear - Hn HP; lia).
  destruct (tan_restore_ok P PO HPP ltac:(clear - HPO; lia) HPO64 s (Z.to_nat n) KT t ret Rret K0 ltac:(rewrite NN; exact KB) TL3 ltac:(rewrite TN; exact AX3) Lret Iret) as (q & Eq & Rq & Lq & Iq). rewrite TN, NN in Rq.
  assert (FIN : apx P s KA (tan ax) q).
  { destruct Rq as (Wq & Nq & Sq & Lc). split; [exact Wq|]. split; [exact Nq|]. split; [exact Sq|]. pose proof (eps_pos P) as Ep.
    assert (D1 : (IZR (KT + 32 * n) * eps P <= bpow radix2 27 * eps P)%R). { apply Rmult_le_compat_r; [lra|]. change (bpow radix2 27) with (IZR (2 ^ 27)). apply IZR_le. change KT with (2 ^ 26). clear - Hn HP. lia. }
    assert (D2 : (bpow radix2 27 * eps P <= / 1024)%R). { change (/ 1024)%R with (bpow radix2 (-10)). unfold eps. rewrite <- bpow_plus. apply bpow_le. clear - HP. lia. }
    pose proof (bpow_gt_0 radix2 27) as B28. assert (D3 : (0 <= bpow radix2 27 * eps P)%R) by (apply Rmult_le_pos; lra).
    apply (lc_weak _ _ _ _ D1) in Lc. apply (lc_tan _ _ _ (conj D3 D2) AX3) in Lc. rewrite tan_atan in Lc. eapply lc_weak; [|exact Lc]. rewrite <- Rmult_assoc. apply Rmult_le_compat_r; [lra|]. change (bpow radix2 27) with 134217728%R. change (IZR KA) with 2147483648%R. clear. lra. }
  destruct (Z.ltb_spec 0 n) as [Z0|Z0].
  - unfold tan_arg_restore. rewrite max_len, Lret, Eq. apply ends_ok. split; [exact FIN|]. split; [clear - Lq HPO; lia|exact Iq].
  - assert (n = 0) by (clear - Z0 Hn0; lia). subst n. change (Z.to_nat 0) with 0%nat in Eq. cbn [tan_restore_loop] in Eq. injection Eq as <-. apply ends_ok. split; [exact FIN|]. split; [clear - Lq HPO; lia|exact Iq].
Qed.

(** ** The retry loop *)
Lemma tan_sign_abs r : (Rabs r <= 1)%R -> r <> 0%R -> tan (Rabs r) = Rabs (tan r) /\ (forall s, has_sign s r -> has_sign s (tan r)) /\ (Rabs (tan r) <= 5 / 2)%R.
Proof.
  intros H N. assert (P : forall t, (0 < t <= 1)%R -> (0 < tan t <= 5 / 2)%R). { intros t T. pose proof (tan_low t ltac:(lra)). lra. }
  destruct (Rtotal_order r 0) as [R|[R|R]]; [|contradiction|].
  - rewrite Rabs_left in * by exact R. pose proof (P (- r)%R ltac:(lra)) as S. rewrite tan_neg in *. rewrite Rabs_left by lra. split; [reflexivity|]. split; [|lra]. intros s. unfold has_sign. destruct s; cbn [sgnZ]; intros; lra.
  - rewrite Rabs_pos_eq in * by lra. pose proof (P r ltac:(lra)) as S. rewrite (Rabs_pos_eq (tan r)) by lra. split; [reflexivity|]. split; [|lra]. intros s. unfold has_sign. destruct s; cbn [sgnZ]; intros; lra.
Qed.
Section Loop.
Context (x0 : num) (p : Z) (rm : rmode) (h g : nat) (c : pi_cache).
Hypotheses (W0 : wf x0) (N0 : nonzero x0) (Hp : 0 < p) (Hp64 : p mod 64 = 0) (He : - 2 ^ 21 <= ne x0 <= 0).

Definition tan_post (o : prun num) : Prop :=
  match o with
  | None => True
  | Some (c', res) => c' = c /\ exists q, res = Ok q /\ elem_result (tan (value x0)) p rm q
  end.
Theorem tan_loop_ok B : 67 <= B -> - ne x0 <= B -> forall f w i a, p + 64 <= w -> w mod 64 = 0 -> 64 <= i -> i mod 64 = 0 -> 128 <= w -> 64 * wlen x0 <= w -> i <= 64 * (((w + i) / 5 + 63) / 64) -> 67 <= a <= B ->
  work f w i + B + 64 <= 8000 -> tan_post (tan_loop f g h c x0 p rm w i a).
Proof.
  intros HB1 HB2. induction f as [|f IH]; intros w i a Hpw Hw64 Hi Hi64 Hw HLx Hii Ha HB; [exact I|].
  pose proof (work_ge (Datatypes.S f) w i ltac:(lia) ltac:(lia)) as HG.
  change (work (Datatypes.S f) w i) with (work f (w + i) (64 * (((w + i) / 5 + 63) / 64))) in HB, HG.
  pose proof (work_ge f (w + i) (64 * (((w + i) / 5 + 63) / 64)) ltac:(lia) ltac:(clear - Hw Hi; dlia)) as HG2.
  assert (PW : w + 64 <= prec_up (w + a) /\ w + a <= prec_up (w + a) <= w + a + 63) by (unfold prec_up; clear - Ha; dlia). set (PX := prec_up (w + a)) in *.
  assert (HPX : 128 <= PX <= 8000) by (clear - PW Ha HB HG HG2 Hw Hi; lia). assert (PL : PX < P_LIM) by (apply Z.le_lt_trans with 8000; [apply HPX|vm_compute; reflexivity]).
  assert (HX : argument x0 w x0). { pose proof (argument_start x0 W0 N0 ltac:(apply Z.lt_le_trans with (- 2 ^ 21); [vm_compute; reflexivity|apply He])) as (_ & H2 & _). split; [exact W0|]. split; [exact H2|]. split; [reflexivity|]. split; [reflexivity|exact HLx]. }
  cbn [tan_loop]. destruct (argument_len x0 w x0 (w + a) ltac:(lia) PL ltac:(lia) HX) as (y & -> & HY & Sy & Ly). fold PX in HY, Ly. cbn [ppure pbind]. pose proof HY as (Wy & Ny & Vy & Ey & _).
  unfold reduce_trig_arg, trig_arg_pi_proximity. rewrite !Ey. replace (2 <? ne x0) with false by (symmetry; apply Z.ltb_ge; clear - He; lia). cbn [ppure pbind]. rewrite !Ey. replace (0 <? ne x0) with false by (symmetry; apply Z.ltb_ge; clear - He; lia). cbn [ppure pbind].
  destruct (Z.ltb_spec a (Z.abs (ne x0))) as [T|T].
  - apply IH; auto; [clear - T Ha HB2 He; lia|]. eapply Z.le_trans; [|exact HB]. apply Z.add_le_mono_r, Z.add_le_mono_r. apply work_mono; lia.
  - destruct (normal_range y Wy Ny) as [_ Y2]. rewrite Ey, Vy in Y2. assert (V1 : (Rabs (value x0) <= 1)%R) by (left; eapply Rlt_le_trans; [exact Y2|]; change 1%R with (bpow radix2 0); apply bpow_le; apply He).
    pose proof (value_has_sign x0 W0 N0) as VS. assert (V0 : value x0 <> 0%R) by (intros Z; unfold has_sign in VS; rewrite Z in VS; lra).
    destruct (tan_sign_abs (value x0) V1 V0) as (SA & SS & S1). specialize (SS _ VS).
    pose proof (tan_series_ok g y PX (ns x0) HPX Wy Ny Sy Ly ltac:(rewrite Ey; exact He)) as EV. destruct EV as [->|(ret & -> & A & L & Ir)]; [exact I|]. rewrite Vy, SA in A. cbn [ppure pbind].
    destruct A as (Wr & Nr & Sr & LCr).
    assert (KB : 0 <= KA <= 2 ^ 58) by (split; vm_compute; discriminate).
    assert (LC2 : lc (IZR KA * eps (w + 64)) (Rabs (tan (value x0))) (Rabs (value ret))). { eapply lc_weak; [|exact LCr]. apply Rmult_le_compat_l; [apply IZR_le; apply KB|]. unfold eps. apply bpow_le. clear - PW. lia. }
    pose proof (accept_elem (tan (value x0)) ret p rm w KA Wr Nr Ir ltac:(clear - L PW; lia) ltac:(rewrite Sr; exact SS) LC2 KB Hp Hp64 Hw64 Hpw) as AE.
    destruct (try_set_precision ret p rm w) as [[q [|]]|[t| | |]|]; try contradiction; cbn [ppure pbind].
    + split; [reflexivity|]. eexists. split; [reflexivity|]. now apply elem_mark.
    + rewrite round_step by (clear - HG HG2 HB Hw Hi HB1; lia). apply IH; [lia| |clear - Hw Hi; dlia|rewrite Z.mul_comm; apply Z.mod_mul; lia|lia|lia| |exact Ha|exact HB].
      * clear - Hw64 Hi64. dlia.
      * assert (D : (w + i) / 5 <= (w + i + 64 * (((w + i) / 5 + 63) / 64)) / 5) by (apply Z.div_le_mono; [lia|]; clear - Hw Hi; dlia). assert ((((w + i) / 5 + 63) / 64) <= (((w + i + 64 * (((w + i) / 5 + 63) / 64)) / 5 + 63) / 64)) by (apply Z.div_le_mono; lia). lia.
    + exfalso. revert AE. apply LnMant.no_overflow; [exact Hp|]; eapply Rle_trans; [exact S1|]; apply Rle_trans with (bpow radix2 2); [change (bpow radix2 2) with 4%R; lra|apply bpow_le; clear; lia].
Qed.
End Loop.

Theorem tan_ok f g h c x p rm : wf x -> nonzero x -> 0 < p -> (rm <> RNone \/ EMIN < ne x) -> ne x <= 0 ->
  work f (Z.max (prec_up p) (64 * wlen x) + 64) 64 + Z.max (prec_up p) (64 * wlen x) + 192 <= 8000 ->
  match f_tan f g h c x p rm with
  | None => True
  | Some (c', res) => c' = c /\ exists q, res = Ok q /\ (elem_result (tan (value x)) (prec_up p) rm q \/ rounded_to (prec_up p) rm (ns x) (tan (value x)) q)
  end.
Proof.
  intros W N Hp HN He HB. change (Z.max (prec_up p) (64 * wlen x)) with (max64 (prec_up p) x) in HB. assert (P64 : 64 <= prec_up p) by (unfold prec_up; clear - Hp; dlia). assert (M1 : prec_up p <= max64 (prec_up p) x) by (unfold max64; lia). assert (M2 : 64 * wlen x <= max64 (prec_up p) x) by (unfold max64; lia).
  pose proof (work_ge f (max64 (prec_up p) x + 64) 64 ltac:(lia) ltac:(lia)) as HG. assert (PL : max64 (prec_up p) x + 64 < P_LIM) by (eapply Z.le_lt_trans with 8000; [lia|vm_compute; reflexivity]).
  unfold f_tan. destruct (Z_lt_le_dec (max64 (prec_up p) x + 1) (- (ne x * 2 - 1))) as [S|S].
  - match goal with |- context [@odd_in ?A ?ok ?rest 1 false x p rm] => rewrite (@odd_in_small A ok rest (fun _ _ _ => Panic) 1 false x p rm W N Hp ltac:(lia) S) end. cbv beta. split; [reflexivity|]. destruct (tan_small (fun _ _ _ => Panic) x p rm W N Hp PL HN S) as (q & E & Q). unfold n_tan in E. exists q. split; [exact E|now right].
  - match goal with |- context [@odd_in ?A ?ok ?rest 1 false x p rm] => rewrite (@odd_in_rest A ok rest 1 false x p rm W N Hp ltac:(lia) S) end. cbv beta. change (mantissa_max_bit_len x) with (64 * wlen x). change (Z.max (prec_up p) (64 * wlen x)) with (max64 (prec_up p) x).
    pose proof (tan_loop_ok x (prec_up p) rm h g c W N ltac:(lia) (prec_up_mod p) ltac:(lia) (Z.max 67 (max64 (prec_up p) x)) ltac:(lia) ltac:(lia) f (max64 (prec_up p) x + 64) 64 67 ltac:(lia) (max_mod p x) ltac:(lia) eq_refl ltac:(lia) ltac:(lia) ltac:(clear - M1 P64; dlia) ltac:(lia) ltac:(lia)) as O. unfold tan_post in O.
    destruct (tan_loop f g h c x _ _ _ _ _) as [[c' res]|]; [|exact I]. destruct O as (-> & q & -> & Q). split; [reflexivity|]. exists q. split; [reflexivity|now left].
Qed.
