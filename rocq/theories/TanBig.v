(** The tangent for arguments between one and two in magnitude. *)

From Coq Require Import ZArith List Bool Lia Reals Lra.
From Flocq Require Import Core.
From Verif Require Import Words IntModel Mantissa Num Pow Consts Elem Series Exp Sin Ln Cos Tan SpecZ SpecOps SpecConst SpecPow SpecElem WordsP Spec RealP RealP2 NumP CmpP AddP SetP AddNum MulNum DivNum ArithTop ConvNum Conv2Num RootP ConstP ConstNum ExtP PowExt Refute1 ElemR ElemDom SmallP ElemNum ApproxR ApproxNum SeriesNum SinhR SinhNum SinhTop ExpNum RetryNum ConstReach SpecReach ExpTop HypNum HypTop TanhNum AltNum SinTop CosTop AtanR LnMant TanTop SinBig.
Import ListNotations.
Open Scope Z_scope.
Ltac Zify.zify_post_hook ::= idtac.
Arguments Z.mul : simpl never.
Arguments Z.add : simpl never.
Arguments Z.pow : simpl never.
Arguments Z.sub : simpl never.
Arguments Z.of_nat : simpl never.

Ltac dlia := Z.div_mod_to_equations; lia.

(** ** Facts about the tangent *)
Lemma sin_abs_le z : (Rabs (sin z) <= Rabs z)%R.
Proof.
  assert (P : forall t, (0 < t)%R -> (Rabs (sin t) <= t)%R).
  { intros t T. pose proof (sin_lt_x t T). destruct (Rle_lt_dec t 1) as [L|L]; [|pose proof (SIN_bound t); apply Rabs_le; lra]. pose proof PI2_3_2. assert (0 <= sin t)%R by (apply sin_ge_0; lra). rewrite Rabs_pos_eq; lra. }
  destruct (Rtotal_order z 0) as [H|[H|H]].
  - rewrite (Rabs_left z) by exact H. rewrite <- (Ropp_involutive z) at 1. rewrite sin_neg, Rabs_Ropp. apply P. lra.
  - subst z. rewrite sin_0. apply Rle_refl.
  - rewrite (Rabs_pos_eq z) by lra. now apply P.
Qed.
Lemma cos_diff a b : (Rabs (cos a - cos b) <= Rabs (a - b))%R.
Proof.
  rewrite form2, !Rabs_mult. replace (Rabs (-2)) with 2%R by (rewrite Rabs_left; lra). pose proof (sin_abs_le ((a - b) / 2)) as S. assert (B : (Rabs (sin ((a + b) / 2)) <= 1)%R) by (apply Rabs_le; pose proof (SIN_bound ((a + b) / 2)); lra).
  unfold Rdiv in S at 2. rewrite Rabs_mult, (Rabs_pos_eq (/ 2)) in S by lra. pose proof (Rabs_pos (sin ((a - b) / 2))) as S0. set (x := Rabs (sin ((a - b) / 2))) in *. set (y := Rabs (sin ((a + b) / 2))) in *. assert (x * y <= x * 1)%R by (apply Rmult_le_compat_l; lra). lra.
Qed.
Lemma tan_diff a b : cos a <> 0%R -> cos b <> 0%R -> (tan a - tan b = sin (a - b) / (cos a * cos b))%R.
Proof. intros A B. rewrite sin_minus. unfold tan. field. split; assumption. Qed.
Lemma tan_near a b z : (4 / 5 <= sin b)%R -> (bpow radix2 (-62) <= Rabs (cos b))%R -> (Rabs (a - b) <= z)%R -> (z <= bpow radix2 (-64))%R ->
  (bpow radix2 (-63) <= Rabs (cos a))%R /\ (Rabs (tan a - tan b) <= bpow radix2 64 * z * Rabs (tan b))%R.
Proof.
  intros SB CB D Z. assert (B61 : (bpow radix2 (-62) = 2 * bpow radix2 (-63))%R) by (change (-62) with (1 + -63); rewrite bpow_plus; reflexivity). assert (B62 : (bpow radix2 (-63) = 2 * bpow radix2 (-64))%R) by (change (-63) with (1 + -64); rewrite bpow_plus; reflexivity).
  pose proof (bpow_gt_0 radix2 (-64)) as B63. pose proof (cos_diff a b) as CD.
  assert (CA : (bpow radix2 (-63) <= Rabs (cos a))%R). { pose proof (Rabs_triang (cos a) (- (cos a - cos b))) as T. rewrite Rabs_Ropp in T. replace (cos a + - (cos a - cos b))%R with (cos b) in T by ring. lra. }
  split; [exact CA|]. assert (A0 : cos a <> 0%R) by (intros E; rewrite E, Rabs_R0 in CA; lra). assert (B0 : cos b <> 0%R) by (intros E; rewrite E, Rabs_R0 in CB; lra).
  rewrite (tan_diff a b A0 B0). unfold tan, Rdiv. rewrite !Rabs_mult, !Rabs_inv, !Rabs_mult, (Rabs_pos_eq (sin b)) by lra. pose proof (sin_abs_le (a - b)) as SA. set (ca := Rabs (cos a)) in *. set (cb := Rabs (cos b)) in *. set (sa := Rabs (sin (a - b))) in *.
  rewrite Rinv_mult by lra. assert (I : (/ ca <= bpow radix2 63)%R). { change (bpow radix2 63) with (bpow radix2 (- -63)). rewrite bpow_opp. apply Rinv_le; [apply bpow_gt_0|exact CA]. }
  assert (ICB : (0 < / cb)%R) by (apply Rinv_0_lt_compat; lra). assert (ICA : (0 < / ca)%R) by (apply Rinv_0_lt_compat; lra). rewrite <- !Rmult_assoc. apply Rmult_le_compat_r; [lra|].
  assert (S0 : (0 <= sa)%R) by apply Rabs_pos. replace (bpow radix2 64) with (2 * bpow radix2 63)%R by (change 64 with (1 + 63); rewrite bpow_plus; reflexivity). pose proof (bpow_gt_0 radix2 63) as P62.
  apply Rle_trans with (z * bpow radix2 63)%R; [apply Rmult_le_compat; lra|]. assert (Z0 : (0 <= z * bpow radix2 63)%R) by (apply Rmult_le_pos; [lra|lra]). set (zz := (z * bpow radix2 63)%R) in *. replace (2 * bpow radix2 63 * z * sin b)%R with (2 * (zz * sin b))%R by (unfold zz; ring). assert (zz * (4 / 5) <= zz * sin b)%R by (apply Rmult_le_compat_l; lra). lra.
Qed.

(** ** The number of reductions *)
Lemma tan_loop_opt_b f p m step B : -2 <= m -> 128 <= p -> 1 <= step -> forall times c1,
  0 <= times /\ 0 <= times + m -> match c1 with None => True | Some c => c <= B /\ step <= times /\ (times - step) * tan_unit p <= c end ->
  (c1 = None -> tan_iter_cost p * (series_niter p (tan_red_effect times m) / 1) + tan_red_cost times p <= B) ->
  (forall t, 0 <= t /\ 0 <= t + m -> 0 <= series_niter p (tan_red_effect t m) / 1) ->
  forall n niter e, tan_optimize_loop f p m step times c1 = Some (n, niter, e) ->
  times - step <= n /\ (c1 = None -> times <= n) /\ n * tan_unit p <= B /\ e = tan_red_effect (n + step) m.
Proof.
  intros Hm Hp Hs. destruct (tan_iter_le p Hp) as [U0 [U1 _]]. induction f as [|f IH]; intros times c1 Ht Hc1 HB HN n niter e E; [discriminate E|]. cbn [tan_optimize_loop] in E. cbv zeta in E.
  set (c2 := tan_iter_cost p * _ + tan_red_cost times p) in E.
  assert (C2 : times * tan_unit p <= c2). { unfold c2, tan_red_cost. fold (tan_unit p). pose proof (Z.mul_nonneg_nonneg _ _ U1 (HN times Ht)). lia. }
  destruct (match c1 with None => true | Some c => c2 <? c end) eqn:T.
  - apply IH in E; [|lia| |discriminate|exact HN].
    + destruct E as (E1 & _ & E3 & E4). split; [lia|]. split; [intros _; lia|]. auto.
    + split; [|split; [lia|replace (times + step - step) with times by ring; exact C2]]. destruct c1 as [c|]; [apply Z.ltb_lt in T; lia|]. apply HB. reflexivity.
  - destruct c1 as [c|]; [|discriminate T]. injection E as <- <- <-. destruct Hc1 as (Q1 & Q2 & Q3). split; [lia|]. split; [discriminate|]. split; [lia|]. replace (times - step + step) with times by ring. reflexivity.
Qed.
Lemma tan_optimize_b f p m n niter e : 128 <= p <= 2 ^ 22 -> -2 <= m -> tan_optimize f p m = Some (n, niter, e) ->
  exists step, 3 <= step <= 11 /\ 0 <= n /\ step <= m + n /\ n <= p + 13 /\ e = n + step + m.
Proof.
  intros Hp Hm E. unfold tan_optimize in E. rewrite log2_floor_spec in E by lia. assert (L7 : 7 <= Z.log2 p) by (apply Z.log2_le_pow2; lia). assert (L22 : Z.log2 p <= 22). { change 22 with (Z.log2 (2 ^ 22)). apply Z.log2_le_mono. lia. }
  set (step := Z.log2 p / 2) in *. assert (HS : 3 <= step <= 11) by (unfold step; clear - L7 L22; dlia). clearbody step.
  set (r0 := if m <? step then step - m else 0) in *. assert (R0 : 0 <= r0 <= 13 /\ step <= m + r0) by (unfold r0; destruct (Z.ltb_spec m step); lia). clearbody r0.
  assert (NI : forall t, 0 <= t /\ 0 <= t + m -> 0 <= series_niter p (tan_red_effect t m) / 1 /\ (series_niter p (tan_red_effect t m) / 1) * (t + m + 2) <= p).
  { intros t Ht. rewrite Z.div_1_r. unfold tan_red_effect. pose proof (niter_le p (t + m) ltac:(lia) ltac:(lia)) as [N1 N2]. split; [lia|]. assert (D : p / (t + m + 2) * (t + m + 2) <= p) by (rewrite Z.mul_comm; apply Z.mul_div_le; lia). assert (series_niter p (t + m) * (t + m + 2) <= p / (t + m + 2) * (t + m + 2)) by (apply Z.mul_le_mono_nonneg_r; lia). lia. }
  pose proof (NI r0 ltac:(lia)) as [N0 N1]. set (it0 := series_niter p (tan_red_effect r0 m) / 1) in *. assert (IT : 5 * it0 <= p) by nia. destruct (tan_iter_le p ltac:(lia)) as [U0 [U1 U2]].
  pose proof (tan_loop_opt_b f p m step ((5 * it0 + r0) * tan_unit p) Hm ltac:(lia) ltac:(lia) r0 None ltac:(lia) I) as O.
  specialize (O ltac:(intros _; unfold tan_red_cost; fold (tan_unit p) it0; pose proof (Z.mul_le_mono_nonneg_r _ _ it0 N0 U2); lia) (fun t Ht => proj1 (NI t Ht)) n niter e E). destruct O as (_ & O2 & O3 & O4). specialize (O2 eq_refl).
  assert (n <= 5 * it0 + r0) by (apply Zmult_le_reg_r with (tan_unit p); lia).
  exists step. split; [exact HS|]. split; [lia|]. split; [lia|]. split; [lia|]. rewrite O4. unfold tan_red_effect. ring.
Qed.

(** ** Restoration *)
Lemma trestore_last n : forall p rm v, tan_restore_loop (Datatypes.S n) p rm v = bind (tan_restore_loop n p rm v) (tan_restore_loop 1 p rm).
Proof.
  induction n as [|n IH]; intros p rm v; [reflexivity|].
  change (tan_restore_loop (Datatypes.S (Datatypes.S n)) p rm v) with (bind (n_mul v v p rm) (fun sq => bind (n_sub ONE sq p rm) (fun q => bind (n_div (set_exponent v (ne v + 1)) q p rm) (fun v => tan_restore_loop (Datatypes.S n) p rm v)))).
  change (tan_restore_loop (Datatypes.S n) p rm v) with (bind (n_mul v v p rm) (fun sq => bind (n_sub ONE sq p rm) (fun q => bind (n_div (set_exponent v (ne v + 1)) q p rm) (fun v => tan_restore_loop n p rm v)))).
  destruct (n_mul v v p rm) as [c| |]; [|reflexivity|reflexivity]. cbn [bind]. destruct (n_sub ONE c p rm) as [q| |]; [|reflexivity|reflexivity]. cbn [bind]. destruct (n_div (set_exponent v (ne v + 1)) q p rm) as [r| |]; [|reflexivity|reflexivity]. cbn [bind]. apply IH.
Qed.
Lemma sign_real r : r <> 0%R -> exists s, has_sign s r /\ r = (sr s * Rabs r)%R.
Proof. intros H. unfold has_sign, sr. destruct (Rlt_le_dec r 0) as [L|L]; [exists Neg|exists Pos]; cbn [sgnZ]; [rewrite Rabs_left by exact L|rewrite Rabs_pos_eq by exact L]; lra. Qed.
Definition KTB : Z := 2 ^ 31.
Section Last.
Variables (P PO : Z).
Hypothesis HP : 192 <= P <= PO.
Hypothesis HPO : PO <= 2 ^ 22.
Hypothesis HP64 : prec_up PO = PO.
Let HPP : 128 <= P <= prec_up PO.
Proof. clear - HP HP64. lia. Qed.
Let HPQ : 128 <= P - 64 <= prec_up PO.
Proof. clear - HP HP64. lia. Qed.
Let HL : prec_up PO < P_LIM.
Proof. rewrite HP64. eapply Z.le_lt_trans; [exact HPO|]. vm_compute. reflexivity. Qed.

(** The last doubling may meet the pole. *)
Lemma tlast_ok s k y v : tapx P s k y v -> 0 <= k <= 2 ^ 27 -> (/ 2 <= y <= 1)%R -> (bpow radix2 (-62) <= Rabs (cos (2 * y)))%R -> (4 / 5 <= sin (2 * y))%R -> 64 * wlen v = PO -> ninexact v = true ->
  exists q s', tan_restore_loop 1 PO RNone v = Ok q /\ has_sign s' (sr s * tan (2 * y)) /\ apx (P - 64) s' KTB (Rabs (tan (2 * y))) q /\ 64 * wlen q = PO /\ ninexact q = true.
Proof.
  intros (W & N & S & L) Hk Y CB SB Lv Iv. cbn [tan_restore_loop]. set (u := Rabs (value v)) in *. assert (U0 : (0 < u)%R) by (apply Rabs_pos_lt; rewrite value_zero_iff; apply N).
  pose proof (eps_pos P) as Ep. assert (KE : (0 <= IZR k * eps P <= bpow radix2 27 * eps P)%R). { split; [apply Rmult_le_pos; [apply IZR_le; lia|lra]|]. apply Rmult_le_compat_r; [lra|]. change (bpow radix2 27) with (IZR (2 ^ 27)). apply IZR_le. lia. }
  assert (KS : (bpow radix2 27 * eps P <= bpow radix2 (-100))%R) by (unfold eps; rewrite <- bpow_plus; apply bpow_le; lia). assert (B100 : (bpow radix2 (-100) <= / 1024)%R) by (change (/ 1024)%R with (bpow radix2 (-10)); apply bpow_le; lia).
  pose proof (lc_abs _ _ _ ltac:(split; [apply KE|lra]) L) as LA. set (th := atan u) in *. set (e := (bpow radix2 27 * eps P)%R) in *. set (ke := (IZR k * eps P)%R) in *. clearbody ke.
  assert (LB : (Rabs (th - y) <= 2 * e)%R). { eapply Rle_trans; [exact LA|]. replace (2 * e)%R with (2 * e * 1)%R by ring. apply Rmult_le_compat; lra. }
  assert (TH : (49 / 100 <= th <= 101 / 100)%R) by (apply Rabs_le_inv in LB; lra).
  assert (UT : tan th = u) by apply atan_right_inv. assert (U1 : (49 / 100 <= u <= 51 / 20)%R). { split; [pose proof (atan_le_id u ltac:(lra)); fold th in H; lra|]. rewrite <- UT. pose proof (tan_low th ltac:(lra)). lra. }
  assert (D2 : (Rabs (2 * th - 2 * y) <= 4 * e)%R). { replace (2 * th - 2 * y)%R with (2 * (th - y))%R by ring. rewrite Rabs_mult, (Rabs_pos_eq 2) by lra. lra. }
  assert (Z63 : (4 * e <= bpow radix2 (-64))%R). { apply Rle_trans with (4 * bpow radix2 (-100))%R; [lra|]. change 4%R with (bpow radix2 2). rewrite <- bpow_plus. apply bpow_le. lia. }
  destruct (tan_near (2 * th) (2 * y) (4 * e) SB CB D2 Z63) as [CA TD]. pose proof (bpow_gt_0 radix2 (-63)) as B62.
  pose proof (cos_low th ltac:(lra)) as CT. pose proof (COS_bound th) as CT1. assert (C2 : cos (2 * th) <> 0%R) by (intros E; rewrite E, Rabs_R0 in CA; lra).
  assert (W1 : (1 - u * u = cos (2 * th) / (cos th * cos th))%R). { rewrite <- UT. unfold tan. rewrite cos_2a. field. lra. }
  assert (WL : (bpow radix2 (-63) <= Rabs (1 - u * u))%R). { eapply Rle_trans; [exact CA|]. rewrite W1. unfold Rdiv. rewrite Rabs_mult. assert (I : (1 <= / (cos th * cos th))%R) by (rewrite <- Rinv_1 at 1; apply Rinv_le; nra). rewrite (Rabs_pos_eq (/ _)) by lra. pose proof (Rabs_pos (cos (2 * th))) as Q. set (aa := Rabs (cos (2 * th))) in *. assert (aa * 1 <= aa * / (cos th * cos th))%R by (apply Rmult_le_compat_l; lra). lra. }
  assert (W0 : (1 - u * u <> 0)%R) by (intros E; rewrite E, Rabs_R0 in WL; lra).
  assert (TT : (tan (2 * th) = 2 * u / (1 - u * u))%R). { rewrite tan_2a; [now rewrite UT|lra|exact C2|rewrite UT; exact W0]. }
  assert (UU : (/ 8 <= u * u <= 7)%R) by (clear - U1; nra). assert (WU : (Rabs (1 - u * u) <= 6)%R) by (apply Rabs_le; lra).
  destruct (sign_real _ W0) as (s2 & HS2 & ES2). set (a := Rabs (1 - u * u)) in *.
  assert (Av : apx P s 0 u v) by (rewrite <- S; now apply apx_self).
  destruct (apx_mul P PO RNone HPP HL _ _ _ _ _ _ _ _ Av Av ltac:(lia)) as (c1 & -> & A1 & _ & I1); [apply (mid_range (-3) 3); [vm_compute; discriminate|vm_compute; discriminate|]; change (bpow radix2 (-3)) with (/ 8)%R; change (bpow radix2 3) with 8%R; lra|]. cbn [bind]. replace (sign_mul s s) with Pos in A1 by (destruct s; reflexivity).
  apply apx_sab in A1; [|lia|lia]. change (IZR (0 + 0 + 1)) with 1%R in A1. change (sr Pos) with 1%R in A1. rewrite Rmult_1_l in A1. assert (AO : sab 0 1 ONE) by (split; [exact ONE_wf|]; split; [exact ONE_normal|]; rewrite ONE_value, Rminus_diag_eq, Rabs_R0 by reflexivity; lra).
  assert (EUU : (eps P * (u * u) <= eps P * 7)%R) by (apply Rmult_le_compat_l; lra). assert (ES : (64 * eps P <= bpow radix2 (-63))%R) by (change 64%R with (bpow radix2 6); unfold eps; rewrite <- bpow_plus; apply bpow_le; lia).
  destruct (sab_sub P PO RNone HPP HL _ _ _ _ _ _ AO A1) as (c2 & -> & A2 & _ & I2); [fold a; lra|fold a; apply (mid_range (-63) 3); [vm_compute; discriminate|vm_compute; discriminate|]; change (bpow radix2 3) with 8%R; lra|]. cbn [bind]. fold a in A2.
  assert (EQ : eps (P - 64) = (bpow radix2 64 * eps P)%R) by (unfold eps; rewrite <- bpow_plus; f_equal; lia).
  assert (A3 : apx (P - 64) s2 32 a c2).
  { rewrite ES2 in A2. eapply (sab_apx (P - 64) s2 32 a); [lia|lra|lia|exact A2|]. rewrite EQ. assert (3 * eps P * a <= 3 * eps P * 6)%R by (apply Rmult_le_compat_l; lra). apply Rle_trans with (64 * eps P)%R; [lra|]. apply Rle_trans with (32 * (bpow radix2 64 * eps P) * bpow radix2 (-63))%R; [|apply Rmult_le_compat_l; [apply Rmult_le_pos; [lra|apply Rmult_le_pos; [apply bpow_ge_0|lra]]|exact WL]].
    right. replace (32 * (bpow radix2 64 * eps P) * bpow radix2 (-63))%R with (32 * (bpow radix2 64 * bpow radix2 (-63)) * eps P)%R by ring. rewrite <- bpow_plus. change (bpow radix2 (64 + -63)) with 2%R. ring. }
  assert (Av2 : apx (P - 64) s 0 u v) by (rewrite <- S; now apply apx_self).
  destruct (double_apx (P - 64) s 0 u v Av2) as [A4 I4]; [fold u; split; [apply Rle_trans with (bpow radix2 (-2)); [apply bpow_le; lia|change (bpow radix2 (-2)) with (/ 4)%R; lra]|lra]|].
  assert (TA : Rabs (tan (2 * th)) = (2 * u / a)%R). { rewrite TT. unfold Rdiv. rewrite Rabs_mult, (Rabs_pos_eq (2 * u)) by lra. f_equal. unfold a. apply Rabs_inv. }
  assert (MD : (/ 8 <= 2 * u / a <= bpow radix2 66)%R).
  { assert (I0 : (/ 6 <= / a)%R) by (apply Rinv_le; lra). assert (I3 : (/ a <= bpow radix2 63)%R). { change (bpow radix2 63) with (bpow radix2 (- -63)). rewrite bpow_opp. apply Rinv_le; lra. } unfold Rdiv. split; [assert (2 * u * / 6 <= 2 * u * / a)%R by (apply Rmult_le_compat_l; lra); lra|]. replace (bpow radix2 66) with (8 * bpow radix2 63)%R by (change 66 with (3 + 63); rewrite bpow_plus; reflexivity). apply Rmult_le_compat; lra. }
  destruct (apx_div (P - 64) PO RNone HPQ HL _ _ _ _ _ _ _ _ A4 A3 ltac:(lia)) as (q & -> & A5 & L5 & I5); [apply (mid_range (-3) 66); [vm_compute; discriminate|vm_compute; discriminate|exact MD]|]. cbn [bind].
  (* from the tangent of the computed angle to that of the angle *)
  set (r := tan (2 * y)) in *. set (A := tan (2 * th)) in *. set (d := (bpow radix2 64 * (4 * e))%R) in *.
  assert (Dd : (d = bpow radix2 29 * eps (P - 64))%R). { unfold d, e. rewrite EQ. change 4%R with (bpow radix2 2). rewrite <- !Rmult_assoc, <- !bpow_plus. reflexivity. }
  assert (Dq : (0 <= d <= / 8)%R). { split; [rewrite Dd; apply Rmult_le_pos; [apply bpow_ge_0|left; apply eps_pos]|]. rewrite Dd. change (/ 8)%R with (bpow radix2 (-3)). unfold eps. rewrite <- bpow_plus. apply bpow_le. lia. }
  assert (CB0 : cos (2 * y) <> 0%R) by (pose proof (bpow_gt_0 radix2 (-62)); intros E; rewrite E, Rabs_R0 in CB; lra).
  assert (R0 : r <> 0%R). { unfold r, tan, Rdiv. apply Rmult_integral_contrapositive_currified; [lra|now apply Rinv_neq_0_compat]. }
  assert (AR : (Rabs (A - r) <= / 8 * Rabs r)%R). { eapply Rle_trans; [exact TD|]. apply Rmult_le_compat_r; [apply Rabs_pos|apply Dq]. }
  exists q, (sign_mul s s2). split; [reflexivity|]. split; [|split; [|split; [rewrite L5; exact HP64|apply I5; apply orb_true_iff; left; now rewrite I4]]].
  - assert (HA : has_sign s2 A). { rewrite TT. unfold has_sign in *. replace (IZR (sgnZ s2) * (2 * u / (1 - u * u)))%R with (2 * u * ((IZR (sgnZ s2) * (1 - u * u)) * (/ (1 - u * u) * / (1 - u * u))))%R by (field; exact W0). apply Rmult_lt_0_compat; [lra|]. apply Rmult_lt_0_compat; [exact HS2|]. apply Rsqr_pos_lt. now apply Rinv_neq_0_compat. }
    assert (HR : has_sign s2 r). { unfold has_sign in *. apply Rabs_le_inv in AR. unfold Rabs in AR. destruct (Rcase_abs r), s2; cbn [sgnZ] in *; lra. }
    unfold has_sign, sr in *. destruct s, s2; cbn [sgnZ sign_mul sign_eqb] in *; lra.
  - destruct A5 as (W5 & N5 & S5 & L6). split; [exact W5|]. split; [exact N5|]. split; [exact S5|]. rewrite <- TA in L6.
    assert (RP : (0 < Rabs r)%R) by now apply Rabs_pos_lt.
    assert (LR : lc (2 * d) (Rabs r) (Rabs A)). { apply lc_round; [exact RP|lra|]. eapply Rle_trans; [apply Rabs_triang_inv2|]. exact TD. }
    eapply lc_weak; [|eapply lc_trans; [exact LR|exact L6]]. rewrite Dd. pose proof (eps_pos (P - 64)) as Eq0. set (ep := eps (P - 64)) in *. clearbody ep. change (IZR (0 + 32 + 1)) with 33%R. change (bpow radix2 29) with 536870912%R. change (IZR KTB) with 2147483648%R. lra.
Qed.
End Last.

(** ** The series with its reduction: tan.rs 113-144 *)
Theorem tan_series_big g x P s : 192 <= P <= 1984 -> wf x -> normal x -> ns x = s -> 64 * wlen x = P -> ne x = 1 -> (bpow radix2 (-61) <= Rabs (cos (Rabs (value x))))%R ->
  ends (tan_series g x RNone) (fun q => (exists s', has_sign s' (sr s * tan (Rabs (value x))) /\ apx (P - 64) s' KTB (Rabs (tan (Rabs (value x)))) q) /\ P <= 64 * wlen q /\ ninexact q = true).
Proof.
  intros HP W N S L He FAR. unfold tan_series. cbv zeta. rewrite max_len, L. assert (HP64 : prec_up P = P) by (unfold prec_up; clear - L; dlia).
  destruct (tan_optimize g P (- ne x)) as [[[n niter] e]|] eqn:EO; [|left; reflexivity].
  destruct (tan_optimize_b g P (- ne x) n niter e ltac:(clear - HP; lia) ltac:(clear - He; lia) EO) as (step & Hst & Hn0 & Hsn & Hn & Ee). clear EO.
  set (m := - ne x) in *. assert (Hm : m = -1) by (unfold m; clear - He; lia).
  set (p_arg := P + (if 0 <? n * 4 + 9 - e then n * 4 + 9 - e else 0)) in *. assert (Hpa : P <= p_arg <= 4 * P + 99). { unfold p_arg. clear - Hn Ee Hst Hn0 Hm HP. destruct (Z.ltb_spec 0 (n * 4 + 9 - e)); lia. }
  clearbody p_arg. set (PO := prec_up p_arg). assert (HPO : P <= PO <= 32640) by (unfold PO; clear - Hpa HP HP64; rewrite <- HP64 at 1; unfold prec_up; dlia). assert (HPO64 : prec_up PO = PO) by (unfold PO, prec_up; clear; dlia).
  assert (HL : PO < P_LIM) by (eapply Z.le_lt_trans; [apply HPO|]; vm_compute; reflexivity).
  assert (EP : 0 < p_arg) by (clear - HP Hpa; lia).
  pose proof (apx_self P x W N) as Ax. destruct (normal_range x W N) as [X1 X2].
  destruct (apx_len_up P _ 0 _ x p_arg Ax ltac:(fold PO; clear - L HPO; lia) EP ltac:(fold PO; exact HL)) as (x1 & -> & (W1 & N1 & S1 & _) & L1 & V1). fold PO in L1. cbn [done rbind].
  assert (Hn20 : 0 <= n <= 2 ^ 20) by (clear - Hn Hn0 HP; lia).
  set (ax := Rabs (value x)) in *. assert (AX1 : (bpow radix2 (- m - 1) <= ax)%R) by (unfold m; rewrite Z.opp_involutive; exact X1). assert (AX2 : (ax <= bpow radix2 (- m))%R) by (unfold m; rewrite Z.opp_involutive; left; exact X2).
  assert (AX3 : (1 <= ax <= 2)%R). { rewrite Hm in AX1, AX2. change (bpow radix2 (- -1 - 1)) with 1%R in AX1. change (bpow radix2 (- -1)) with 2%R in AX2. lra. }
  destruct (normal_range x1 W1 N1) as [Y1 Y2]. rewrite V1 in Y1, Y2. fold ax in Y1, Y2.
  assert (NE : - 2 ^ 22 <= ne x1 <= 2 ^ 20). { split; [assert (- m - 1 < ne x1); [|clear - H Hm; lia]; apply (lt_bpow radix2); eapply Rle_lt_trans; [exact AX1|exact Y2]|]. assert (ne x1 - 1 <= 1); [|clear - H; lia]. apply (le_bpow radix2). eapply Rle_trans; [exact Y1|exact (proj2 AX3)]. }
  unfold tan_arg_reduce. destruct (halved_ok x1 n W1 N1 Hn20 NE) as (arg & -> & Wa & Na & Sa & La & Va). cbn [done rbind].
  set (t := (ax * bpow radix2 (- n))%R). assert (AV : Rabs (value arg) = t). { rewrite Va, V1, Rabs_mult, (Rabs_pos_eq (bpow _ _)) by apply bpow_ge_0. reflexivity. }
  pose proof (bpow_gt_0 radix2 (- n)) as Bn. assert (A0 : (0 < ax)%R) by (eapply Rlt_le_trans; [apply bpow_gt_0|exact AX1]).
  assert (TL : (bpow radix2 (- m - 1 + - n) <= t)%R) by (apply low_mul; [exact AX1|right; reflexivity]).
  assert (TL2 : (bpow radix2 (- 2 ^ 22) <= t)%R) by (eapply Rle_trans; [|exact TL]; apply bpow_le; clear - Hm Hn HP; lia).
  assert (TL3 : (bpow radix2 (- 2 ^ 27) <= t)%R) by (eapply Rle_trans; [|exact TL2]; apply bpow_le; clear; lia).
  assert (TU : (t <= / 8)%R). { change (/ 8)%R with (bpow radix2 (-3)). apply Rle_trans with (bpow radix2 (- m) * bpow radix2 (- n))%R; [apply Rmult_le_compat_r; lra|]. rewrite <- bpow_plus. apply bpow_le. clear - Hsn Hst. lia. }
  assert (HPP : 128 <= P <= PO) by (clear - HP HPO; lia). assert (SA : ns arg = s) by congruence. assert (LA : 64 * wlen arg = PO) by (rewrite La; exact L1).
  pose proof (tan_series_run_ok g arg P PO s HPP (proj2 HPO) HPO64 Wa Na SA LA) as RUN. rewrite AV in RUN. specialize (RUN (conj TL2 TU)).
  destruct RUN as [->|(ret & -> & Rret & Lret & Iret)]; [left; reflexivity|]. cbn [rbind].
  assert (N4 : 4 <= n) by (clear - Hsn Hst Hm; lia). assert (Hn1 : n = 1 + Z.of_nat (Z.to_nat (n - 1))) by (clear - N4; lia). set (j := Z.to_nat (n - 1)) in *. assert (Ej : Z.to_nat n = Datatypes.S j) by (clear - Hn1; lia).
  assert (TN : (2 * (2 ^ j * t) = ax)%R). { replace (2 * (2 ^ j * t))%R with (2 ^ Z.to_nat n * t)%R by (rewrite Ej; cbn [pow]; ring). rewrite pow2 by exact Hn0. unfold t. replace (bpow radix2 n * (ax * bpow radix2 (- n)))%R with (ax * (bpow radix2 n * bpow radix2 (- n)))%R by ring. rewrite <- bpow_plus. replace (n + - n) with 0 by ring. change (bpow radix2 0) with 1%R. ring. }
  assert (K0 : 0 <= KT) by (vm_compute; discriminate). assert (KB : 0 <= KT + 32 * Z.of_nat j <= 2 ^ 27) by (change KT with (2 ^ 26); clear - Hn HP Hn1; lia).
  destruct (tan_restore_ok P PO HPP ltac:(clear - HPO; lia) HPO64 s j KT t ret Rret K0 ltac:(clear - KB; lia) TL3 ltac:(lra) Lret Iret) as (q & Eq & Rq & Lq & Iq).
  pose proof (sin_big ax AX3) as SB.
  destruct (tlast_ok P PO ltac:(clear - HP HPO; lia) ltac:(clear - HPO; lia) HPO64 s _ _ q Rq KB ltac:(lra) ltac:(rewrite TN; eapply Rle_trans; [|exact FAR]; apply bpow_le; clear; lia) ltac:(rewrite TN; lra) Lq Iq) as (q2 & s2 & Eq2 & HS2 & Rq2 & Lq2 & Iq2). rewrite TN in HS2, Rq2.
  replace (0 <? n) with true by (symmetry; apply Z.ltb_lt; clear - N4; lia). unfold tan_arg_restore. rewrite max_len, Lret, Ej, trestore_last, Eq. cbn [bind]. rewrite Eq2. apply ends_ok. split; [exists s2; split; assumption|]. split; [clear - Lq2 HPO; lia|exact Iq2].
Qed.

From Verif Require Import AltDiv AtanTop PiNum IntNum WfTop AtanBig PropsConst CosBig.
(** ** The loop *)
Lemma sr_tan s r : has_sign s r -> (sr s * tan (Rabs r) = tan r)%R.
Proof. unfold has_sign, sr. destruct s; cbn [sgnZ]; intros H; [rewrite Rabs_left by lra; rewrite tan_neg|rewrite Rabs_pos_eq by lra]; ring. Qed.
Section Loop.
Context (x0 : num) (p : Z) (rm : rmode) (g : nat).
Hypotheses (W0 : wf x0) (N0 : nonzero x0) (Hp : 0 < p) (Hp64 : p mod 64 = 0) (He : ne x0 = 1) (FAR : (bpow radix2 (-60) <= Rabs (Rabs (value x0) - PI / 2))%R).

Definition tan_big_post (o : prun num) : Prop :=
  match o with
  | None => True
  | Some (c', res) => reachable pi_new pi_for_prec c' /\ match res with Ok q => elem_result (tan (value x0)) p rm q | _ => overflowed res end
  end.
Theorem tan_loop_big : forall f c w i, reachable pi_new pi_for_prec c -> p + 64 <= w -> w mod 64 = 0 -> 64 <= i -> i mod 64 = 0 -> 128 <= w -> 64 * wlen x0 <= w -> i <= 64 * (((w + i) / 5 + 63) / 64) ->
  work f w i + 128 <= 1984 -> tan_big_post (tan_loop f g 31 c x0 p rm w i 67).
Proof.
  induction f as [|f IH]; intros c w i RC Hpw Hw64 Hi Hi64 Hw HLx Hii HB; [exact I|].
  pose proof (work_ge (Datatypes.S f) w i ltac:(lia) ltac:(lia)) as HG.
  change (work (Datatypes.S f) w i) with (work f (w + i) (64 * (((w + i) / 5 + 63) / 64))) in HB, HG.
  pose proof (work_ge f (w + i) (64 * (((w + i) / 5 + 63) / 64)) ltac:(lia) ltac:(clear - Hw Hi; dlia)) as HG2.
  assert (PW : prec_up (w + 67) = w + 128) by (unfold prec_up; clear - Hw64; dlia). assert (HPX : 192 <= w + 128 <= 1984) by (clear - HB HG HG2 Hw Hi; lia). assert (PL : prec_up (w + 67) < P_LIM) by (rewrite PW; apply Z.le_lt_trans with 1984; [apply HPX|vm_compute; reflexivity]).
  assert (HX : argument x0 w x0). { pose proof (argument_start x0 W0 N0 ltac:(rewrite He; vm_compute; reflexivity)) as (_ & H2 & _). split; [exact W0|]. split; [exact H2|]. split; [reflexivity|]. split; [reflexivity|exact HLx]. }
  cbn [tan_loop]. destruct (argument_len x0 w x0 (w + 67) ltac:(lia) PL ltac:(lia) HX) as (y & -> & HY & Sy & Ly). rewrite PW in HY, Ly. cbn [ppure pbind]. pose proof HY as (Wy & Ny & Vy & Ey & _). rewrite He in Ey.
  unfold reduce_trig_arg. rewrite Ey. change (2 <? 1) with false. cbn [ppure pbind].
  pose proof (proximity_ok c y (w + 128) RC Wy Ny Ly ltac:(clear - HPX; lia) Ey) as PP. destruct (trig_arg_pi_proximity 31 c y RNone) as [[c1 [[t q]|e|]]|]; [|exact PP|exact PP|exact I]. destruct PP as (R1 & -> & PF). rewrite Vy in PF. specialize (PF FAR). cbn [pbind]. rewrite (proj2 (Z.ltb_ge 67 t)) by (clear - PF; lia).
  destruct (normal_range y Wy Ny) as [Y1 Y2]. rewrite Ey, Vy in Y1, Y2. change (bpow radix2 (1 - 1)) with 1%R in Y1. change (bpow radix2 1) with 2%R in Y2.
  assert (B60 : (0 <= bpow radix2 (-60) <= / 2)%R). { split; [apply bpow_ge_0|]. change (/ 2)%R with (bpow radix2 (-1)). apply bpow_le. lia. }
  pose proof (cos_far (Rabs (value x0)) _ ltac:(lra) B60 FAR) as CF. assert (CF2 : (bpow radix2 (-61) <= Rabs (cos (Rabs (value x0))))%R). { eapply Rle_trans; [|exact CF]. change (-60) with (1 + -61). rewrite bpow_plus. change (bpow radix2 1) with 2%R. lra. }
  pose proof (value_has_sign x0 W0 N0) as VS.
  pose proof (tan_series_big g y (w + 128) (ns x0) ltac:(clear - HPX; lia) Wy Ny Sy Ly Ey ltac:(rewrite Vy; exact CF2)) as EV. destruct EV as [->|(ret & -> & (s & HS & A) & L & Ir)]; [exact I|]. rewrite Vy, (sr_tan _ _ VS) in HS. rewrite Vy in A. replace (w + 128 - 64) with (w + 64) in A by ring.
  replace (Rabs (tan (Rabs (value x0)))) with (Rabs (tan (value x0))) in A by (unfold Rabs at 3; destruct (Rcase_abs (value x0)); [rewrite tan_neg, Rabs_Ropp|]; reflexivity). set (r := tan (value x0)) in *. cbn [ppure pbind].
  destruct A as (Wr & Nr & Sr & LCr). assert (KBB : 0 <= KTB <= 2 ^ 58) by (split; vm_compute; discriminate).
  pose proof (accept_elem r ret p rm w KTB Wr Nr Ir ltac:(clear - L; lia) ltac:(rewrite Sr; exact HS) LCr KBB Hp Hp64 Hw64 Hpw) as AE.
  destruct (try_set_precision ret p rm w) as [[q [|]]|[tt| | |]|]; try contradiction; cbn [ppure pbind].
  - split; [exact R1|]. now apply elem_mark.
  - rewrite round_step by (clear - HG HG2 HB Hw Hi; lia). apply IH; [exact R1|lia| |clear - Hw Hi; dlia|rewrite Z.mul_comm; apply Z.mod_mul; lia|lia|lia| |exact HB].
    + clear - Hw64 Hi64. dlia.
    + assert (D : (w + i) / 5 <= (w + i + 64 * (((w + i) / 5 + 63) / 64)) / 5) by (apply Z.div_le_mono; [lia|]; clear - Hw Hi; dlia). assert ((((w + i) / 5 + 63) / 64) <= (((w + i + 64 * (((w + i) / 5 + 63) / 64)) / 5 + 63) / 64)) by (apply Z.div_le_mono; lia). lia.
  - split; [exact R1|exact I].
Qed.
End Loop.

Theorem tan_big_ok f g c x p rm : reachable pi_new pi_for_prec c -> wf x -> 0 < p -> (1 <= Rabs (value x) < 2)%R -> (bpow radix2 (-60) <= Rabs (Rabs (value x) - PI / 2))%R ->
  work f (Z.max (prec_up p) (64 * wlen x) + 64) 64 + 128 <= 1984 ->
  tan_big_post x (prec_up p) rm (f_tan f g 31 c x p rm).
Proof.
  intros R W Hp HV FAR HB. assert (N : normal x). { apply normal_iff; [exact W|]. eapply Rle_trans with (bpow radix2 0); [apply bpow_le; vm_compute; discriminate|]. change (bpow radix2 0) with 1%R. lra. }
  assert (He : ne x = 1). { destruct (normal_range x W N) as [H1 H2]. assert (ne x - 1 < 1) by (apply (lt_bpow radix2); change (bpow radix2 1) with 2%R; lra). assert (0 < ne x) by (apply (lt_bpow radix2); change (bpow radix2 0) with 1%R; lra). lia. }
  change (Z.max (prec_up p) (64 * wlen x)) with (max64 (prec_up p) x) in HB. assert (P64 : 64 <= prec_up p) by (unfold prec_up; clear - Hp; dlia). assert (M1 : prec_up p <= max64 (prec_up p) x) by (unfold max64; lia). assert (M2 : 64 * wlen x <= max64 (prec_up p) x) by (unfold max64; lia).
  pose proof (work_ge f (max64 (prec_up p) x + 64) 64 ltac:(lia) ltac:(lia)) as HG. assert (PL : prec_up p < P_LIM) by (eapply Z.le_lt_trans with 1984; [lia|vm_compute; reflexivity]).
  unfold f_tan. match goal with |- context [@odd_in ?A ?ok ?rest 1 false x p rm] => rewrite (@odd_in_rest A ok rest 1 false x p rm W (proj2 N) Hp PL ltac:(lia)) end. cbv beta. change (mantissa_max_bit_len x) with (64 * wlen x). change (Z.max (prec_up p) (64 * wlen x)) with (max64 (prec_up p) x).
  apply tan_loop_big; [exact W|exact (proj2 N)|lia|apply prec_up_mod|exact He|exact FAR|exact R|lia|apply max_mod|lia|reflexivity|lia|lia|clear - M1 P64; dlia|exact HB].
Qed.
