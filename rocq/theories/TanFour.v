(** The tangent for arguments between two and four in magnitude. *)

From Coq Require Import ZArith List Bool Lia Reals Lra.
From Flocq Require Import Core.
From Verif Require Import Words IntModel Mantissa Num Pow Consts Elem Series Exp Sin Ln Cos Tan SpecZ SpecOps SpecConst SpecPow SpecElem WordsP Spec RealP RealP2 NumP CmpP AddP SetP AddNum MulNum DivNum ArithTop ConvNum Conv2Num RootP ConstP ConstNum ExtP PowExt Refute1 ElemR ElemDom SmallP ElemNum ApproxR ApproxNum SeriesNum SinhR SinhNum SinhTop ExpNum RetryNum ConstReach SpecReach ExpTop HypNum HypTop TanhNum AltNum SinTop CosTop AtanR LnMant TanTop SinBig TanBig.
Import ListNotations.
Open Scope Z_scope.
Ltac Zify.zify_post_hook ::= idtac.
Arguments Z.mul : simpl never.
Arguments Z.add : simpl never.
Arguments Z.pow : simpl never.
Arguments Z.sub : simpl never.
Arguments Z.of_nat : simpl never.

Ltac dlia := Z.div_mod_to_equations; lia.

(** ** The tangent of half the argument, which may be large *)
Lemma tan_mid y : (4 / 5 <= sin y)%R -> (bpow radix2 (-62) <= Rabs (cos y))%R -> (4 / 3 <= Rabs (tan y) <= bpow radix2 62)%R.
Proof.
  intros S C. pose proof (sin2_cos2 y) as E. unfold Rsqr in E. pose proof (SIN_bound y) as SB. pose proof (bpow_gt_0 radix2 (-62)) as B. unfold tan, Rdiv. rewrite Rabs_mult, Rabs_inv, (Rabs_pos_eq (sin y)) by lra. assert (CC : (Rabs (cos y) * Rabs (cos y) = cos y * cos y)%R) by (rewrite <- Rabs_mult; apply Rabs_pos_eq; apply Rle_0_sqr). set (c := Rabs (cos y)) in *. assert (C35 : (c <= 3 / 5)%R) by nra.
  split.
  - assert (I : (5 / 3 <= / c)%R). { replace (5 / 3)%R with (/ (3 / 5))%R by field. apply Rinv_le; lra. } assert (4 / 5 * (5 / 3) <= sin y * / c)%R by (apply Rmult_le_compat; lra). lra.
  - assert (I : (/ c <= bpow radix2 62)%R). { change (bpow radix2 62) with (bpow radix2 (- -62)). rewrite bpow_opp. apply Rinv_le; lra. } assert (0 < / c)%R by (apply Rinv_0_lt_compat; lra). assert (sin y * / c <= 1 * bpow radix2 62)%R by (apply Rmult_le_compat; lra). lra.
Qed.
Lemma double_wide P s k a v : apx P s k a v -> (bpow radix2 (-10) <= Rabs (value v) <= bpow radix2 100)%R -> apx P s k (2 * a) (set_exponent v (ne v + 1)) /\ ninexact (set_exponent v (ne v + 1)) = ninexact v.
Proof.
  intros (W & N & S & L) [V1 V2]. destruct (normal_range v W N) as [N1 N2].
  assert (E1 : ne v - 1 <= 100) by (apply (le_bpow radix2); eapply Rle_trans; [exact N1|exact V2]). assert (E2 : -10 < ne v) by (apply (lt_bpow radix2); eapply Rle_lt_trans; [exact V1|exact N2]).
  pose proof (set_exponent_spec v (ne v + 1) W ltac:(change EMIN with (-2147483648); change EMAX with 2147483647; clear - E1 E2; lia)) as SE. cbv zeta in SE. destruct SE as (W1 & L1 & S1 & I1 & VV). set (q := set_exponent v (ne v + 1)) in *. replace (ne v + 1 - ne v) with 1 in VV by ring. change (bpow radix2 1) with 2%R in VV. split; [|exact I1].
  assert (AV : Rabs (value q) = (2 * Rabs (value v))%R) by (rewrite VV, Rabs_mult, (Rabs_pos_eq 2) by lra; ring).
  split; [exact W1|]. split; [|split; [now rewrite S1|rewrite AV; apply lc_scale; [lra|exact L]]]. apply normal_iff; [exact W1|]. rewrite AV. eapply Rle_trans with (bpow radix2 (-10)); [apply bpow_le; vm_compute; discriminate|]. pose proof (bpow_gt_0 radix2 (-10)). lra.
Qed.
Definition KTC : Z := 2 ^ 36.
Section Last2.
Variables (Q PO : Z).
Hypothesis HQ : 128 <= Q <= PO.
Hypothesis HPO : PO <= 2 ^ 22.
Hypothesis HP64 : prec_up PO = PO.
Let HQQ : 128 <= Q <= prec_up PO.
Proof. clear - HQ HP64. lia. Qed.
Let HL : prec_up PO < P_LIM.
Proof. rewrite HP64. eapply Z.le_lt_trans; [exact HPO|]. vm_compute. reflexivity. Qed.

Lemma tlast2_ok s0 s y v : apx Q s KTB (Rabs (tan y)) v -> has_sign s (sr s0 * tan y) -> (bpow radix2 (-62) <= Rabs (cos y))%R -> (4 / 5 <= sin y)%R -> 64 * wlen v = PO -> ninexact v = true ->
  exists q s', tan_restore_loop 1 PO RNone v = Ok q /\ has_sign s' (sr s0 * tan (2 * y)) /\ apx Q s' KTC (Rabs (tan (2 * y))) q /\ 64 * wlen q = PO /\ ninexact q = true.
Proof.
  intros (W & N & S & L) HS CB SB Lv Iv. cbn [tan_restore_loop]. set (u := Rabs (value v)) in *. pose proof (tan_mid y SB CB) as [T1 T2]. set (T := Rabs (tan y)) in *.
  pose proof (eps_pos Q) as Ep. assert (E30 : (IZR KTB * eps Q <= / 65536)%R). { change (IZR KTB) with (bpow radix2 31). change (/ 65536)%R with (bpow radix2 (-16)). unfold eps. rewrite <- bpow_plus. apply bpow_le. lia. }
  assert (KE : (0 <= IZR KTB * eps Q)%R) by (apply Rmult_le_pos; [apply IZR_le; vm_compute; discriminate|lra]). pose proof (lc_abs _ _ _ ltac:(split; [exact KE|lra]) L) as LA. set (d := (2 * (IZR KTB * eps Q))%R) in *.
  assert (ES : (100 * eps Q <= / 65536)%R). { apply Rle_trans with (IZR KTB * eps Q)%R; [|exact E30]. apply Rmult_le_compat_r; [lra|]. apply IZR_le. vm_compute. discriminate. }
  assert (LB : (Rabs (u - T) <= d * T)%R) by (eapply Rle_trans; [exact LA|]; unfold d; lra). assert (D0 : (0 <= d <= / 32768)%R) by (unfold d; lra).
  assert (DT : (0 <= d * T <= / 32768 * T)%R) by (split; [apply Rmult_le_pos; lra|apply Rmult_le_compat_r; lra]). pose proof (Rabs_le_inv _ _ LB) as UB.
  assert (B63 : bpow radix2 63 = (2 * bpow radix2 62)%R) by (change 63 with (1 + 62); rewrite bpow_plus; reflexivity). assert (U1 : (13 / 10 <= u <= bpow radix2 63)%R) by lra. assert (TU : (T <= u * (1001 / 1000))%R) by lra.
  assert (UU : (169 / 100 <= u * u)%R) by (clear - U1; nra). assert (UV : (u * u <= bpow radix2 126)%R) by (change 126 with (63 + 63); rewrite bpow_plus; apply Rmult_le_compat; lra).
  set (w := (u * u - 1)%R). assert (W1 : (2 / 5 * (u * u) <= w)%R) by (unfold w; lra). assert (WA : Rabs (1 - u * u) = w) by (rewrite Rabs_left by lra; unfold w; ring).
  assert (Av : apx Q s 0 u v) by (rewrite <- S; now apply apx_self).
  destruct (apx_mul Q PO RNone HQQ HL _ _ _ _ _ _ _ _ Av Av ltac:(lia)) as (c1 & -> & A1 & _ & I1); [apply (mid_range 0 126); [vm_compute; discriminate|vm_compute; discriminate|]; change (bpow radix2 0) with 1%R; lra|]. cbn [bind]. replace (sign_mul s s) with Pos in A1 by (destruct s; reflexivity).
  apply apx_sab in A1; [|lia|lia]. change (IZR (0 + 0 + 1)) with 1%R in A1. change (sr Pos) with 1%R in A1. rewrite Rmult_1_l in A1. assert (AO : sab 0 1 ONE) by (split; [exact ONE_wf|]; split; [exact ONE_normal|]; rewrite ONE_value, Rminus_diag_eq, Rabs_R0 by reflexivity; lra).
  assert (EUU : (eps Q * (2 / 5 * (u * u)) <= eps Q * w)%R) by (apply Rmult_le_compat_l; lra). assert (EW : (eps Q * w <= / 1000 * w)%R) by (apply Rmult_le_compat_r; lra).
  destruct (sab_sub Q PO RNone HQQ HL _ _ _ _ _ _ AO A1) as (c2 & -> & A2 & _ & I2); [rewrite WA; lra|rewrite WA; apply (mid_range (-1) 126); [vm_compute; discriminate|vm_compute; discriminate|]; change (bpow radix2 (-1)) with (/ 2)%R; unfold w in *; lra|]. cbn [bind]. rewrite WA in A2.
  assert (A3 : apx Q Neg 16 w c2). { replace (1 - u * u)%R with (sr Neg * w)%R in A2 by (unfold sr, w; cbn [sgnZ]; ring). eapply (sab_apx Q Neg 16 w); [lia|lra|lia|exact A2|]. lra. }
  destruct (double_wide Q s 0 u v Av) as [A4 I4]; [fold u; split; [change (bpow radix2 (-10)) with (/ 1024)%R; lra|]; apply Rle_trans with (bpow radix2 63); [apply U1|apply bpow_le; lia]|].
  assert (IW : (0 < / w)%R) by (apply Rinv_0_lt_compat; lra).
  assert (MD : (bpow radix2 (-63) <= 2 * u / w <= bpow radix2 2)%R).
  { change (bpow radix2 2) with 4%R. split; apply (Rmult_le_reg_r w); try lra; unfold Rdiv; rewrite Rmult_assoc, (Rinv_l w), Rmult_1_r by lra.
    - assert (bpow radix2 (-63) * w <= bpow radix2 (-63) * (bpow radix2 63 * u))%R. { apply Rmult_le_compat_l; [apply bpow_ge_0|]. assert (u * u <= bpow radix2 63 * u)%R by (apply Rmult_le_compat_r; lra). unfold w. lra. } rewrite <- Rmult_assoc, <- bpow_plus in H. change (bpow radix2 (-63 + 63)) with 1%R in H. lra.
    - assert (13 / 10 * u <= u * u)%R by (apply Rmult_le_compat_r; lra). lra. }
  destruct (apx_div Q PO RNone HQQ HL _ _ _ _ _ _ _ _ A4 A3 ltac:(lia)) as (q & -> & A5 & L5 & I5); [apply (mid_range (-63) 2); [vm_compute; discriminate|vm_compute; discriminate|exact MD]|]. cbn [bind].
  (* the formula with the tangent itself *)
  assert (B62 := bpow_gt_0 radix2 (-62)). assert (C0 : cos y <> 0%R) by (intros E; rewrite E, Rabs_R0 in CB; lra). assert (C2 : (cos (2 * y) <> 0)%R) by (rewrite cos_2a_sin; assert (4 / 5 * (4 / 5) <= sin y * sin y)%R by (apply Rmult_le_compat; lra); lra).
  assert (TT : (T * T = tan y * tan y)%R) by (unfold T; rewrite <- Rabs_mult; apply Rabs_pos_eq; apply Rle_0_sqr). assert (T16 : (16 / 9 <= T * T)%R) by (clear - T1; nra). set (V := (T * T - 1)%R). assert (V0 : (7 / 9 <= V)%R) by (unfold V; lra).
  assert (TD : (tan (2 * y) = - (2 * tan y / V))%R). { rewrite tan_2a; [|exact C0|exact C2|rewrite <- TT; lra]. unfold V. rewrite TT. field. rewrite <- TT. split; lra. }
  assert (TA : Rabs (tan (2 * y)) = (2 * T / V)%R). { rewrite TD, Rabs_Ropp. unfold Rdiv. rewrite !Rabs_mult, (Rabs_pos_eq 2), (Rabs_pos_eq (/ V)); [reflexivity|left; apply Rinv_0_lt_compat; lra|lra]. }
  exists q, (sign_mul s Neg). split; [reflexivity|]. split; [|split; [|split; [rewrite L5; exact HP64|apply I5; apply orb_true_iff; left; now rewrite I4]]].
  - rewrite TD. assert (IV : (0 < / V)%R) by (apply Rinv_0_lt_compat; lra). assert (G : (0 < (IZR (sgnZ s) * (sr s0 * tan y)) * (2 * / V))%R) by (apply Rmult_lt_0_compat; [exact HS|lra]). unfold has_sign. replace (IZR (sgnZ (sign_mul s Neg)) * (sr s0 * - (2 * tan y / V)))%R with ((IZR (sgnZ s) * (sr s0 * tan y)) * (2 * / V))%R; [exact G|]. destruct s; cbn [sgnZ sign_mul sign_eqb]; unfold Rdiv; ring.
  - destruct A5 as (W5 & N5 & S5 & L6). split; [exact W5|]. split; [exact N5|]. split; [exact S5|]. rewrite TA.
    assert (F0 : (0 < 2 * T / V)%R) by (unfold Rdiv; apply Rmult_lt_0_compat; [lra|apply Rinv_0_lt_compat; lra]).
    assert (LR : lc (2 * (4 * d)) (2 * T / V) (2 * u / w)).
    { apply lc_round; [exact F0|lra|]. replace (2 * u / w - 2 * T / V)%R with ((T - u) * (2 / V * ((u * T + 1) * / w)))%R by (unfold w, V in *; field; split; lra).
      assert (G4 : (0 <= (u * T + 1) * / w <= 4)%R). { assert (UT : (u * T <= u * (u * (1001 / 1000)))%R) by (apply Rmult_le_compat_l; lra). assert (0 <= u * T)%R by (apply Rmult_le_pos; lra). split; [apply Rmult_le_pos; lra|]. apply (Rmult_le_reg_r w); [lra|]. rewrite Rmult_assoc, Rinv_l, Rmult_1_r by lra. unfold w. lra. }
      set (G := ((u * T + 1) * / w)%R) in *. assert (IV : (0 < / V)%R) by (apply Rinv_0_lt_compat; lra). assert (I2V : (0 <= 2 / V)%R) by (unfold Rdiv; lra). rewrite Rabs_mult, (Rabs_pos_eq (2 / V * G)) by (apply Rmult_le_pos; lra). rewrite Rabs_minus_sym.
      apply Rle_trans with ((d * T) * (2 / V * 4))%R; [apply Rmult_le_compat; [apply Rabs_pos|apply Rmult_le_pos; lra|exact LB|apply Rmult_le_compat_l; lra]|]. right. unfold Rdiv. ring. }
    eapply lc_weak; [|eapply lc_trans; [exact LR|exact L6]]. unfold d. set (ep := eps Q) in *. clearbody ep. change (IZR (0 + 16 + 1)) with 17%R. change (IZR KTB) with 2147483648%R. change (IZR KTC) with 68719476736%R. lra.
Qed.
End Last2.

(** ** The series with its reduction: tan.rs 113-144 *)
Theorem tan_series_four g x P s : 192 <= P <= 1984 -> wf x -> normal x -> ns x = s -> 64 * wlen x = P -> ne x = 2 -> (bpow radix2 (-62) <= Rabs (cos (Rabs (value x) / 2)))%R ->
  ends (tan_series g x RNone) (fun q => (exists s', has_sign s' (sr s * tan (Rabs (value x))) /\ apx (P - 64) s' KTC (Rabs (tan (Rabs (value x)))) q) /\ P <= 64 * wlen q /\ ninexact q = true).
Proof.
  intros HP W N S L He FAR. unfold tan_series. cbv zeta. rewrite max_len, L. assert (HP64 : prec_up P = P) by (unfold prec_up; clear - L; dlia).
  destruct (tan_optimize g P (- ne x)) as [[[n niter] e]|] eqn:EO; [|left; reflexivity].
  destruct (tan_optimize_b g P (- ne x) n niter e ltac:(clear - HP; lia) ltac:(clear - He; lia) EO) as (step & Hst & Hn0 & Hsn & Hn & Ee). clear EO.
  set (m := - ne x) in *. assert (Hm : m = -2) by (unfold m; clear - He; lia).
  set (p_arg := P + (if 0 <? n * 4 + 9 - e then n * 4 + 9 - e else 0)) in *. assert (Hpa : P <= p_arg <= 4 * P + 99). { unfold p_arg. clear - Hn Ee Hst Hn0 Hm HP. destruct (Z.ltb_spec 0 (n * 4 + 9 - e)); lia. }
  clearbody p_arg. set (PO := prec_up p_arg). assert (HPO : P <= PO <= 32640) by (unfold PO; clear - Hpa HP HP64; rewrite <- HP64 at 1; unfold prec_up; dlia). assert (HPO64 : prec_up PO = PO) by (unfold PO, prec_up; clear; dlia).
  assert (HL : PO < P_LIM) by (eapply Z.le_lt_trans; [apply HPO|]; vm_compute; reflexivity).
  assert (EP : 0 < p_arg) by (clear - HP Hpa; lia).
  pose proof (apx_self P x W N) as Ax. destruct (normal_range x W N) as [X1 X2].
  destruct (apx_len_up P _ 0 _ x p_arg Ax ltac:(fold PO; clear - L HPO; lia) EP ltac:(fold PO; exact HL)) as (x1 & -> & (W1 & N1 & S1 & _) & L1 & V1). fold PO in L1. cbn [done rbind].
  assert (Hn20 : 0 <= n <= 2 ^ 20) by (clear - Hn Hn0 HP; lia).
  set (ax := Rabs (value x)) in *. assert (AX1 : (bpow radix2 (- m - 1) <= ax)%R) by (unfold m; rewrite Z.opp_involutive; exact X1). assert (AX2 : (ax <= bpow radix2 (- m))%R) by (unfold m; rewrite Z.opp_involutive; left; exact X2).
  assert (AX3 : (2 <= ax <= 4)%R). { rewrite Hm in AX1, AX2. change (bpow radix2 (- -2 - 1)) with 2%R in AX1. change (bpow radix2 (- -2)) with 4%R in AX2. lra. }
  destruct (normal_range x1 W1 N1) as [Y1 Y2]. rewrite V1 in Y1, Y2. fold ax in Y1, Y2.
  assert (NE : - 2 ^ 22 <= ne x1 <= 2 ^ 20). { split; [assert (- m - 1 < ne x1); [|clear - H Hm; lia]; apply (lt_bpow radix2); eapply Rle_lt_trans; [exact AX1|exact Y2]|]. assert (ne x1 - 1 <= 2); [|clear - H; lia]. apply (le_bpow radix2). eapply Rle_trans; [exact Y1|exact (proj2 AX3)]. }
  unfold tan_arg_reduce. destruct (halved_ok x1 n W1 N1 Hn20 NE) as (arg & -> & Wa & Na & Sa & La & Va). cbn [done rbind].
  set (t := (ax * bpow radix2 (- n))%R). assert (AV : Rabs (value arg) = t). { rewrite Va, V1, Rabs_mult, (Rabs_pos_eq (bpow _ _)) by apply bpow_ge_0. reflexivity. }
  pose proof (bpow_gt_0 radix2 (- n)) as Bn. assert (A0 : (0 < ax)%R) by (eapply Rlt_le_trans; [apply bpow_gt_0|exact AX1]).
  assert (TL : (bpow radix2 (- m - 1 + - n) <= t)%R) by (apply low_mul; [exact AX1|right; reflexivity]).
  assert (TL2 : (bpow radix2 (- 2 ^ 22) <= t)%R) by (eapply Rle_trans; [|exact TL]; apply bpow_le; clear - Hm Hn HP; lia).
  assert (TL3 : (bpow radix2 (- 2 ^ 27) <= t)%R) by (eapply Rle_trans; [|exact TL2]; apply bpow_le; clear; lia).
  assert (TU : (t <= / 8)%R). { change (/ 8)%R with (bpow radix2 (-3)). apply Rle_trans with (bpow radix2 (- m) * bpow radix2 (- n))%R; [apply Rmult_le_compat_r; lra|]. rewrite <- bpow_plus. apply bpow_le. clear - Hsn Hst. lia. }
  assert (HPP : 128 <= P <= PO) by (clear - HP HPO; lia). assert (SA : ns arg = s) by congruence. assert (LA : 64 * wlen arg = PO) by (rewrite La; exact L1).
  pose proof (tan_series_run_ok g arg P PO s HPP (proj2 HPO) HPO64 Wa Na SA LA) as RUN. rewrite AV in RUN. specialize (RUN (conj TL2 TU)).
  destruct RUN as [->|(ret & -> & Rret & Lret & Iret)]; [left; reflexivity|]. cbn [rbind].
  assert (N4 : 5 <= n) by (clear - Hsn Hst Hm; lia). assert (Hn1 : n = 2 + Z.of_nat (Z.to_nat (n - 2))) by (clear - N4; lia). set (j := Z.to_nat (n - 2)) in *. assert (Ej : Z.to_nat n = Datatypes.S (Datatypes.S j)) by (clear - Hn1; lia).
  assert (TN : (2 * (2 ^ j * t) = ax / 2)%R). { assert (H : (2 * (2 * (2 ^ j * t)) = ax)%R); [|lra]. replace (2 * (2 * (2 ^ j * t)))%R with (2 ^ Z.to_nat n * t)%R by (rewrite Ej; cbn [pow]; ring). rewrite pow2 by exact Hn0. unfold t. replace (bpow radix2 n * (ax * bpow radix2 (- n)))%R with (ax * (bpow radix2 n * bpow radix2 (- n)))%R by ring. rewrite <- bpow_plus. replace (n + - n) with 0 by ring. change (bpow radix2 0) with 1%R. ring. }
  assert (K0 : 0 <= KT) by (vm_compute; discriminate). assert (KB : 0 <= KT + 32 * Z.of_nat j <= 2 ^ 27) by (change KT with (2 ^ 26); clear - Hn HP Hn1; lia).
  destruct (tan_restore_ok P PO HPP ltac:(clear - HPO; lia) HPO64 s j KT t ret Rret K0 ltac:(clear - KB; lia) TL3 ltac:(lra) Lret Iret) as (q & Eq & Rq & Lq & Iq).
  pose proof (sin_big (ax / 2) ltac:(lra)) as SB.
  destruct (tlast_ok P PO ltac:(clear - HP HPO; lia) ltac:(clear - HPO; lia) HPO64 s _ _ q Rq KB ltac:(lra) ltac:(rewrite TN; exact FAR) ltac:(rewrite TN; lra) Lq Iq) as (q2 & s2 & Eq2 & HS2 & Rq2 & Lq2 & Iq2). rewrite TN in HS2, Rq2.
  destruct (tlast2_ok (P - 64) PO ltac:(clear - HP HPO; lia) ltac:(clear - HPO; lia) HPO64 s s2 (ax / 2) q2 Rq2 HS2 FAR ltac:(lra) Lq2 Iq2) as (q3 & s3 & Eq3 & HS3 & Rq3 & Lq3 & Iq3). replace (2 * (ax / 2))%R with ax in HS3, Rq3 by field.
  replace (0 <? n) with true by (symmetry; apply Z.ltb_lt; clear - N4; lia). unfold tan_arg_restore. rewrite max_len, Lret, Ej, trestore_last, trestore_last, Eq. cbn [bind]. rewrite Eq2. cbn [bind]. rewrite Eq3. apply ends_ok. split; [exists s3; split; assumption|]. split; [clear - Lq3 HPO; lia|exact Iq3].
Qed.

From Verif Require Import AltDiv AtanTop PiNum IntNum WfTop AtanBig PropsConst CosBig SinFour.

(** ** The loop *)
Section Loop.
Context (x0 : num) (p : Z) (rm : rmode) (g : nat).
Hypotheses (W0 : wf x0) (N0 : nonzero x0) (Hp : 0 < p) (Hp64 : p mod 64 = 0) (He : ne x0 = 2) (FAR : (bpow radix2 (-60) <= Rabs (Rabs (value x0) - PI))%R).

Theorem tan_loop_four : forall f c w i, reachable pi_new pi_for_prec c -> p + 64 <= w -> w mod 64 = 0 -> 64 <= i -> i mod 64 = 0 -> 128 <= w -> 64 * wlen x0 <= w -> i <= 64 * (((w + i) / 5 + 63) / 64) ->
  work f w i + 128 <= 1984 -> tan_big_post x0 p rm (tan_loop f g 31 c x0 p rm w i 67).
Proof.
  induction f as [|f IH]; intros c w i RC Hpw Hw64 Hi Hi64 Hw HLx Hii HB; [exact I|].
  pose proof (work_ge (Datatypes.S f) w i ltac:(lia) ltac:(lia)) as HG.
  change (work (Datatypes.S f) w i) with (work f (w + i) (64 * (((w + i) / 5 + 63) / 64))) in HB, HG.
  pose proof (work_ge f (w + i) (64 * (((w + i) / 5 + 63) / 64)) ltac:(lia) ltac:(clear - Hw Hi; dlia)) as HG2.
  assert (PW : prec_up (w + 67) = w + 128) by (unfold prec_up; clear - Hw64; dlia). assert (HPX : 192 <= w + 128 <= 1984) by (clear - HB HG HG2 Hw Hi; lia). assert (PL : prec_up (w + 67) < P_LIM) by (rewrite PW; apply Z.le_lt_trans with 1984; [apply HPX|vm_compute; reflexivity]).
  assert (HX : argument x0 w x0). { pose proof (argument_start x0 W0 N0 ltac:(rewrite He; vm_compute; reflexivity)) as (_ & H2 & _). split; [exact W0|]. split; [exact H2|]. split; [reflexivity|]. split; [reflexivity|exact HLx]. }
  cbn [tan_loop]. destruct (argument_len x0 w x0 (w + 67) ltac:(lia) PL ltac:(lia) HX) as (y & -> & HY & Sy & Ly). rewrite PW in HY, Ly. cbn [ppure pbind]. pose proof HY as (Wy & Ny & Vy & Ey & _). rewrite He in Ey.
  unfold reduce_trig_arg. rewrite Ey. change (2 <? 2) with false. cbn [ppure pbind].
  pose proof (proximity_two c y (w + 128) RC Wy Ny Ly ltac:(clear - HPX; lia) Ey) as PP. destruct (trig_arg_pi_proximity 31 c y RNone) as [[c1 [[t q]|e|]]|]; [|exact PP|exact PP|exact I]. destruct PP as (R1 & -> & PF). rewrite Vy in PF. specialize (PF FAR). cbn [pbind]. rewrite (proj2 (Z.ltb_ge 67 t)) by (clear - PF; lia).
  destruct (normal_range y Wy Ny) as [Y1 Y2]. rewrite Ey, Vy in Y1, Y2. change (bpow radix2 (2 - 1)) with 2%R in Y1. change (bpow radix2 2) with 4%R in Y2.
  assert (B61 : (0 <= bpow radix2 (-61) <= / 2)%R). { split; [apply bpow_ge_0|]. change (/ 2)%R with (bpow radix2 (-1)). apply bpow_le. lia. }
  assert (FH : (bpow radix2 (-61) <= Rabs (Rabs (value x0) / 2 - PI / 2))%R). { replace (Rabs (value x0) / 2 - PI / 2)%R with (/ 2 * (Rabs (value x0) - PI))%R by field. rewrite Rabs_mult, (Rabs_pos_eq (/ 2)) by lra. change (-60) with (1 + -61) in FAR. rewrite bpow_plus in FAR. change (bpow radix2 1) with 2%R in FAR. lra. }
  pose proof (cos_far (Rabs (value x0) / 2) _ ltac:(lra) B61 FH) as CF. assert (CF2 : (bpow radix2 (-62) <= Rabs (cos (Rabs (value x0) / 2)))%R). { eapply Rle_trans; [|exact CF]. change (-61) with (1 + -62). rewrite bpow_plus. change (bpow radix2 1) with 2%R. lra. }
  pose proof (value_has_sign x0 W0 N0) as VS.
  pose proof (tan_series_four g y (w + 128) (ns x0) ltac:(clear - HPX; lia) Wy Ny Sy Ly Ey ltac:(rewrite Vy; exact CF2)) as EV. destruct EV as [->|(ret & -> & (s & HS & A) & L & Ir)]; [exact I|]. rewrite Vy, (sr_tan _ _ VS) in HS. rewrite Vy in A. replace (w + 128 - 64) with (w + 64) in A by ring.
  replace (Rabs (tan (Rabs (value x0)))) with (Rabs (tan (value x0))) in A by (unfold Rabs at 3; destruct (Rcase_abs (value x0)); [rewrite tan_neg, Rabs_Ropp|]; reflexivity). set (r := tan (value x0)) in *. cbn [ppure pbind].
  destruct A as (Wr & Nr & Sr & LCr). assert (KBB : 0 <= KTC <= 2 ^ 58) by (split; vm_compute; discriminate).
  pose proof (accept_elem r ret p rm w KTC Wr Nr Ir ltac:(clear - L; lia) ltac:(rewrite Sr; exact HS) LCr KBB Hp Hp64 Hw64 Hpw) as AE.
  destruct (try_set_precision ret p rm w) as [[q [|]]|[tt| | |]|]; try contradiction; cbn [ppure pbind].
  - split; [exact R1|]. now apply elem_mark.
  - rewrite round_step by (clear - HG HG2 HB Hw Hi; lia). apply IH; [exact R1|lia| |clear - Hw Hi; dlia|rewrite Z.mul_comm; apply Z.mod_mul; lia|lia|lia| |exact HB].
    + clear - Hw64 Hi64. dlia.
    + assert (D : (w + i) / 5 <= (w + i + 64 * (((w + i) / 5 + 63) / 64)) / 5) by (apply Z.div_le_mono; [lia|]; clear - Hw Hi; dlia). assert ((((w + i) / 5 + 63) / 64) <= (((w + i + 64 * (((w + i) / 5 + 63) / 64)) / 5 + 63) / 64)) by (apply Z.div_le_mono; lia). lia.
  - split; [exact R1|exact I].
Qed.
End Loop.

Theorem tan_four_ok f g c x p rm : reachable pi_new pi_for_prec c -> wf x -> 0 < p -> (2 <= Rabs (value x) < 4)%R -> (bpow radix2 (-60) <= Rabs (Rabs (value x) - PI))%R ->
  work f (Z.max (prec_up p) (64 * wlen x) + 64) 64 + 128 <= 1984 ->
  tan_big_post x (prec_up p) rm (f_tan f g 31 c x p rm).
Proof.
  intros R W Hp HV FAR HB. assert (N : normal x). { apply normal_iff; [exact W|]. eapply Rle_trans with (bpow radix2 0); [apply bpow_le; vm_compute; discriminate|]. change (bpow radix2 0) with 1%R. lra. }
  assert (He : ne x = 2). { destruct (normal_range x W N) as [H1 H2]. assert (ne x - 1 < 2) by (apply (lt_bpow radix2); change (bpow radix2 2) with 4%R; lra). assert (1 < ne x) by (apply (lt_bpow radix2); change (bpow radix2 1) with 2%R; lra). lia. }
  change (Z.max (prec_up p) (64 * wlen x)) with (max64 (prec_up p) x) in HB. assert (P64 : 64 <= prec_up p) by (unfold prec_up; clear - Hp; dlia). assert (M1 : prec_up p <= max64 (prec_up p) x) by (unfold max64; lia). assert (M2 : 64 * wlen x <= max64 (prec_up p) x) by (unfold max64; lia).
  pose proof (work_ge f (max64 (prec_up p) x + 64) 64 ltac:(lia) ltac:(lia)) as HG. assert (PL : prec_up p < P_LIM) by (eapply Z.le_lt_trans with 1984; [lia|vm_compute; reflexivity]).
  unfold f_tan. match goal with |- context [@odd_in ?A ?ok ?rest 1 false x p rm] => rewrite (@odd_in_rest A ok rest 1 false x p rm W (proj2 N) Hp PL ltac:(lia)) end. cbv beta. change (mantissa_max_bit_len x) with (64 * wlen x). change (Z.max (prec_up p) (64 * wlen x)) with (max64 (prec_up p) x).
  apply tan_loop_four; [exact W|exact (proj2 N)|lia|apply prec_up_mod|exact He|exact FAR|exact R|lia|apply max_mod|lia|reflexivity|lia|lia|clear - M1 P64; dlia|exact HB].
Qed.
