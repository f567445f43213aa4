(** The tangent for arguments between four and seven in magnitude. *)

From Coq Require Import ZArith List Bool Lia Reals Lra.
From Flocq Require Import Core.
From Verif Require Import Words IntModel Mantissa Num Pow Consts Elem Series Exp Sin Ln Cos Tan SpecZ SpecOps SpecConst SpecPow SpecElem WordsP Spec RealP RealP2 NumP CmpP AddP SetP AddNum MulNum DivNum ArithTop ConvNum Conv2Num RootP ConstP ConstNum ExtP PowExt Refute1 ElemR ElemDom SmallP ElemNum ApproxR ApproxNum SeriesNum SinhR SinhNum SinhTop ExpNum RetryNum ConstReach SpecReach ExpTop HypNum HypTop TanhNum AltNum SinTop CosTop AtanR LnMant TanTop SinBig TanBig TanFour.
From Verif Require Import AltDiv AtanTop PiNum IntNum WfTop AtanBig PropsConst CosBig SinFour CosFour.
Import ListNotations.
Open Scope Z_scope.
Ltac Zify.zify_post_hook ::= idtac.
Arguments Z.mul : simpl never.
Arguments Z.add : simpl never.
Arguments Z.pow : simpl never.
Arguments Z.sub : simpl never.
Arguments Z.of_nat : simpl never.

Ltac dlia := Z.div_mod_to_equations; lia.

(** ** The number of reductions *)
Lemma tan_loop_opt_e f p m step B : -3 <= m -> 128 <= p -> 1 <= step -> forall times c1,
  0 <= times /\ 0 <= times + m -> match c1 with None => True | Some c => c <= B /\ step <= times /\ (times - step) * tan_unit p <= c end ->
  (c1 = None -> tan_iter_cost p * (series_niter p (tan_red_effect times m) / 1) + tan_red_cost times p <= B) ->
  (forall t, 0 <= t /\ 0 <= t + m -> 0 <= series_niter p (tan_red_effect t m) / 1) ->
  forall n niter e, tan_optimize_loop f p m step times c1 = Some (n, niter, e) ->
  times - step <= n /\ (c1 = None -> times <= n) /\ n * tan_unit p <= B /\ e = tan_red_effect (n + step) m.
Proof.
  intros Hm Hp Hs. destruct (tan_iter_le p Hp) as [U0 [U1 _]]. induction f as [|f IH]; intros times c1 Ht Hc1 HB HN n niter e E; [discriminate E|]. cbn [tan_optimize_loop] in E. cbv zeta in E.
  set (c2 := tan_iter_cost p * _ + tan_red_cost times p) in E.
  assert (C2 : times * tan_unit p <= c2). { unfold c2, tan_red_cost. fold (tan_unit p). pose proof (Z.mul_nonneg_nonneg _ _ U1 (HN times Ht)). lia. }
  destruct (match c1 with None => true | Some c => c2 <? c end) eqn:T.
  - apply IH in E; [|lia| |discriminate|exact HN].
    + destruct E as (E1 & _ & E3 & E4). split; [lia|]. split; [intros _; lia|]. auto.
    + split; [|split; [lia|replace (times + step - step) with times by ring; exact C2]]. destruct c1 as [c|]; [apply Z.ltb_lt in T; lia|]. apply HB. reflexivity.
  - destruct c1 as [c|]; [|discriminate T]. injection E as <- <- <-. destruct Hc1 as (Q1 & Q2 & Q3). split; [lia|]. split; [discriminate|]. split; [lia|]. replace (times - step + step) with times by ring. reflexivity.
Qed.
Lemma tan_optimize_e f p m n niter e : 128 <= p <= 2 ^ 22 -> -3 <= m -> tan_optimize f p m = Some (n, niter, e) ->
  exists step, 3 <= step <= 11 /\ 0 <= n /\ step <= m + n /\ n <= p + 14 /\ e = n + step + m.
Proof.
  intros Hp Hm E. unfold tan_optimize in E. rewrite log2_floor_spec in E by lia. assert (L7 : 7 <= Z.log2 p) by (apply Z.log2_le_pow2; lia). assert (L22 : Z.log2 p <= 22). { change 22 with (Z.log2 (2 ^ 22)). apply Z.log2_le_mono. lia. }
  set (step := Z.log2 p / 2) in *. assert (HS : 3 <= step <= 11) by (unfold step; clear - L7 L22; dlia). clearbody step.
  set (r0 := if m <? step then step - m else 0) in *. assert (R0 : 0 <= r0 <= 14 /\ step <= m + r0) by (unfold r0; destruct (Z.ltb_spec m step); lia). clearbody r0.
  assert (NI : forall t, 0 <= t /\ 0 <= t + m -> 0 <= series_niter p (tan_red_effect t m) / 1 /\ (series_niter p (tan_red_effect t m) / 1) * (t + m + 2) <= p).
  { intros t Ht. rewrite Z.div_1_r. unfold tan_red_effect. pose proof (niter_le p (t + m) ltac:(lia) ltac:(lia)) as [N1 N2]. split; [lia|]. assert (D : p / (t + m + 2) * (t + m + 2) <= p) by (rewrite Z.mul_comm; apply Z.mul_div_le; lia). assert (series_niter p (t + m) * (t + m + 2) <= p / (t + m + 2) * (t + m + 2)) by (apply Z.mul_le_mono_nonneg_r; lia). lia. }
  pose proof (NI r0 ltac:(lia)) as [N0 N1]. set (it0 := series_niter p (tan_red_effect r0 m) / 1) in *. assert (IT : 5 * it0 <= p) by nia. destruct (tan_iter_le p ltac:(lia)) as [U0 [U1 U2]].
  pose proof (tan_loop_opt_e f p m step ((5 * it0 + r0) * tan_unit p) Hm ltac:(lia) ltac:(lia) r0 None ltac:(lia) I) as O.
  specialize (O ltac:(intros _; unfold tan_red_cost; fold (tan_unit p) it0; pose proof (Z.mul_le_mono_nonneg_r _ _ it0 N0 U2); lia) (fun t Ht => proj1 (NI t Ht)) n niter e E). destruct O as (_ & O2 & O3 & O4). specialize (O2 eq_refl).
  assert (n <= 5 * it0 + r0) by (apply Zmult_le_reg_r with (tan_unit p); lia).
  exists step. split; [exact HS|]. split; [lia|]. split; [lia|]. split; [lia|]. rewrite O4. unfold tan_red_effect. ring.
Qed.

(** ** Restoration *)
Lemma double_wider P s k a v : apx P s k a v -> (bpow radix2 (-100) <= Rabs (value v) <= bpow radix2 100)%R -> apx P s k (2 * a) (set_exponent v (ne v + 1)) /\ ninexact (set_exponent v (ne v + 1)) = ninexact v.
Proof.
  intros (W & N & S & L) [V1 V2]. destruct (normal_range v W N) as [N1 N2].
  assert (E1 : ne v - 1 <= 100) by (apply (le_bpow radix2); eapply Rle_trans; [exact N1|exact V2]). assert (E2 : -100 < ne v) by (apply (lt_bpow radix2); eapply Rle_lt_trans; [exact V1|exact N2]).
  pose proof (set_exponent_spec v (ne v + 1) W ltac:(change EMIN with (-2147483648); change EMAX with 2147483647; clear - E1 E2; lia)) as SE. cbv zeta in SE. destruct SE as (W1 & L1 & S1 & I1 & VV). set (q := set_exponent v (ne v + 1)) in *. replace (ne v + 1 - ne v) with 1 in VV by ring. change (bpow radix2 1) with 2%R in VV. split; [|exact I1].
  assert (AV : Rabs (value q) = (2 * Rabs (value v))%R) by (rewrite VV, Rabs_mult, (Rabs_pos_eq 2) by lra; ring).
  split; [exact W1|]. split; [|split; [now rewrite S1|rewrite AV; apply lc_scale; [lra|exact L]]]. apply normal_iff; [exact W1|]. rewrite AV. eapply Rle_trans with (bpow radix2 (-100)); [apply bpow_le; vm_compute; discriminate|]. pose proof (bpow_gt_0 radix2 (-100)). lra.
Qed.
Definition KTD : Z := 2 ^ 50.
Section Last3.
Variables (Q PO : Z).
Hypothesis HQ : 192 <= Q <= PO.
Hypothesis HPO : PO <= 2 ^ 22.
Hypothesis HP64 : prec_up PO = PO.
Let HQQ : 128 <= Q <= prec_up PO.
Proof. clear - HQ HP64. lia. Qed.
Let HQS : 128 <= Q - 64 <= prec_up PO.
Proof. clear - HQ HP64. lia. Qed.
Let HL : prec_up PO < P_LIM.
Proof. rewrite HP64. eapply Z.le_lt_trans; [exact HPO|]. vm_compute. reflexivity. Qed.

Lemma tan_third y : (/ 16 <= Rabs (cos y))%R -> (bpow radix2 (-60) <= Rabs (cos (2 * y)))%R -> (bpow radix2 (-60) <= Rabs (sin (2 * y)))%R ->
  (bpow radix2 (-61) <= Rabs (tan y) <= 16)%R /\ (bpow radix2 (-60) <= Rabs (1 - tan y * tan y))%R /\ (tan (2 * y) = 2 * tan y / (1 - tan y * tan y))%R.
Proof.
  intros C C2 S2. pose proof (bpow_gt_0 radix2 (-61)) as B61. assert (B60 : (bpow radix2 (-60) = 2 * bpow radix2 (-61))%R) by (change (-60) with (1 + -61); rewrite bpow_plus; reflexivity).
  assert (C1 : (Rabs (cos y) <= 1)%R) by (apply Rabs_le; apply COS_bound). assert (S1 : (Rabs (sin y) <= 1)%R) by (apply Rabs_le; apply SIN_bound).
  assert (C0 : cos y <> 0%R) by (intros E; rewrite E, Rabs_R0 in C; lra). assert (C20 : cos (2 * y) <> 0%R) by (intros E; rewrite E, Rabs_R0 in C2; lra).
  assert (VE : ((1 - tan y * tan y) * (cos y * cos y) = cos (2 * y))%R) by (rewrite cos_2a; unfold tan; field; exact C0).
  assert (VC : (Rabs (1 - tan y * tan y) * (Rabs (cos y) * Rabs (cos y)) = Rabs (cos (2 * y)))%R) by (rewrite <- VE, !Rabs_mult; reflexivity).
  split; [|split].
  - rewrite sin_2a, !Rabs_mult, (Rabs_pos_eq 2) in S2 by lra. unfold tan, Rdiv. rewrite Rabs_mult, Rabs_inv. pose proof (Rabs_pos (sin y)) as P0. set (a := Rabs (sin y)) in *. set (b := Rabs (cos y)) in *. clearbody a b. clear VE VC. assert (a * b <= a * 1)%R by (apply Rmult_le_compat_l; lra).
    assert (I1 : (1 <= / b)%R) by (rewrite <- Rinv_1; apply Rinv_le; lra). assert (I2 : (/ b <= 16)%R) by (replace 16%R with (/ / 16)%R by field; apply Rinv_le; lra).
    assert (a * 1 <= a * / b)%R by (apply Rmult_le_compat_l; lra). assert (a * / b <= 1 * 16)%R by (apply Rmult_le_compat; lra). lra.
  - pose proof (Rabs_pos (1 - tan y * tan y)) as P0. set (a := Rabs (1 - tan y * tan y)) in *. set (b := Rabs (cos y)) in *. clearbody a b. assert (b * b <= 1 * 1)%R by (apply Rmult_le_compat; lra). assert (a * (b * b) <= a * 1)%R by (apply Rmult_le_compat_l; lra). lra.
  - apply tan_2a; [exact C0|exact C20|]. intros E. rewrite E, Rmult_0_l in VE. congruence.
Qed.

Lemma tlast3_ok s0 s y v : apx Q s KTC (Rabs (tan y)) v -> has_sign s (sr s0 * tan y) -> (/ 16 <= Rabs (cos y))%R -> (bpow radix2 (-60) <= Rabs (cos (2 * y)))%R -> (bpow radix2 (-60) <= Rabs (sin (2 * y)))%R -> 64 * wlen v = PO -> ninexact v = true ->
  exists q s', tan_restore_loop 1 PO RNone v = Ok q /\ has_sign s' (sr s0 * tan (2 * y)) /\ apx (Q - 64) s' KTD (Rabs (tan (2 * y))) q /\ 64 * wlen q = PO /\ ninexact q = true.
Proof.
  intros (W & N & S & L) HS CB C2 S2 Lv Iv. cbn [tan_restore_loop]. destruct (tan_third y CB C2 S2) as ([T1 T2] & VB & TD). set (u := Rabs (value v)) in *. assert (TT : (Rabs (tan y) * Rabs (tan y) = tan y * tan y)%R) by (rewrite <- Rabs_mult; apply Rabs_pos_eq; apply Rle_0_sqr). rewrite <- TT in VB, TD. set (T := Rabs (tan y)) in *. clear TT CB C2 S2.
  pose proof (eps_pos Q) as Ep. assert (E30 : (IZR KTC * eps Q <= bpow radix2 (-151))%R). { change (IZR KTC) with (bpow radix2 36). unfold eps. rewrite <- bpow_plus. apply bpow_le. lia. }
  assert (B151 : (bpow radix2 (-151) <= / 4)%R) by (change (/ 4)%R with (bpow radix2 (-2)); apply bpow_le; lia). assert (B150 : (bpow radix2 (-150) = 2 * bpow radix2 (-151))%R) by (change (-150) with (1 + -151); rewrite bpow_plus; reflexivity).
  assert (KE : (0 <= IZR KTC * eps Q)%R) by (apply Rmult_le_pos; [apply IZR_le; vm_compute; discriminate|lra]). pose proof (lc_abs _ _ _ ltac:(split; [exact KE|lra]) L) as LA. set (d := (2 * (IZR KTC * eps Q))%R) in *.
  assert (LB : (Rabs (u - T) <= d * T)%R) by (eapply Rle_trans; [exact LA|]; unfold d; lra). assert (D0 : (0 <= d <= bpow radix2 (-150))%R) by (unfold d; lra). clear LA.
  pose proof (bpow_gt_0 radix2 (-61)) as B61. assert (B60 : (bpow radix2 (-60) = 2 * bpow radix2 (-61))%R) by (change (-60) with (1 + -61); rewrite bpow_plus; reflexivity). assert (B62 : (bpow radix2 (-61) = 2 * bpow radix2 (-62))%R) by (change (-61) with (1 + -62); rewrite bpow_plus; reflexivity).
  assert (B7 : (4096 * bpow radix2 (-150) <= bpow radix2 (-62))%R) by (change 4096%R with (bpow radix2 12); rewrite <- bpow_plus; apply bpow_le; lia). assert (B8 : (bpow radix2 (-61) <= / 1024)%R) by (change (/ 1024)%R with (bpow radix2 (-10)); apply bpow_le; lia).
  assert (DT : (d * T <= bpow radix2 (-150) * 16)%R) by (apply Rmult_le_compat; lra). pose proof (Rabs_le_inv _ _ LB) as UB. assert (U1 : (bpow radix2 (-62) <= u <= 17)%R) by lra. pose proof (bpow_gt_0 radix2 (-62)) as P62.
  assert (UU : (u * u <= 289)%R) by (clear - U1 P62; nra). assert (UL : (bpow radix2 (-124) <= u * u)%R) by (change (-124) with (-62 + -62); rewrite bpow_plus; apply Rmult_le_compat; lra).
  set (V := (1 - T * T)%R) in *. set (w := (1 - u * u)%R).
  assert (WV : (Rabs (w - V) <= bpow radix2 (-62))%R). { replace (w - V)%R with (- ((u - T) * (u + T)))%R by (unfold w, V; ring). rewrite Rabs_Ropp, Rabs_mult, (Rabs_pos_eq (u + T)) by lra. apply Rle_trans with (bpow radix2 (-150) * 16 * 33)%R; [apply Rmult_le_compat; [apply Rabs_pos|lra|lra|lra]|lra]. }
  assert (V0 : V <> 0%R) by (intros E; rewrite E, Rabs_R0 in VB; lra). destruct (sign_real V V0) as (sw & HSV & EV).
  assert (WA : (Rabs w = sr sw * w)%R /\ (bpow radix2 (-61) <= Rabs w)%R). { pose proof (Rabs_pos V). apply Rabs_le_inv in WV. unfold has_sign, sr in *. destruct sw; cbn [sgnZ] in *; [rewrite (Rabs_left w) by lra|rewrite (Rabs_pos_eq w) by lra]; split; lra. } destruct WA as [WA WL].
  assert (SS : (sr sw * sr sw = 1)%R) by (unfold sr; destruct sw; cbn [sgnZ]; ring). assert (WE : (w = sr sw * Rabs w)%R) by (rewrite WA, <- Rmult_assoc, SS; ring). assert (VA : (Rabs V = sr sw * V)%R) by (rewrite EV at 2; rewrite <- Rmult_assoc, SS; ring).
  assert (WU : (Rabs w <= 289)%R) by (pose proof (bpow_gt_0 radix2 (-124)); apply Rabs_le; unfold w; lra).
  assert (ES : (8192 * eps Q <= bpow radix2 (-62))%R). { change 8192%R with (bpow radix2 13). unfold eps. rewrite <- bpow_plus. apply bpow_le. lia. }
  assert (Av : apx Q s 0 u v) by (rewrite <- S; now apply apx_self).
  destruct (apx_mul Q PO RNone HQQ HL _ _ _ _ _ _ _ _ Av Av ltac:(lia)) as (c1 & -> & A1 & _ & I1); [apply (mid_range (-124) 9); [vm_compute; discriminate|vm_compute; discriminate|]; change (bpow radix2 9) with 512%R; lra|]. cbn [bind]. replace (sign_mul s s) with Pos in A1 by (destruct s; reflexivity).
  apply apx_sab in A1; [|lia|lia]. change (IZR (0 + 0 + 1)) with 1%R in A1. change (sr Pos) with 1%R in A1. rewrite Rmult_1_l in A1. assert (AO : sab 0 1 ONE) by (split; [exact ONE_wf|]; split; [exact ONE_normal|]; rewrite ONE_value, Rminus_diag_eq, Rabs_R0 by reflexivity; lra).
  assert (EU : (2 * 1 * eps Q * (u * u) <= 600 * eps Q)%R) by (assert (eps Q * (u * u) <= eps Q * 289)%R by (apply Rmult_le_compat_l; lra); lra). apply (sab_weak _ _ _ _ EU) in A1.
  destruct (sab_sub Q PO RNone HQQ HL _ _ _ _ _ _ AO A1) as (c2 & -> & A2 & _ & I2); [fold w; lra|fold w; apply (mid_range (-61) 9); [vm_compute; discriminate|vm_compute; discriminate|]; change (bpow radix2 9) with 512%R; lra|]. cbn [bind]. fold w in A2.
  assert (EE : (eps (Q - 64) = bpow radix2 64 * eps Q)%R) by (unfold eps; rewrite <- bpow_plus; f_equal; lia).
  assert (EW : (eps Q * Rabs w <= eps Q * 289)%R) by (apply Rmult_le_compat_l; lra).
  assert (A3 : apx (Q - 64) sw 1024 (Rabs w) c2). { eapply (sab_apx (Q - 64) sw 1024 (Rabs w)); [lia|lra|lia|rewrite <- WE; exact A2|]. apply Rle_trans with (1024 * eps (Q - 64) * bpow radix2 (-61))%R; [|apply Rmult_le_compat_l; [apply Rmult_le_pos; [lra|left; apply eps_pos]|exact WL]]. rewrite EE. replace (1024 * (bpow radix2 64 * eps Q) * bpow radix2 (-61))%R with (1024 * (bpow radix2 64 * bpow radix2 (-61)) * eps Q)%R by ring. rewrite <- bpow_plus. change (bpow radix2 (64 + -61)) with 8%R. lra. }
  assert (Av2 : apx (Q - 64) s 0 u v) by (rewrite <- S; now apply apx_self).
  destruct (double_wider (Q - 64) s 0 u v Av2) as [A4 I4]; [fold u; split; [apply Rle_trans with (bpow radix2 (-62)); [apply bpow_le; lia|lra]|]; apply Rle_trans with (bpow radix2 5); [change (bpow radix2 5) with 32%R; lra|apply bpow_le; lia]|].
  assert (IW : (0 < / Rabs w)%R) by (apply Rinv_0_lt_compat; lra). assert (IWU : (/ Rabs w <= bpow radix2 61)%R) by (change (bpow radix2 61) with (bpow radix2 (- -61)); rewrite bpow_opp; apply Rinv_le; lra). assert (IWL : (/ 512 <= / Rabs w)%R) by (apply Rinv_le; lra).
  assert (MD : (bpow radix2 (-71) <= 2 * u / Rabs w <= bpow radix2 67)%R).
  { unfold Rdiv. split; [apply Rle_trans with (2 * bpow radix2 (-62) * / 512)%R; [|apply Rmult_le_compat; lra]|apply Rle_trans with (64 * bpow radix2 61)%R; [apply Rmult_le_compat; lra|]].
    - rewrite <- B62. change (/ 512)%R with (bpow radix2 (-9)). rewrite <- bpow_plus. apply bpow_le. lia.
    - change 64%R with (bpow radix2 6). rewrite <- bpow_plus. apply bpow_le. lia. }
  destruct (apx_div (Q - 64) PO RNone HQS HL _ _ _ _ _ _ _ _ A4 A3 ltac:(lia)) as (q & -> & A5 & L5 & I5); [apply (mid_range (-71) 67); [vm_compute; discriminate|vm_compute; discriminate|exact MD]|]. cbn [bind].
  (* the formula with the tangent itself *)
  assert (IV : (0 < / Rabs V)%R) by (apply Rinv_0_lt_compat; lra).
  assert (TA : Rabs (tan (2 * y)) = (2 * T / Rabs V)%R) by (rewrite TD; unfold Rdiv; rewrite !Rabs_mult, Rabs_inv, (Rabs_pos_eq 2) by lra; reflexivity).
  assert (IVE : (/ V = sr sw * / Rabs V)%R). { rewrite EV at 1. assert (Rabs V <> 0)%R by lra. unfold sr. destruct sw; cbn [sgnZ]; field; lra. }
  exists q, (sign_mul s sw). split; [reflexivity|]. split; [|split; [|split; [rewrite L5; exact HP64|apply I5; apply orb_true_iff; left; now rewrite I4]]].
  - rewrite TD. assert (G : (0 < (IZR (sgnZ s) * (sr s0 * tan y)) * (2 * / Rabs V))%R) by (apply Rmult_lt_0_compat; [exact HS|lra]). unfold has_sign. unfold Rdiv. rewrite IVE. replace (IZR (sgnZ (sign_mul s sw)) * (sr s0 * (2 * tan y * (sr sw * / Rabs V))))%R with ((IZR (sgnZ s) * (sr s0 * tan y)) * (2 * / Rabs V))%R; [exact G|]. unfold sr. destruct s, sw; cbn [sgnZ sign_mul sign_eqb]; ring.
  - destruct A5 as (W5 & N5 & S5 & L6). split; [exact W5|]. split; [exact N5|]. split; [exact S5|]. rewrite TA.
    assert (F0 : (0 < 2 * T / Rabs V)%R) by (unfold Rdiv; apply Rmult_lt_0_compat; lra).
    assert (E72 : (0 <= bpow radix2 72 * d <= / 2)%R). { split; [apply Rmult_le_pos; [apply bpow_ge_0|lra]|]. apply Rle_trans with (bpow radix2 72 * bpow radix2 (-150))%R; [apply Rmult_le_compat_l; [apply bpow_ge_0|lra]|]. rewrite <- bpow_plus. change (/ 2)%R with (bpow radix2 (-1)). apply bpow_le. lia. }
    assert (LR : lc (2 * (bpow radix2 72 * d)) (2 * T / Rabs V) (2 * u / Rabs w)).
    { apply lc_round; [exact F0|exact E72|]. assert (NUM : (Rabs (u * Rabs V - T * Rabs w) = Rabs (u - T) * (1 + u * T))%R).
      { rewrite VA, WA. replace (u * (sr sw * V) - T * (sr sw * w))%R with (sr sw * ((u - T) * (1 + u * T)))%R by (unfold V, w; ring). rewrite Rabs_mult. replace (Rabs (sr sw)) with 1%R by (unfold sr; destruct sw; cbn [sgnZ]; [rewrite Rabs_left by lra|rewrite Rabs_pos_eq by lra]; ring). assert (0 <= u * T)%R by (apply Rmult_le_pos; lra). rewrite Rabs_mult, (Rabs_pos_eq (1 + u * T)) by lra. ring. }
      replace (2 * u / Rabs w - 2 * T / Rabs V)%R with ((u * Rabs V - T * Rabs w) * (2 / Rabs V * / Rabs w))%R by (field; split; lra).
      assert (I2V : (0 <= 2 / Rabs V)%R) by (unfold Rdiv; lra). rewrite Rabs_mult, NUM, (Rabs_pos_eq (2 / Rabs V * / Rabs w)) by (apply Rmult_le_pos; lra).
      assert (UT : (0 <= u * T <= 272)%R). { split; [apply Rmult_le_pos; lra|]. apply Rle_trans with (17 * 16)%R; [apply Rmult_le_compat; lra|lra]. }
      assert (G : ((1 + u * T) * / Rabs w <= bpow radix2 72)%R). { apply Rle_trans with (2048 * bpow radix2 61)%R; [apply Rmult_le_compat; lra|]. change 2048%R with (bpow radix2 11). rewrite <- bpow_plus. apply bpow_le. lia. }
      replace (Rabs (u - T) * (1 + u * T) * (2 / Rabs V * / Rabs w))%R with (Rabs (u - T) * (2 / Rabs V) * ((1 + u * T) * / Rabs w))%R by ring.
      apply Rle_trans with (d * T * (2 / Rabs V) * bpow radix2 72)%R; [|right; unfold Rdiv; ring]. apply Rmult_le_compat; [apply Rmult_le_pos; [apply Rabs_pos|lra]|apply Rmult_le_pos; lra|apply Rmult_le_compat_r; [lra|exact LB]|exact G]. }
    eapply lc_weak; [|eapply lc_trans; [exact LR|exact L6]]. unfold d. change (IZR (0 + 1024 + 1)) with 1025%R. change (IZR KTC) with (bpow radix2 36). change (IZR KTD) with (bpow radix2 50).
    replace (2 * (bpow radix2 72 * (2 * (bpow radix2 36 * eps Q))))%R with (4 * (bpow radix2 72 * bpow radix2 36) * eps Q)%R by ring. rewrite <- bpow_plus. replace (bpow radix2 (72 + 36)) with (bpow radix2 44 * bpow radix2 64)%R by (rewrite <- bpow_plus; f_equal; lia). replace (4 * (bpow radix2 44 * bpow radix2 64) * eps Q)%R with (4 * bpow radix2 44 * (bpow radix2 64 * eps Q))%R by ring. rewrite <- EE, <- Rmult_plus_distr_r. apply Rmult_le_compat_r; [left; apply eps_pos|]. change (bpow radix2 44) with 17592186044416%R. change (bpow radix2 50) with 1125899906842624%R. lra.
Qed.
End Last3.

(** ** The series with its reduction: tan.rs 113-144 *)
Theorem tan_series_eight g x P s : 256 <= P <= 1984 -> wf x -> normal x -> ns x = s -> 64 * wlen x = P -> ne x = 3 -> (Rabs (value x) <= 7)%R -> (bpow radix2 (-62) <= Rabs (cos (Rabs (value x) / 4)))%R -> (bpow radix2 (-60) <= Rabs (cos (Rabs (value x))))%R -> (bpow radix2 (-60) <= Rabs (sin (Rabs (value x))))%R ->
  ends (tan_series g x RNone) (fun q => (exists s', has_sign s' (sr s * tan (Rabs (value x))) /\ apx (P - 128) s' KTD (Rabs (tan (Rabs (value x)))) q) /\ P <= 64 * wlen q /\ ninexact q = true).
Proof.
  intros HP W N S L He H7 FAR FARC FARS. unfold tan_series. cbv zeta. rewrite max_len, L. assert (HP64 : prec_up P = P) by (unfold prec_up; clear - L; dlia).
  destruct (tan_optimize g P (- ne x)) as [[[n niter] e]|] eqn:EO; [|left; reflexivity].
  destruct (tan_optimize_e g P (- ne x) n niter e ltac:(clear - HP; lia) ltac:(clear - He; lia) EO) as (step & Hst & Hn0 & Hsn & Hn & Ee). clear EO.
  set (m := - ne x) in *. assert (Hm : m = -3) by (unfold m; clear - He; lia).
  set (p_arg := P + (if 0 <? n * 4 + 9 - e then n * 4 + 9 - e else 0)) in *. assert (Hpa : P <= p_arg <= 4 * P + 119). { unfold p_arg. clear - Hn Ee Hst Hn0 Hm HP. destruct (Z.ltb_spec 0 (n * 4 + 9 - e)); lia. }
  clearbody p_arg. set (PO := prec_up p_arg). assert (HPO : P <= PO <= 32640) by (unfold PO; clear - Hpa HP HP64; rewrite <- HP64 at 1; unfold prec_up; dlia). assert (HPO64 : prec_up PO = PO) by (unfold PO, prec_up; clear; dlia).
  assert (HL : PO < P_LIM) by (eapply Z.le_lt_trans; [apply HPO|]; vm_compute; reflexivity).
  assert (EP : 0 < p_arg) by (clear - HP Hpa; lia).
  pose proof (apx_self P x W N) as Ax. destruct (normal_range x W N) as [X1 X2].
  destruct (apx_len_up P _ 0 _ x p_arg Ax ltac:(fold PO; clear - L HPO; lia) EP ltac:(fold PO; exact HL)) as (x1 & -> & (W1 & N1 & S1 & _) & L1 & V1). fold PO in L1. cbn [done rbind].
  assert (Hn20 : 0 <= n <= 2 ^ 20) by (clear - Hn Hn0 HP; lia).
  set (ax := Rabs (value x)) in *. assert (AX1 : (bpow radix2 (- m - 1) <= ax)%R) by (unfold m; rewrite Z.opp_involutive; exact X1). assert (AX2 : (ax <= bpow radix2 (- m))%R) by (unfold m; rewrite Z.opp_involutive; left; exact X2).
  assert (AX3 : (4 <= ax <= 7)%R). { rewrite Hm in AX1, AX2. change (bpow radix2 (- -3 - 1)) with 4%R in AX1. change (bpow radix2 (- -3)) with 8%R in AX2. lra. }
  destruct (normal_range x1 W1 N1) as [Y1 Y2]. rewrite V1 in Y1, Y2. fold ax in Y1, Y2.
  assert (NE : - 2 ^ 22 <= ne x1 <= 2 ^ 20). { split; [assert (- m - 1 < ne x1); [|clear - H Hm; lia]; apply (lt_bpow radix2); eapply Rle_lt_trans; [exact AX1|exact Y2]|]. assert (ne x1 - 1 <= 3); [|clear - H; lia]. apply (le_bpow radix2). eapply Rle_trans; [exact Y1|]. change (bpow radix2 3) with 8%R. lra. }
  unfold tan_arg_reduce. destruct (halved_ok x1 n W1 N1 Hn20 NE) as (arg & -> & Wa & Na & Sa & La & Va). cbn [done rbind].
  set (t := (ax * bpow radix2 (- n))%R). assert (AV : Rabs (value arg) = t). { rewrite Va, V1, Rabs_mult, (Rabs_pos_eq (bpow _ _)) by apply bpow_ge_0. reflexivity. }
  pose proof (bpow_gt_0 radix2 (- n)) as Bn. assert (A0 : (0 < ax)%R) by (eapply Rlt_le_trans; [apply bpow_gt_0|exact AX1]).
  assert (TL : (bpow radix2 (- m - 1 + - n) <= t)%R) by (apply low_mul; [exact AX1|right; reflexivity]).
  assert (TL2 : (bpow radix2 (- 2 ^ 22) <= t)%R) by (eapply Rle_trans; [|exact TL]; apply bpow_le; clear - Hm Hn HP; lia).
  assert (TL3 : (bpow radix2 (- 2 ^ 27) <= t)%R) by (eapply Rle_trans; [|exact TL2]; apply bpow_le; clear; lia).
  assert (TU : (t <= / 8)%R). { change (/ 8)%R with (bpow radix2 (-3)). apply Rle_trans with (bpow radix2 (- m) * bpow radix2 (- n))%R; [apply Rmult_le_compat_r; lra|]. rewrite <- bpow_plus. apply bpow_le. clear - Hsn Hst. lia. }
  assert (HPP : 128 <= P <= PO) by (clear - HP HPO; lia). assert (SA : ns arg = s) by congruence. assert (LA : 64 * wlen arg = PO) by (rewrite La; exact L1).
  pose proof (tan_series_run_ok g arg P PO s HPP (proj2 HPO) HPO64 Wa Na SA LA) as RUN. rewrite AV in RUN. specialize (RUN (conj TL2 TU)).
  destruct RUN as [->|(ret & -> & Rret & Lret & Iret)]; [left; reflexivity|]. cbn [rbind].
  assert (N4 : 6 <= n) by (clear - Hsn Hst Hm; lia). assert (Hn1 : n = 3 + Z.of_nat (Z.to_nat (n - 3))) by (clear - N4; lia). set (j := Z.to_nat (n - 3)) in *. assert (Ej : Z.to_nat n = Datatypes.S (Datatypes.S (Datatypes.S j))) by (clear - Hn1; lia).
  assert (TN : (2 * (2 ^ j * t) = ax / 4)%R). { assert (H : (2 * (2 * (2 * (2 ^ j * t))) = ax)%R); [|lra]. replace (2 * (2 * (2 * (2 ^ j * t))))%R with (2 ^ Z.to_nat n * t)%R by (rewrite Ej; cbn [pow]; ring). rewrite pow2 by exact Hn0. unfold t. replace (bpow radix2 n * (ax * bpow radix2 (- n)))%R with (ax * (bpow radix2 n * bpow radix2 (- n)))%R by ring. rewrite <- bpow_plus. replace (n + - n) with 0 by ring. change (bpow radix2 0) with 1%R. ring. }
  assert (K0 : 0 <= TanTop.KT) by (vm_compute; discriminate). assert (KB : 0 <= TanTop.KT + 32 * Z.of_nat j <= 2 ^ 27) by (change TanTop.KT with (2 ^ 26); clear - Hn HP Hn1; lia).
  destruct (tan_restore_ok P PO HPP ltac:(clear - HPO; lia) HPO64 s j TanTop.KT t ret Rret K0 ltac:(clear - KB; lia) TL3 ltac:(lra) Lret Iret) as (q & Eq & Rq & Lq & Iq).
  pose proof (sin_big (ax / 4) ltac:(lra)) as SB.
  destruct (tlast_ok P PO ltac:(clear - HP HPO; lia) ltac:(clear - HPO; lia) HPO64 s _ _ q Rq KB ltac:(lra) ltac:(rewrite TN; exact FAR) ltac:(rewrite TN; lra) Lq Iq) as (q2 & s2 & Eq2 & HS2 & Rq2 & Lq2 & Iq2). rewrite TN in HS2, Rq2.
  destruct (tlast2_ok (P - 64) PO ltac:(clear - HP HPO; lia) ltac:(clear - HPO; lia) HPO64 s s2 (ax / 4) q2 Rq2 HS2 FAR ltac:(lra) Lq2 Iq2) as (q3 & s3 & Eq3 & HS3 & Rq3 & Lq3 & Iq3). replace (2 * (ax / 4))%R with (ax / 2)%R in HS3, Rq3 by field.
  assert (AE : (2 * (ax / 2) = ax)%R) by field. destruct (tlast3_ok (P - 64) PO ltac:(clear - HP HPO; lia) ltac:(clear - HPO; lia) HPO64 s s3 (ax / 2) q3 Rq3 HS3 (cos_two_four (ax / 2) ltac:(lra)) ltac:(rewrite AE; exact FARC) ltac:(rewrite AE; exact FARS) Lq3 Iq3) as (q4 & s4 & Eq4 & HS4 & Rq4 & Lq4 & Iq4). rewrite AE in HS4, Rq4. replace (P - 64 - 64) with (P - 128) in Rq4 by ring.
  replace (0 <? n) with true by (symmetry; apply Z.ltb_lt; clear - N4; lia). unfold tan_arg_restore. rewrite max_len, Lret, Ej, trestore_last, trestore_last, trestore_last, Eq. cbn [bind]. rewrite Eq2. cbn [bind]. rewrite Eq3. cbn [bind]. rewrite Eq4. apply ends_ok. split; [exists s4; split; assumption|]. split; [clear - Lq4 HPO; lia|exact Iq4].
Qed.

