(** The cosine for arguments between four and seven in magnitude. *)

From Coq Require Import ZArith List Bool Lia Reals Lra.
From Flocq Require Import Core.
From Verif Require Import Words IntModel Mantissa Num Pow Consts Elem Series Exp Sin Ln Cos SpecZ SpecOps SpecConst SpecPow SpecElem WordsP Spec RealP RealP2 NumP CmpP AddP SetP AddNum MulNum DivNum ArithTop ConvNum Conv2Num RootP ConstP ConstNum ExtP PowExt Refute1 ElemR ElemDom SmallP ElemNum ApproxR ApproxNum SeriesNum SinhR SinhNum SinhTop ExpNum RetryNum ConstReach SpecReach ExpTop HypNum HypTop TanhNum AltNum SinTop CosTop CosBig CosFour.
Import ListNotations.
Open Scope Z_scope.
Ltac Zify.zify_post_hook ::= idtac.
Arguments Z.mul : simpl never.
Arguments Z.add : simpl never.
Arguments Z.pow : simpl never.
Arguments Z.sub : simpl never.
Arguments Z.of_nat : simpl never.
Ltac dlia := Z.div_mod_to_equations; lia.

(** ** The number of reductions *)
Lemma cos_optimize_eight f p m n niter e : 128 <= p <= 2 ^ 15 -> m = -3 -> series_cost_optimize cos_red_cost cos_red_effect f p (sinh_iter_cost p) m 2 = Some (n, niter, e) ->
  exists step, 3 <= step <= 7 /\ 0 <= n /\ step <= m + n /\ 10 * n <= 6 * p + 120 /\ e = n + step + m /\ 0 <= niter /\ 2 * niter * (e + 2) <= p.
Proof.
  intros Hp Hm E. unfold series_cost_optimize in E. rewrite log2_floor_spec in E by lia. assert (L7 : 7 <= Z.log2 p) by (apply Z.log2_le_pow2; lia). assert (L15 : Z.log2 p <= 15). { change 15 with (Z.log2 (2 ^ 15)). apply Z.log2_le_mono. lia. }
  set (step := Z.log2 p / 2) in *. assert (HS : 3 <= step <= 7) by (unfold step; clear - L7 L15; dlia). clearbody step.
  set (r0 := if m <? step then step - m else 0) in *. assert (R0 : 0 <= r0 <= 10 /\ step <= m + r0 /\ (step <= m -> r0 = 0)) by (unfold r0; destruct (Z.ltb_spec m step); lia). clearbody r0. destruct R0 as (R0 & R1 & R2).
  destruct (cos_niter p ltac:(lia)) as (D & HD & ND).
  assert (NI : forall t, 0 <= t /\ 0 <= t + m -> 0 <= series_niter p (cos_red_effect t m) / 2 < 2 ^ 32 /\ 2 * (series_niter p (cos_red_effect t m) / 2) * (t + m + 2) <= p).
  { intros t Ht. rewrite ND. set (d := D + t + m) in *. assert (0 < t + m + 2 <= d) by lia. assert (p / d * d <= p) by (rewrite Z.mul_comm; apply Z.mul_div_le; lia). assert (0 <= p / d) by (apply Z.div_pos; lia). set (q := p / d) in *. clearbody q d. assert (0 <= 2 * (q / 2) <= q) by dlia. set (h := q / 2) in *. clearbody h. split; nia. }
  destruct (cos_loop_opt f p m step r0 ltac:(lia) r0 None eq_refl n niter e E) as (O1 & O2 & O3 & O4). clear E.
  pose proof (NI r0 ltac:(lia)) as [N0 N1]. pose proof (NI n ltac:(lia)) as [N2 N3]. pose proof (cos_series_cost _ p N0 ltac:(lia)) as [U0 [_ U1]]. pose proof (cos_series_cost _ p N2 ltac:(lia)) as [_ [U2 _]].
  assert (NB : n <= 6 * (series_niter p (cos_red_effect r0 m) / 2) + r0). { unfold cos_cost, cos_red_cost in O2. fold (cos_unit p) in O2. set (i0 := series_niter p (cos_red_effect r0 m) / 2) in *. apply Zmult_le_reg_r with (cos_unit p); lia. }
  exists step. split; [exact HS|]. split; [lia|]. split; [lia|]. split; [|split; [exact O3|split]].
  - set (i0 := series_niter p (cos_red_effect r0 m) / 2) in *. clearbody i0. clear - NB N1 R1 R0 HS N0. nia.
  - rewrite O4, O3. replace (n + step + m) with (cos_red_effect (n + step) m) by reflexivity. destruct (NI (n + step) ltac:(lia)). lia.
  - rewrite O4, O3. destruct (NI (n + step) ltac:(lia)) as [_ Q]. exact Q.
Qed.

(** ** The series *)
Theorem cos_series_eight g x P : 192 <= P <= 2 ^ 15 -> wf x -> normal x -> 64 * wlen x = P -> ne x = 3 -> (Rabs (value x) <= 7)%R -> (bpow radix2 (-62) <= Rabs (cos (Rabs (value x) / 4)))%R -> (bpow radix2 (-62) <= Rabs (cos (Rabs (value x) / 2)))%R -> (bpow radix2 (-62) <= Rabs (cos (Rabs (value x))))%R ->
  ends (cos_series g x RNone) (fun q => sab (bpow radix2 57 * eps P) (cos (Rabs (value x))) q /\ P <= 64 * wlen q /\ ninexact q = true).
Proof.
  intros HP W N L He H7 FAR0 FAR1 FAR. unfold cos_series. cbv zeta. rewrite max_len, L. assert (HP64 : prec_up P = P) by (unfold prec_up; clear - L; dlia). assert (HP22 : 128 <= P <= 2 ^ 22) by (clear - HP; lia).
  destruct (cos_new_ok P HP22 HP64) as (gen & -> & Hgen). cbn [done rbind].
  destruct (series_cost_optimize cos_red_cost cos_red_effect g P (sinh_iter_cost P) (- ne x) 2) as [[[n niter] e]|] eqn:EO; [|left; reflexivity].
  destruct (cos_optimize_eight g P (- ne x) n niter e ltac:(clear - HP; lia) ltac:(clear - He; lia) EO) as (step & Hst & Hn0 & Hsn & Hn & Ee & Hni & Hnt). clear EO.
  set (m := - ne x) in *. assert (Hm : m = -3) by (unfold m; clear - He; lia).
  assert (Hadd : P + Z.max 0 (n * 6 + 6 - e) <= P + (if 0 <? n * 6 + 6 - e then n * 6 + 6 - e else 0)) by (destruct (Z.ltb_spec 0 (n * 6 + 6 - e)); lia).
  set (p_arg := P + (if 0 <? n * 6 + 6 - e then n * 6 + 6 - e else 0)) in *. assert (Hpa : P <= p_arg <= 6 * P + 127). { unfold p_arg. clear - Hn Ee Hst Hn0 Hm HP. destruct (Z.ltb_spec 0 (n * 6 + 6 - e)); lia. }
  clearbody p_arg. set (PO := prec_up p_arg). assert (HPO : P <= PO <= 2 ^ 22 /\ p_arg <= PO) by (unfold PO; clear - Hpa HP HP64; rewrite <- HP64 at 1; unfold prec_up; dlia). destruct HPO as [HPO HPA]. assert (HPO64 : prec_up PO = PO) by (unfold PO, prec_up; clear; dlia).
  assert (HL : prec_up PO < P_LIM) by (rewrite HPO64; eapply Z.le_lt_trans; [apply HPO|]; vm_compute; reflexivity).
  assert (EPM : prec_up p_arg = prec_up PO) by (fold PO; congruence). assert (HPP : 128 <= PO <= prec_up p_arg) by (fold PO; clear - HPO HP; lia).
  assert (EP : 0 < P /\ 0 < p_arg) by (clear - HP Hpa; lia).
  pose proof (apx_self P x W N) as Ax. destruct (normal_range x W N) as [X1 X2].
  destruct (apx_len_up P _ 0 _ x p_arg Ax ltac:(fold PO; clear - L HPO; lia) ltac:(apply EP) ltac:(fold PO; rewrite <- HPO64; exact HL)) as (x1 & -> & (W1 & N1 & S1 & _) & L1 & V1). fold PO in L1. cbn [done rbind].
  assert (Hn20 : 0 <= n <= 2 ^ 20) by (clear - Hn Hn0 HP; lia).
  set (ax := Rabs (value x)) in *. assert (AX1 : (bpow radix2 (- m - 1) <= ax)%R) by (unfold m; rewrite Z.opp_involutive; exact X1). assert (AX2 : (ax <= bpow radix2 (- m))%R) by (unfold m; rewrite Z.opp_involutive; left; exact X2).
  assert (AX3 : (4 <= ax <= 7)%R). { rewrite Hm in AX1, AX2. change (bpow radix2 (- -3 - 1)) with 4%R in AX1. change (bpow radix2 (- -3)) with 8%R in AX2. lra. }
  destruct (normal_range x1 W1 N1) as [Y1 Y2]. rewrite V1 in Y1, Y2. fold ax in Y1, Y2.
  assert (NE : - 2 ^ 22 <= ne x1 <= 2 ^ 20). { split; [assert (- m - 1 < ne x1); [|clear - H Hm; lia]; apply (lt_bpow radix2); eapply Rle_lt_trans; [exact AX1|exact Y2]|]. assert (ne x1 - 1 <= 3); [|clear - H; lia]. apply (le_bpow radix2). eapply Rle_trans; [exact Y1|]. change (bpow radix2 3) with 8%R. lra. }
  destruct (halved_ok x1 n W1 N1 Hn20 NE) as (arg & -> & Wa & Na & Sa & La & Va). cbn [done rbind].
  destruct (from_word_spec 1 p_arg ltac:(clear; lia) ltac:(apply EP) ltac:(rewrite EPM; exact HL)) as (acc & -> & Wc & Lc & Sc & _ & Vc). fold PO in Lc. cbn [done rbind].
  assert (Ac : apx P Pos 0 1 acc) by (apply apx_exact; auto using normal_one). assert (Bc : sab 0 (sr Pos * 1) acc). { split; [exact Wc|]. split; [now apply normal_one|]. rewrite Vc. change (sr Pos) with 1%R. replace (1 - 1 * 1)%R with 0%R by ring. rewrite Rabs_R0. lra. }
  (* the reduced argument *)
  set (t := (ax * bpow radix2 (- n))%R). assert (AV : Rabs (value arg) = t). { rewrite Va, V1, Rabs_mult, (Rabs_pos_eq (bpow _ _)) by apply bpow_ge_0. reflexivity. }
  pose proof (bpow_gt_0 radix2 (- n)) as Bn. assert (A0 : (0 < ax)%R) by (eapply Rlt_le_trans; [apply bpow_gt_0|exact AX1]).
  assert (TL : (bpow radix2 (- m - 1 + - n) <= t)%R) by (apply low_mul; [exact AX1|right; reflexivity]).
  assert (TU : (t <= / 8)%R). { change (/ 8)%R with (bpow radix2 (-3)). apply Rle_trans with (bpow radix2 (- m) * bpow radix2 (- n))%R; [apply Rmult_le_compat_r; lra|]. rewrite <- bpow_plus. apply bpow_le. clear - Hsn Hst. lia. }
  assert (T0 : (0 < t)%R) by (eapply Rlt_le_trans; [apply bpow_gt_0|exact TL]).
  pose proof (apx_self PO arg Wa Na) as AA. rewrite AV in AA.
  assert (TTL : (bpow radix2 (- m - 1 + - n + (- m - 1 + - n)) <= t * t)%R) by now apply low_mul.
  destruct (apx_mul PO p_arg RNone HPP ltac:(rewrite EPM; exact HL) _ _ _ _ _ _ _ _ AA AA ltac:(clear; lia)) as (xs & -> & Hxs & Lxs & _).
  { apply (mid_range (- m - 1 + - n + (- m - 1 + - n)) 0); [unfold HX; clear - Hm Hn20; lia|vm_compute; discriminate|]. split; [exact TTL|]. change (bpow radix2 0) with 1%R. clear - T0 TU. nra. }
  cbn [done rbind]. replace (sign_mul (ns arg) (ns arg)) with Pos in Hxs by (destruct (ns arg); reflexivity). fold PO in Lxs. pose proof Hxs as (Ws & Ns & Ss & Ls). set (X := Rabs (value xs)) in *. change (IZR (0 + 0 + 1)) with 1%R in Ls.
  pose proof (eps_pos PO) as EpO. pose proof (eps_pos P) as Ep. assert (EOs : (eps PO <= / 4)%R) by (change (/ 4)%R with (bpow radix2 (-2)); apply bpow_le; clear - HPO HP; lia).
  assert (XD : (Rabs (X - t * t) <= 2 * eps PO * (t * t))%R) by (apply lc_abs in Ls; lra). pose proof (Rabs_le_inv _ _ XD) as XD'. assert (TT : (0 < t * t <= / 64)%R) by (clear - T0 TU; nra).
  assert (XU : (t * t / 2 <= X <= 3 / 2 * (t * t))%R). { assert (eps PO * (t * t) <= / 4 * (t * t))%R by (apply Rmult_le_compat_r; lra). lra. }
  assert (AX : apx P Pos 0 X xs) by (rewrite <- Ss; now apply apx_self).
  destruct (normal_range xs Ws Ns) as [R1 R2]. fold X in R1, R2.
  assert (E1 : ne xs <= -1). { assert (ne xs - 1 <= -2); [|lia]. apply (le_bpow radix2). eapply Rle_trans; [exact R1|]. change (bpow radix2 (-2)) with (/ 4)%R. lra. }
  assert (XL : (bpow radix2 (- m - 1 + - n + (- m - 1 + - n) + -1) <= X)%R) by (rewrite bpow_plus; change (bpow radix2 (-1)) with (/ 2)%R; lra).
  assert (E2 : 1 - ne xs <= 2 * m + 2 * n + 3). { assert (EX : - m - 1 + - n + (- m - 1 + - n) + -1 < ne xs); [|clear - EX; lia]. apply (lt_bpow radix2). eapply Rle_lt_trans; [exact XL|exact R2]. }
  assert (X0 : (0 < X)%R) by lra.
  (* the sum *)
  eapply ends_bind.
  { apply (alt_run_abs P PO sin_gen cos_next (cos_at P) cC JMAX (2 ^ 26) (2 ^ 29 - 4) ltac:(clear - HP HPO; lia) ltac:(apply HPO) HPO64 ltac:(clear; lia) ltac:(clear; lia) cC_range cC_ratio) with (s := Pos) (k := 0) (A := 1%R) (F := X).
    - exact cC_low4.
    - intros j g0 Hj HJ. destruct (cos_next_ok P HP22 HP64 j g0 Hj HJ) as (c & g' & Q1 & Q2 & Q3 & Q4). exists c, g'. split; [exact Q1|]. split; [exact Q2|]. split; [exact Q3|]. clear - Q4 HPO. lia.
    - exact Ws. - exact Ns. - exact Ss. - exact Lxs. - exact E1.
    - exact Ac. - exact AX. - exact Lc. - exact Lxs. - exact Hgen.
    - clear. lia.
    - split; [eapply low_weak; [|exact XL]; clear - Hm Hn20; lia|lra].
    - lra.
    - clear - Hni Hnt HP Ee Hn0 Hst Hm. nia.
    - assert (Q1 : 1 - ne xs <= 2 * (e + 2)) by (clear - E2 Ee Hst; lia). assert (Q2 : 2 * niter * (1 - ne xs) <= 2 * P) by (clear - Q1 Hnt Hni; nia). clear - Q2 E2 Hn20 Hm HP. lia.
    - rewrite JMAX_Z. unfold J22. clear - Hni Hnt HP Ee Hn0 Hst Hm. nia. }
  intros ret [(M & HM & _ & Lret & Tail & Hret) Iret]. fold X in Hret, Tail. specialize (Hret 0%R ltac:(lra) Bc). change (sr Pos) with 1%R in Hret.
  (* back to the cosine *)
  set (b := sqrt X). assert (Bb : (b * b = X)%R) by (apply sqrt_sqrt; lra). assert (b0 : (0 < b)%R) by now apply sqrt_lt_R0. assert (b1 : (b <= / 2)%R) by (clear - Bb b0 XU TT; nra).
  pose proof (cos_taylor b M ltac:(lra) HM) as TS. rewrite Bb in TS. pose proof (cos_sq_near b t) as NT. rewrite Bb in NT. set (ps := psum cC (- X) 0 M) in *.
  set (c0 := IZR (2 ^ 46 + 64 * 0)) in *. assert (C0 : c0 = bpow radix2 46) by reflexivity.
  set (u := (c0 * eps P * X + 150 * eps PO)%R). assert (CP : (0 < c0 * eps P * X)%R) by (rewrite C0; apply Rmult_lt_0_compat; [apply Rmult_lt_0_compat; [apply bpow_gt_0|exact Ep]|exact X0]).
  assert (Hu : sab (u - 3 * eps PO) (cos t) ret).
  { destruct Hret as (Wr & Nr & Dr). split; [exact Wr|]. split; [exact Nr|]. assert (Tl : (2 * eps PO * (t * t) <= eps PO)%R) by (assert (eps PO * (t * t) <= eps PO * / 64)%R by (apply Rmult_le_compat_l; lra); lra).
    replace (value ret - cos t)%R with ((value ret - 1 * (1 - X * ps)) + (- (cos b - (1 - X * ps)) + (cos b - cos t)))%R by ring. eapply Rle_trans; [apply Rabs_triang|]. eapply Rle_trans; [apply Rplus_le_compat_l; apply Rabs_triang|]. rewrite Rabs_Ropp. unfold u. fold c0 in Dr. lra. }
  assert (N4 : 6 <= n) by (clear - Hsn Hst Hm; lia). assert (Hn1 : n = 3 + Z.of_nat (Z.to_nat (n - 3))) by (clear - N4; lia). set (j := Z.to_nat (n - 3)) in *. assert (Ej : Z.to_nat n = Datatypes.S (Datatypes.S (Datatypes.S j))) by (clear - Hn1; lia).
  assert (U4 : (4 ^ Z.to_nat n * u <= bpow radix2 54 * eps P)%R).
  { rewrite pow4 by exact Hn0. unfold u. rewrite Rmult_plus_distr_l. pose proof (bpow_gt_0 radix2 (2 * n)) as B2.
    assert (Q1 : (bpow radix2 (2 * n) * (c0 * eps P * X) <= bpow radix2 53 * eps P)%R).
    { assert (TX : (bpow radix2 (2 * n) * (t * t) <= 64)%R). { unfold t. replace (bpow radix2 (2 * n) * (ax * bpow radix2 (- n) * (ax * bpow radix2 (- n))))%R with (ax * ax * (bpow radix2 (2 * n) * bpow radix2 (- n) * bpow radix2 (- n)))%R by ring. rewrite <- !bpow_plus. replace (2 * n + - n + - n) with 0 by ring. change (bpow radix2 0) with 1%R. clear - A0 AX3. nra. }
      assert (TX2 : (bpow radix2 (2 * n) * X <= 128)%R). { apply Rle_trans with (bpow radix2 (2 * n) * (3 / 2 * (t * t)))%R; [apply Rmult_le_compat_l; lra|lra]. }
      replace (bpow radix2 (2 * n) * (c0 * eps P * X))%R with (c0 * eps P * (bpow radix2 (2 * n) * X))%R by ring. rewrite C0. change 53 with (46 + 7). rewrite bpow_plus. change (bpow radix2 7) with 128%R. replace (bpow radix2 46 * 128 * eps P)%R with (bpow radix2 46 * eps P * 128)%R by ring. apply Rmult_le_compat_l; [apply Rmult_le_pos; [apply bpow_ge_0|lra]|exact TX2]. }
    assert (Q2 : (bpow radix2 (2 * n) * (150 * eps PO) <= bpow radix2 53 * eps P)%R).
    { apply Rle_trans with (bpow radix2 (2 * n) * (bpow radix2 8 * eps PO))%R; [apply Rmult_le_compat_l; [lra|]; apply Rmult_le_compat_r; [lra|]; change (bpow radix2 8) with 256%R; lra|]. unfold eps. rewrite <- !bpow_plus. apply bpow_le. clear - Ee Hadd HPA Hst Hm Hn0 N4. lia. }
    change (bpow radix2 54) with (2 * bpow radix2 53)%R. lra. }
  rewrite Ej in U4. cbn [pow] in U4. set (F := (4 ^ j)%R) in *. assert (FP : (1 <= F)%R) by (apply pow_R1_Rle; lra). assert (u0 : (0 <= u)%R) by (unfold u; lra).
  assert (U8 : (bpow radix2 54 * eps P <= bpow radix2 (-110))%R). { unfold eps. rewrite <- bpow_plus. apply bpow_le. clear - HP. lia. } assert (U9 : (bpow radix2 (-110) <= bpow radix2 (-80))%R) by (apply bpow_le; clear; lia). assert (U10 : (bpow radix2 (-80) <= / 64)%R) by (change (/ 64)%R with (bpow radix2 (-6)); apply bpow_le; clear; lia).
  pose proof (bpow_gt_0 radix2 (-130)) as U11. assert (U5 : (F * u <= / 8)%R) by lra. assert (u1 : (u <= / 8)%R) by (clear - FP u0 U5; nra).
  assert (Ug : (u - 3 * eps PO + 3 * eps PO <= u / (1 - u))%R). { apply Rmult_le_reg_r with (1 - u)%R; [lra|]. unfold Rdiv. rewrite (Rmult_assoc u), Rinv_l by lra. clear - u0 u1. nra. }
  assert (TN : (2 * (2 * (2 * (2 ^ j * t))) = ax)%R). { replace (2 * (2 * (2 * (2 ^ j * t))))%R with (2 ^ Z.to_nat n * t)%R by (rewrite Ej; cbn [pow]; ring). rewrite pow2 by exact Hn0. unfold t. replace (bpow radix2 n * (ax * bpow radix2 (- n)))%R with (ax * (bpow radix2 n * bpow radix2 (- n)))%R by ring. rewrite <- bpow_plus. replace (n + - n) with 0 by ring. change (bpow radix2 0) with 1%R. ring. }
  destruct (cos_restore_ok PO ltac:(clear - HP HPO; lia) HPO64 j _ u t ret Hu u0 Ug U5 ltac:(lra) ltac:(lra) Lret Iret) as (q & Eq & Rq & Lq & Iq). fold F in Rq.
  assert (TQ : (2 * (2 ^ j * t) = ax / 4)%R) by lra. assert (TH : (2 * (2 * (2 ^ j * t)) = ax / 2)%R) by lra. assert (B120 : (bpow radix2 (-110) * 1024 <= bpow radix2 (-80))%R). { change 1024%R with (bpow radix2 10). rewrite <- bpow_plus. apply bpow_le. lia. }
  assert (EPO : (eps PO <= eps P)%R) by (unfold eps; apply bpow_le; clear - HPO; lia). assert (E50 : (1024 * eps P <= bpow radix2 54 * eps P)%R) by (apply Rmult_le_compat_r; [lra|]; change 1024%R with (bpow radix2 10); apply bpow_le; clear; lia).
  destruct (cstep_ok PO ltac:(clear - HP HPO; lia) HPO64 (2 * (F * u)) (2 ^ j * t) q Rq ltac:(lra)) as (q1 & Eq1 & Rq1 & Lq1 & Iq1).
  { pose proof (cos_half (2 ^ j * t) ltac:(lra)) as CH. rewrite Rabs_pos_eq by lra. apply Rle_trans with (bpow radix2 (-2)); [apply bpow_le; lia|]. change (bpow radix2 (-2)) with (/ 4)%R. lra. } { rewrite TQ. exact FAR0. } { exact Lq. } { exact Iq. }
  destruct (cstep_ok PO ltac:(clear - HP HPO; lia) HPO64 _ _ q1 Rq1 ltac:(lra)) as (q2 & Eq2 & Rq2 & Lq2 & Iq2). { rewrite TQ. exact FAR0. } { rewrite TH. exact FAR1. } { exact Lq1. } { exact Iq1. }
  destruct (cstep_ok PO ltac:(clear - HP HPO; lia) HPO64 _ _ q2 Rq2 ltac:(lra)) as (q3 & Eq3 & Rq3 & Lq3 & Iq3). { rewrite TH. exact FAR1. } { rewrite TN. exact FAR. } { exact Lq2. } { exact Iq2. } rewrite TN in Rq3.
  replace (0 <? n) with true by (symmetry; apply Z.ltb_lt; clear - N4; lia). unfold cos_arg_restore. rewrite max_len, Lret, Ej, crestore_last, crestore_last, crestore_last, Eq. cbn [bind]. rewrite Eq1. cbn [bind]. rewrite Eq2. cbn [bind]. rewrite Eq3. apply ends_ok. split; [|split; [clear - Lq3 HPO; lia|exact Iq3]].
  eapply sab_weak; [|exact Rq3]. replace (bpow radix2 57) with (8 * bpow radix2 54)%R by (change 57 with (3 + 54); rewrite bpow_plus; reflexivity). lra.
Qed.
