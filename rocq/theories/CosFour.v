(** The cosine for arguments between two and four in magnitude. *)

From Coq Require Import ZArith List Bool Lia Reals Lra.
From Flocq Require Import Core.
From Verif Require Import Words IntModel Mantissa Num Pow Consts Elem Series Exp Sin Ln Cos SpecZ SpecOps SpecConst SpecPow SpecElem WordsP Spec RealP RealP2 NumP CmpP AddP SetP AddNum MulNum DivNum ArithTop ConvNum Conv2Num RootP ConstP ConstNum ExtP PowExt Refute1 ElemR ElemDom SmallP ElemNum ApproxR ApproxNum SeriesNum SinhR SinhNum SinhTop ExpNum RetryNum ConstReach SpecReach ExpTop HypNum HypTop TanhNum AltNum SinTop CosTop CosBig.
Import ListNotations.
Open Scope Z_scope.
Ltac Zify.zify_post_hook ::= idtac.
Arguments Z.mul : simpl never.
Arguments Z.add : simpl never.
Arguments Z.pow : simpl never.
Arguments Z.sub : simpl never.
Arguments Z.of_nat : simpl never.
Ltac dlia := Z.div_mod_to_equations; lia.

(** ** The number of reductions *)
Lemma cos_optimize_four f p m n niter e : 128 <= p <= 2 ^ 15 -> m = -2 -> series_cost_optimize cos_red_cost cos_red_effect f p (sinh_iter_cost p) m 2 = Some (n, niter, e) ->
  exists step, 3 <= step <= 7 /\ 0 <= n /\ step <= m + n /\ 10 * n <= 6 * p + 120 /\ e = n + step + m /\ 0 <= niter /\ 2 * niter * (e + 2) <= p.
Proof.
  intros Hp Hm E. unfold series_cost_optimize in E. rewrite log2_floor_spec in E by lia. assert (L7 : 7 <= Z.log2 p) by (apply Z.log2_le_pow2; lia). assert (L15 : Z.log2 p <= 15). { change 15 with (Z.log2 (2 ^ 15)). apply Z.log2_le_mono. lia. }
  set (step := Z.log2 p / 2) in *. assert (HS : 3 <= step <= 7) by (unfold step; clear - L7 L15; dlia). clearbody step.
  set (r0 := if m <? step then step - m else 0) in *. assert (R0 : 0 <= r0 <= 9 /\ step <= m + r0 /\ (step <= m -> r0 = 0)) by (unfold r0; destruct (Z.ltb_spec m step); lia). clearbody r0. destruct R0 as (R0 & R1 & R2).
  destruct (cos_niter p ltac:(lia)) as (D & HD & ND).
  assert (NI : forall t, 0 <= t /\ 0 <= t + m -> 0 <= series_niter p (cos_red_effect t m) / 2 < 2 ^ 32 /\ 2 * (series_niter p (cos_red_effect t m) / 2) * (t + m + 2) <= p).
  { intros t Ht. rewrite ND. set (d := D + t + m) in *. assert (0 < t + m + 2 <= d) by lia. assert (p / d * d <= p) by (rewrite Z.mul_comm; apply Z.mul_div_le; lia). assert (0 <= p / d) by (apply Z.div_pos; lia). set (q := p / d) in *. clearbody q d. assert (0 <= 2 * (q / 2) <= q) by dlia. set (h := q / 2) in *. clearbody h. split; nia. }
  destruct (cos_loop_opt f p m step r0 ltac:(lia) r0 None eq_refl n niter e E) as (O1 & O2 & O3 & O4). clear E.
  pose proof (NI r0 ltac:(lia)) as [N0 N1]. pose proof (NI n ltac:(lia)) as [N2 N3]. pose proof (cos_series_cost _ p N0 ltac:(lia)) as [U0 [_ U1]]. pose proof (cos_series_cost _ p N2 ltac:(lia)) as [_ [U2 _]].
  assert (NB : n <= 6 * (series_niter p (cos_red_effect r0 m) / 2) + r0). { unfold cos_cost, cos_red_cost in O2. fold (cos_unit p) in O2. set (i0 := series_niter p (cos_red_effect r0 m) / 2) in *. apply Zmult_le_reg_r with (cos_unit p); lia. }
  exists step. split; [exact HS|]. split; [lia|]. split; [lia|]. split; [|split; [exact O3|split]].
  - set (i0 := series_niter p (cos_red_effect r0 m) / 2) in *. clearbody i0. clear - NB N1 R1 R0 HS N0. nia.
  - rewrite O4, O3. replace (n + step + m) with (cos_red_effect (n + step) m) by reflexivity. destruct (NI (n + step) ltac:(lia)). lia.
  - rewrite O4, O3. destruct (NI (n + step) ltac:(lia)) as [_ Q]. exact Q.
Qed.

(** ** Restoration *)
Lemma double_small E a v : sab E a v -> (bpow radix2 (-200) <= a <= 64)%R -> (2 * E <= a)%R -> sab (2 * E) (2 * a) (set_exponent v (ne v + 1)) /\ ninexact (set_exponent v (ne v + 1)) = ninexact v.
Proof.
  intros (W & N & D) A HE. pose proof (bpow_gt_0 radix2 (-200)) as B0. apply Rabs_le_inv in D. destruct (normal_range v W N) as [V1 V2]. pose proof (wf_exp v W) as [X1 X2]. assert (VA : Rabs (value v) = value v) by (apply Rabs_pos_eq; lra). rewrite VA in *.
  assert (E2 : ne v <= 20). { assert (ne v - 1 < 19); [|lia]. apply (lt_bpow radix2). eapply Rle_lt_trans; [exact V1|]. change (bpow radix2 19) with 524288%R. lra. }
  pose proof (set_exponent_spec v (ne v + 1) W ltac:(split; [lia|eapply Z.le_trans with 21; [lia|vm_compute; discriminate]])) as SE. cbv zeta in SE. destruct SE as (W1 & L1 & S1 & I1 & Q1). set (q := set_exponent v (ne v + 1)) in *. clearbody q.
  replace (ne v + 1 - ne v) with 1 in Q1 by ring. change (bpow radix2 1) with 2%R in Q1. split; [|exact I1]. split; [exact W1|]. split.
  - apply normal_iff; [exact W1|]. rewrite Q1, Rabs_pos_eq by lra. eapply Rle_trans with (bpow radix2 (-200))%R; [apply bpow_le; vm_compute; discriminate|lra].
  - rewrite Q1. apply Rabs_le. lra.
Qed.
Section Last.
Variable PO : Z.
Hypothesis HPO : 192 <= PO <= 2 ^ 22.
Hypothesis HP64 : prec_up PO = PO.
Let HPP : 128 <= PO <= prec_up PO.
Proof. clear - HPO HP64. lia. Qed.
Let HL : prec_up PO < P_LIM.
Proof. rewrite HP64. eapply Z.le_lt_trans; [apply HPO|]. vm_compute. reflexivity. Qed.
(** A doubling that may begin or end near a zero of the cosine. *)
Lemma cstep_ok e y v : sab e (cos y) v -> (e <= bpow radix2 (-80))%R -> (bpow radix2 (-62) <= Rabs (cos y))%R -> (bpow radix2 (-62) <= Rabs (cos (2 * y)))%R -> 64 * wlen v = PO -> ninexact v = true ->
  exists q, cos_restore_loop 1 PO v = Ok q /\ sab (5 * e + 20 * eps PO) (cos (2 * y)) q /\ 64 * wlen q = PO /\ ninexact q = true.
Proof.
  intros Hv He NZ FAR Lv Iv. pose proof (eps_pos PO) as Ep. assert (Es : (eps PO <= bpow radix2 (-80))%R) by (apply bpow_le; lia). assert (B80 : (bpow radix2 (-80) <= / 1048576)%R) by (change (/ 1048576)%R with (bpow radix2 (-20)); apply bpow_le; lia).
  assert (B62 : (256 * bpow radix2 (-80) <= bpow radix2 (-62))%R). { change 256%R with (bpow radix2 8). rewrite <- bpow_plus. apply bpow_le. lia. }
  assert (B63 : (bpow radix2 (-62) = 2 * bpow radix2 (-63))%R) by (change (-62) with (1 + -63); rewrite bpow_plus; reflexivity).
  cbn [cos_restore_loop]. pose proof (COS_bound y) as C1. assert (CD : (cos (2 * y) = 2 * (cos y * cos y) - 1)%R) by (rewrite cos_2a_cos; ring).
  pose proof Hv as (W & N & D). assert (e0 : (0 <= e)%R) by (pose proof (Rabs_pos (value v - cos y)); lra). pose proof (apx_self PO v W N) as Av. rewrite CD in *. set (c := cos y) in *. clearbody c. set (w := value v) in *.
  assert (WL : (bpow radix2 (-63) <= Rabs w)%R). { pose proof (Rabs_triang w (- (w - c))) as T. rewrite Rabs_Ropp in T. replace (w + - (w - c))%R with c in T by ring. lra. }
  apply Rabs_le_inv in D. assert (WA : (Rabs w <= 1025 / 1024)%R) by (apply Rabs_le; lra). assert (WQ : (Rabs w * Rabs w = w * w)%R) by (rewrite <- Rabs_mult; apply Rabs_pos_eq; nra).
  pose proof (bpow_gt_0 radix2 (-63)) as P63. assert (WW : (bpow radix2 (-126) <= w * w <= 21 / 20)%R). { rewrite <- WQ. split; [change (-126) with (-63 + -63); rewrite bpow_plus; apply Rmult_le_compat; lra|]. pose proof (Rabs_pos w). set (a := Rabs w) in *. clearbody a. clear - WA H. nra. }
  assert (DD : (Rabs (2 * (w * w) - 2 * (c * c)) <= 5 * e)%R).
  { replace (2 * (w * w) - 2 * (c * c))%R with (2 * (w + c) * (w - c))%R by ring. rewrite Rabs_mult. apply Rmult_le_compat; [apply Rabs_pos|apply Rabs_pos| |apply Rabs_le; lra]. apply Rabs_le. lra. }
  destruct (apx_mul PO PO RNone HPP HL _ _ _ _ _ _ _ _ Av Av ltac:(lia)) as (c2 & -> & A1 & _ & I1); [apply (mid_range (-126) 1); [vm_compute; discriminate|vm_compute; discriminate|rewrite WQ; change (bpow radix2 1) with 2%R; lra]|]. cbn [bind]. replace (sign_mul (ns v) (ns v)) with Pos in A1 by (destruct (ns v); reflexivity). rewrite WQ in A1.
  apply apx_sab in A1; [|lia|lia]. change (IZR (0 + 0 + 1)) with 1%R in A1. change (sr Pos) with 1%R in A1. rewrite Rmult_1_l in A1. specialize (I1 ltac:(rewrite Iv; reflexivity)).
  pose proof (bpow_gt_0 radix2 (-126)) as P126. assert (EW : (0 < eps PO * (w * w) <= 21 / 20 * eps PO)%R) by (clear - Ep WW P126; nra). assert (EW2 : (eps PO * (w * w) <= / 4 * (w * w))%R) by (apply Rmult_le_compat_r; lra).
  assert (B200 : (bpow radix2 (-200) <= bpow radix2 (-126))%R) by (apply bpow_le; lia).
  destruct (double_small _ _ _ A1 ltac:(lra) ltac:(lra)) as [A2 I2]. set (d2 := set_exponent c2 (ne c2 + 1)) in *. clearbody d2.
  assert (O1 : sab 0 1 ONE) by (split; [exact ONE_wf|]; split; [exact ONE_normal|]; rewrite ONE_value, Rminus_diag_eq, Rabs_R0 by reflexivity; lra).
  assert (PA : (bpow radix2 (-63) <= Rabs (2 * (w * w) - 1) <= 2)%R).
  { split; [|apply Rabs_le; lra]. pose proof (Rabs_triang (2 * (w * w) - 1) (- (2 * (w * w) - 2 * (c * c)))) as T. rewrite Rabs_Ropp in T. replace (2 * (w * w) - 1 + - (2 * (w * w) - 2 * (c * c)))%R with (2 * (c * c) - 1)%R in T by ring. lra. }
  destruct (sab_sub PO PO RNone HPP HL _ _ _ _ _ _ A2 O1) as (q & -> & A3 & L3 & I3).
  { lra. } { apply (mid_range (-63) 2); [vm_compute; discriminate|vm_compute; discriminate|]. change (bpow radix2 2) with 4%R. lra. }
  cbn [bind]. exists q. split; [reflexivity|]. split; [|split; [rewrite L3; exact HP64|apply I3; rewrite I2, I1; reflexivity]].
  destruct A3 as (W3 & N3 & D3). split; [exact W3|]. split; [exact N3|]. pose proof (Rabs_triang (value q - (2 * (w * w) - 1)) (2 * (w * w) - 2 * (c * c))) as T. replace (value q - (2 * (w * w) - 1) + (2 * (w * w) - 2 * (c * c)))%R with (value q - (2 * (c * c) - 1))%R in T by ring.
  assert (eps PO * Rabs (2 * (w * w) - 1) <= eps PO * 2)%R by (apply Rmult_le_compat_l; lra). lra.
Qed.
End Last.

(** ** The series *)
Theorem cos_series_four g x P : 192 <= P <= 2 ^ 15 -> wf x -> normal x -> 64 * wlen x = P -> ne x = 2 -> (bpow radix2 (-62) <= Rabs (cos (Rabs (value x) / 2)))%R -> (bpow radix2 (-62) <= Rabs (cos (Rabs (value x))))%R ->
  ends (cos_series g x RNone) (fun q => sab (bpow radix2 57 * eps P) (cos (Rabs (value x))) q /\ P <= 64 * wlen q /\ ninexact q = true).
Proof.
  intros HP W N L He FAR1 FAR. unfold cos_series. cbv zeta. rewrite max_len, L. assert (HP64 : prec_up P = P) by (unfold prec_up; clear - L; dlia). assert (HP22 : 128 <= P <= 2 ^ 22) by (clear - HP; lia).
  destruct (cos_new_ok P HP22 HP64) as (gen & -> & Hgen). cbn [done rbind].
  destruct (series_cost_optimize cos_red_cost cos_red_effect g P (sinh_iter_cost P) (- ne x) 2) as [[[n niter] e]|] eqn:EO; [|left; reflexivity].
  destruct (cos_optimize_four g P (- ne x) n niter e ltac:(clear - HP; lia) ltac:(clear - He; lia) EO) as (step & Hst & Hn0 & Hsn & Hn & Ee & Hni & Hnt). clear EO.
  set (m := - ne x) in *. assert (Hm : m = -2) by (unfold m; clear - He; lia).
  assert (Hadd : P + Z.max 0 (n * 6 + 6 - e) <= P + (if 0 <? n * 6 + 6 - e then n * 6 + 6 - e else 0)) by (destruct (Z.ltb_spec 0 (n * 6 + 6 - e)); lia).
  set (p_arg := P + (if 0 <? n * 6 + 6 - e then n * 6 + 6 - e else 0)) in *. assert (Hpa : P <= p_arg <= 6 * P + 127). { unfold p_arg. clear - Hn Ee Hst Hn0 Hm HP. destruct (Z.ltb_spec 0 (n * 6 + 6 - e)); lia. }
  clearbody p_arg. set (PO := prec_up p_arg). assert (HPO : P <= PO <= 2 ^ 22 /\ p_arg <= PO) by (unfold PO; clear - Hpa HP HP64; rewrite <- HP64 at 1; unfold prec_up; dlia). destruct HPO as [HPO HPA]. assert (HPO64 : prec_up PO = PO) by (unfold PO, prec_up; clear; dlia).
  assert (HL : prec_up PO < P_LIM) by (rewrite HPO64; eapply Z.le_lt_trans; [apply HPO|]; vm_compute; reflexivity).
  assert (EPM : prec_up p_arg = prec_up PO) by (fold PO; congruence). assert (HPP : 128 <= PO <= prec_up p_arg) by (fold PO; clear - HPO HP; lia).
  assert (EP : 0 < P /\ 0 < p_arg) by (clear - HP Hpa; lia).
  pose proof (apx_self P x W N) as Ax. destruct (normal_range x W N) as [X1 X2].
  destruct (apx_len_up P _ 0 _ x p_arg Ax ltac:(fold PO; clear - L HPO; lia) ltac:(apply EP) ltac:(fold PO; rewrite <- HPO64; exact HL)) as (x1 & -> & (W1 & N1 & S1 & _) & L1 & V1). fold PO in L1. cbn [done rbind].
  assert (Hn20 : 0 <= n <= 2 ^ 20) by (clear - Hn Hn0 HP; lia).
  set (ax := Rabs (value x)) in *. assert (AX1 : (bpow radix2 (- m - 1) <= ax)%R) by (unfold m; rewrite Z.opp_involutive; exact X1). assert (AX2 : (ax <= bpow radix2 (- m))%R) by (unfold m; rewrite Z.opp_involutive; left; exact X2).
  assert (AX3 : (2 <= ax <= 4)%R). { rewrite Hm in AX1, AX2. change (bpow radix2 (- -2 - 1)) with 2%R in AX1. change (bpow radix2 (- -2)) with 4%R in AX2. lra. }
  destruct (normal_range x1 W1 N1) as [Y1 Y2]. rewrite V1 in Y1, Y2. fold ax in Y1, Y2.
  assert (NE : - 2 ^ 22 <= ne x1 <= 2 ^ 20). { split; [assert (- m - 1 < ne x1); [|clear - H Hm; lia]; apply (lt_bpow radix2); eapply Rle_lt_trans; [exact AX1|exact Y2]|]. assert (ne x1 - 1 <= 2); [|clear - H; lia]. apply (le_bpow radix2). eapply Rle_trans; [exact Y1|exact (proj2 AX3)]. }
  destruct (halved_ok x1 n W1 N1 Hn20 NE) as (arg & -> & Wa & Na & Sa & La & Va). cbn [done rbind].
  destruct (from_word_spec 1 p_arg ltac:(clear; lia) ltac:(apply EP) ltac:(rewrite EPM; exact HL)) as (acc & -> & Wc & Lc & Sc & _ & Vc). fold PO in Lc. cbn [done rbind].
  assert (Ac : apx P Pos 0 1 acc) by (apply apx_exact; auto using normal_one). assert (Bc : sab 0 (sr Pos * 1) acc). { split; [exact Wc|]. split; [now apply normal_one|]. rewrite Vc. change (sr Pos) with 1%R. replace (1 - 1 * 1)%R with 0%R by ring. rewrite Rabs_R0. lra. }
  (* the reduced argument *)
  set (t := (ax * bpow radix2 (- n))%R). assert (AV : Rabs (value arg) = t). { rewrite Va, V1, Rabs_mult, (Rabs_pos_eq (bpow _ _)) by apply bpow_ge_0. reflexivity. }
  pose proof (bpow_gt_0 radix2 (- n)) as Bn. assert (A0 : (0 < ax)%R) by (eapply Rlt_le_trans; [apply bpow_gt_0|exact AX1]).
  assert (TL : (bpow radix2 (- m - 1 + - n) <= t)%R) by (apply low_mul; [exact AX1|right; reflexivity]).
  assert (TU : (t <= / 8)%R). { change (/ 8)%R with (bpow radix2 (-3)). apply Rle_trans with (bpow radix2 (- m) * bpow radix2 (- n))%R; [apply Rmult_le_compat_r; lra|]. rewrite <- bpow_plus. apply bpow_le. clear - Hsn Hst. lia. }
  assert (T0 : (0 < t)%R) by (eapply Rlt_le_trans; [apply bpow_gt_0|exact TL]).
  pose proof (apx_self PO arg Wa Na) as AA. rewrite AV in AA.
  assert (TTL : (bpow radix2 (- m - 1 + - n + (- m - 1 + - n)) <= t * t)%R) by now apply low_mul.
  destruct (apx_mul PO p_arg RNone HPP ltac:(rewrite EPM; exact HL) _ _ _ _ _ _ _ _ AA AA ltac:(clear; lia)) as (xs & -> & Hxs & Lxs & _).
  { apply (mid_range (- m - 1 + - n + (- m - 1 + - n)) 0); [unfold HX; clear - Hm Hn20; lia|vm_compute; discriminate|]. split; [exact TTL|]. change (bpow radix2 0) with 1%R. clear - T0 TU. nra. }
  cbn [done rbind]. replace (sign_mul (ns arg) (ns arg)) with Pos in Hxs by (destruct (ns arg); reflexivity). fold PO in Lxs. pose proof Hxs as (Ws & Ns & Ss & Ls). set (X := Rabs (value xs)) in *. change (IZR (0 + 0 + 1)) with 1%R in Ls.
  pose proof (eps_pos PO) as EpO. pose proof (eps_pos P) as Ep. assert (EOs : (eps PO <= / 4)%R) by (change (/ 4)%R with (bpow radix2 (-2)); apply bpow_le; clear - HPO HP; lia).
  assert (XD : (Rabs (X - t * t) <= 2 * eps PO * (t * t))%R) by (apply lc_abs in Ls; lra). pose proof (Rabs_le_inv _ _ XD) as XD'. assert (TT : (0 < t * t <= / 64)%R) by (clear - T0 TU; nra).
  assert (XU : (t * t / 2 <= X <= 3 / 2 * (t * t))%R). { assert (eps PO * (t * t) <= / 4 * (t * t))%R by (apply Rmult_le_compat_r; lra). lra. }
  assert (AX : apx P Pos 0 X xs) by (rewrite <- Ss; now apply apx_self).
  destruct (normal_range xs Ws Ns) as [R1 R2]. fold X in R1, R2.
  assert (E1 : ne xs <= -1). { assert (ne xs - 1 <= -2); [|lia]. apply (le_bpow radix2). eapply Rle_trans; [exact R1|]. change (bpow radix2 (-2)) with (/ 4)%R. lra. }
  assert (XL : (bpow radix2 (- m - 1 + - n + (- m - 1 + - n) + -1) <= X)%R) by (rewrite bpow_plus; change (bpow radix2 (-1)) with (/ 2)%R; lra).
  assert (E2 : 1 - ne xs <= 2 * m + 2 * n + 3). { assert (EX : - m - 1 + - n + (- m - 1 + - n) + -1 < ne xs); [|clear - EX; lia]. apply (lt_bpow radix2). eapply Rle_lt_trans; [exact XL|exact R2]. }
  assert (X0 : (0 < X)%R) by lra.
  (* the sum *)
  eapply ends_bind.
  { apply (alt_run_abs P PO sin_gen cos_next (cos_at P) cC JMAX (2 ^ 26) (2 ^ 29 - 4) ltac:(clear - HP HPO; lia) ltac:(apply HPO) HPO64 ltac:(clear; lia) ltac:(clear; lia) cC_range cC_ratio) with (s := Pos) (k := 0) (A := 1%R) (F := X).
    - exact cC_low4.
    - intros j g0 Hj HJ. destruct (cos_next_ok P HP22 HP64 j g0 Hj HJ) as (c & g' & Q1 & Q2 & Q3 & Q4). exists c, g'. split; [exact Q1|]. split; [exact Q2|]. split; [exact Q3|]. clear - Q4 HPO. lia.
    - exact Ws. - exact Ns. - exact Ss. - exact Lxs. - exact E1.
    - exact Ac. - exact AX. - exact Lc. - exact Lxs. - exact Hgen.
    - clear. lia.
    - split; [eapply low_weak; [|exact XL]; clear - Hm Hn20; lia|lra].
    - lra.
    - clear - Hni Hnt HP Ee Hn0 Hst Hm. nia.
    - assert (Q1 : 1 - ne xs <= 2 * (e + 2)) by (clear - E2 Ee Hst; lia). assert (Q2 : 2 * niter * (1 - ne xs) <= 2 * P) by (clear - Q1 Hnt Hni; nia). clear - Q2 E2 Hn20 Hm HP. lia.
    - rewrite JMAX_Z. unfold J22. clear - Hni Hnt HP Ee Hn0 Hst Hm. nia. }
  intros ret [(M & HM & _ & Lret & Tail & Hret) Iret]. fold X in Hret, Tail. specialize (Hret 0%R ltac:(lra) Bc). change (sr Pos) with 1%R in Hret.
  (* back to the cosine *)
  set (b := sqrt X). assert (Bb : (b * b = X)%R) by (apply sqrt_sqrt; lra). assert (b0 : (0 < b)%R) by now apply sqrt_lt_R0. assert (b1 : (b <= / 2)%R) by (clear - Bb b0 XU TT; nra).
  pose proof (cos_taylor b M ltac:(lra) HM) as TS. rewrite Bb in TS. pose proof (cos_sq_near b t) as NT. rewrite Bb in NT. set (ps := psum cC (- X) 0 M) in *.
  set (c0 := IZR (2 ^ 46 + 64 * 0)) in *. assert (C0 : c0 = bpow radix2 46) by reflexivity.
  set (u := (c0 * eps P * X + 150 * eps PO)%R). assert (CP : (0 < c0 * eps P * X)%R) by (rewrite C0; apply Rmult_lt_0_compat; [apply Rmult_lt_0_compat; [apply bpow_gt_0|exact Ep]|exact X0]).
  assert (Hu : sab (u - 3 * eps PO) (cos t) ret).
  { destruct Hret as (Wr & Nr & Dr). split; [exact Wr|]. split; [exact Nr|]. assert (Tl : (2 * eps PO * (t * t) <= eps PO)%R) by (assert (eps PO * (t * t) <= eps PO * / 64)%R by (apply Rmult_le_compat_l; lra); lra).
    replace (value ret - cos t)%R with ((value ret - 1 * (1 - X * ps)) + (- (cos b - (1 - X * ps)) + (cos b - cos t)))%R by ring. eapply Rle_trans; [apply Rabs_triang|]. eapply Rle_trans; [apply Rplus_le_compat_l; apply Rabs_triang|]. rewrite Rabs_Ropp. unfold u. fold c0 in Dr. lra. }
  assert (N4 : 5 <= n) by (clear - Hsn Hst Hm; lia). assert (Hn1 : n = 2 + Z.of_nat (Z.to_nat (n - 2))) by (clear - N4; lia). set (j := Z.to_nat (n - 2)) in *. assert (Ej : Z.to_nat n = Datatypes.S (Datatypes.S j)) by (clear - Hn1; lia).
  assert (U4 : (4 ^ Z.to_nat n * u <= bpow radix2 52 * eps P)%R).
  { rewrite pow4 by exact Hn0. unfold u. rewrite Rmult_plus_distr_l. pose proof (bpow_gt_0 radix2 (2 * n)) as B2.
    assert (Q1 : (bpow radix2 (2 * n) * (c0 * eps P * X) <= bpow radix2 51 * eps P)%R).
    { assert (TX : (bpow radix2 (2 * n) * (t * t) <= 16)%R). { unfold t. replace (bpow radix2 (2 * n) * (ax * bpow radix2 (- n) * (ax * bpow radix2 (- n))))%R with (ax * ax * (bpow radix2 (2 * n) * bpow radix2 (- n) * bpow radix2 (- n)))%R by ring. rewrite <- !bpow_plus. replace (2 * n + - n + - n) with 0 by ring. change (bpow radix2 0) with 1%R. clear - A0 AX3. nra. }
      assert (TX2 : (bpow radix2 (2 * n) * X <= 32)%R). { apply Rle_trans with (bpow radix2 (2 * n) * (3 / 2 * (t * t)))%R; [apply Rmult_le_compat_l; lra|lra]. }
      replace (bpow radix2 (2 * n) * (c0 * eps P * X))%R with (c0 * eps P * (bpow radix2 (2 * n) * X))%R by ring. rewrite C0. change 51 with (46 + 5). rewrite bpow_plus. change (bpow radix2 5) with 32%R. replace (bpow radix2 46 * 32 * eps P)%R with (bpow radix2 46 * eps P * 32)%R by ring. apply Rmult_le_compat_l; [apply Rmult_le_pos; [apply bpow_ge_0|lra]|exact TX2]. }
    assert (Q2 : (bpow radix2 (2 * n) * (150 * eps PO) <= bpow radix2 51 * eps P)%R).
    { apply Rle_trans with (bpow radix2 (2 * n) * (bpow radix2 8 * eps PO))%R; [apply Rmult_le_compat_l; [lra|]; apply Rmult_le_compat_r; [lra|]; change (bpow radix2 8) with 256%R; lra|]. unfold eps. rewrite <- !bpow_plus. apply bpow_le. clear - Ee Hadd HPA Hst Hm Hn0 N4. lia. }
    change (bpow radix2 52) with (2 * bpow radix2 51)%R. lra. }
  rewrite Ej in U4. cbn [pow] in U4. set (F := (4 ^ j)%R) in *. assert (FP : (1 <= F)%R) by (apply pow_R1_Rle; lra). assert (u0 : (0 <= u)%R) by (unfold u; lra).
  assert (U8 : (bpow radix2 52 * eps P <= bpow radix2 (-120))%R). { unfold eps. rewrite <- bpow_plus. apply bpow_le. clear - HP. lia. } assert (U9 : (bpow radix2 (-120) <= bpow radix2 (-80))%R) by (apply bpow_le; clear; lia). assert (U10 : (bpow radix2 (-80) <= / 64)%R) by (change (/ 64)%R with (bpow radix2 (-6)); apply bpow_le; clear; lia).
  pose proof (bpow_gt_0 radix2 (-130)) as U11. assert (U5 : (F * u <= / 8)%R) by lra. assert (u1 : (u <= / 8)%R) by (clear - FP u0 U5; nra).
  assert (Ug : (u - 3 * eps PO + 3 * eps PO <= u / (1 - u))%R). { apply Rmult_le_reg_r with (1 - u)%R; [lra|]. unfold Rdiv. rewrite (Rmult_assoc u), Rinv_l by lra. clear - u0 u1. nra. }
  assert (TN : (2 * (2 * (2 ^ j * t)) = ax)%R). { replace (2 * (2 * (2 ^ j * t)))%R with (2 ^ Z.to_nat n * t)%R by (rewrite Ej; cbn [pow]; ring). rewrite pow2 by exact Hn0. unfold t. replace (bpow radix2 n * (ax * bpow radix2 (- n)))%R with (ax * (bpow radix2 n * bpow radix2 (- n)))%R by ring. rewrite <- bpow_plus. replace (n + - n) with 0 by ring. change (bpow radix2 0) with 1%R. ring. }
  destruct (cos_restore_ok PO ltac:(clear - HP HPO; lia) HPO64 j _ u t ret Hu u0 Ug U5 ltac:(lra) ltac:(lra) Lret Iret) as (q & Eq & Rq & Lq & Iq). fold F in Rq.
  assert (TH : (2 * (2 ^ j * t) = ax / 2)%R) by lra. assert (B120 : (bpow radix2 (-120) * 1024 <= bpow radix2 (-80))%R). { change 1024%R with (bpow radix2 10). rewrite <- bpow_plus. apply bpow_le. lia. }
  assert (EPO : (eps PO <= eps P)%R) by (unfold eps; apply bpow_le; clear - HPO; lia). assert (E50 : (1024 * eps P <= bpow radix2 52 * eps P)%R) by (apply Rmult_le_compat_r; [lra|]; change 1024%R with (bpow radix2 10); apply bpow_le; clear; lia).
  destruct (cstep_ok PO ltac:(clear - HP HPO; lia) HPO64 (2 * (F * u)) (2 ^ j * t) q Rq ltac:(lra)) as (q1 & Eq1 & Rq1 & Lq1 & Iq1).
  { pose proof (cos_half (2 ^ j * t) ltac:(lra)) as CH. rewrite Rabs_pos_eq by lra. apply Rle_trans with (bpow radix2 (-2)); [apply bpow_le; lia|]. change (bpow radix2 (-2)) with (/ 4)%R. lra. } { rewrite TH. exact FAR1. } { exact Lq. } { exact Iq. }
  destruct (cstep_ok PO ltac:(clear - HP HPO; lia) HPO64 _ _ q1 Rq1 ltac:(lra)) as (q2 & Eq2 & Rq2 & Lq2 & Iq2). { rewrite TH. exact FAR1. } { rewrite TN. exact FAR. } { exact Lq1. } { exact Iq1. } rewrite TN in Rq2.
  replace (0 <? n) with true by (symmetry; apply Z.ltb_lt; clear - N4; lia). unfold cos_arg_restore. rewrite max_len, Lret, Ej, crestore_last, crestore_last, Eq. cbn [bind]. rewrite Eq1. cbn [bind]. rewrite Eq2. apply ends_ok. split; [|split; [clear - Lq2 HPO; lia|exact Iq2]].
  eapply sab_weak; [|exact Rq2]. replace (bpow radix2 57) with (32 * bpow radix2 52)%R by (change 57 with (5 + 52); rewrite bpow_plus; reflexivity). lra.
Qed.

From Verif Require Import AltDiv AtanR AtanTop PiNum IntNum WfTop AtanBig PropsConst SinBig SinFour.
(** ** Distance from the zeros *)
Lemma cos_two_four y : (2 <= y <= 4)%R -> (/ 16 <= Rabs (cos y))%R.
Proof.
  intros Y. pose proof PI_high as P3. pose proof PI_low as PL. replace (Rabs (cos y)) with (cos (y - PI)).
  2: { rewrite cos_minus, cos_PI, sin_PI. assert (cos y <= 0)%R by (apply cos_le_0; lra). rewrite Rabs_left1 by assumption. ring. }
  set (z := (y - PI)%R). assert (Z : (-3 / 2 <= z <= 1)%R) by (unfold z; lra). destruct (Rle_lt_dec z 0) as [N|N].
  - replace (cos z) with (cos (- z)) by apply cos_neg. apply Rle_trans with (cos (3 / 2)); [|apply cos_decr_1; lra]. pose proof (pre_cos_bound (3 / 2) 1 ltac:(lra) ltac:(lra)) as [B _]. unfold cos_approx, cos_term in B. cbn in B. lra.
  - apply Rle_trans with (cos 1); [|apply cos_decr_1; lra]. pose proof (pre_cos_bound 1 0 ltac:(lra) ltac:(lra)) as [B _]. unfold cos_approx, cos_term in B. cbn in B. lra.
Qed.

(** ** The loop *)
Section Loop.
Context (x0 : num) (p : Z) (rm : rmode) (g : nat).
Hypotheses (W0 : wf x0) (N0 : nonzero x0) (Hp : 0 < p) (Hp64 : p mod 64 = 0) (He : ne x0 = 2) (FAR : (bpow radix2 (-60) <= Rabs (Rabs (value x0) - PI))%R).

Theorem cos_loop_four : forall f c w i, reachable pi_new pi_for_prec c -> p + 64 <= w -> w mod 64 = 0 -> 64 <= i -> i mod 64 = 0 -> 128 <= w -> 64 * wlen x0 <= w -> i <= 64 * (((w + i) / 5 + 63) / 64) ->
  work f w i + 128 <= 1984 -> cos_big_post x0 p rm (cos_loop f g 31 c x0 p rm w i 65).
Proof.
  induction f as [|f IH]; intros c w i RC Hpw Hw64 Hi Hi64 Hw HLx Hii HB; [exact I|].
  pose proof (work_ge (Datatypes.S f) w i ltac:(lia) ltac:(lia)) as HG.
  change (work (Datatypes.S f) w i) with (work f (w + i) (64 * (((w + i) / 5 + 63) / 64))) in HB, HG.
  pose proof (work_ge f (w + i) (64 * (((w + i) / 5 + 63) / 64)) ltac:(lia) ltac:(clear - Hw Hi; dlia)) as HG2.
  assert (PW : prec_up (w + 65) = w + 128) by (unfold prec_up; clear - Hw64; dlia). assert (HPX : 192 <= w + 128 <= 1984) by (clear - HB HG HG2 Hw Hi; lia). assert (PL : prec_up (w + 65) < P_LIM) by (rewrite PW; apply Z.le_lt_trans with 1984; [apply HPX|vm_compute; reflexivity]).
  assert (HX : argument x0 w x0). { pose proof (argument_start x0 W0 N0 ltac:(rewrite He; vm_compute; reflexivity)) as (_ & H2 & _). split; [exact W0|]. split; [exact H2|]. split; [reflexivity|]. split; [reflexivity|exact HLx]. }
  cbn [cos_loop]. destruct (argument_len x0 w x0 (w + 65) ltac:(lia) PL ltac:(lia) HX) as (y & -> & HY & Sy & Ly). rewrite PW in HY, Ly. cbn [ppure pbind]. pose proof HY as (Wy & Ny & Vy & Ey & _). rewrite He in Ey.
  unfold reduce_trig_arg. rewrite Ey. change (2 <? 2) with false. cbn [ppure pbind].
  pose proof (proximity_two c y (w + 128) RC Wy Ny Ly ltac:(clear - HPX; lia) Ey) as PP. destruct (trig_arg_pi_proximity 31 c y RNone) as [[c1 [[t q]|e|]]|]; [|exact PP|exact PP|exact I]. destruct PP as (R1 & -> & _). cbn [pbind]. change (Z.odd 2) with false. cbn [andb].
  destruct (normal_range y Wy Ny) as [Y1 Y2]. rewrite Ey, Vy in Y1, Y2. change (bpow radix2 (2 - 1)) with 2%R in Y1. change (bpow radix2 2) with 4%R in Y2.
  assert (B61 : (0 < bpow radix2 (-61) <= / 2)%R). { split; [apply bpow_gt_0|]. change (/ 2)%R with (bpow radix2 (-1)). apply bpow_le. lia. }
  assert (CF1 : (bpow radix2 (-62) <= Rabs (cos (Rabs (value x0) / 2)))%R).
  { replace (bpow radix2 (-62)) with (bpow radix2 (-61) / 2)%R by (change (-61) with (1 + -62); rewrite bpow_plus; change (bpow radix2 1) with 2%R; lra). apply cos_far; [lra|lra|]. replace (Rabs (value x0) / 2 - PI / 2)%R with ((Rabs (value x0) - PI) * / 2)%R by field. rewrite Rabs_mult, (Rabs_pos_eq (/ 2)) by lra. replace (bpow radix2 (-60)) with (2 * bpow radix2 (-61))%R in FAR by (change (-60) with (1 + -61); rewrite bpow_plus; reflexivity). lra. }
  pose proof (cos_two_four (Rabs (value x0)) ltac:(lra)) as CF2. assert (CF3 : (bpow radix2 (-62) <= Rabs (cos (Rabs (value x0))))%R). { eapply Rle_trans; [|exact CF2]. change (/ 16)%R with (bpow radix2 (-4)). apply bpow_le. lia. }
  pose proof (cos_series_four g y (w + 128) ltac:(clear - HPX; lia) Wy Ny Ly Ey ltac:(rewrite Vy; exact CF1) ltac:(rewrite Vy; exact CF3)) as EV. destruct EV as [->|(ret & -> & A & L & Ir)]; [exact I|]. rewrite Vy in A. rewrite cos_abs in A, CF2. set (r := cos (value x0)) in *. cbn [ppure pbind].
  assert (R0 : r <> 0%R) by (intros Z; rewrite Z, Rabs_R0 in CF2; lra). destruct (sign_of r R0) as (s & HS & ER).
  assert (AP : apx (w + 64) s (2 ^ 58) (Rabs r) ret).
  { apply (sab_apx (w + 64) s (2 ^ 58) (Rabs r) (bpow radix2 57 * eps (w + 128)) ret ltac:(clear - Hw; lia) ltac:(lra) ltac:(clear; lia)); [rewrite <- ER; exact A|].
    apply Rle_trans with (IZR (2 ^ 58) * eps (w + 64) * / 16)%R; [|apply Rmult_le_compat_l; [apply Rmult_le_pos; [apply IZR_le; lia|left; apply eps_pos]|exact CF2]]. change (IZR (2 ^ 58)) with (bpow radix2 58). change (/ 16)%R with (bpow radix2 (-4)). change 2%R with (bpow radix2 1). unfold eps. rewrite <- !bpow_plus. apply bpow_le. lia. }
  destruct AP as (Wr & Nr & Sr & LCr).
  pose proof (accept_elem r ret p rm w (2 ^ 58) Wr Nr Ir ltac:(clear - L; lia) ltac:(rewrite Sr; exact HS) LCr ltac:(clear; lia) Hp Hp64 Hw64 Hpw) as AE.
  destruct (try_set_precision ret p rm w) as [[q [|]]|[tt| | |]|]; try contradiction; cbn [ppure pbind].
  - split; [exact R1|]. now apply elem_mark.
  - rewrite round_step by (clear - HG HG2 HB Hw Hi; lia). apply IH; [exact R1|lia| |clear - Hw Hi; dlia|rewrite Z.mul_comm; apply Z.mod_mul; lia|lia|lia| |exact HB].
    + clear - Hw64 Hi64. dlia.
    + assert (D : (w + i) / 5 <= (w + i + 64 * (((w + i) / 5 + 63) / 64)) / 5) by (apply Z.div_le_mono; [lia|]; clear - Hw Hi; dlia). assert ((((w + i) / 5 + 63) / 64) <= (((w + i + 64 * (((w + i) / 5 + 63) / 64)) / 5 + 63) / 64)) by (apply Z.div_le_mono; lia). lia.
  - split; [exact R1|exact I].
Qed.
End Loop.

Theorem cos_four_ok f g c x p rm : reachable pi_new pi_for_prec c -> wf x -> 0 < p -> (2 <= Rabs (value x) < 4)%R -> (bpow radix2 (-60) <= Rabs (Rabs (value x) - PI))%R ->
  work f (Z.max (prec_up p) (64 * wlen x) + 64) 64 + 128 <= 1984 ->
  cos_big_post x (prec_up p) rm (f_cos f g 31 c x p rm).
Proof.
  intros R W Hp HV FAR HB. assert (N : normal x). { apply normal_iff; [exact W|]. eapply Rle_trans with (bpow radix2 0); [apply bpow_le; vm_compute; discriminate|]. change (bpow radix2 0) with 1%R. lra. }
  assert (He : ne x = 2). { destruct (normal_range x W N) as [H1 H2]. assert (ne x - 1 < 2) by (apply (lt_bpow radix2); change (bpow radix2 2) with 4%R; lra). assert (1 < ne x) by (apply (lt_bpow radix2); change (bpow radix2 1) with 2%R; lra). lia. }
  change (Z.max (prec_up p) (64 * wlen x)) with (max64 (prec_up p) x) in HB. assert (P64 : 64 <= prec_up p) by (unfold prec_up; clear - Hp; dlia). assert (M1 : prec_up p <= max64 (prec_up p) x) by (unfold max64; lia). assert (M2 : 64 * wlen x <= max64 (prec_up p) x) by (unfold max64; lia).
  pose proof (work_ge f (max64 (prec_up p) x + 64) 64 ltac:(lia) ltac:(lia)) as HG. assert (PL : prec_up p < P_LIM) by (eapply Z.le_lt_trans with 1984; [lia|vm_compute; reflexivity]).
  unfold f_cos. match goal with |- context [@even_in ?A ?ok ?rest true x p rm] => rewrite (@even_in_rest A ok rest true x p rm W (proj2 N) Hp PL ltac:(lia)) end. cbv beta. change (mantissa_max_bit_len x) with (64 * wlen x). change (Z.max (prec_up p) (64 * wlen x)) with (max64 (prec_up p) x).
  apply cos_loop_four; [exact W|exact (proj2 N)|lia|apply prec_up_mod|exact He|exact FAR|exact R|lia|apply max_mod|lia|reflexivity|lia|lia|clear - M1 P64; dlia|exact HB].
Qed.
