(** The cosine for arguments between one and two in magnitude. *)

From Coq Require Import ZArith List Bool Lia Reals Lra.
From Flocq Require Import Core.
From Verif Require Import Words IntModel Mantissa Num Pow Consts Elem Series Exp Sin Ln Cos SpecZ SpecOps SpecConst SpecPow SpecElem WordsP Spec RealP RealP2 NumP CmpP AddP SetP AddNum MulNum DivNum ArithTop ConvNum Conv2Num RootP ConstP ConstNum ExtP PowExt Refute1 ElemR ElemDom SmallP ElemNum ApproxR ApproxNum SeriesNum SinhR SinhNum SinhTop ExpNum RetryNum ConstReach SpecReach ExpTop HypNum HypTop TanhNum AltNum SinTop CosTop.
Import ListNotations.
Open Scope Z_scope.
Ltac Zify.zify_post_hook ::= idtac.
Arguments Z.mul : simpl never.
Arguments Z.add : simpl never.
Arguments Z.pow : simpl never.
Arguments Z.sub : simpl never.
Arguments Z.of_nat : simpl never.
Ltac dlia := Z.div_mod_to_equations; lia.

(** ** The number of reductions *)
Lemma cos_optimize_big f p m n niter e : 128 <= p <= 2 ^ 15 -> m = -1 -> series_cost_optimize cos_red_cost cos_red_effect f p (sinh_iter_cost p) m 2 = Some (n, niter, e) ->
  exists step, 3 <= step <= 7 /\ 0 <= n /\ step <= m + n /\ 10 * n <= 6 * p + 120 /\ e = n + step + m /\ 0 <= niter /\ 2 * niter * (e + 2) <= p.
Proof.
  intros Hp Hm E. unfold series_cost_optimize in E. rewrite log2_floor_spec in E by lia. assert (L7 : 7 <= Z.log2 p) by (apply Z.log2_le_pow2; lia). assert (L15 : Z.log2 p <= 15). { change 15 with (Z.log2 (2 ^ 15)). apply Z.log2_le_mono. lia. }
  set (step := Z.log2 p / 2) in *. assert (HS : 3 <= step <= 7) by (unfold step; clear - L7 L15; dlia). clearbody step.
  set (r0 := if m <? step then step - m else 0) in *. assert (R0 : 0 <= r0 <= 8 /\ step <= m + r0 /\ (step <= m -> r0 = 0)) by (unfold r0; destruct (Z.ltb_spec m step); lia). clearbody r0. destruct R0 as (R0 & R1 & R2).
  destruct (cos_niter p ltac:(lia)) as (D & HD & ND).
  assert (NI : forall t, 0 <= t -> 0 <= series_niter p (cos_red_effect t m) / 2 < 2 ^ 32 /\ 2 * (series_niter p (cos_red_effect t m) / 2) * (t + m + 2) <= p).
  { intros t Ht. rewrite ND. set (d := D + t + m) in *. assert (0 < t + m + 2 <= d) by lia. assert (p / d * d <= p) by (rewrite Z.mul_comm; apply Z.mul_div_le; lia). assert (0 <= p / d) by (apply Z.div_pos; lia). set (q := p / d) in *. clearbody q d. assert (0 <= 2 * (q / 2) <= q) by dlia. set (h := q / 2) in *. clearbody h. split; nia. }
  destruct (cos_loop_opt f p m step r0 ltac:(lia) r0 None eq_refl n niter e E) as (O1 & O2 & O3 & O4). clear E.
  pose proof (NI r0 ltac:(lia)) as [N0 N1]. pose proof (NI n ltac:(lia)) as [N2 N3]. pose proof (cos_series_cost _ p N0 ltac:(lia)) as [U0 [_ U1]]. pose proof (cos_series_cost _ p N2 ltac:(lia)) as [_ [U2 _]].
  assert (NB : n <= 6 * (series_niter p (cos_red_effect r0 m) / 2) + r0). { unfold cos_cost, cos_red_cost in O2. fold (cos_unit p) in O2. set (i0 := series_niter p (cos_red_effect r0 m) / 2) in *. apply Zmult_le_reg_r with (cos_unit p); lia. }
  exists step. split; [exact HS|]. split; [lia|]. split; [lia|]. split; [|split; [exact O3|split]].
  - set (i0 := series_niter p (cos_red_effect r0 m) / 2) in *. clearbody i0. clear - NB N1 R1 R0 HS N0. nia.
  - rewrite O4, O3. replace (n + step + m) with (cos_red_effect (n + step) m) by reflexivity. destruct (NI (n + step) ltac:(lia)). lia.
  - rewrite O4, O3. destruct (NI (n + step) ltac:(lia)) as [_ Q]. exact Q.
Qed.

(** ** Restoration *)
Lemma crestore_last n : forall p v, cos_restore_loop (Datatypes.S n) p v = bind (cos_restore_loop n p v) (cos_restore_loop 1 p).
Proof.
  induction n as [|n IH]; intros p v; [reflexivity|].
  change (cos_restore_loop (Datatypes.S (Datatypes.S n)) p v) with (bind (n_mul v v p RNone) (fun c2 => bind (n_sub (set_exponent c2 (ne c2 + 1)) ONE p RNone) (fun c => cos_restore_loop (Datatypes.S n) p c))).
  change (cos_restore_loop (Datatypes.S n) p v) with (bind (n_mul v v p RNone) (fun c2 => bind (n_sub (set_exponent c2 (ne c2 + 1)) ONE p RNone) (fun c => cos_restore_loop n p c))).
  destruct (n_mul v v p RNone) as [c2| |]; [|reflexivity|reflexivity]. cbn [bind]. destruct (n_sub (set_exponent c2 (ne c2 + 1)) ONE p RNone) as [c| |]; [|reflexivity|reflexivity]. cbn [bind]. apply IH.
Qed.
Section Last.
Variable PO : Z.
Hypothesis HPO : 128 <= PO <= 2 ^ 22.
Hypothesis HP64 : prec_up PO = PO.
Let HPP : 128 <= PO <= prec_up PO.
Proof. clear - HPO HP64. lia. Qed.
Let HL : prec_up PO < P_LIM.
Proof. rewrite HP64. eapply Z.le_lt_trans; [apply HPO|]. vm_compute. reflexivity. Qed.
(** The last doubling may meet a zero of the cosine. *)
Lemma clast_ok e y v : sab e (cos y) v -> (e <= bpow radix2 (-80))%R -> 192 <= PO -> (0 <= y <= 1)%R -> (bpow radix2 (-61) <= Rabs (cos (2 * y)))%R -> 64 * wlen v = PO -> ninexact v = true ->
  exists q, cos_restore_loop 1 PO v = Ok q /\ sab (5 * e + 14 * eps PO) (cos (2 * y)) q /\ 64 * wlen q = PO /\ ninexact q = true.
Proof.
  intros Hv He H192 Y FAR Lv Iv. pose proof (eps_pos PO) as Ep. assert (Es : (eps PO <= bpow radix2 (-80))%R) by (apply bpow_le; lia). assert (B80 : (bpow radix2 (-80) <= / 1048576)%R) by (change (/ 1048576)%R with (bpow radix2 (-20)); apply bpow_le; lia).
  assert (B61 : (1024 * bpow radix2 (-80) <= bpow radix2 (-61))%R). { change 1024%R with (bpow radix2 10). rewrite <- bpow_plus. apply bpow_le. lia. }
  cbn [cos_restore_loop]. pose proof (cos_half y Y) as C1. assert (CD : (cos (2 * y) = 2 * (cos y * cos y) - 1)%R) by (rewrite cos_2a_cos; ring).
  pose proof Hv as (W & N & D). assert (e0 : (0 <= e)%R) by (pose proof (Rabs_pos (value v - cos y)); lra). apply Rabs_le_inv in D. assert (VA : Rabs (value v) = value v) by (apply Rabs_pos_eq; lra). pose proof (apx_self PO v W N) as Av. rewrite VA in Av. rewrite CD in *. set (c := cos y) in *. set (w := value v) in *.
  assert (Sv : ns v = Pos). { pose proof (value_has_sign v W (proj2 N)) as Q. unfold has_sign in Q. fold w in Q. destruct (ns v); cbn [sgnZ] in Q; [exfalso; lra|reflexivity]. } rewrite Sv in Av.
  assert (WW : (/ 8 <= w * w <= 2)%R) by nra.
  assert (DD : (Rabs (2 * (w * w) - 2 * (c * c)) <= 5 * e)%R). { apply Rabs_le. replace (2 * (w * w) - 2 * (c * c))%R with (2 * ((w - c) * (w + c)))%R by ring. assert (Q : (0 <= w + c <= 5 / 2)%R) by lra. set (z := (w - c)%R) in *. assert (Z1 : (- e <= z <= e)%R) by exact D. clearbody z. set (h := (w + c)%R) in *. clearbody h. assert (0 <= h * (e - z))%R by (apply Rmult_le_pos; lra). assert (0 <= h * (e + z))%R by (apply Rmult_le_pos; lra). assert (h * e <= 5 / 2 * e)%R by (apply Rmult_le_compat_r; lra). lra. }
  destruct (apx_mul PO PO RNone HPP HL _ _ _ _ _ _ _ _ Av Av ltac:(lia)) as (c2 & -> & A1 & _ & I1); [apply (mid_range (-3) 1); [vm_compute; discriminate|vm_compute; discriminate|exact WW]|]. cbn [bind sign_mul] in *.
  apply apx_sab in A1; [|lia|lia]. change (IZR (0 + 0 + 1)) with 1%R in A1. change (sr (sign_mul Pos Pos)) with 1%R in A1. rewrite Rmult_1_l in A1. specialize (I1 ltac:(rewrite Iv; reflexivity)).
  assert (EW : (0 < eps PO * (w * w) <= 2 * eps PO)%R) by nra. destruct (double_sab _ _ _ A1 ltac:(lra) ltac:(lra)) as [A2 I2]. set (d2 := set_exponent c2 (ne c2 + 1)) in *. clearbody d2.
  assert (O1 : sab 0 1 ONE) by (split; [exact ONE_wf|]; split; [exact ONE_normal|]; rewrite ONE_value, Rminus_diag_eq, Rabs_R0 by reflexivity; lra).
  assert (PA : (bpow radix2 (-62) <= Rabs (2 * (w * w) - 1) <= 3)%R).
  { split; [|apply Rabs_le; lra]. pose proof (Rabs_triang (2 * (w * w) - 1) (- (2 * (w * w) - 2 * (c * c)))) as T. rewrite Rabs_Ropp in T. replace (2 * (w * w) - 1 + - (2 * (w * w) - 2 * (c * c)))%R with (2 * (c * c) - 1)%R in T by ring. assert (bpow radix2 (-61) = 2 * bpow radix2 (-62))%R by (change (-61) with (1 + -62); rewrite bpow_plus; reflexivity). lra. }
  assert (B62 : (256 * bpow radix2 (-80) <= bpow radix2 (-62))%R). { change 256%R with (bpow radix2 8). rewrite <- bpow_plus. apply bpow_le. lia. }
  destruct (sab_sub PO PO RNone HPP HL _ _ _ _ _ _ A2 O1) as (q & -> & A3 & L3 & I3).
  { lra. } { apply (mid_range (-62) 2); [vm_compute; discriminate|vm_compute; discriminate|]. change (bpow radix2 2) with 4%R. lra. }
  cbn [bind]. exists q. split; [reflexivity|]. split; [|split; [rewrite L3; exact HP64|apply I3; rewrite I2, I1; reflexivity]].
  destruct A3 as (W3 & N3 & D3). split; [exact W3|]. split; [exact N3|]. pose proof (Rabs_triang (value q - (2 * (w * w) - 1)) (2 * (w * w) - 2 * (c * c))) as T. replace (value q - (2 * (w * w) - 1) + (2 * (w * w) - 2 * (c * c)))%R with (value q - (2 * (c * c) - 1))%R in T by ring.
  assert (eps PO * Rabs (2 * (w * w) - 1) <= eps PO * (3 / 2))%R. { apply Rmult_le_compat_l; [lra|]. apply Rabs_le. nra. } lra.
Qed.
End Last.

(** ** The series *)
Theorem cos_series_big g x P : 192 <= P <= 2 ^ 15 -> wf x -> normal x -> 64 * wlen x = P -> ne x = 1 -> (bpow radix2 (-61) <= Rabs (cos (Rabs (value x))))%R ->
  ends (cos_series g x RNone) (fun q => sab (bpow radix2 54 * eps P) (cos (Rabs (value x))) q /\ P <= 64 * wlen q /\ ninexact q = true).
Proof.
  intros HP W N L He FAR. unfold cos_series. cbv zeta. rewrite max_len, L. assert (HP64 : prec_up P = P) by (unfold prec_up; clear - L; dlia). assert (HP22 : 128 <= P <= 2 ^ 22) by (clear - HP; lia).
  destruct (cos_new_ok P HP22 HP64) as (gen & -> & Hgen). cbn [done rbind].
  destruct (series_cost_optimize cos_red_cost cos_red_effect g P (sinh_iter_cost P) (- ne x) 2) as [[[n niter] e]|] eqn:EO; [|left; reflexivity].
  destruct (cos_optimize_big g P (- ne x) n niter e ltac:(clear - HP; lia) ltac:(clear - He; lia) EO) as (step & Hst & Hn0 & Hsn & Hn & Ee & Hni & Hnt). clear EO.
  set (m := - ne x) in *. assert (Hm : m = -1) by (unfold m; clear - He; lia).
  assert (Hadd : P + Z.max 0 (n * 6 + 6 - e) <= P + (if 0 <? n * 6 + 6 - e then n * 6 + 6 - e else 0)) by (destruct (Z.ltb_spec 0 (n * 6 + 6 - e)); lia).
  set (p_arg := P + (if 0 <? n * 6 + 6 - e then n * 6 + 6 - e else 0)) in *. assert (Hpa : P <= p_arg <= 6 * P + 127). { unfold p_arg. clear - Hn Ee Hst Hn0 Hm HP. destruct (Z.ltb_spec 0 (n * 6 + 6 - e)); lia. }
  clearbody p_arg. set (PO := prec_up p_arg). assert (HPO : P <= PO <= 2 ^ 22 /\ p_arg <= PO) by (unfold PO; clear - Hpa HP HP64; rewrite <- HP64 at 1; unfold prec_up; dlia). destruct HPO as [HPO HPA]. assert (HPO64 : prec_up PO = PO) by (unfold PO, prec_up; clear; dlia).
  assert (HL : prec_up PO < P_LIM) by (rewrite HPO64; eapply Z.le_lt_trans; [apply HPO|]; vm_compute; reflexivity).
  assert (EPM : prec_up p_arg = prec_up PO) by (fold PO; congruence). assert (HPP : 128 <= PO <= prec_up p_arg) by (fold PO; clear - HPO HP; lia).
  assert (EP : 0 < P /\ 0 < p_arg) by (clear - HP Hpa; lia).
  pose proof (apx_self P x W N) as Ax. destruct (normal_range x W N) as [X1 X2].
  destruct (apx_len_up P _ 0 _ x p_arg Ax ltac:(fold PO; clear - L HPO; lia) ltac:(apply EP) ltac:(fold PO; rewrite <- HPO64; exact HL)) as (x1 & -> & (W1 & N1 & S1 & _) & L1 & V1). fold PO in L1. cbn [done rbind].
  assert (Hn20 : 0 <= n <= 2 ^ 20) by (clear - Hn Hn0 HP; lia).
  set (ax := Rabs (value x)) in *. assert (AX1 : (bpow radix2 (- m - 1) <= ax)%R) by (unfold m; rewrite Z.opp_involutive; exact X1). assert (AX2 : (ax <= bpow radix2 (- m))%R) by (unfold m; rewrite Z.opp_involutive; left; exact X2).
  assert (AX3 : (1 <= ax <= 2)%R). { rewrite Hm in AX1, AX2. change (bpow radix2 (- -1 - 1)) with 1%R in AX1. change (bpow radix2 (- -1)) with 2%R in AX2. lra. }
  destruct (normal_range x1 W1 N1) as [Y1 Y2]. rewrite V1 in Y1, Y2. fold ax in Y1, Y2.
  assert (NE : - 2 ^ 22 <= ne x1 <= 2 ^ 20). { split; [assert (- m - 1 < ne x1); [|clear - H Hm; lia]; apply (lt_bpow radix2); eapply Rle_lt_trans; [exact AX1|exact Y2]|]. assert (ne x1 - 1 <= 1); [|clear - H; lia]. apply (le_bpow radix2). eapply Rle_trans; [exact Y1|exact (proj2 AX3)]. }
  destruct (halved_ok x1 n W1 N1 Hn20 NE) as (arg & -> & Wa & Na & Sa & La & Va). cbn [done rbind].
  destruct (from_word_spec 1 p_arg ltac:(clear; lia) ltac:(apply EP) ltac:(rewrite EPM; exact HL)) as (acc & -> & Wc & Lc & Sc & _ & Vc). fold PO in Lc. cbn [done rbind].
  assert (Ac : apx P Pos 0 1 acc) by (apply apx_exact; auto using normal_one). assert (Bc : sab 0 (sr Pos * 1) acc). { split; [exact Wc|]. split; [now apply normal_one|]. rewrite Vc. change (sr Pos) with 1%R. replace (1 - 1 * 1)%R with 0%R by ring. rewrite Rabs_R0. lra. }
  (* the reduced argument *)
  set (t := (ax * bpow radix2 (- n))%R). assert (AV : Rabs (value arg) = t). { rewrite Va, V1, Rabs_mult, (Rabs_pos_eq (bpow _ _)) by apply bpow_ge_0. reflexivity. }
  pose proof (bpow_gt_0 radix2 (- n)) as Bn. assert (A0 : (0 < ax)%R) by (eapply Rlt_le_trans; [apply bpow_gt_0|exact AX1]).
  assert (TL : (bpow radix2 (- m - 1 + - n) <= t)%R) by (apply low_mul; [exact AX1|right; reflexivity]).
  assert (TU : (t <= / 8)%R). { change (/ 8)%R with (bpow radix2 (-3)). apply Rle_trans with (bpow radix2 (- m) * bpow radix2 (- n))%R; [apply Rmult_le_compat_r; lra|]. rewrite <- bpow_plus. apply bpow_le. clear - Hsn Hst. lia. }
  assert (T0 : (0 < t)%R) by (eapply Rlt_le_trans; [apply bpow_gt_0|exact TL]).
  pose proof (apx_self PO arg Wa Na) as AA. rewrite AV in AA.
  assert (TTL : (bpow radix2 (- m - 1 + - n + (- m - 1 + - n)) <= t * t)%R) by now apply low_mul.
  destruct (apx_mul PO p_arg RNone HPP ltac:(rewrite EPM; exact HL) _ _ _ _ _ _ _ _ AA AA ltac:(clear; lia)) as (xs & -> & Hxs & Lxs & _).
  { apply (mid_range (- m - 1 + - n + (- m - 1 + - n)) 0); [unfold HX; clear - Hm Hn20; lia|vm_compute; discriminate|]. split; [exact TTL|]. change (bpow radix2 0) with 1%R. clear - T0 TU. nra. }
  cbn [done rbind]. replace (sign_mul (ns arg) (ns arg)) with Pos in Hxs by (destruct (ns arg); reflexivity). fold PO in Lxs. pose proof Hxs as (Ws & Ns & Ss & Ls). set (X := Rabs (value xs)) in *. change (IZR (0 + 0 + 1)) with 1%R in Ls.
  pose proof (eps_pos PO) as EpO. pose proof (eps_pos P) as Ep. assert (EOs : (eps PO <= / 4)%R) by (change (/ 4)%R with (bpow radix2 (-2)); apply bpow_le; clear - HPO HP; lia).
  assert (XD : (Rabs (X - t * t) <= 2 * eps PO * (t * t))%R) by (apply lc_abs in Ls; lra). pose proof (Rabs_le_inv _ _ XD) as XD'. assert (TT : (0 < t * t <= / 64)%R) by (clear - T0 TU; nra).
  assert (XU : (t * t / 2 <= X <= 3 / 2 * (t * t))%R). { assert (eps PO * (t * t) <= / 4 * (t * t))%R by (apply Rmult_le_compat_r; lra). lra. }
  assert (AX : apx P Pos 0 X xs) by (rewrite <- Ss; now apply apx_self).
  destruct (normal_range xs Ws Ns) as [R1 R2]. fold X in R1, R2.
  assert (E1 : ne xs <= -1). { assert (ne xs - 1 <= -2); [|lia]. apply (le_bpow radix2). eapply Rle_trans; [exact R1|]. change (bpow radix2 (-2)) with (/ 4)%R. lra. }
  assert (XL : (bpow radix2 (- m - 1 + - n + (- m - 1 + - n) + -1) <= X)%R) by (rewrite bpow_plus; change (bpow radix2 (-1)) with (/ 2)%R; lra).
  assert (E2 : 1 - ne xs <= 2 * m + 2 * n + 3). { assert (EX : - m - 1 + - n + (- m - 1 + - n) + -1 < ne xs); [|clear - EX; lia]. apply (lt_bpow radix2). eapply Rle_lt_trans; [exact XL|exact R2]. }
  assert (X0 : (0 < X)%R) by lra.
  (* the sum *)
  eapply ends_bind.
  { apply (alt_run_abs P PO sin_gen cos_next (cos_at P) cC JMAX (2 ^ 26) (2 ^ 29 - 4) ltac:(clear - HP HPO; lia) ltac:(apply HPO) HPO64 ltac:(clear; lia) ltac:(clear; lia) cC_range cC_ratio) with (s := Pos) (k := 0) (A := 1%R) (F := X).
    - exact cC_low4.
    - intros j g0 Hj HJ. destruct (cos_next_ok P HP22 HP64 j g0 Hj HJ) as (c & g' & Q1 & Q2 & Q3 & Q4). exists c, g'. split; [exact Q1|]. split; [exact Q2|]. split; [exact Q3|]. clear - Q4 HPO. lia.
    - exact Ws. - exact Ns. - exact Ss. - exact Lxs. - exact E1.
    - exact Ac. - exact AX. - exact Lc. - exact Lxs. - exact Hgen.
    - clear. lia.
    - split; [eapply low_weak; [|exact XL]; clear - Hm Hn20; lia|lra].
    - lra.
    - clear - Hni Hnt HP Ee Hn0 Hst Hm. nia.
    - assert (Q1 : 1 - ne xs <= 2 * (e + 2)) by (clear - E2 Ee Hst; lia). assert (Q2 : 2 * niter * (1 - ne xs) <= 2 * P) by (clear - Q1 Hnt Hni; nia). clear - Q2 E2 Hn20 Hm HP. lia.
    - rewrite JMAX_Z. unfold J22. clear - Hni Hnt HP Ee Hn0 Hst Hm. nia. }
  intros ret [(M & HM & _ & Lret & Tail & Hret) Iret]. fold X in Hret, Tail. specialize (Hret 0%R ltac:(lra) Bc). change (sr Pos) with 1%R in Hret.
  (* back to the cosine *)
  set (b := sqrt X). assert (Bb : (b * b = X)%R) by (apply sqrt_sqrt; lra). assert (b0 : (0 < b)%R) by now apply sqrt_lt_R0. assert (b1 : (b <= / 2)%R) by (clear - Bb b0 XU TT; nra).
  pose proof (cos_taylor b M ltac:(lra) HM) as TS. rewrite Bb in TS. pose proof (cos_sq_near b t) as NT. rewrite Bb in NT. set (ps := psum cC (- X) 0 M) in *.
  set (c0 := IZR (2 ^ 46 + 64 * 0)) in *. assert (C0 : c0 = bpow radix2 46) by reflexivity.
  set (u := (c0 * eps P * X + 150 * eps PO)%R). assert (CP : (0 < c0 * eps P * X)%R) by (rewrite C0; apply Rmult_lt_0_compat; [apply Rmult_lt_0_compat; [apply bpow_gt_0|exact Ep]|exact X0]).
  assert (Hu : sab (u - 3 * eps PO) (cos t) ret).
  { destruct Hret as (Wr & Nr & Dr). split; [exact Wr|]. split; [exact Nr|]. assert (Tl : (2 * eps PO * (t * t) <= eps PO)%R) by (assert (eps PO * (t * t) <= eps PO * / 64)%R by (apply Rmult_le_compat_l; lra); lra).
    replace (value ret - cos t)%R with ((value ret - 1 * (1 - X * ps)) + (- (cos b - (1 - X * ps)) + (cos b - cos t)))%R by ring. eapply Rle_trans; [apply Rabs_triang|]. eapply Rle_trans; [apply Rplus_le_compat_l; apply Rabs_triang|]. rewrite Rabs_Ropp. unfold u. fold c0 in Dr. lra. }
  assert (N4 : 4 <= n) by (clear - Hsn Hst Hm; lia). assert (Hn1 : n = 1 + Z.of_nat (Z.to_nat (n - 1))) by (clear - N4; lia). set (j := Z.to_nat (n - 1)) in *. assert (Ej : Z.to_nat n = Datatypes.S j) by (clear - Hn1; lia).
  assert (U4 : (4 ^ Z.to_nat n * u <= bpow radix2 50 * eps P)%R).
  { rewrite pow4 by exact Hn0. unfold u. rewrite Rmult_plus_distr_l. pose proof (bpow_gt_0 radix2 (2 * n)) as B2.
    assert (Q1 : (bpow radix2 (2 * n) * (c0 * eps P * X) <= bpow radix2 49 * eps P)%R).
    { assert (TX : (bpow radix2 (2 * n) * (t * t) <= 4)%R). { unfold t. replace (bpow radix2 (2 * n) * (ax * bpow radix2 (- n) * (ax * bpow radix2 (- n))))%R with (ax * ax * (bpow radix2 (2 * n) * bpow radix2 (- n) * bpow radix2 (- n)))%R by ring. rewrite <- !bpow_plus. replace (2 * n + - n + - n) with 0 by ring. change (bpow radix2 0) with 1%R. clear - A0 AX3. nra. }
      assert (TX2 : (bpow radix2 (2 * n) * X <= 8)%R). { apply Rle_trans with (bpow radix2 (2 * n) * (3 / 2 * (t * t)))%R; [apply Rmult_le_compat_l; lra|lra]. }
      replace (bpow radix2 (2 * n) * (c0 * eps P * X))%R with (c0 * eps P * (bpow radix2 (2 * n) * X))%R by ring. rewrite C0. change 49 with (46 + 3). rewrite bpow_plus. change (bpow radix2 3) with 8%R. replace (bpow radix2 46 * 8 * eps P)%R with (bpow radix2 46 * eps P * 8)%R by ring. apply Rmult_le_compat_l; [apply Rmult_le_pos; [apply bpow_ge_0|lra]|exact TX2]. }
    assert (Q2 : (bpow radix2 (2 * n) * (150 * eps PO) <= bpow radix2 49 * eps P)%R).
    { apply Rle_trans with (bpow radix2 (2 * n) * (bpow radix2 8 * eps PO))%R; [apply Rmult_le_compat_l; [lra|]; apply Rmult_le_compat_r; [lra|]; change (bpow radix2 8) with 256%R; lra|]. unfold eps. rewrite <- !bpow_plus. apply bpow_le. clear - Ee Hadd HPA Hst Hm Hn0 N4. lia. }
    change (bpow radix2 50) with (2 * bpow radix2 49)%R. lra. }
  rewrite Ej in U4. cbn [pow] in U4. set (F := (4 ^ j)%R) in *. assert (FP : (1 <= F)%R) by (apply pow_R1_Rle; lra). assert (u0 : (0 <= u)%R) by (unfold u; lra).
  assert (U8 : (bpow radix2 50 * eps P <= bpow radix2 (-130))%R). { unfold eps. rewrite <- bpow_plus. apply bpow_le. clear - HP. lia. } assert (U9 : (bpow radix2 (-130) <= bpow radix2 (-80))%R) by (apply bpow_le; clear; lia). assert (U10 : (bpow radix2 (-80) <= / 64)%R) by (change (/ 64)%R with (bpow radix2 (-6)); apply bpow_le; clear; lia).
  pose proof (bpow_gt_0 radix2 (-130)) as U11. assert (U5 : (F * u <= / 8)%R) by lra. assert (u1 : (u <= / 8)%R) by (clear - FP u0 U5; nra).
  assert (Ug : (u - 3 * eps PO + 3 * eps PO <= u / (1 - u))%R). { apply Rmult_le_reg_r with (1 - u)%R; [lra|]. unfold Rdiv. rewrite (Rmult_assoc u), Rinv_l by lra. clear - u0 u1. nra. }
  assert (TN : (2 * (2 ^ j * t) = ax)%R). { replace (2 * (2 ^ j * t))%R with (2 ^ Z.to_nat n * t)%R by (rewrite Ej; cbn [pow]; ring). rewrite pow2 by exact Hn0. unfold t. replace (bpow radix2 n * (ax * bpow radix2 (- n)))%R with (ax * (bpow radix2 n * bpow radix2 (- n)))%R by ring. rewrite <- bpow_plus. replace (n + - n) with 0 by ring. change (bpow radix2 0) with 1%R. ring. }
  destruct (cos_restore_ok PO ltac:(clear - HP HPO; lia) HPO64 j _ u t ret Hu u0 Ug U5 ltac:(lra) ltac:(lra) Lret Iret) as (q & Eq & Rq & Lq & Iq). fold F in Rq.
  destruct (clast_ok PO ltac:(clear - HP HPO; lia) HPO64 (2 * (F * u)) (2 ^ j * t) q Rq ltac:(lra) ltac:(clear - HP HPO; lia) ltac:(lra) ltac:(rewrite TN; exact FAR) Lq Iq) as (q2 & Eq2 & Rq2 & Lq2 & Iq2). rewrite TN in Rq2.
  replace (0 <? n) with true by (symmetry; apply Z.ltb_lt; clear - N4; lia). unfold cos_arg_restore. rewrite max_len, Lret, Ej, crestore_last, Eq. cbn [bind]. rewrite Eq2. apply ends_ok. split; [|split; [clear - Lq2 HPO; lia|exact Iq2]].
  eapply sab_weak; [|exact Rq2]. assert (EPO : (eps PO <= eps P)%R) by (unfold eps; apply bpow_le; clear - HPO; lia). replace (bpow radix2 54) with (16 * bpow radix2 50)%R by (change 54 with (4 + 50); rewrite bpow_plus; reflexivity). assert (E50 : (1024 * eps P <= bpow radix2 50 * eps P)%R) by (apply Rmult_le_compat_r; [lra|]; change 1024%R with (bpow radix2 10); apply bpow_le; clear; lia). lra.
Qed.

From Verif Require Import AltDiv AtanR AtanTop PiNum IntNum WfTop AtanBig PropsConst SinBig.
(** ** Distance from the zero *)
Lemma cos_far y d : (0 <= y <= 2)%R -> (0 <= d <= / 2)%R -> (d <= Rabs (y - PI / 2))%R -> (d / 2 <= Rabs (cos y))%R.
Proof.
  intros Y D F. pose proof PI2_3_2 as P3. pose proof PI_low as PL.
  assert (E : Rabs (cos y) = sin (Rabs (PI / 2 - y))).
  { rewrite <- sin_shift. set (z := (PI / 2 - y)%R). assert (Z : (- (/ 2) <= z <= 7 / 4)%R) by (unfold z; lra). unfold Rabs at 2. destruct (Rcase_abs z) as [N|N].
    - assert (0 < sin (- z))%R by (apply sin_gt_0; lra). rewrite sin_neg in *. rewrite Rabs_left by lra. reflexivity.
    - assert (0 <= sin z)%R by (apply sin_ge_0; unfold z in *; lra). apply Rabs_pos_eq. assumption. }
  rewrite E. rewrite Rabs_minus_sym in F. set (z := Rabs (PI / 2 - y)) in *. assert (Z : (d <= z <= PI / 2)%R). { split; [exact F|]. unfold z. apply Rabs_le. lra. } clearbody z.
  apply Rle_trans with (sin d); [|apply sin_incr_1; lra]. pose proof (pre_sin_bound d 0 ltac:(lra) ltac:(lra)) as [B _]. unfold sin_approx, sin_term in B. cbn in B. nra.
Qed.

(** ** The loop *)
Lemma sign_of r : r <> 0%R -> exists s, has_sign s r /\ r = (sr s * Rabs r)%R.
Proof. intros H. unfold has_sign, sr. destruct (Rlt_le_dec r 0) as [L|L]; [exists Neg|exists Pos]; cbn [sgnZ]; [rewrite Rabs_left by exact L|rewrite Rabs_pos_eq by exact L]; lra. Qed.
Section Loop.
Context (x0 : num) (p : Z) (rm : rmode) (g : nat).
Hypotheses (W0 : wf x0) (N0 : nonzero x0) (Hp : 0 < p) (Hp64 : p mod 64 = 0) (He : ne x0 = 1) (FAR : (bpow radix2 (-60) <= Rabs (Rabs (value x0) - PI / 2))%R).

Definition cos_big_post (o : prun num) : Prop :=
  match o with
  | None => True
  | Some (c', res) => reachable pi_new pi_for_prec c' /\ match res with Ok q => elem_result (cos (value x0)) p rm q | _ => overflowed res end
  end.
Theorem cos_loop_big : forall f c w i, reachable pi_new pi_for_prec c -> p + 64 <= w -> w mod 64 = 0 -> 64 <= i -> i mod 64 = 0 -> 128 <= w -> 64 * wlen x0 <= w -> i <= 64 * (((w + i) / 5 + 63) / 64) ->
  work f w i + 128 <= 1984 -> cos_big_post (cos_loop f g 31 c x0 p rm w i 65).
Proof.
  induction f as [|f IH]; intros c w i RC Hpw Hw64 Hi Hi64 Hw HLx Hii HB; [exact I|].
  pose proof (work_ge (Datatypes.S f) w i ltac:(lia) ltac:(lia)) as HG.
  change (work (Datatypes.S f) w i) with (work f (w + i) (64 * (((w + i) / 5 + 63) / 64))) in HB, HG.
  pose proof (work_ge f (w + i) (64 * (((w + i) / 5 + 63) / 64)) ltac:(lia) ltac:(clear - Hw Hi; dlia)) as HG2.
  assert (PW : prec_up (w + 65) = w + 128) by (unfold prec_up; clear - Hw64; dlia). assert (HPX : 192 <= w + 128 <= 1984) by (clear - HB HG HG2 Hw Hi; lia). assert (PL : prec_up (w + 65) < P_LIM) by (rewrite PW; apply Z.le_lt_trans with 1984; [apply HPX|vm_compute; reflexivity]).
  assert (HX : argument x0 w x0). { pose proof (argument_start x0 W0 N0 ltac:(rewrite He; vm_compute; reflexivity)) as (_ & H2 & _). split; [exact W0|]. split; [exact H2|]. split; [reflexivity|]. split; [reflexivity|exact HLx]. }
  cbn [cos_loop]. destruct (argument_len x0 w x0 (w + 65) ltac:(lia) PL ltac:(lia) HX) as (y & -> & HY & Sy & Ly). rewrite PW in HY, Ly. cbn [ppure pbind]. pose proof HY as (Wy & Ny & Vy & Ey & _). rewrite He in Ey.
  unfold reduce_trig_arg. rewrite Ey. change (2 <? 1) with false. cbn [ppure pbind].
  pose proof (proximity_ok c y (w + 128) RC Wy Ny Ly ltac:(clear - HPX; lia) Ey) as PP. destruct (trig_arg_pi_proximity 31 c y RNone) as [[c1 [[t q]|e|]]|]; [|exact PP|exact PP|exact I]. destruct PP as (R1 & -> & PF). rewrite Vy in PF. specialize (PF FAR). cbn [pbind]. change (Z.odd 1) with true. cbn [andb]. rewrite (proj2 (Z.ltb_ge 65 t)) by (clear - PF; lia).
  destruct (normal_range y Wy Ny) as [Y1 Y2]. rewrite Ey, Vy in Y1, Y2. change (bpow radix2 (1 - 1)) with 1%R in Y1. change (bpow radix2 1) with 2%R in Y2.
  assert (B60 : (0 <= bpow radix2 (-60) <= / 2)%R). { split; [apply bpow_ge_0|]. change (/ 2)%R with (bpow radix2 (-1)). apply bpow_le. lia. }
  pose proof (cos_far (Rabs (value x0)) _ ltac:(lra) B60 FAR) as CF. assert (CF2 : (bpow radix2 (-61) <= Rabs (cos (Rabs (value x0))))%R). { eapply Rle_trans; [|exact CF]. change (-60) with (1 + -61). rewrite bpow_plus. change (bpow radix2 1) with 2%R. lra. }
  pose proof (cos_series_big g y (w + 128) ltac:(clear - HPX; lia) Wy Ny Ly Ey ltac:(rewrite Vy; exact CF2)) as EV. destruct EV as [->|(ret & -> & A & L & Ir)]; [exact I|]. rewrite Vy in A. rewrite cos_abs in A, CF2. set (r := cos (value x0)) in *. cbn [ppure pbind].
  pose proof (bpow_gt_0 radix2 (-61)) as B61. assert (R0 : r <> 0%R) by (intros Z; rewrite Z, Rabs_R0 in CF2; lra). destruct (sign_of r R0) as (s & HS & ER).
  assert (AP : apx (w + 64) s (2 ^ 58) (Rabs r) ret).
  { apply (sab_apx (w + 64) s (2 ^ 58) (Rabs r) (bpow radix2 54 * eps (w + 128)) ret ltac:(clear - Hw; lia) ltac:(lra) ltac:(clear; lia)); [rewrite <- ER; exact A|].
    apply Rle_trans with (IZR (2 ^ 58) * eps (w + 64) * bpow radix2 (-61))%R; [|apply Rmult_le_compat_l; [apply Rmult_le_pos; [apply IZR_le; lia|left; apply eps_pos]|exact CF2]]. change (IZR (2 ^ 58)) with (bpow radix2 58). change 2%R with (bpow radix2 1). unfold eps. rewrite <- !bpow_plus. apply bpow_le. lia. }
  destruct AP as (Wr & Nr & Sr & LCr).
  pose proof (accept_elem r ret p rm w (2 ^ 58) Wr Nr Ir ltac:(clear - L; lia) ltac:(rewrite Sr; exact HS) LCr ltac:(clear; lia) Hp Hp64 Hw64 Hpw) as AE.
  destruct (try_set_precision ret p rm w) as [[q [|]]|[tt| | |]|]; try contradiction; cbn [ppure pbind].
  - split; [exact R1|]. now apply elem_mark.
  - rewrite round_step by (clear - HG HG2 HB Hw Hi; lia). apply IH; [exact R1|lia| |clear - Hw Hi; dlia|rewrite Z.mul_comm; apply Z.mod_mul; lia|lia|lia| |exact HB].
    + clear - Hw64 Hi64. dlia.
    + assert (D : (w + i) / 5 <= (w + i + 64 * (((w + i) / 5 + 63) / 64)) / 5) by (apply Z.div_le_mono; [lia|]; clear - Hw Hi; dlia). assert ((((w + i) / 5 + 63) / 64) <= (((w + i + 64 * (((w + i) / 5 + 63) / 64)) / 5 + 63) / 64)) by (apply Z.div_le_mono; lia). lia.
  - split; [exact R1|exact I].
Qed.
End Loop.

Theorem cos_big_ok f g c x p rm : reachable pi_new pi_for_prec c -> wf x -> 0 < p -> (1 <= Rabs (value x) < 2)%R -> (bpow radix2 (-60) <= Rabs (Rabs (value x) - PI / 2))%R ->
  work f (Z.max (prec_up p) (64 * wlen x) + 64) 64 + 128 <= 1984 ->
  cos_big_post x (prec_up p) rm (f_cos f g 31 c x p rm).
Proof.
  intros R W Hp HV FAR HB. assert (N : normal x). { apply normal_iff; [exact W|]. eapply Rle_trans with (bpow radix2 0); [apply bpow_le; vm_compute; discriminate|]. change (bpow radix2 0) with 1%R. lra. }
  assert (He : ne x = 1). { destruct (normal_range x W N) as [H1 H2]. assert (ne x - 1 < 1) by (apply (lt_bpow radix2); change (bpow radix2 1) with 2%R; lra). assert (0 < ne x) by (apply (lt_bpow radix2); change (bpow radix2 0) with 1%R; lra). lia. }
  change (Z.max (prec_up p) (64 * wlen x)) with (max64 (prec_up p) x) in HB. assert (P64 : 64 <= prec_up p) by (unfold prec_up; clear - Hp; dlia). assert (M1 : prec_up p <= max64 (prec_up p) x) by (unfold max64; lia). assert (M2 : 64 * wlen x <= max64 (prec_up p) x) by (unfold max64; lia).
  pose proof (work_ge f (max64 (prec_up p) x + 64) 64 ltac:(lia) ltac:(lia)) as HG. assert (PL : prec_up p < P_LIM) by (eapply Z.le_lt_trans with 1984; [lia|vm_compute; reflexivity]).
  unfold f_cos. match goal with |- context [@even_in ?A ?ok ?rest true x p rm] => rewrite (@even_in_rest A ok rest true x p rm W (proj2 N) Hp PL ltac:(lia)) end. cbv beta. change (mantissa_max_bit_len x) with (64 * wlen x). change (Z.max (prec_up p) (64 * wlen x)) with (max64 (prec_up p) x).
  apply cos_loop_big; [exact W|exact (proj2 N)|lia|apply prec_up_mod|exact He|exact FAR|exact R|lia|apply max_mod|lia|reflexivity|lia|lia|clear - M1 P64; dlia|exact HB].
Qed.
