(** The series of the sine for arguments between four and seven in magnitude. *)

From Coq Require Import ZArith List Bool Lia Reals Lra.
From Flocq Require Import Core Relative.
From Verif Require Import Words IntModel Mantissa Num Pow Consts Elem Series Exp Sin SpecZ SpecOps SpecConst SpecPow SpecElem WordsP Spec RealP RealP2 NumP CmpP AddP SetP AddNum MulNum DivNum ArithTop ConvNum Conv2Num RootP ConstP ConstNum ExtP PowExt Refute1 ElemR ElemDom SmallP ElemNum ApproxR ApproxNum SeriesNum SinhR SinhNum SinhTop ExpNum RetryNum ConstReach SpecReach ExpTop HypNum HypTop TanhNum AltNum SinTop SinBig SinFour.
Import ListNotations.
Open Scope Z_scope.
Ltac Zify.zify_post_hook ::= idtac.
Arguments Z.mul : simpl never.
Arguments Z.add : simpl never.
Arguments Z.pow : simpl never.
Arguments Z.sub : simpl never.
Arguments Z.of_nat : simpl never.
Ltac dlia := Z.div_mod_to_equations; lia.

(** ** The number of reduction steps *)
Lemma optimize_loop_e f p m step B : -3 <= m -> 1 <= p -> 1 <= step -> forall times c1,
  0 <= times /\ 0 <= times + m -> match c1 with None => True | Some c => c <= B /\ step <= times /\ (times - step) * red_unit p <= c end ->
  (c1 = None -> series_cost (series_niter p (sinh_red_effect times m) / 2) p (sinh_iter_cost p) + sinh_red_cost times p <= B) ->
  (forall t, 0 <= t /\ 0 <= t + m -> 0 <= series_niter p (sinh_red_effect t m) / 2 < 2 ^ 32) ->
  forall n niter e, optimize_loop sinh_red_cost sinh_red_effect f p (sinh_iter_cost p) m 2 step times c1 = Some (n, niter, e) ->
  times - step <= n /\ (c1 = None -> times <= n) /\ n * red_unit p <= B /\ e = sinh_red_effect (n + step) m /\ niter = series_niter p e / 2.
Proof.
  intros Hm Hp Hs. induction f as [|f IH]; intros times c1 Ht Hc1 HB HN n niter e E; [discriminate E|]. cbn [optimize_loop] in E. cbv zeta in E.
  set (c2 := series_cost _ _ _ + sinh_red_cost times p) in E. pose proof (series_cost_le _ p (HN times Ht) Hp) as [R0 [R1 _]].
  assert (C2 : times * red_unit p <= c2). { unfold c2, sinh_red_cost. fold (red_unit p). lia. }
  destruct (match c1 with None => true | Some c => c2 <? c end) eqn:T.
  - apply IH in E; [|lia| |discriminate|exact HN].
    + destruct E as (E1 & _ & E3 & E4 & E5). split; [lia|]. split; [intros _; lia|]. auto.
    + split; [|split; [lia|replace (times + step - step) with times by ring; exact C2]]. destruct c1 as [c|]; [apply Z.ltb_lt in T; lia|]. apply HB. reflexivity.
  - destruct c1 as [c|]; [|discriminate T]. injection E as <- <- <-. destruct Hc1 as (Q1 & Q2 & Q3). split; [lia|]. split; [discriminate|]. split; [lia|]. replace (times - step + step) with times by ring. auto.
Qed.

Lemma optimize_e f p m n niter e : 128 <= p <= 2 ^ 22 -> -3 <= m -> series_cost_optimize sinh_red_cost sinh_red_effect f p (sinh_iter_cost p) m 2 = Some (n, niter, e) ->
  exists step, 3 <= step <= 11 /\ 0 <= n /\ step <= m + n /\ 10 * n <= 4 * p + 140 /\ e = sinh_red_effect (n + step) m /\ 0 <= niter /\ 2 * niter * (e + 2) <= p.
Proof.
  intros Hp Hm E. unfold series_cost_optimize in E. rewrite log2_floor_spec in E by lia. assert (L7 : 7 <= Z.log2 p) by (apply Z.log2_le_pow2; lia). assert (L22 : Z.log2 p <= 22). { change 22 with (Z.log2 (2 ^ 22)). apply Z.log2_le_mono. lia. }
  set (step := Z.log2 p / 2) in *. assert (HS : 3 <= step <= 11) by (unfold step; clear - L7 L22; dlia). clearbody step.
  set (r0 := if m <? step then step - m else 0) in *. assert (R0 : 0 <= r0 <= 14 /\ step <= m + r0) by (unfold r0; destruct (Z.ltb_spec m step); lia). clearbody r0.
  assert (EF : forall t, 0 <= t -> t + m <= sinh_red_effect t m). { intros t Ht. unfold sinh_red_effect. assert (t <= t * 1000 / 631) by (clear - Ht; dlia). lia. }
  assert (NI : forall t, 0 <= t /\ 0 <= t + m -> 0 <= series_niter p (sinh_red_effect t m) / 2 < 2 ^ 32 /\ 2 * (series_niter p (sinh_red_effect t m) / 2) * (sinh_red_effect t m + 2) <= p).
  { intros t Ht. specialize (EF t (proj1 Ht)). pose proof (niter_le p (sinh_red_effect t m) ltac:(lia) ltac:(lia)) as [N1 N2]. set (e0 := sinh_red_effect t m) in *. set (k := series_niter p e0) in *. clearbody k e0.
    assert (D : p / (e0 + 2) * (e0 + 2) <= p) by (rewrite Z.mul_comm; apply Z.mul_div_le; lia). set (d := p / (e0 + 2)) in *. clearbody d.
    assert (H2 : 0 <= 2 * (k / 2) <= k) by (clear - N1; dlia). set (h := k / 2) in *. clearbody h. split; nia. }
  pose proof (NI r0 ltac:(lia)) as [N0 N1]. set (it0 := series_niter p (sinh_red_effect r0 m) / 2) in *. pose proof (EF r0 ltac:(lia)) as E0.
  assert (IT : 10 * it0 <= p) by nia. pose proof (series_cost_le it0 p N0 ltac:(lia)) as [U0 [_ U1]].
  pose proof (optimize_loop_e f p m step ((4 * it0 + r0) * red_unit p) Hm ltac:(lia) ltac:(lia) r0 None ltac:(lia) I) as O.
  specialize (O ltac:(intros _; unfold sinh_red_cost; fold (red_unit p) it0; lia) (fun t Ht => proj1 (NI t Ht)) n niter e E). destruct O as (_ & O2 & O3 & O4 & O5). specialize (O2 eq_refl).
  assert (n <= 4 * it0 + r0) by (apply Zmult_le_reg_r with (red_unit p); lia).
  exists step. split; [exact HS|]. split; [lia|]. split; [lia|]. split; [lia|]. split; [exact O4|]. rewrite O5, O4. destruct (NI (n + step) ltac:(lia)) as [Q1 Q2]. split; [lia|exact Q2].
Qed.

Section Arg.
Variables (P PO : Z).
Hypothesis HP : 128 <= P <= PO.
Hypothesis HPO : PO <= 2 ^ 22.
Hypothesis HP64 : prec_up PO = PO.
Let HPP : 128 <= P <= prec_up PO.
Proof. clear - HP HP64. lia. Qed.
Let HL : prec_up PO < P_LIM.
Proof. rewrite HP64. eapply Z.le_lt_trans; [exact HPO|]. vm_compute. reflexivity. Qed.

Lemma arg_eight s x n a : apx P s 0 a x -> 64 * wlen x = PO -> 0 <= n <= 2 ^ 26 -> (1 <= a <= 8)%R ->
  exists q, (if 0 <? n then sinh_arg_reduce x n RNone else Ok x) = Ok q /\ apx P s 1 (a / IZR (3 ^ n)) q /\ 64 * wlen q = PO.
Proof.
  intros Hx Lx Hn [A1 A2]. destruct (Z.ltb_spec 0 n) as [N|N].
  - unfold sinh_arg_reduce. destruct (power_of_three_ok (Z.to_nat (n - 1)) 1 THREE) as (d & -> & Hd); [split; [exact THREE_wf|split; [reflexivity|exact THREE_value]]|lia|lia|]. cbn [bind].
    replace (1 + Z.of_nat (Z.to_nat (n - 1))) with n in Hd by lia. rewrite max_len, Lx. destruct Hd as (Wd & _ & Vd). pose proof (three_bounds n ltac:(lia)) as [T1 T2]. apply IZR_le in T1, T2. rewrite <- bpow_IZR in T1, T2 by lia.
    assert (D1 : (1 <= IZR (3 ^ n))%R). { eapply Rle_trans; [|exact T1]. change 1%R with (bpow radix2 0). apply bpow_le. lia. }
    assert (Nd : normal d). { apply normal_iff; [exact Wd|]. rewrite Vd, Rabs_pos_eq by lra. eapply Rle_trans; [|exact D1]. change 1%R with (bpow radix2 0). apply bpow_le. vm_compute. discriminate. }
    assert (Sd : ns d = Pos). { destruct Nd as [_ Nd]. pose proof (value_has_sign d Wd Nd) as V. rewrite Vd in V. unfold has_sign in V. destruct (ns d); [|reflexivity]. cbn [sgnZ] in V. exfalso. lra. }
    assert (Ad : apx P Pos 0 (IZR (3 ^ n)) d) by now apply apx_exact.
    destruct (apx_div P PO RNone HPP HL _ _ _ _ _ _ _ _ Hx Ad ltac:(lia)) as (q & E & Hq & Lq & _).
    { assert (I1 : (bpow radix2 (- (2 * n)) <= / IZR (3 ^ n))%R) by (rewrite bpow_opp; apply Rinv_le; lra). assert (I2 : (/ IZR (3 ^ n) <= 1)%R) by (rewrite <- Rinv_1; apply Rinv_le; lra).
      apply (mid_range (0 + - (2 * n)) 3); [unfold HX; lia|vm_compute; discriminate|]. split; [apply low_mul; [exact A1|exact I1]|]. change (bpow radix2 3) with 8%R. unfold Rdiv.  assert (0 < / IZR (3 ^ n))%R by (apply Rinv_0_lt_compat; lra). apply Rle_trans with (8 * 1)%R; [apply Rmult_le_compat; lra|lra]. }
    exists q. rewrite sign_mul_pos_r in Hq. split; [exact E|]. split; [|rewrite Lq; exact HP64]. eapply apx_weak; [|exact Hq]. lia.
  - exists x. split; [reflexivity|]. split; [|exact Lx]. replace n with 0 by lia. eapply apx_same; [|eapply apx_weak; [|exact Hx]; lia]. change (IZR (3 ^ 0)) with 1%R. unfold Rdiv. rewrite Rinv_1. ring.
Qed.
End Arg.

(** ** The series *)
Theorem sin_series_eight g x P s : 192 <= P <= 2 ^ 20 -> wf x -> normal x -> ns x = s -> 64 * wlen x = P -> ne x = 3 -> (Rabs (value x) <= 7)%R -> (bpow radix2 (-61) <= Rabs (sin (Rabs (value x))))%R ->
  ends (sin_series g x RNone) (fun q => sab (bpow radix2 58 * eps P) (sr s * sin (Rabs (value x))) q /\ P <= 64 * wlen q /\ ninexact q = true).
Proof.
  intros HP W N S L He H7 FAR. unfold sin_series. cbv zeta. rewrite max_len, L. assert (HP64 : prec_up P = P) by (unfold prec_up; clear - L; dlia). assert (HP22 : 128 <= P <= 2 ^ 22) by (clear - HP; lia).
  destruct (sin_new_ok P HP22 HP64) as (gen & -> & Hgen). cbn [done rbind].
  destruct (series_cost_optimize sinh_red_cost sinh_red_effect g P (sinh_iter_cost P) (- ne x) 2) as [[[n niter] e]|] eqn:EO; [|left; reflexivity].
  destruct (optimize_e g P (- ne x) n niter e ltac:(clear - HP22; lia) ltac:(clear - He; lia) EO) as (step & Hst & Hn0 & Hsn & Hn & Ee & Hni & Hnt). clear EO.
  assert (He1 : n + step - ne x <= e). { rewrite Ee. unfold sinh_red_effect. clear - Hn0 Hst. assert (n + step <= (n + step) * 1000 / 631) by dlia. lia. } clear Ee.
  set (m := - ne x) in *. assert (Hm : m = -3) by (unfold m; clear - He; lia).
  set (p_arg := P + (if 0 <? n * 6 + 9 - e then n * 6 + 9 - e else 0)). assert (Hpa : P <= p_arg <= 3 * P + 127). { unfold p_arg. clear - Hn He1 Hst Hn0 Hm m HP. destruct (Z.ltb_spec 0 (n * 6 + 9 - e)); unfold m in *; lia. }
  clearbody p_arg. set (PO := prec_up p_arg). assert (HPO : P <= PO <= 2 ^ 22) by (unfold PO; clear - Hpa HP HP64; rewrite <- HP64 at 1; unfold prec_up; dlia). assert (HPO64 : prec_up PO = PO) by (unfold PO, prec_up; clear; dlia).
  assert (HL : prec_up PO < P_LIM) by (rewrite HPO64; eapply Z.le_lt_trans; [apply HPO|]; vm_compute; reflexivity).
  assert (HPP : 128 <= P <= prec_up PO) by (clear - HPO64 HPO HP; lia).
  assert (EP : 0 < P /\ 0 < p_arg) by (clear - HP Hpa; lia).
  pose proof (apx_self P x W N) as Ax. rewrite S in Ax. destruct (normal_range x W N) as [X1 X2].
  destruct (apx_len_up P s 0 _ x p_arg Ax ltac:(fold PO; clear - L HPO; lia) ltac:(apply EP) ltac:(fold PO; rewrite <- HPO64; exact HL)) as (x1 & -> & Ax1 & L1 & _). fold PO in L1. cbn [done rbind].
  assert (Hn26 : 0 <= n <= 2 ^ 26) by (clear - Hn Hn0 HP; lia).
  set (ax := Rabs (value x)) in *. assert (AX1 : (bpow radix2 (- m - 1) <= ax)%R) by (unfold m; rewrite Z.opp_involutive; exact X1). assert (AX2 : (ax <= bpow radix2 (- m))%R) by (unfold m; rewrite Z.opp_involutive; left; exact X2).
  assert (AX3 : (4 <= ax <= 7)%R). { rewrite Hm in AX1, AX2. change (bpow radix2 (- -3 - 1)) with 4%R in AX1. change (bpow radix2 (- -3)) with 8%R in AX2. lra. }
  destruct (arg_eight P PO ltac:(clear - HP HPO; lia) ltac:(apply HPO) HPO64 s x1 n ax Ax1 L1 Hn26) as (arg & -> & Harg & Larg).
  { lra. }
  cbn [done rbind]. set (t := (ax / IZR (3 ^ n))%R) in *.
  (* the reduced argument *)
  pose proof (three_bounds n Hn0) as [T1 T2]. apply IZR_le in T1, T2. rewrite <- bpow_IZR in T1, T2 by (clear - Hn0; lia).
  assert (D0 : (0 < IZR (3 ^ n))%R) by (eapply Rlt_le_trans; [apply bpow_gt_0|exact T1]). pose proof (bpow_gt_0 radix2 (- m - 1)) as B0.
  assert (TL : (bpow radix2 (- m - 1 + - (2 * n)) <= t)%R). { unfold t. apply low_mul; [exact AX1|]. rewrite bpow_opp. apply Rinv_le; [exact D0|exact T2]. }
  assert (TU : (t <= / 8)%R).
  { unfold t. assert (I1 : (/ IZR (3 ^ n) <= bpow radix2 (- n))%R) by (rewrite bpow_opp; apply Rinv_le; [apply bpow_gt_0|exact T1]). assert (I0 : (0 < / IZR (3 ^ n))%R) by now apply Rinv_0_lt_compat.
    change (/ 8)%R with (bpow radix2 (-3)). apply Rle_trans with (bpow radix2 (- m) * bpow radix2 (- n))%R; [apply Rmult_le_compat; [lra|lra|exact AX2|exact I1]|]. rewrite <- bpow_plus. apply bpow_le. unfold m in *. clear - Hsn Hst. lia. }
  assert (T0 : (0 < t)%R) by (eapply Rlt_le_trans; [apply bpow_gt_0|exact TL]).
  pose proof Harg as (Wa & Na & Sa & La). set (A := Rabs (value arg)) in *. pose proof (lc_two _ _ _ (eps_quarter P 1 ltac:(clear - HP; lia) ltac:(clear; lia)) La) as [A1 A2].
  assert (AA : apx P s 0 A arg) by (rewrite <- Sa; now apply apx_self).
  assert (AL : (bpow radix2 (- m - 2 - 2 * n) <= A)%R). { replace (- m - 2 - 2 * n) with (- m - 1 + - (2 * n) + -1) by ring. rewrite bpow_plus. change (bpow radix2 (-1)) with (/ 2)%R. lra. }
  assert (A0 : (0 < A)%R) by lra. assert (AM : - HX <= - m - 2 - 2 * n + (- m - 2 - 2 * n)) by (unfold HX; clear - Hm Hn26; lia).
  assert (AAL : (bpow radix2 (- m - 2 - 2 * n + (- m - 2 - 2 * n)) <= A * A)%R) by now apply low_mul.
  assert (EPM : prec_up p_arg = prec_up PO) by (fold PO; congruence).
  destruct (apx_mul P p_arg RNone ltac:(rewrite EPM; exact HPP) ltac:(rewrite EPM; exact HL) _ _ _ _ _ _ _ _ AA AA ltac:(clear; lia)) as (xs & -> & Hxs & Lxs & _).
  { apply (mid_range (- m - 2 - 2 * n + (- m - 2 - 2 * n)) 0); [exact AM|vm_compute; discriminate|]. split; [exact AAL|]. change (bpow radix2 0) with 1%R. clear - A0 A2 TU. nra. }
  cbn [done rbind]. replace (sign_mul s s) with Pos in Hxs by (destruct s; reflexivity). fold PO in Lxs. pose proof Hxs as (Ws & Ns & Ss & Ls). set (X := Rabs (value xs)) in *.
  pose proof (lc_two _ _ _ (eps_quarter P (0 + 0 + 1) ltac:(clear - HP; lia) ltac:(clear; lia)) Ls) as [XA XB].
  assert (XU : (X <= / 8)%R) by (clear - XB A0 A2 TU; nra).
  assert (AX : apx P Pos 0 X xs) by (rewrite <- Ss; now apply apx_self).
  destruct (normal_range xs Ws Ns) as [R1 R2]. fold X in R1, R2.
  assert (E1 : ne xs <= -2). { assert (ne xs - 1 <= -3); [|lia]. apply (le_bpow radix2). eapply Rle_trans; [exact R1|exact XU]. }
  assert (E2 : 1 - ne xs <= 2 * m + 4 * n + 5). { assert (EX : - m - 2 - 2 * n + (- m - 2 - 2 * n) + -1 < ne xs); [|clear - EX; lia]. apply (lt_bpow radix2). eapply Rle_lt_trans; [|exact R2]. rewrite bpow_plus. change (bpow radix2 (-1)) with (/ 2)%R. lra. }
  assert (X0 : (0 < X)%R) by (eapply Rlt_le_trans; [apply bpow_gt_0|exact R1]).
  assert (FL : (bpow radix2 (- m - 2 - 2 * n + (ne xs - 1)) <= A * X)%R) by now apply low_mul.
  assert (FU : (A * X <= A / 2)%R) by (clear - A0 X0 XU; nra).
  destruct (apx_mul P p_arg RNone ltac:(rewrite EPM; exact HPP) ltac:(rewrite EPM; exact HL) _ _ _ _ _ _ _ _ AA AX ltac:(clear; lia)) as (xf & -> & Hxf & Lxf & _).
  { apply (mid_range (- m - 2 - 2 * n + (ne xs - 1)) 0); [unfold HX; clear - Hm Hn26 E2; lia|vm_compute; discriminate|]. split; [exact FL|]. change (bpow radix2 0) with 1%R. lra. }
  cbn [done rbind]. rewrite sign_mul_pos_r in Hxf. fold PO in Lxf.
  (* the sum *)
  eapply ends_bind.
  { apply (alt_run_ok P PO sin_gen sin_next (sin_at P) sC JMAX (2 ^ 26) (2 ^ 29 - 4) ltac:(clear - HP HPO; lia) ltac:(apply HPO) HPO64 ltac:(clear; lia) ltac:(clear; lia) sC_range sC_ratio) with (s := s) (k := 1) (A := A) (F := (A * X)%R).
    - exact sC_low4.
    - intros j g0 Hj HJ. destruct (sin_next_ok P HP22 HP64 j g0 Hj HJ) as (c & g' & Q1 & Q2 & Q3 & Q4). exists c, g'. split; [exact Q1|]. split; [exact Q2|]. split; [exact Q3|]. clear - Q4 HPO. lia.
    - exact Ws. - exact Ns. - exact Ss. - exact Lxs. - clear - E1. lia.
    - eapply apx_weak; [|exact AA]. clear. lia.
    - eapply apx_weak; [|exact Hxf]. clear. lia.
    - exact Larg. - exact Lxf. - exact Hgen.
    - clear. lia.
    - split; [eapply low_weak; [|exact FL]; clear - Hm Hn HP E2; lia|exact FU].
    - lra.
    - clear - Hni Hnt HP He1 Hn0 Hst He m. nia.
    - assert (Q1 : 1 - ne xs <= 4 * (e + 2)) by (unfold m in *; clear - E2 He1 Hst He Hn0; lia). assert (Q2 : 2 * niter * (1 - ne xs) <= 4 * P) by (clear - Q1 Hnt Hni; nia). clear - Q2 E2 Hn Hm HP. lia.
    - rewrite JMAX_Z. unfold J22. unfold m in *. clear - Hni Hnt HP He1 Hn0 Hst He. nia. }
  intros ret [(M & HM & Hret & Lret & Tail) Iret]. fold X in Hret, Tail.
  (* back to the sine *)
  set (b := sqrt X). assert (Bb : (b * b = X)%R) by (apply sqrt_sqrt; lra). assert (b0 : (0 < b)%R) by now apply sqrt_lt_R0. assert (b1 : (b <= / 2)%R) by (clear - Bb b0 XU; nra).
  pose proof (eps_pos P) as Ep.
  assert (LB : lc (IZR 1 * eps P) b A). { apply lc_sym. pose proof (lc_sqrt _ _ _ Ls) as Q. rewrite sqrt_square in Q by lra. fold b in Q. eapply lc_weak; [|exact Q]. change (IZR (0 + 0 + 1)) with 1%R. lra. }
  set (ps := psum sC (- X) 0 M) in *. assert (PS0 : (0 <= ps <= 1)%R). { unfold ps. pose proof (alt_range sC X sC_range sC_ratio ltac:(split; [exact X0|lra]) M 0). pose proof (sC_range 0). lra. }
  pose proof (sin_taylor b M ltac:(lra) HM) as TS. rewrite Bb in TS. fold ps in TS. set (T := (b - b * X * ps)%R) in *.
  assert (XP : (0 <= X * ps <= / 8)%R) by (split; [apply Rmult_le_pos; lra|apply Rle_trans with (/ 8 * 1)%R; [apply Rmult_le_compat; lra|lra]]).
  assert (TB : (b / 2 <= T)%R). { unfold T. rewrite Rmult_assoc. assert (b * (X * ps) <= b * / 8)%R by (apply Rmult_le_compat_l; lra). lra. }
  assert (LT : lc (IZR 512 * eps P) T (sin b)).
  { replace (IZR 512 * eps P)%R with (2 * (256 * eps P))%R by ring. apply lc_round; [lra|split; [lra|]; pose proof (eps_quarter P 512 ltac:(clear - HP; lia) ltac:(clear; lia)); lra|]. eapply Rle_trans; [exact TS|].
    assert (Q1 : (X * X ^ M * sC M <= 128 * eps P)%R). { apply Rmult_le_reg_l with A; [exact A0|]. replace (A * (X * X ^ M * sC M))%R with (A * X * X ^ M * sC M)%R by ring. replace (A * (128 * eps P))%R with (128 * eps P * A)%R by ring. exact Tail. }
    replace (b * X * X ^ M * sC M)%R with (b * (X * X ^ M * sC M))%R by ring. apply Rle_trans with (b * (128 * eps P))%R; [apply Rmult_le_compat_l; lra|]. assert (128 * eps P * (b / 2) <= 128 * eps P * T)%R by (apply Rmult_le_compat_l; lra). lra. }
  set (k0 := 2 ^ 8 * 1 + 2 ^ 47) in *. assert (K0 : k0 = 2 ^ 8 + 2 ^ 47) by reflexivity. clearbody k0.
  assert (LR2 : apx P s (2 + (512 + (1 + k0))) (sin t) ret).
  { destruct Hret as (Wr & Nr & Sr & Lr). split; [exact Wr|]. split; [exact Nr|]. split; [exact Sr|]. rewrite (plus_IZR 2), Rmult_plus_distr_r. eapply lc_trans with (sin b).
    - apply lc_sin; [lra|exact T0| |].
      + pose proof (exp_upper (2 * eps P) ltac:(pose proof (eps_quarter P 2 ltac:(clear - HP; lia) ltac:(clear; lia)); lra)) as EU. pose proof (exp_pos (2 * eps P)). pose proof (eps_quarter P 2 ltac:(clear - HP; lia) ltac:(clear; lia)). apply Rle_trans with (/ 8 * 2)%R; [apply Rmult_le_compat; lra|lra].
      + replace (2 * eps P)%R with (IZR 1 * eps P + IZR 1 * eps P)%R by ring. eapply lc_trans; [exact La|apply lc_sym; exact LB].
    - rewrite (plus_IZR 512), Rmult_plus_distr_r. eapply lc_trans; [apply lc_sym; exact LT|]. rewrite (plus_IZR 1), Rmult_plus_distr_r. eapply lc_trans; [|exact Lr].
      replace T with ((1 - X * ps) * b)%R by (unfold T; ring). replace (A - A * X * ps)%R with ((1 - X * ps) * A)%R by ring. apply lc_scale; [lra|exact LB]. }
  replace (0 <? n) with true by (symmetry; apply Z.ltb_lt; clear - Hsn Hst Hm; lia). unfold sin_arg_restore. rewrite max_len, Lret. set (k := 2 + (512 + (1 + k0))) in *. assert (HK : 0 <= k <= 2 ^ 48) by (unfold k; rewrite K0; clear; lia). clearbody k.
  assert (Hn1 : n = 2 + Z.of_nat (Z.to_nat (n - 2))) by (clear - Hsn Hst Hm; lia). set (j := Z.to_nat (n - 2)) in *. clearbody j.
  assert (E3 : (3 * (3 * (IZR (3 ^ Z.of_nat j) * t)) = ax)%R). { assert (E : (IZR (3 ^ n) = 9 * IZR (3 ^ Z.of_nat j))%R) by (rewrite Hn1, Z.pow_add_r by lia; rewrite mult_IZR; reflexivity). replace (3 * (3 * (IZR (3 ^ Z.of_nat j) * t)))%R with (9 * IZR (3 ^ Z.of_nat j) * t)%R by ring. rewrite <- E. unfold t. field. lra. }
  replace (Z.to_nat n) with (Datatypes.S (Datatypes.S j)) by (clear - Hn1; lia). rewrite restore_last, restore_last.
  set (z := (IZR (3 ^ Z.of_nat j) * t)%R) in *. assert (Z1 : (4 / 9 <= z <= 7 / 9)%R) by lra.
  destruct (sin_restore_ok P PO ltac:(clear - HP HPO; lia) ltac:(apply HPO) HPO64 s j k t ret LR2) as (q & -> & Rq & Lq & Iq).
  + apply HK. + clear - HK Hn26 Hn1. lia. + eapply low_weak; [|exact TL]. clear - Hm Hn HP. lia. + fold z. lra. + exact Lret. + exact Iret.
  + fold z in Rq. cbn [bind]. assert (SZ : (/ 5 <= sin z <= 1)%R).
    { pose proof (pre_sin_bound z 0 ltac:(lra) ltac:(lra)) as [Q1 Q2]. unfold sin_approx, sin_term in Q1, Q2. cbn in Q1, Q2. pose proof (SIN_bound z) as Q3. split; [|lra]. clear - Z1 Q1. assert (z * z <= 49 / 81)%R by nra. assert (z * (z * z) <= z * (49 / 81))%R by (apply Rmult_le_compat_l; lra). lra. }
    assert (SZ3 : (/ 5 <= sin (3 * z) <= 1)%R). { pose proof (SIN_bound (3 * z)). split; [|lra]. destruct (Rle_lt_dec (3 * z) 2) as [Q|Q]; [pose proof (sin_big (3 * z) ltac:(lra)); lra|]. pose proof PI_high as P3. pose proof PI_low as PL. pose proof (sin_far (3 * z) (/ 2) ltac:(lra) ltac:(lra) ltac:(rewrite Rabs_left by lra; lra)) as F. assert (0 <= sin (3 * z))%R by (apply sin_ge_0; lra). rewrite Rabs_pos_eq in F by assumption. lra. }
    assert (KB : 0 <= k + 64 * Z.of_nat j <= 2 ^ 49) by (clear - HK Hn26 Hn1; lia).
    apply apx_sab in Rq; [|clear - HP; lia|clear - KB; lia].
    assert (KE : (IZR (k + 64 * Z.of_nat j) * eps P <= bpow radix2 49 * eps P)%R). { apply Rmult_le_compat_r; [lra|]. change (bpow radix2 49) with (IZR (2 ^ 49)). apply IZR_le. apply KB. } assert (KE0 : (0 <= IZR (k + 64 * Z.of_nat j) * eps P)%R) by (apply Rmult_le_pos; [apply IZR_le; apply KB|lra]).
    set (e1 := (2 * IZR (k + 64 * Z.of_nat j) * eps P * sin z)%R) in *. assert (E1b : (0 <= e1 <= 2 * (bpow radix2 49 * eps P))%R). { unfold e1. replace (2 * IZR (k + 64 * Z.of_nat j) * eps P * sin z)%R with (2 * (IZR (k + 64 * Z.of_nat j) * eps P * sin z))%R by ring. set (kk := (IZR (k + 64 * Z.of_nat j) * eps P)%R) in *. clear - KE KE0 SZ. split; [assert (0 <= kk * sin z)%R by (apply Rmult_le_pos; lra); lra|]. assert (kk * sin z <= kk * 1)%R by (apply Rmult_le_compat_l; lra). lra. }
    clearbody e1. set (e2 := (bpow radix2 49 * eps P)%R) in *. assert (E2b : (e2 <= bpow radix2 (-100))%R) by (unfold e2, eps; rewrite <- bpow_plus; apply bpow_le; clear - HP; lia).
    assert (B100 : (1024 * bpow radix2 (-100) <= bpow radix2 (-80))%R). { change 1024%R with (bpow radix2 10). rewrite <- bpow_plus. apply bpow_le. lia. }
    assert (EPO : (eps PO <= eps P)%R) by (unfold eps; apply bpow_le; clear - HPO; lia). assert (EP2 : (1024 * eps P <= e2)%R). { unfold e2. apply Rmult_le_compat_r; [lra|]. change 1024%R with (bpow radix2 10). apply bpow_le. lia. }
    pose proof (eps_pos PO) as EpO. pose proof (bpow_gt_0 radix2 (-100)) as Q100.
    destruct (slast_ok PO ltac:(clear - HP HPO; lia) HPO64 s e1 z q Rq ltac:(lra) ltac:(lra)) as (q1 & -> & R1q & L1q & I1q).
    { rewrite Rabs_pos_eq by lra. eapply Rle_trans; [|exact (proj1 SZ3)]. apply Rle_trans with (bpow radix2 (-3)); [apply bpow_le; lia|change (bpow radix2 (-3)) with (/ 8)%R; lra]. } { exact Lq. } { exact Iq. }
    cbn [bind]. destruct (slast_ok PO ltac:(clear - HP HPO; lia) HPO64 s _ (3 * z)%R q1 R1q ltac:(lra) SZ3) as (q2 & -> & R2q & L2q & I2q).
    { rewrite E3. exact FAR. } { exact L1q. } { exact I1q. }
    rewrite E3 in R2q. apply ends_ok. split; [|split; [clear - L2q HPO; lia|exact I2q]]. eapply sab_weak; [|exact R2q]. replace (bpow radix2 58 * eps P)%R with (512 * e2)%R; [lra|]. unfold e2. change 58 with (9 + 49). rewrite bpow_plus. change (bpow radix2 9) with 512%R. ring.
Qed.

