(** The logarithm of a number between 1/2 and 3/4 is found within eight roundings. *)

From Coq Require Import ZArith List Bool Lia Reals Lra.
From Flocq Require Import Core.
From Verif Require Import Words IntModel Mantissa Num Pow Consts Elem Series Ln SpecZ SpecOps SpecConst WordsP Spec RealP RealP2 NumP CmpP AddP SetP AddNum MulNum DivNum RootNum ArithTop ConvNum Conv2Num RootP ConstP ConstNum ExtP PowExt Refute1 ElemR ElemDom ApproxR ApproxNum SeriesP SeriesNum SinhNum SinhTop ExpNum LnR LnConst LnNum LnSharp LnSharp2.
Import ListNotations.
Open Scope Z_scope.
Ltac Zify.zify_post_hook ::= idtac.
Arguments Z.mul : simpl never.
Arguments Z.add : simpl never.
Arguments Z.pow : simpl never.
Arguments Z.sub : simpl never.
Arguments Z.of_nat : simpl never.
Ltac dlia := Z.div_mod_to_equations; lia.

Lemma lc_dath_sharp d a b : (0 <= d <= / 128 -> a <= / 16 -> b <= / 16 -> lc d a b -> lc (13 / 12 * d) (dath a) (dath b))%R.
Proof.
  assert (M : forall d a b, (0 <= d <= / 128 -> 0 < a <= b -> b <= / 16 -> b <= a * exp d -> dath a <= dath b <= dath a + (13 / 12 * d) * dath a)%R).
  { intros d' a' b' D A B U. destruct (dath_diff a' b' A ltac:(lra)) as [U1 U2]. split; [lra|]. pose proof (dath_ge a' ltac:(lra)) as G. pose proof (exp_near d' D) as E.
    assert (b' - a' <= 65 / 64 * d' * a')%R. { assert (a' * exp d' <= a' * (1 + 65 / 64 * d'))%R by (apply Rmult_le_compat_l; lra). lra. }
    assert (2 * (b' - a') / (1 - b') <= 2 * (65 / 64 * d' * a') * (16 / 15))%R. { unfold Rdiv at 1. apply Rmult_le_compat; [lra|left; apply Rinv_0_lt_compat; lra|lra|]. replace (16 / 15)%R with (/ (15 / 16))%R by field. apply Rinv_le; lra. }
    assert (13 / 12 * d' * (2 * a') <= 13 / 12 * d' * dath a')%R by (apply Rmult_le_compat_l; lra). lra. }
  intros D A B L. pose proof (lc_pos _ _ _ L) as B0. pose proof L as (A0 & L1 & L2). destruct (Rle_or_lt a b) as [C|C].
  - apply lc_tail; [pose proof (dath_ge a ltac:(lra)); lra|lra|]. apply (M d a b D ltac:(lra) B L2).
  - apply lc_sym. apply lc_tail; [pose proof (dath_ge b ltac:(lra)); lra|lra|]. apply (M d b a D ltac:(lra) A). apply lc_sym in L. apply L.
Qed.

Lemma sub_one_sharp W n a v : 128 <= W -> prec_up W = W -> W < P_LIM -> apx (W + 64) Pos 2 a v -> (/ 2 <= a < 1)%R -> 0 <= n <= 40 -> (bpow radix2 (- 2 - n) <= 1 - a)%R ->
  exists q, n_sub v ONE W RNone = Ok q /\ near (eps W / 1024 + eta W) Neg (1 - a) q /\ 64 * wlen q = W.
Proof.
  intros HP H64 HL (Wv & Nv & Sv & Lv) HA Hn G. set (Q := W + 64) in *. pose proof (value_has_sign v Wv ltac:(destruct Nv; assumption)) as V. rewrite Sv in V. unfold has_sign in V. cbn [sgnZ] in V. rewrite Rabs_pos_eq in Lv by lra. set (w := value v) in *.
  pose proof (eps_pos Q) as E0. pose proof (eps_pos W) as EW. pose proof (eps_tiny W HP) as ET.
  apply lc_abs in Lv; [|split; [cbn; lra|]; pose proof (eps_quarter Q 2 ltac:(unfold Q; clear - HP; lia) ltac:(clear; lia)); lra].
  assert (B : (Rabs (w - a) <= 4 * eps Q)%R). { eapply Rle_trans; [exact Lv|]. cbn. assert (2 * (2 * eps Q) * a <= 2 * (2 * eps Q) * 1)%R by (apply Rmult_le_compat_l; lra). lra. }
  assert (G2 : (4 * eps Q <= eps W / 2048 * (1 - a))%R).
  { apply Rle_trans with (eps W / 2048 * bpow radix2 (- 2 - n))%R; [|apply Rmult_le_compat_l; [lra|exact G]]. change 4%R with (bpow radix2 2). replace (eps W / 2048)%R with (eps W * bpow radix2 (-11))%R by (change (bpow radix2 (-11)) with (/ 2048)%R; reflexivity).
    unfold eps. rewrite <- !bpow_plus. apply bpow_le. unfold Q. clear - Hn. lia. }
  assert (LC : lc (eps W / 1024) (1 - a) (1 - w)).
  { replace (eps W / 1024)%R with (2 * (eps W / 2048))%R by field. apply lc_round; [lra|lra|]. eapply Rle_trans; [|exact G2]. replace (1 - w - (1 - a))%R with (- (w - a))%R by ring. rewrite Rabs_Ropp. exact B. }
  pose proof (lc_pos _ _ _ LC) as W1.
  assert (HLW : prec_up W < P_LIM) by (rewrite H64; exact HL).
  pose proof (add_sub_nonzero v ONE W (-1) RNone Wv ONE_wf ltac:(destruct Nv; assumption) ONE_nonzero (or_intror eq_refl) ltac:(clear - HP; lia) HLW) as [C _]. cbv zeta in C. rewrite ONE_value in C. fold w in C. change (IZR (-1)) with (-1)%R in C. replace (w + -1 * 1)%R with (w - 1)%R in C by ring.
  destruct C as (sg & HS & C); [lra|]. assert (sg = Neg) by (destruct sg; [reflexivity|]; unfold has_sign in HS; cbn [sgnZ] in HS; exfalso; lra). subst sg. rewrite H64 in C.
  destruct (near_round W RNone _ _ _ _ (eps W / 1024) (1 - a) C HP) as (q & E & A & Lq & _).
  - rewrite Rabs_left by lra. replace (- (w - 1))%R with (1 - w)%R by ring. exact LC.
  - lra.
  - apply (mid_range (- 2 - n) 0); [unfold HX; clear - Hn; lia|vm_compute; discriminate|]. split; [exact G|change (bpow radix2 0) with 1%R; lra].
  - exists q. auto.
Qed.

Theorem ln_series_sharp g x W : 128 <= W <= 2 ^ 16 -> prec_up W = W -> wf x -> normal x -> ns x = Pos -> 64 * wlen x = W -> ne x = 0 -> (value x <= 3 / 4)%R ->
  ends (ln_series g x RNone) (fun q => near (8 * eta W) Neg (- ln (value x)) q /\ 64 * wlen q = W /\ ninexact q = true).
Proof.
  intros HW H64 Wx Nx Sx Lx Ex HG. unfold ln_series. rewrite max_len, Lx. assert (HW22 : 128 <= W <= 2 ^ 22) by (clear - HW; lia).
  destruct (atanh_new_ok W HW22 H64) as (gen & -> & Hgen). cbn [done rbind].
  destruct (series_cost_optimize ln_red_cost ln_red_effect g W (atanh_iter_cost W) 0 2) as [[[n niter] e]|] eqn:EO; [|left; reflexivity].
  destruct (ln_opt_spec g W n niter e HW H64 EO) as (Hn & Hni & He & Hbig). clear EO.
  replace (e <? 3) with false by (clear - He; lia). cbv zeta. replace (0 <? n) with true by (clear - Hn; lia).
  set (p_arg := W + (if 0 <? 7 - e then 7 - e else 5)). set (Q := W + 64). assert (Q64 : prec_up Q = Q) by (unfold Q; clear - H64; unfold prec_up in *; dlia).
  assert (HQ : 128 <= Q <= 2 ^ 22) by (unfold Q; clear - HW; lia). assert (EQ : prec_up p_arg = Q). { unfold p_arg, Q. clear - H64 He. unfold prec_up in *. destruct (Z.ltb_spec 0 (7 - e)); dlia. }
  assert (Hpa : W <= p_arg) by (unfold p_arg; clear - He; destruct (Z.ltb_spec 0 (7 - e)); lia). clearbody p_arg.
  assert (HLQ : Q < P_LIM) by (eapply Z.le_lt_trans; [apply HQ|]; vm_compute; reflexivity). assert (HLW1 : W < P_LIM) by (unfold Q in HLQ; clear - HLQ; lia). assert (HLW : prec_up W < P_LIM) by (rewrite H64; exact HLW1).
  assert (HPP : 128 <= W <= prec_up W) by (clear - HW H64; lia).
  set (a0 := value x) in *. pose proof (value_has_sign x Wx ltac:(destruct Nx; assumption)) as Vx. rewrite Sx in Vx. unfold has_sign in Vx. cbn [sgnZ] in Vx. fold a0 in Vx. destruct (normal_range x Wx Nx) as [X1 X2]. fold a0 in X1, X2. rewrite Ex, Rabs_pos_eq in X1 by lra. rewrite Ex, Rabs_pos_eq in X2 by lra. change (bpow radix2 (0 - 1)) with (/ 2)%R in X1. change (bpow radix2 0) with 1%R in X2.
  pose proof (apx_self Q x Wx Nx) as Ax. rewrite Sx in Ax. fold a0 in Ax. rewrite Rabs_pos_eq in Ax by lra.
  destruct (apx_len_up Q Pos 0 _ x p_arg Ax ltac:(rewrite EQ, Lx; unfold Q; clear; lia) ltac:(clear - HW Hpa; lia) ltac:(rewrite EQ; exact HLQ)) as (x1 & -> & Ax1 & L1 & _). cbn [done rbind]. rewrite EQ in L1.
  destruct (reduce_ok Q (Z.to_nat n) a0 x1 HQ Q64 ltac:(eapply apx_weak; [|exact Ax1]; clear; lia) ltac:(lra) L1) as (arg & -> & Aarg & Larg). cbn [done rbind].
  pose proof (roots_range (Z.to_nat n) a0 ltac:(lra)) as RR. pose proof (roots_gap (Z.to_nat n) a0 ltac:(lra)) as RG. pose proof (roots_ln (Z.to_nat n) a0 ltac:(lra)) as RL. set (a := roots (Z.to_nat n) a0) in *.
  assert (E2 : (2 ^ Z.to_nat n = bpow radix2 n)%R). { rewrite pow_IZR, Z2Nat.id by (clear - Hn; lia). symmetry. rewrite bpow_IZR by (clear - Hn; lia). reflexivity. }
  rewrite E2 in RG, RL. assert (Hn32 : 3 <= n <= 40) by (clear - Hn; unfold nmax in Hn; destruct (W <=? 2 ^ 15); lia).
  assert (GA : (bpow radix2 (- 2 - n) <= 1 - a)%R). { apply Rmult_le_reg_l with (bpow radix2 n); [apply bpow_gt_0|]. rewrite <- bpow_plus. replace (n + (- 2 - n)) with (- 2) by ring. change (bpow radix2 (- 2)) with (/ 4)%R. lra. }
  pose proof (eps_pos W) as EW. pose proof (eps_tiny W ltac:(apply HW)) as ET. pose proof (eta_pos W) as EH. pose proof (eta_eps W) as EE. assert (EQW : (eps Q <= eps W / 1048576)%R).
  { replace (eps W / 1048576)%R with (eps W * bpow radix2 (-20))%R by (change (bpow radix2 (-20)) with (/ 1048576)%R; reflexivity). unfold eps, Q. rewrite <- bpow_plus. apply bpow_le. clear. lia. }
  pose proof (eps_pos Q) as EQ0.
  destruct (sub_one_sharp W n a arg ltac:(apply HW) H64 HLW1 Aarg ltac:(lra) ltac:(clear - Hn32; lia) GA) as (n1 & -> & A1 & _). cbn [done rbind].
  assert (A2s : exists n2, n_add arg ONE W RNone = Ok n2 /\ near (eps W / 1024 + eta W) Pos (a + 1) n2).
  { pose proof (near_apx _ _ _ _ _ (apx_ONE Q)) as O1. pose proof Aarg as (_ & _ & _ & Lca). pose proof O1 as (_ & _ & _ & Lco).
    pose proof (lc_add (eps W / 1024) _ _ _ _ (lc_weak (IZR 2 * eps Q) (eps W / 1024) _ _ ltac:(cbn; lra) Lca) (lc_weak (IZR 0 * eps Q) (eps W / 1024) _ _ ltac:(cbn; lra) Lco)) as LS.
    destruct (near_add W W RNone ltac:(apply HW) H64 HLW1 Pos _ _ a 1 arg ONE (eps W / 1024) Aarg O1 ltac:(lra) LS) as (n2 & E & A & _); [|exists n2; auto].
    apply (mid_range 0 1); [vm_compute; discriminate|vm_compute; discriminate|]. change (bpow radix2 0) with 1%R. change (bpow radix2 1) with 2%R. lra. }
  destruct A2s as (n2 & -> & A2).
  cbn [done rbind]. set (zt := ((1 - a) / (a + 1))%R). assert (ZL : (bpow radix2 (- 2 - n - 1) <= zt)%R). { unfold zt. replace (- 2 - n - 1) with (- 2 - n + -1) by ring. apply low_mul; [exact GA|]. change (bpow radix2 (-1)) with (/ 2)%R. apply Rinv_le; lra. }
  assert (Z0 : (0 < zt)%R) by (eapply Rlt_le_trans; [apply bpow_gt_0|exact ZL]).
  assert (DZ : dath zt = (- ln a)%R) by (unfold zt; rewrite (Rplus_comm a 1); apply dath_cayley; lra).
  (* how small the argument of the series is *)
  assert (ZU0 : (zt < 1)%R). { unfold zt. apply Rmult_lt_reg_r with (a + 1)%R; [lra|]. unfold Rdiv. rewrite Rmult_assoc, Rinv_l by lra. lra. }
  assert (ZN : forall k, 0 <= k <= n -> (zt <= 7 / 20 * bpow radix2 (- k))%R).
  { intros k Hk. pose proof (dath_ge zt ltac:(lra)) as DG. rewrite DZ in DG. pose proof ln2_range as [_ L2]. assert (LA : (- ln a0 <= ln 2)%R). { rewrite <- ln_Rinv by lra. destruct (Req_dec a0 (/ 2)) as [->|NE]; [rewrite Rinv_inv; right; reflexivity|]. left. apply ln_increasing; [apply Rinv_0_lt_compat; lra|]. replace 2%R with (/ / 2)%R by field. apply Rinv_lt_contravar; lra. }
    assert (P1 : (bpow radix2 k * - ln a <= bpow radix2 n * - ln a)%R) by (apply Rmult_le_compat_r; [lra|apply bpow_le; apply Hk]). apply Rmult_le_reg_l with (bpow radix2 k); [apply bpow_gt_0|]. replace (bpow radix2 k * (7 / 20 * bpow radix2 (- k)))%R with (7 / 20 * (bpow radix2 k * bpow radix2 (- k)))%R by ring. rewrite <- bpow_plus, Z.add_opp_diag_r. change (bpow radix2 0) with 1%R.
    assert (bpow radix2 k * (2 * zt) <= bpow radix2 k * - ln a)%R by (apply Rmult_le_compat_l; [apply bpow_ge_0|lra]). lra. }
  assert (ZU : (zt <= 7 / 160)%R) by (eapply Rle_trans; [apply (ZN 3); clear - Hn32; lia|change (bpow radix2 (- (3))) with (/ 8)%R; lra]).
  set (d0 := (2 * (eps W / 1024 + eta W) + eta W)%R).
  assert (AzE : exists z, n_div n1 n2 W RNone = Ok z /\ near d0 Neg zt z /\ 64 * wlen z = W).
  { assert (DD : (eps W / 1024 + eta W + (eps W / 1024 + eta W) <= 1)%R) by lra.
    destruct (near_div W W RNone ltac:(apply HW) H64 HLW1 Neg Pos _ _ _ _ _ _ A1 A2 DD) as (z & E & A & L & _).
    { fold zt. apply (mid_range (- 2 - n - 1) 0); [unfold HX; clear - Hn32; lia|vm_compute; discriminate|]. split; [exact ZL|change (bpow radix2 0) with 1%R; lra]. }
    exists z. split; [exact E|]. split; [|exact L]. fold zt in A. change (sign_mul Neg Pos) with Neg in A. eapply near_weak; [|exact A]. unfold d0. lra. }
  destruct AzE as (z & -> & Az & Lz). cbn [done rbind].
  pose proof Az as (Wz & Nz & Sz & La). set (A := Rabs (value z)) in *. assert (D0 : (0 <= d0 <= / 1000000)%R) by (unfold d0; lra).
  pose proof (lc_two d0 zt A ltac:(lra) La) as [AA1 AA2].
  assert (AZN : (A <= zt * (1 + / 100000))%R). { destruct La as (_ & _ & U). pose proof (exp_near d0 ltac:(lra)) as EN. eapply Rle_trans; [exact U|]. apply Rmult_le_compat_l; lra. }
  set (m := n + 4). assert (AL : (bpow radix2 (- m) <= A)%R). { replace (- m) with (- 2 - n - 1 + -1) by (unfold m; ring). rewrite bpow_plus. change (bpow radix2 (-1)) with (/ 2)%R. lra. }
  assert (Hm : 0 <= m <= 44) by (unfold m; clear - Hn32; lia). clearbody m.
  assert (A0 : (0 < A)%R) by lra. assert (AZ : apx W Neg 0 A z) by (rewrite <- Sz; now apply apx_self).
  assert (AAL : (bpow radix2 (- m + - m) <= A * A)%R) by now apply low_mul.
  assert (XsE : exists xs, n_mul z z W RNone = Ok xs /\ near (eta W) Pos (A * A) xs /\ 64 * wlen xs = W).
  { assert (DD : (IZR 0 * eps W + IZR 0 * eps W <= 1)%R) by (cbn; lra).
    destruct (near_mul W W RNone ltac:(apply HW) H64 HLW1 Neg Neg _ _ _ _ _ _ AZ AZ DD) as (xs & E & B & L & _).
    { apply (mid_range (- m + - m) 0); [unfold HX; clear - Hm; lia|vm_compute; discriminate|]. split; [exact AAL|]. change (bpow radix2 0) with 1%R. assert (A * A <= 1 * 1)%R by (apply Rmult_le_compat; lra). lra. }
    exists xs. split; [exact E|]. split; [|exact L]. change (sign_mul Neg Neg) with Pos in B. eapply near_weak; [|exact B]. cbn. lra. }
  destruct XsE as (xs & -> & Hxs & Lxs).
  cbn [done rbind]. pose proof Hxs as (Ws & Ns & Ss & Ls). set (X := Rabs (value xs)) in *.
  pose proof (lc_two (eta W) _ _ ltac:(lra) Ls) as [XA XB].
  assert (XN : (X <= A * A * (1 + / 100000))%R). { destruct Ls as (_ & _ & U). pose proof (exp_near (eta W) ltac:(lra)) as EN. eapply Rle_trans; [exact U|]. apply Rmult_le_compat_l; [|lra]. apply Rmult_le_pos; lra. }
  assert (XK : forall y, (zt <= y -> X <= y * y * (1 + 4 / 100000))%R). { intros y Hy. assert (A * A <= (y * (1 + / 100000)) * (y * (1 + / 100000)))%R by (apply Rmult_le_compat; lra). assert (A * A * (1 + / 100000) <= (y * (1 + / 100000)) * (y * (1 + / 100000)) * (1 + / 100000))%R by (apply Rmult_le_compat_r; lra). assert (0 <= y * y)%R by (apply Rmult_le_pos; lra). lra. }
  assert (X512 : (X <= / 512)%R) by (eapply Rle_trans; [apply (XK (7 / 160)%R ZU)|lra]).
  set (b := sqrt X). assert (AAp : (0 < A * A)%R) by now apply Rmult_lt_0_compat. assert (X0 : (0 < X)%R) by lra. assert (Bb : (b * b = X)%R) by (apply sqrt_sqrt; lra). assert (b0 : (0 < b)%R) by now apply sqrt_lt_R0.
  assert (LB : lc (eta W / 2) A b). { pose proof (lc_sqrt _ _ _ Ls) as LQ. rewrite sqrt_square in LQ by lra. exact LQ. }
  assert (bU : (b <= / 16)%R). { apply Rnot_lt_le. intros H. assert (/ 16 * / 16 < b * b)%R by (apply Rmult_le_0_lt_compat; lra). lra. }
  destruct (normal_range xs Ws Ns) as [R1 R2]. fold X in R1, R2.
  assert (E1 : ne xs <= -1). { assert (ne xs - 1 < -2); [|lia]. apply (lt_bpow radix2). eapply Rle_lt_trans; [exact R1|]. change (bpow radix2 (-2)) with (/ 4)%R. lra. }
  assert (E3 : 1 - ne xs <= 128). { assert (EX : - m + - m + -1 < ne xs); [|clear - EX Hm; lia]. apply (lt_bpow radix2). eapply Rle_lt_trans; [|exact R2]. rewrite bpow_plus. change (bpow radix2 (-1)) with (/ 2)%R. lra. }
  assert (FL : (bpow radix2 (- m + (ne xs - 1)) <= A * X)%R) by now apply low_mul.
  assert (FU : (A * X <= A)%R) by (apply Rle_trans with (A * 1)%R; [apply Rmult_le_compat_l; lra|lra]).
  assert (AXs : apx W Pos 0 X xs) by (rewrite <- Ss; now apply apx_self).
  destruct (apx_mul W W RNone HPP HLW _ _ _ _ _ _ _ _ AZ AXs ltac:(clear; lia)) as (xf & -> & Hxf & Lxf & _).
  { apply (mid_range (- m + (ne xs - 1)) 0); [unfold HX; clear - Hm E3; lia|vm_compute; discriminate|]. split; [exact FL|]. change (bpow radix2 0) with 1%R. lra. }
  cbn [done rbind]. rewrite sign_mul_pos_r in Hxf. rewrite H64 in Lxf. change (0 + 0 + 1) with 1 in Hxf.
  eapply ends_bind.
  { apply (series_run_sharp W xs HW H64 Ws Ns Ss Lxs E1 E3 X512 g niter z xf gen Neg A AZ Hxf Lz Lxf Hgen).
    - eapply low_weak; [|exact FL]. clear - Hm E3. lia.
    - lra.
    - exact Hni.
    - intros HB. destruct (Hbig HB) as [B|[B1 B2]]; [left; eapply Rle_trans; [apply (XK (7 / 1280)%R)|lra]; eapply Rle_trans; [apply (ZN 6); clear - B; lia|]; change (bpow radix2 (- (6))) with (/ 64)%R; lra|right].
      split; [exact B2|]. eapply Rle_trans; [apply (XK (7 / 640)%R)|lra]; eapply Rle_trans; [apply (ZN 5); clear - B1; lia|]; change (bpow radix2 (- (5))) with (/ 32)%R; lra. }
  intros ret [(M & HM & Hret & Lret & Tail) Iret]. fold X in Hret, Tail.
  set (ps := psum aC X 0 M) in *. assert (PS0 : (0 <= ps)%R) by (unfold ps; apply psum_C0; [exact aC_range|exact aC_decr|lra]).
  assert (ET2 : (b + b * X * ps = atanh_sum b (S M))%R). { rewrite <- psum_atanh, Bb. reflexivity. }
  set (T := atanh_sum b (S M)) in *. assert (TB : (b <= T)%R) by (assert (0 <= b * X * ps)%R by (apply Rmult_le_pos; [apply Rmult_le_pos; lra|exact PS0]); lra).
  pose proof (atanh_bounds b (S M) ltac:(lra)) as [TS1 TS2]. fold T (dath b) in TS1, TS2.
  assert (LT : lc (102 / 100 * eta W) T (dath b / 2)).
  { apply lc_tail; [lra|lra|]. split; [lra|]. assert (QQ : (b ^ (2 * S M + 1) / (INR (2 * S M + 1) * (1 - b ^ 2)) <= 102 / 100 * eta W * T)%R); [|lra].
    assert (Eb : (b ^ (2 * S M + 1) / INR (2 * S M + 1) = b * X * X ^ M * aC M)%R). { unfold aC, Rdiv. replace (2 * S M + 1)%nat with (2 * M + 3)%nat by lia. f_equal. rewrite pow_add, pow_mult. replace (b ^ 2)%R with X by (rewrite <- Bb; ring). rewrite <- Bb. ring. }
    assert (I0 : (0 < INR (2 * S M + 1))%R) by (apply lt_0_INR; lia). assert (D1 : (511 / 512 <= 1 - b ^ 2)%R) by (replace (b ^ 2)%R with X by (rewrite <- Bb; ring); lra).
    replace (b ^ (2 * S M + 1) / (INR (2 * S M + 1) * (1 - b ^ 2)))%R with (b ^ (2 * S M + 1) / INR (2 * S M + 1) * / (1 - b ^ 2))%R by (field; lra). rewrite Eb. clear Eb I0.
    assert (Q1 : (X * X ^ M * aC M <= 65 / 64 * eta W)%R). { apply Rmult_le_reg_l with A; [exact A0|]. replace (A * (X * X ^ M * aC M))%R with (A * X * X ^ M * aC M)%R by ring. replace (A * (65 / 64 * eta W))%R with (65 / 64 * eta W * A)%R by ring. exact Tail. }
    assert (Q0 : (0 <= X * X ^ M * aC M)%R). { apply Rmult_le_pos; [apply Rmult_le_pos; [lra|apply pow_le; lra]|pose proof (aC_range M); lra]. }
    assert (ID : (0 < / (1 - b ^ 2) <= 512 / 511)%R). { split; [apply Rinv_0_lt_compat; lra|]. replace (512 / 511)%R with (/ (511 / 512))%R by field. apply Rinv_le; lra. }
    replace (b * X * X ^ M * aC M * / (1 - b ^ 2))%R with (b * / (1 - b ^ 2) * (X * X ^ M * aC M))%R by ring.
    apply Rle_trans with (b * (512 / 511) * (65 / 64 * eta W))%R; [apply Rmult_le_compat; [apply Rmult_le_pos; lra|exact Q0|apply Rmult_le_compat_l; lra|exact Q1]|].
    assert (b * eta W <= T * eta W)%R by (apply Rmult_le_compat_r; lra). assert (0 < b * eta W)%R by (apply Rmult_lt_0_compat; lra). lra. }
  assert (LD : lc (13 / 12 * (d0 + eta W / 2)) (dath zt / 2) (dath b / 2)).
  { replace (13 / 12 * (d0 + eta W / 2))%R with (13 / 12 * (d0 + eta W / 2) + 0)%R by ring. apply lc_div; [|apply lc_refl; lra]. apply lc_dath_sharp; [lra|lra|exact bU|]. eapply lc_trans; [exact La|exact LB]. }
  assert (FIN : near (8 * eta W) Neg (dath zt / 2) ret).
  { assert (SUM : (13 / 12 * (d0 + eta W / 2) + (102 / 100 * eta W + (eta W / 2 + (2 * eta W + eps W / 4))) <= 8 * eta W)%R) by (unfold d0; lra). eapply near_weak; [exact SUM|].
    eapply near_trans; [exact LD|]. eapply near_trans; [apply lc_sym; exact LT|]. eapply near_trans; [|exact Hret].
    assert (0 <= X * ps)%R by (apply Rmult_le_pos; lra). replace T with ((1 + X * ps) * b)%R by (rewrite <- ET2; ring). replace (A + A * X * ps)%R with ((1 + X * ps) * A)%R by ring. apply lc_scale; [lra|apply lc_sym; exact LB]. }
  apply ends_ok. destruct FIN as (Wr & Nr & Sr & Lr).
  pose proof (lc_two (8 * eta W) _ _ ltac:(lra) Lr) as [U1 U2]. pose proof (dath_ge zt ltac:(lra)) as DG.
  assert (DU : (dath zt <= 1)%R). { rewrite DZ. assert (LA : (/ a <= 2)%R) by (replace 2%R with (/ / 2)%R by field; apply Rinv_le; lra). rewrite <- ln_Rinv by lra. assert (LE : (ln (/ a) <= / a - 1)%R) by (replace (/ a)%R with (1 + (/ a - 1))%R at 1 by ring; apply ln_1p; assert (0 < / a)%R by (apply Rinv_0_lt_compat; lra); lra). lra. }
  destruct (normal_range ret Wr Nr) as [V1 V2]. set (vr := Rabs (value ret)) in *.
  assert (NR : - m - 2 < ne ret). { apply (lt_bpow radix2). eapply Rle_lt_trans; [|exact V2]. apply Rle_trans with (/ 2 * zt)%R; [|lra]. replace (- m - 2) with (-1 + (- m - 1)) by ring. rewrite bpow_plus. change (bpow radix2 (-1)) with (/ 2)%R. apply Rmult_le_compat_l; [lra|]. apply Rle_trans with (A / 2)%R; [|lra]. replace (- m - 1) with (- m + -1) by ring. rewrite bpow_plus. change (bpow radix2 (-1)) with (/ 2)%R. lra. }
  assert (NR2 : ne ret <= 2). { assert (ne ret - 1 <= 0); [|lia]. apply (le_bpow radix2). eapply Rle_trans; [exact V1|]. change (bpow radix2 0) with 1%R. lra. }
  pose proof (set_exponent_spec ret (ne ret + (n + 1)) Wr ltac:(change EMIN with (-2147483648); change EMAX with 2147483647; clear - NR NR2 Hm Hn32; lia)) as SE. cbv zeta in SE. set (q := set_exponent ret _) in *. destruct SE as (Wq & Lq & Sq & Iq & Vq). replace (ne ret + (n + 1) - ne ret) with (n + 1) in Vq by ring.
  assert (AVq : Rabs (value q) = (bpow radix2 (n + 1) * vr)%R). { rewrite Vq, Rabs_mult, (Rabs_pos_eq (bpow _ _)) by apply bpow_ge_0. unfold vr. ring. }
  split; [|split; [congruence|congruence]]. split; [exact Wq|]. split; [|split; [congruence|]].
  - apply normal_iff; [exact Wq|]. rewrite AVq. apply Rle_trans with (bpow radix2 (n + 1) * bpow radix2 (ne ret - 1))%R; [|apply Rmult_le_compat_l; [apply bpow_ge_0|exact V1]]. rewrite <- bpow_plus. apply bpow_le. change EMIN with (-2147483648). clear - NR Hm Hn32. lia.
  - rewrite AVq. replace (- ln a0)%R with (bpow radix2 (n + 1) * (dath zt / 2))%R; [apply lc_scale; [apply bpow_gt_0|exact Lr]|].
    rewrite DZ, RL, bpow_plus. change (bpow radix2 1) with 2%R. field.
Qed.
