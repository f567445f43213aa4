(** The series of the logarithm, with few roundings of error: the terms after the first are small. *)

From Coq Require Import ZArith List Bool Lia Reals Lra.
From Flocq Require Import Core.
From Verif Require Import Words IntModel Mantissa Num Pow Consts Elem Series Ln SpecZ SpecOps SpecConst WordsP Spec RealP RealP2 NumP CmpP AddP SetP AddNum MulNum DivNum RootNum ArithTop ConvNum Conv2Num RootP ConstP ConstNum ExtP PowExt Refute1 ElemR ElemDom ApproxR ApproxNum SeriesP SeriesNum SinhNum SinhTop ExpNum LnR LnConst LnNum LnSharp.
Import ListNotations.
Open Scope Z_scope.
Ltac Zify.zify_post_hook ::= idtac.
Arguments Z.mul : simpl never.
Arguments Z.add : simpl never.
Arguments Z.pow : simpl never.
Arguments Z.sub : simpl never.
Arguments Z.of_nat : simpl never.
Ltac dlia := Z.div_mod_to_equations; lia.

Lemma eta_eps W : (eta W = 65 / 128 * eps W)%R.
Proof. rewrite eps_eta. field. Qed.
Lemma eps_tiny W : 128 <= W -> (eps W <= / 1099511627776)%R.
Proof. intros H. rewrite eps_eta. pose proof (eta_small W H). pose proof (eta_pos W). lra. Qed.
Lemma aC0 : aC 0 = (/ 3)%R.
Proof. unfold aC. f_equal. cbn. lra. Qed.
Lemma aC_third j : (aC j <= / 3)%R.
Proof. induction j as [|j IH]; [rewrite aC0; lra|]. eapply Rle_trans; [apply aC_decr|exact IH]. Qed.

Section Sharp.
Variables (W : Z) (xs : num).
Hypothesis HW : 128 <= W <= 2 ^ 16.
Hypothesis H64 : prec_up W = W.
Hypothesis Wx : wf xs.
Hypothesis Nx : normal xs.
Hypothesis Sx : ns xs = Pos.
Hypothesis Lx : 64 * wlen xs = W.
Hypothesis Ex : ne xs <= -1.
Hypothesis Elx : 1 - ne xs <= 128.
Notation X := (Rabs (value xs)).
Hypothesis HX512 : (X <= / 512)%R.
Notation S_ := (psum aC X).
Let HWW : 128 <= W <= prec_up W.
Proof. clear - HW H64. lia. Qed.
Let HW22 : 128 <= W <= 2 ^ 22.
Proof. clear - HW. lia. Qed.
Let HL : W < P_LIM.
Proof. eapply Z.le_lt_trans; [apply HW|]. vm_compute. reflexivity. Qed.
Let HL' : prec_up W < P_LIM.
Proof. rewrite H64. exact HL. Qed.
Let X0 : (0 < X)%R.
Proof. destruct (normal_range xs Wx Nx) as [R1 _]. eapply Rlt_le_trans; [apply bpow_gt_0|exact R1]. Qed.
Let SC j n : (0 <= S_ j n <= 2 * aC j)%R.
Proof. apply psum_C0; [exact aC_range|exact aC_decr|lra]. Qed.
Let SL j n : (j <= JMAX)%nat -> (bpow radix2 (- 2 ^ 29) <= S_ j (S n) <= 2)%R.
Proof. apply (S_low aC JMAX 26); [clear; lia|exact aC_range|exact aC_low|exact Wx|exact Nx|exact Ex]. Qed.
Let HN j g : atanh_at W j g -> (j <= JMAX)%nat -> exists c g', atanh_next g = Ok (c, g') /\ atanh_at W (S j) g' /\ apx W Pos 1 (aC j) c /\ 64 * wlen c <= W.
Proof. intros Hj HJ. apply (atanh_next_ok W W HW22 H64 ltac:(clear - HW; lia) j g Hj HJ). Qed.

Lemma horner_sharp l : forall j m acc, coefs W aC 1 j l -> (j + length l + m <= JMAX)%nat -> apx W Pos 3 (S_ (j + length l) (S m)) acc ->
  exists q, horner_eval W xs l acc = Ok q /\ apx W Pos 3 (S_ j (length l + S m)) q.
Proof.
  induction l as [|c l IH]; intros j m acc Hl HJ Ha.
  - cbn [length horner_eval] in *. rewrite Nat.add_0_r in Ha. exists acc. split; [reflexivity|exact Ha].
  - cbn [length horner_eval coefs] in *. destruct Hl as [Hc Hl]. rewrite Nat.add_succ_r in *.
    destruct (SL (S (j + length l)) m ltac:(lia)) as [L1 L2].
    destruct (apx_mul W W RNone HWW HL' Pos Pos 3 0 _ X acc xs Ha) as (a & -> & Ha' & La & _).
    { rewrite <- Sx. apply apx_self; assumption. }
    { clear. lia. }
    { apply mid_prod; [split; assumption|]. split; [|lra]. destruct (normal_range xs Wx Nx) as [R1 _]. eapply low_weak; [|exact R1]. clear - Elx. lia. }
    cbn [bind sign_mul] in *. set (Sm := S_ (S (j + length l)) (S m)) in *.
    assert (T : (Sm * X <= / 16 * aC (j + length l))%R). { destruct (SC (S (j + length l)) (S m)) as [S1 S2]. fold Sm in S1, S2. pose proof (aC_decr (j + length l)). pose proof (aC_range (j + length l)). assert (Sm * X <= (2 * aC (j + length l)) * / 512)%R by (apply Rmult_le_compat; lra). lra. }
    assert (Sm0 : (0 < Sm * X)%R) by (apply Rmult_lt_0_compat; [eapply Rlt_le_trans; [apply bpow_gt_0|exact L1]|exact X0]).
    pose proof (eps_pos W) as EP. pose proof (eps_tiny W ltac:(apply HW)) as ET.
    change (3 + 0 + 1) with 4 in Ha'. pose proof Ha' as (_ & _ & _ & Lca). pose proof Hc as (_ & _ & _ & Lcc).
    pose proof (lc_wadd (IZR 1 * eps W) (4 * eps W) _ _ _ _ (/ 16) ltac:(cbn; lra) ltac:(cbn; lra) ltac:(lra) T Lcc Lca) as LW. assert (DD : (IZR 1 * eps W + 2 * / 16 * (4 * eps W) <= 1)%R) by (cbn; lra). rewrite (Rplus_comm (aC _)), (Rplus_comm (Rabs (value c))) in LW.
    destruct (near_add W W RNone ltac:(apply HW) H64 HL Pos _ _ _ _ a c _ Ha' Hc DD LW) as (q & -> & Hq & Lq & _).
    { apply mid_low. pose proof (aC_range (j + length l)) as CR. pose proof (aC_low (j + length l) ltac:(lia)) as CL. split; [|lra]. eapply low_weak with (j := - 26); [clear; lia|]. eapply Rle_trans; [exact CL|]. lra. }
    cbn [bind].
    destruct (IH j (S m) q Hl ltac:(lia)) as (q' & -> & Hq').
    { rewrite psum_cons. fold Sm. destruct Hq as (Wq & Nq & Sq & Lcq). split; [exact Wq|]. split; [exact Nq|]. split; [exact Sq|]. replace (aC (j + length l) + X * Sm)%R with (Sm * X + aC (j + length l))%R by ring. eapply lc_weak; [|exact Lcq]. rewrite eta_eps. change (IZR 1) with 1%R. change (IZR 3) with 3%R. lra. }
    exists q'. split; [reflexivity|]. eapply apx_same; [|exact Hq']. f_equal. lia.
Qed.

Lemma series_horner_sharp f add xf g s A F d1 kf j t : near d1 s A add -> apx W s kf F xf -> 64 * wlen add = W -> 64 * wlen xf = W -> atanh_at W j g ->
  (0 <= d1 <= / 256)%R -> 0 <= kf <= 4000 -> (bpow radix2 (- (2 ^ 28 + 2 ^ 27)) <= F)%R -> (0 <= t <= / 512)%R -> (F <= t * A)%R -> (A <= 4)%R -> Z.of_nat j + J22 <= Z.of_nat JMAX ->
  ends (series_horner atanh_next f add xf xs g) (fun q => exists N, near (d1 + 4 * t * (IZR (kf + 4) * eps W) + eta W) s (A + F * S_ j (S N)) q /\ 64 * wlen q = W /\ (F * X ^ S N * aC (j + S N) <= eta W * A)%R).
Proof.
  intros Ha Hf La Lf Hg Hd Hk F1 Ht F2 HA HJ. unfold series_horner. rewrite !max_len, La, Lf, Lx, !Z.max_id.
  assert (F0 : (0 < F)%R) by (eapply Rlt_le_trans; [apply bpow_gt_0|exact F1]). assert (A0 : (0 < A)%R) by (clear - F0 F2 Ht; nra). assert (FA : (F <= A)%R) by (clear - A0 F2 Ht; nra).
  pose proof (eps_pos W) as EP. pose proof (eps_tiny W ltac:(apply HW)) as ET. pose proof (IZR_le _ _ (proj1 Hk)) as K0. pose proof (IZR_le _ _ (proj2 Hk)) as K1.
  assert (KE : (IZR kf * eps W <= / 1024)%R). { apply Rle_trans with (4000 * eps W)%R; [apply Rmult_le_compat_r; lra|lra]. }
  pose proof Ha as (Wa & Na & Sa & Lca). pose proof Hf as (Wf & Nf & Sf & Lcf). destruct (normal_range add Wa Na) as [RA1 RA2]. destruct (normal_range xf Wf Nf) as [RF1 RF2].
  pose proof (lc_two d1 _ _ ltac:(lra) Lca) as [TA1 TA2]. pose proof (lc_two (IZR kf * eps W) _ _ ltac:(lra) Lcf) as [TF1 TF2].
  assert (He : ne xf <= ne add + 2). { assert (H : ne xf - 1 < ne add + 2); [|clear - H; lia]. apply (lt_bpow radix2). rewrite bpow_plus. change (bpow radix2 2) with 4%R. lra. }
  set (D := W - ne add + ne xf). assert (HD : D <= 2 ^ 22 + 4) by (unfold D; clear - He HW; lia).
  pose proof (parts_loop_ok W W atanh_gen atanh_next (atanh_at W) aC JMAX 1 ltac:(clear - HW; lia) ltac:(clear; lia) aC_range HN xs Ex (ne add) (ne xf) j D eq_refl ltac:(unfold J22 in HJ; clear - HD HJ; lia) f [] g I ltac:(cbn [length]; rewrite Nat.add_0_r; exact Hg) ltac:(cbn [length]; clear; lia)) as PL.
  cbn [length head_exp] in PL. replace (- ne xf - ne xs * (Z.of_nat 0 + 1)) with (- ne xf - ne xs) in PL by (clear; lia).
  eapply ends_bind; [exact PL|]. intros [l g'] (Hl & Hg' & Hn & HE).
  assert (Hj : (j + length l <= JMAX)%nat) by (unfold J22 in HJ; clear - HD HJ Hn; lia).
  destruct (HN (j + length l) g' Hg' Hj) as (c & g'' & -> & _ & Hc & _). unfold done. cbn [bind].
  destruct (horner_sharp l j 0 c Hl ltac:(lia)) as (q & -> & Hq).
  { eapply apx_same; [|eapply apx_weak; [|exact Hc]; clear; lia]. cbn [psum pow]. rewrite Nat.add_0_r. ring. }
  cbn [bind]. replace (length l + 1)%nat with (S (length l)) in Hq by lia. set (n := length l) in *.
  destruct (SL j n ltac:(lia)) as [S1 S2].
  destruct (apx_mul W W RNone HWW HL' Pos s 3 kf _ F q xf Hq Hf) as (a & -> & Hpa & _ & _).
  { clear - Hk. lia. }
  { apply mid_prod; [split; assumption|]. split; [exact F1|lra]. }
  cbn [bind]. rewrite sign_mul_pos in Hpa. replace (3 + kf + 1) with (kf + 4) in Hpa by (clear; lia).
  assert (S0 : (0 < S_ j (S n))%R) by (eapply Rlt_le_trans; [apply bpow_gt_0|exact S1]).
  assert (SF : (0 <= S_ j (S n) * F <= 2 * F)%R) by (split; [apply Rmult_le_pos; lra|apply Rmult_le_compat_r; lra]).
  pose proof Hpa as (_ & _ & _ & Lcp). assert (K4 : (0 <= IZR (kf + 4) * eps W <= / 512)%R). { rewrite plus_IZR. split; [apply Rmult_le_pos; lra|]. lra. }
  assert (TK : (0 <= 2 * (2 * t) * (IZR (kf + 4) * eps W) <= / 512)%R) by (clear - K4 Ht; nra).
  assert (SFt : (S_ j (S n) * F <= 2 * t * A)%R) by lra.
  pose proof (lc_wadd d1 (IZR (kf + 4) * eps W) _ _ _ _ (2 * t) ltac:(lra) ltac:(lra) ltac:(lra) SFt Lca Lcp) as LW. assert (DD : (d1 + 2 * (2 * t) * (IZR (kf + 4) * eps W) <= 1)%R) by lra.
  destruct (near_add W W RNone ltac:(apply HW) H64 HL s _ _ _ _ add a _ Ha Hpa DD LW) as (r & -> & Hr & Lr & _).
  { apply mid_low. split; [eapply low_weak with (j := - (2 ^ 28 + 2 ^ 27)); [clear; lia|]; lra|lra]. }
  apply ends_ok. exists n. split; [|split; [exact Lr|]].
  - replace (4 * t)%R with (2 * (2 * t))%R by ring. rewrite (Rmult_comm F). exact Hr.
  - assert (E1 : (F <= bpow radix2 (ne xf) * exp (IZR kf * eps W))%R). { pose proof (lc_sym _ _ _ Lcf) as (_ & _ & U). eapply Rle_trans; [exact U|]. apply Rmult_le_compat_r; [left; apply exp_pos|lra]. }
    assert (E2 : (bpow radix2 (ne add) <= 2 * A * exp d1)%R). { destruct Lca as (_ & _ & U). replace (bpow radix2 (ne add)) with (2 * bpow radix2 (ne add - 1))%R by (replace (ne add) with (1 + (ne add - 1)) at 2 by ring; rewrite bpow_plus; reflexivity). lra. }
    assert (E3 : (aC (j + S n) <= bpow radix2 (- head_exp l) * exp (eps W))%R).
    { destruct l as [|c0 l]; [cbn [head_exp]; change (bpow radix2 (- 0)) with 1%R; pose proof (aC_range (j + S n)); pose proof (exp_ge1 (eps W) ltac:(lra)); lra|]. cbn [head_exp coefs] in *. rewrite Z.opp_involutive. destruct Hl as [Hc0 _].
      destruct Hc0 as (W0 & N0 & _ & L0). destruct (normal_range c0 W0 N0) as [_ R0]. pose proof (lc_sym _ _ _ L0) as (_ & _ & U). rewrite Rmult_1_l in U. apply Rle_trans with (aC (j + length l)).
      { unfold n. cbn [length]. replace (j + S (S (length l)))%nat with (j + length l + 2)%nat by lia. generalize (j + length l)%nat. intros i. replace (i + 2)%nat with (S (S i)) by lia. pose proof (aC_decr i). pose proof (aC_decr (S i)). lra. }
      eapply Rle_trans; [exact U|]. apply Rmult_le_compat_r; [left; apply exp_pos|lra]. }
    assert (E4 : (X ^ S n <= bpow radix2 (ne xs * (Z.of_nat n + 1)))%R).
    { destruct (normal_range xs Wx Nx) as [_ B]. replace (ne xs * (Z.of_nat n + 1)) with (Z.of_nat (S n) * ne xs) by lia. clear - B. pose proof (Rabs_pos (value xs)) as H0. induction (S n) as [|m IH]; [cbn [pow]; rewrite Z.mul_0_l; right; reflexivity|].
      cbn [pow]. replace (Z.of_nat (S m) * ne xs) with (ne xs + Z.of_nat m * ne xs) by lia. rewrite bpow_plus. apply Rmult_le_compat; [exact H0|now apply pow_le|lra|exact IH]. }
    assert (E5 : (bpow radix2 (ne xf) * bpow radix2 (ne xs * (Z.of_nat n + 1)) * bpow radix2 (- head_exp l) <= bpow radix2 (ne add) * bpow radix2 (- W))%R).
    { rewrite <- !bpow_plus. apply bpow_le. clear - HE. lia. }
    assert (XP : (0 < X ^ S n)%R) by (apply pow_lt; exact X0). pose proof (aC_range (j + S n)) as CR.
    assert (E6 : (F * X ^ S n * aC (j + S n) <= (bpow radix2 (ne xf) * exp (IZR kf * eps W)) * bpow radix2 (ne xs * (Z.of_nat n + 1)) * (bpow radix2 (- head_exp l) * exp (eps W)))%R).
    { apply Rmult_le_compat; [apply Rmult_le_pos; lra|lra| |exact E3]. apply Rmult_le_compat; [lra|lra|exact E1|exact E4]. }
    set (x1 := bpow radix2 (ne xf)) in *. set (x2 := bpow radix2 (ne xs * (Z.of_nat n + 1))) in *. set (x3 := bpow radix2 (- head_exp l)) in *. set (x4 := bpow radix2 (ne add)) in *.
    replace (x1 * exp (IZR kf * eps W) * x2 * (x3 * exp (eps W)))%R with (x1 * x2 * x3 * exp (IZR kf * eps W + eps W))%R in E6 by (rewrite exp_plus; ring).
    set (G := exp (IZR kf * eps W + eps W)) in *. assert (G0 : (0 < G)%R) by apply exp_pos. eapply Rle_trans; [exact E6|].
    apply Rle_trans with (x4 * bpow radix2 (- W) * G)%R; [apply Rmult_le_compat_r; [left; exact G0|exact E5]|].
    apply Rle_trans with (2 * A * exp d1 * bpow radix2 (- W) * G)%R; [apply Rmult_le_compat_r; [left; exact G0|]; apply Rmult_le_compat_r; [apply bpow_ge_0|exact E2]|].
    assert (KE0 : (0 <= IZR kf * eps W)%R) by (apply Rmult_le_pos; lra).
    assert (E7 : (exp d1 * G <= 65 / 64)%R). { unfold G. rewrite <- exp_plus. eapply Rle_trans; [apply exp_near; lra|]. lra. }
    unfold eta. replace (1 - W) with (1 + - W) by ring. rewrite bpow_plus. change (bpow radix2 1) with 2%R. replace (2 * A * exp d1 * bpow radix2 (- W) * G)%R with (2 * A * bpow radix2 (- W) * (exp d1 * G))%R by ring. replace (65 / 64 * (2 * bpow radix2 (- W)) * A)%R with (2 * A * bpow radix2 (- W) * (65 / 64))%R by ring.
    apply Rmult_le_compat_l; [|exact E7]. apply Rmult_le_pos; [lra|apply bpow_ge_0].
Qed.

Definition summed2 (s : sign) (A : R) (q : num) : Prop :=
  exists N, (1 <= N)%nat /\ near (2 * eta W + eps W / 4) s (A + A * X * S_ 0 N) q /\ 64 * wlen q = W /\ (A * X * X ^ N * aC N <= 65 / 64 * eta W * A)%R.

Lemma series_rect_sharp f niter add xf g s A : apx W s 0 A add -> apx W s 1 (A * X) xf -> 64 * wlen add = W -> 64 * wlen xf = W -> atanh_at W 0%nat g ->
  (bpow radix2 (- 2 ^ 28) <= A * X)%R -> (A <= 1)%R -> 108 <= niter <= 900 -> (X <= / 32768)%R \/ niter <= 126 /\ (X <= / 8192)%R ->
  ends (series_rectangular atanh_next false f niter add xf xs g) (summed2 s A).
Proof.
  intros Ha Hf La Lf Hg F1 HA Hn HXn. assert (HX3 : (X <= / 8192)%R) by (destruct HXn as [H|[_ H]]; lra). unfold series_rectangular. rewrite !max_len, La, Lf, Lx, !Z.max_id.
  set (F := (A * X)%R) in *. assert (F0 : (0 < F)%R) by (eapply Rlt_le_trans; [apply bpow_gt_0|exact F1]). assert (A0 : (0 < A)%R) by (destruct Ha as (_ & _ & _ & H & _); exact H). assert (F2 : (F <= A)%R) by (unfold F; clear - A0 HX3 X0; nra).
  destruct (zero_wf_value W ltac:(clear - HW; lia) HL') as (z & -> & Wz & _ & Vz & _). cbn [done rbind].
  assert (CS : RECT_ITER_THRESHOLD <= niter < 2 ^ 32) by (change RECT_ITER_THRESHOLD with 108; clear - Hn; lia).
  destruct (cache_size niter CS) as [Z1 Z2]. set (szz := Z.min MAX_CACHE (sqrt_int niter)) in *. assert (Z3 : szz <= 128) by (unfold szz, MAX_CACHE; clear; lia). clearbody szz.
  set (sz := Z.to_nat szz) in *. assert (Esz : szz = Z.of_nat sz) by (unfold sz; clear - Z1; lia). clearbody sz. subst szz.
  assert (HXl : (2 * niter + 4) * (1 - ne xs) <= 2 ^ 27) by (apply Z.le_trans with (1804 * 128); [apply Z.mul_le_mono_nonneg; clear - Hn Elx Ex; lia|clear; lia]). assert (HJM : Z.of_nat JMAX = 2 ^ 23) by exact JMAX_Z.
  destruct (cache_loop_ok W W ltac:(clear - HW; lia) ltac:(apply HW22) H64 xs Wx Nx Sx Ex sz 1 xs) as (l & xp & -> & Ll & Hl & Hxp & Lxp).
  { eapply apx_same; [|eapply apx_weak; [|rewrite <- Sx; apply apx_self; eassumption]; clear; lia]. cbn [pow]. ring. }
  { exact Lx. } { clear - HXl Z2 Z1 Ex. nia. } { clear - Z3. lia. }
  cbn [done rbind]. change (1 + sz)%nat with (S sz) in Hxp.
  destruct (compute_row_ok W W atanh_gen atanh_next (atanh_at W) aC JMAX 1 26 ltac:(clear - HW; lia) ltac:(apply HW22) H64 ltac:(clear; lia) ltac:(clear; lia) aC_range aC_low HN xs Wx Nx Lx Ex l 0 g Hl) as (v & g' & -> & Hg' & Hv & Lv).
  { rewrite Ll. clear - HJM Z2 Hn. lia. } { rewrite Ll. clear - HXl Z2 Z1 Ex. nia. } { rewrite Ll. clear - Z3. lia. } { exact Hg. }
  rewrite Ll, Nat.add_0_l in *. cbn [done rbind].
  destruct (apx_add_zero W Pos _ _ z v W Wz ltac:(now apply value_zero_iff) Hv) as (acc & -> & Hacc & Lacc).
  { rewrite H64, Lv. lia. } { clear - HW. lia. } { exact HL'. }
  rewrite H64 in Lacc. cbn [done rbind]. rewrite (proj2 (Z.ltb_ge niter (Z.of_nat sz))) by (clear - Z2 Z1; lia).
  eapply ends_bind.
  { apply (rect_loop_ok W W atanh_gen atanh_next (atanh_at W) aC JMAX 1 26 ltac:(clear - HW; lia) ltac:(apply HW22) H64 ltac:(clear; lia) ltac:(clear; lia) aC_range aC_low HN xs Wx Nx Lx Ex l xp sz Hl Ll ltac:(clear - Z1; lia) Hxp f 1%nat (niter - Z.of_nat sz) acc xp g').
    - clear - Z2. lia.
    - replace (Z.of_nat 1 * Z.of_nat sz + (niter - Z.of_nat sz)) with niter by (clear; lia). exact HXl.
    - clear - HJM Hn. lia.
    - clear - Hn. lia.
    - lia.
    - rewrite Nat.mul_1_l. exact Hg'.
    - rewrite Nat.mul_1_l. eapply apx_weak; [|exact Hacc]. unfold krow. clear. lia.
    - exact Lacc.
    - rewrite Nat.mul_1_l. eapply apx_weak; [|exact Hxp]. clear. lia. }
  intros [[[acc' tp'] nt'] g''] (r & Hr & Hnt & Hsum & Hg'' & Ha' & La' & Ht' & Lt').
  assert (Hrs : 1 <= Z.of_nat r /\ Z.of_nat r * Z.of_nat sz <= 900) by (clear - Hsum Hnt Hn Hr; lia). assert (Hr9 : Z.of_nat r <= 900) by (clear - Hrs Z1; nia).
  assert (I1 : Z.of_nat (r * S sz) <= 2 * niter) by (clear - Hsum Hnt Z1 Hr; nia).
  assert (J1 : (1 <= r * S sz)%nat) by (clear - Hr; nia).
  assert (I8 : niter <= 126 -> krow 1 sz r <= 1021) by (unfold krow; clear - Hsum Hnt Z1 Z2 Hr; nia). assert (I4 : krow 1 sz r <= 4897) by (unfold krow; clear - Hrs Hr9 Z1 Z3; nia). assert (I5 : Z.of_nat r * (Z.of_nat sz + 2) <= 2700) by (clear - Hrs Hr9; lia). assert (I6 : 0 <= krow 1 sz r) by (unfold krow; clear; nia). assert (I7 : 0 <= Z.of_nat r * (Z.of_nat sz + 2)) by (clear; nia).
  set (kr := krow 1 sz r) in *. clearbody kr. set (kt := Z.of_nat r * (Z.of_nat sz + 2)) in *. clearbody kt. set (j := (r * S sz)%nat) in *. clearbody j.
  assert (X1 : (0 < X ^ j <= X)%R). { destruct j as [|i]; [clear - J1; lia|]. cbn [pow]. pose proof (pow_lt X i X0) as Y0. assert (X ^ i <= 1)%R by (apply pow_le1; lra). split; [apply Rmult_lt_0_compat; assumption|]. apply Rle_trans with (X * 1)%R; [apply Rmult_le_compat_l; lra|lra]. }
  assert (X3 : (bpow radix2 (- 2 ^ 27) <= X ^ j)%R) by (apply (Xpow_low xs Wx Nx Ex); clear - I1 HXl Ex; nia).
  assert (SJ : (bpow radix2 (- 2 ^ 29) <= S_ 0 j <= 2)%R) by (destruct j as [|i]; [clear - J1; lia|]; apply SL; clear; lia). destruct SJ as [S1 S2].
  pose proof (SC 0 j) as S3. rewrite aC0 in S3.
  destruct (apx_mul W W RNone HWW HL' Pos s _ 1 _ F acc' xf Ha' Hf) as (af & -> & Haf & Laf & _).
  { clear - I4. lia. }
  { apply mid_prod; [split; assumption|]. split; [eapply low_weak; [|exact F1]; clear; lia|lra]. }
  cbn [done rbind]. rewrite sign_mul_pos in Haf.
  destruct (apx_mul W W RNone HWW HL' Pos s _ 1 _ F tp' xf Ht' Hf) as (tf & -> & Htf & Ltf & _).
  { clear - I5. lia. }
  { apply mid_prod; [split; [eapply low_weak; [|exact X3]; clear; lia|lra]|]. split; [eapply low_weak; [|exact F1]; clear; lia|lra]. }
  cbn [done rbind]. rewrite sign_mul_pos in Htf. rewrite H64 in Ltf.
  pose proof (eps_pos W) as EP. pose proof (eps_tiny W ltac:(apply HW)) as ET. pose proof (eta_eps W) as EE.
  set (t := (2 / 3 * X)%R). assert (Ht : (0 <= t <= 2 / 24576)%R) by (unfold t; lra).
  assert (SF : (S_ 0 j * F <= t * A)%R). { unfold t, F. replace (2 / 3 * X * A)%R with (2 / 3 * (A * X))%R by ring. apply Rmult_le_compat_r; [left; exact F0|lra]. }
  assert (SF0 : (0 <= S_ 0 j * F)%R) by (apply Rmult_le_pos; lra). assert (SF2 : (S_ 0 j * F <= 2 * F)%R) by (apply Rmult_le_compat_r; lra).
  pose proof Haf as (_ & _ & _ & Lcf). pose proof Ha as (_ & _ & _ & Lca).
  assert (KR : (0 <= IZR (kr + 1 + 1) <= 4899)%R) by (split; apply IZR_le; clear - I4 I6; lia). set (d2 := (IZR (kr + 1 + 1) * eps W)%R) in *. assert (D2 : (0 <= d2 <= 4899 * eps W)%R) by (unfold d2; split; [apply Rmult_le_pos; lra|apply Rmult_le_compat_r; lra]).
  assert (XK : (X * IZR (kr + 1 + 1) <= 15 / 100)%R). { destruct HXn as [H|[H1 H2]]; [apply Rle_trans with (/ 32768 * 4899)%R; [apply Rmult_le_compat; lra|lra]|]. assert (IZR (kr + 1 + 1) <= 1023)%R by (apply IZR_le; specialize (I8 H1); clear - I8; lia). apply Rle_trans with (/ 8192 * 1023)%R; [apply Rmult_le_compat; lra|lra]. }
  assert (TD : (0 <= 2 * t * d2 <= 24 / 100 * eps W)%R). { split; [apply Rmult_le_pos; lra|]. unfold t, d2. replace (2 * (2 / 3 * X) * (IZR (kr + 1 + 1) * eps W))%R with (4 / 3 * (X * IZR (kr + 1 + 1)) * eps W)%R by field. apply Rmult_le_compat_r; lra. }
  pose proof (lc_wadd (IZR 0 * eps W) d2 _ _ _ _ t ltac:(cbn; lra) ltac:(lra) ltac:(lra) SF Lca Lcf) as LW. assert (DD : (IZR 0 * eps W + 2 * t * d2 <= 1)%R) by (cbn; lra). rewrite (Rplus_comm A), (Rplus_comm (Rabs (value add))) in LW.
  destruct (near_add W W RNone ltac:(apply HW) H64 HL s _ _ _ _ af add _ Haf Ha DD LW) as (ad & -> & Had & Lad & _).
  { apply mid_low. split; [eapply low_weak with (j := - 2 ^ 28); [clear; lia|]; lra|lra]. }
  cbn [done rbind]. rewrite (proj2 (Z.ltb_lt nt' (MAX_CACHE * 10))) by (unfold MAX_CACHE; clear - Hnt Z3; lia). cbn [negb andb].
  set (d1 := (IZR 0 * eps W + 2 * t * d2 + eta W)%R) in *. assert (D1 : (0 <= d1 <= 24 / 100 * eps W + eta W)%R) by (unfold d1; cbn; pose proof (eta_pos W); lra).
  assert (FX : (bpow radix2 (- (2 ^ 28 + 2 ^ 27)) <= X ^ j * F)%R). { replace (- (2 ^ 28 + 2 ^ 27)) with (- 2 ^ 27 + - 2 ^ 28) by reflexivity. now apply low_mul. }
  assert (FX2 : (X ^ j * F <= / 60000000 * (S_ 0 j * F + A))%R). { apply Rle_trans with (/ 60000000 * A)%R; [|lra]. unfold F. apply Rle_trans with (/ 8192 * (A * / 8192))%R; [apply Rmult_le_compat; [lra|left; exact F0|lra|apply Rmult_le_compat_l; lra]|lra]. }
  eapply ends_weak.
  { apply (series_horner_sharp f ad tf g'' s (S_ 0 j * F + A) (X ^ j * F) d1 (kt + 1 + 1) j (/ 60000000)); [exact Had|exact Htf|exact Lad|exact Ltf|exact Hg''|lra|clear - I5 I7; lia|exact FX|lra|exact FX2|lra|]. rewrite HJM. unfold J22. clear - I1 Hn. lia. }
  intros q (N & Hq & Lq & Tq). exists (j + S N)%nat. split; [clear; lia|]. split; [|split; [exact Lq|]].
  - replace (A + A * X * S_ 0 (j + S N))%R with (S_ 0 j * F + A + X ^ j * F * S_ j (S N))%R by (rewrite psum_app, Nat.add_0_l; unfold F; ring). eapply near_weak; [|exact Hq].
    assert (KT : (0 <= IZR (kt + 1 + 1 + 4) <= 3000)%R) by (split; apply IZR_le; clear - I5 I7; lia). assert (IZR (kt + 1 + 1 + 4) * eps W <= 3000 * eps W)%R by (apply Rmult_le_compat_r; lra). lra.
  - fold F. rewrite pow_add. replace (F * (X ^ j * X ^ S N) * aC (j + S N))%R with (X ^ j * F * X ^ S N * aC (j + S N))%R by ring. eapply Rle_trans; [exact Tq|].
    replace (65 / 64 * eta W * A)%R with (eta W * (65 / 64 * A))%R by ring. apply Rmult_le_compat_l; [left; apply eta_pos|]. assert (t * A <= / 64 * A)%R by (apply Rmult_le_compat_r; lra). lra.
Qed.

Theorem series_run_sharp f niter add xf g s A : apx W s 0 A add -> apx W s 1 (A * X) xf -> 64 * wlen add = W -> 64 * wlen xf = W -> atanh_at W 0%nat g ->
  (bpow radix2 (- 2 ^ 28) <= A * X)%R -> (A <= 1)%R -> 0 <= niter <= 900 -> (108 <= niter -> (X <= / 32768)%R \/ niter <= 126 /\ (X <= / 8192)%R) ->
  ends (series_run atanh_next false f add xf xs niter g) (fun q => summed2 s A q /\ ninexact q = true).
Proof.
  intros Ha Hf La Lf Hg F1 HA Hn HX3. unfold series_run.
  rewrite (is_zero_false xf) by (destruct Hf as (Wf0 & [_ N] & _); assumption). rewrite (is_zero_false xs) by (destruct Nx; assumption). cbn [orb].
  assert (A0 : (0 < A)%R) by (destruct Ha as (_ & _ & _ & H & _); exact H). pose proof (eps_pos W) as EP. pose proof (eta_pos W) as EH.
  eapply (ends_bind _ _ (summed2 s A)).
  - change RECT_ITER_THRESHOLD with 108. destruct (Z.leb_spec 108 niter) as [T|T].
    + apply series_rect_sharp; try assumption; [clear - T Hn; lia|]. apply HX3. exact T.
    + eapply ends_weak.
      { apply (series_horner_sharp f add xf g s A (A * X) 0 1 0%nat (/ 512)); [|exact Hf|exact La|exact Lf|exact Hg|lra|clear; lia|eapply low_weak; [|exact F1]; clear; lia|lra| |lra|].
        - eapply near_weak; [|exact Ha]. cbn. lra.
        - rewrite Rmult_comm. apply Rmult_le_compat_r; lra.
        - rewrite JMAX_Z. unfold J22. clear. lia. }
      intros q (N & Hq & Lq & Tq). exists (S N). split; [clear; lia|]. split; [|split; [exact Lq|]].
      * eapply near_weak; [|exact Hq]. change (IZR (1 + 4)) with 5%R. lra.
      * rewrite Nat.add_0_l in Tq. eapply Rle_trans; [exact Tq|]. apply Rmult_le_compat_r; lra.
  - intros q (N & HN1 & Hq & Lq & Tq). apply ends_ok. split; [|reflexivity]. exists N. split; [exact HN1|]. split; [|split; [exact Lq|exact Tq]].
    destruct Hq as (Wq & Nq & Sq & Lcq). split; [now apply wf_inexact|]. split; [exact Nq|]. split; [exact Sq|exact Lcq].
Qed.
End Sharp.
