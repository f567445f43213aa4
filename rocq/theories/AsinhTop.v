(** The inverse hyperbolic sine and cosine. *)

From Coq Require Import ZArith List Bool Lia Reals Lra.
From Flocq Require Import Core Relative.
From Verif Require Import ElemR Words IntModel Mantissa Num Pow Consts Elem Ctx Series Ln Exp Hyp InvHyp SpecZ SpecOps SpecConst SpecReach SpecPow SpecElem WordsP Spec RealP RealP2 NumP CmpP AddP SetP AddNum MulNum DivNum RootNum ArithTop RoundableNum PowNum PowTop ConstP ConstTop ConstNum ConstReach ConvNum Conv2Num SmallP PowExt IntNum CtxP ElemNum ElemDom ApproxR ApproxNum SeriesP SeriesNum SinhNum SinhTop ExpNum RetryNum ExpTop HypTop LnR LnConst LnNum LnSharp LnSharp2 LnSharp3 LnMant LnTop LnUse RoundTrunc AtanhTop SpecInvHyp AsinhR ElemInf.
Import ListNotations.
Open Scope Z_scope.
Ltac Zify.zify_post_hook ::= idtac.
Arguments Z.mul : simpl never.
Arguments Z.add : simpl never.
Arguments Z.pow : simpl never.
Arguments Z.sub : simpl never.
Arguments Z.of_nat : simpl never.
Ltac dlia := Z.div_mod_to_equations; lia.

(** ** Large arguments: ln(2 x) *)
Definition fits (r : R) (w : Z) (ret : num) : Prop := forall p rm, 0 < p -> p mod 64 = 0 -> p + 64 <= w -> accepts r p rm w ret.

Lemma ln_double_ok h g c x w r : lreach c -> wf x -> normal x -> (0 < value x)%R -> large_arg (ne x) w = true -> w mod 64 = 0 -> 128 <= w -> 64 * wlen x <= w ->
  work h (w + 128) 64 <= 2 ^ 14 -> (Rabs (ln (2 * value x) - r) <= / (value x * value x))%R -> lends (ln_double h g c x (ne x) w) (fits r w).
Proof.
  intros Hc W N V0 HL Hw64 Hw HLen HB HD. unfold large_arg in HL. apply Z.ltb_lt in HL. destruct (normal_range x W N) as [A1 A2]. rewrite Rabs_pos_eq in A1, A2 by lra. pose proof (wf_exp x W) as [E1 E2]. set (v := value x) in *. set (e := ne x) in *.
  assert (EL : 2 * w + 6 <= e - 1). { pose proof (Z.quot_rem' (e - 1) 2) as Q. pose proof (Z.rem_bound_abs (e - 1) 2 ltac:(lia)) as Q2. assert (Q3 : 0 <= e - 1) by lia. pose proof (Z.rem_nonneg (e - 1) 2 ltac:(lia) Q3) as Q4. lia. }
  pose proof (work_ge h (w + 128) 64 ltac:(lia) ltac:(lia)) as HG. change (2 ^ 14) with 16384 in *. change EMAX with 2147483647 in *.
  assert (L2 : ln (2 * v) = (ln 2 + ln v)%R) by (apply ln_mult; lra). pose proof ln2_range as LR.
  assert (LV : (IZR (e - 1) * ln 2 <= ln v <= IZR e * ln 2)%R). { assert (X : forall k, ln (bpow radix2 k) = (IZR k * ln 2)%R) by (intros k; rewrite bpow_exp, ln_exp; reflexivity). rewrite <- !X. pose proof (bpow_gt_0 radix2 (e - 1)). split; apply ln_mono; lra. }
  assert (EZ : (262 <= IZR (e - 1))%R) by (apply (IZR_le 262); lia). assert (EZ2 : (IZR e <= 2147483647)%R) by (apply (IZR_le e 2147483647); lia).
  assert (EL1 : (262 * (2 / 3) <= IZR (e - 1) * ln 2)%R) by (apply Rmult_le_compat; lra). assert (IE0 : (0 <= IZR e)%R) by (apply IZR_le; lia). assert (EL2 : (IZR e * ln 2 <= 2147483647 * (7 / 10))%R) by (apply Rmult_le_compat; lra).
  assert (T1 : (/ (v * v) <= bpow radix2 (- (w + 74)))%R).
  { assert (B : (bpow radix2 (w + 74) <= v * v)%R). { apply Rle_trans with (bpow radix2 (e - 1) * bpow radix2 (e - 1))%R; [rewrite <- bpow_plus; apply bpow_le; lia|]. pose proof (bpow_gt_0 radix2 (e - 1)). apply Rmult_le_compat; lra. }
    rewrite bpow_opp. apply Rinv_le_contravar; [apply bpow_gt_0|exact B]. }
  assert (T2 : (bpow radix2 (- (w + 74)) <= / 1024 * bpow radix2 (- (w + 64)))%R). { change (/ 1024)%R with (bpow radix2 (-10)). rewrite <- bpow_plus. apply bpow_le. lia. }
  assert (T3 : (bpow radix2 (- (w + 64)) <= / 1048576 * bpow radix2 (- w))%R). { change (/ 1048576)%R with (bpow radix2 (-20)). rewrite <- bpow_plus. apply bpow_le. lia. }
  assert (T4 : (bpow radix2 (- w) <= / 1048576)%R) by (change (/ 1048576)%R with (bpow radix2 (-20)); apply bpow_le; lia). pose proof (bpow_gt_0 radix2 (- w)) as T0. pose proof (bpow_gt_0 radix2 (- (w + 64))) as T5.
  assert (HD2 : (Rabs (ln (2 * v) - r) <= / 1024 * bpow radix2 (- (w + 64)))%R) by lra. pose proof (Rabs_le_inv _ _ HD2) as HD3.
  set (a := ln (2 * v)) in *. assert (IE : (0 <= IZR (e - 1))%R) by lra. assert (AR : (100 <= a <= 2147483648)%R). { rewrite L2. lra. }
  assert (RR : (99 <= r <= 2147483649)%R) by lra. assert (RB : (r <= bpow radix2 100)%R) by (eapply Rle_trans; [apply RR|]; change (bpow radix2 100) with (IZR (2 ^ 100)); apply IZR_le; vm_compute; discriminate).
  assert (PW : prec_up w = w) by (unfold prec_up; clear - Hw64; dlia).
  unfold ln_double. destruct (Z.eqb_spec e EXPONENT_MAX) as [EM|EM].
  - assert (PW2 : prec_up (w + 2) = w + 64) by (unfold prec_up; clear - Hw64; dlia).
    assert (V1 : v <> 1%R). { intros Q. rewrite Q, ln_1 in LV. assert (262 * ln 2 <= IZR (e - 1) * ln 2)%R by (apply Rmult_le_compat_r; lra). lra. }
    destruct (ln_close h g c x (w + 2) Hc W V0 V1 ltac:(lia) ltac:(lia)) as [-> |(c1 & q & -> & Hc1 & Lq & Iq & Sq & (Wq & Nq & _ & LQ) & _)]; [rewrite PW2; replace (w + 64 + 64) with (w + 128) by ring; exact HB|left; reflexivity|]. cbn [lbind]. rewrite PW2 in Lq, LQ. fold v in Sq, LQ.
    destruct (ln2_num_ok c1 (w + 2) Hc1 ltac:(lia)) as (c2 & p2 & E & Hc2 & CR). { rewrite PW2. change (2 ^ 22) with 4194304. lia. } rewrite E. cbn [lbind]. rewrite PW2 in CR. pose proof (ln2_apx (w + 64) p2 ltac:(lia) CR) as (W2 & N2 & S2 & L2').
    pose proof (eta_small (w + 64) ltac:(lia)) as ES. pose proof (eta_pos (w + 64)) as EP. pose proof (eps_eta (w + 64)) as EE. set (et := eta (w + 64)) in *.
    assert (LVP : (60 <= ln v)%R) by lra. assert (EB : (et = 65 / 32 * bpow radix2 (- (w + 64)))%R). { unfold et, eta. unfold Z.sub. rewrite bpow_plus. change (bpow radix2 1) with 2%R. lra. }
    pose proof (lc_abs_near (2 * et) _ _ ltac:(lra) LQ) as X1. pose proof (lc_abs_near (IZR 2 * eps (w + 64)) _ _ ltac:(rewrite EE; fold et; lra) L2') as X2.
    pose proof (value_has_sign q Wq ltac:(apply Nq)) as HSq. assert (SP : ns q = Pos). { destruct (ns q); [|reflexivity]. unfold has_sign in Sq. cbn [sgnZ] in Sq. lra. }
    rewrite SP in HSq. unfold has_sign in HSq. cbn [sgnZ] in HSq. pose proof (value_has_sign p2 W2 ltac:(apply N2)) as HS2. rewrite S2 in HS2. unfold has_sign in HS2. cbn [sgnZ] in HS2.
    rewrite (Rabs_pos_eq (value q)), (Rabs_pos_eq (ln v)) in X1 by lra. rewrite (Rabs_pos_eq (value p2)) in X2 by lra. rewrite EE in X2. fold et in X2.
    assert (M : mid (Rabs r)). { apply (mid_small 100); [vm_compute; split; discriminate|]. rewrite Rabs_pos_eq by lra. split; [|exact RB]. apply Rle_trans with 1%R; [change 1%R with (bpow radix2 0); apply bpow_le; lia|lra]. }
    assert (DD : (Rabs (value p2 + value q - r) <= 8 * et * Rabs r)%R).
    { rewrite (Rabs_pos_eq r) by lra. apply Rabs_le_inv in X1, X2. assert (0 <= et * ln v)%R by (apply Rmult_le_pos; lra). assert (0 <= et * ln 2 <= et * 1)%R by (split; [apply Rmult_le_pos|apply Rmult_le_compat_l]; lra). assert (et * 60 <= et * r)%R by (apply Rmult_le_compat_l; lra). assert (et * (r - ln v) >= 0)%R. { apply Rle_ge, Rmult_le_pos; lra. } apply Rabs_le. split; lra. }
    assert (II : ninexact p2 || ninexact q = true) by (rewrite Iq; apply orb_true_r).
    destruct (sum_round p2 q (w + 64) (w + 2) r (8 * et) ltac:(lia) PW2 ltac:(eapply Z.le_lt_trans with 16384; [lia|vm_compute; reflexivity]) W2 N2 Wq Nq ltac:(lra) M ltac:(lra) DD II) as (y & Ey & Wy & Ny & Ly & Iy & Sy & Dy). fold et in Dy.
    unfold n_add in Ey |- *. rewrite Ey. unfold lpure. right. exists c2, y. split; [reflexivity|]. split; [exact Hc2|]. intros p rm Hp Hp64 Hpw. apply good_accepts; try assumption; [|rewrite Rabs_pos_eq by lra; exact RB].
    split; [exact Wy|]. split; [exact Ny|]. split; [exact Iy|]. split; [lia|]. split; [exact Sy|]. eapply Rle_trans; [exact Dy|]. apply Rmult_le_compat_r; [apply Rabs_pos|]. lra.
  - change EXPONENT_MAX with 2147483647 in EM. pose proof (set_exponent_spec x (e + 1) W ltac:(change EMAX with 2147483647; change EMIN with (-2147483648) in *; lia)) as SE. cbv zeta in SE. destruct SE as (W1 & L1 & S1 & I1 & VV). set (y := set_exponent x (e + 1)) in *. clearbody y. fold e v in VV. replace (e + 1 - e) with 1 in VV by ring. change (bpow radix2 1) with 2%R in VV.
    assert (VY : value y = (2 * v)%R) by (rewrite VV; ring).
    destruct (ln_close h g c y w Hc W1 ltac:(rewrite VY; lra)) as [-> |(c1 & q & -> & Hc1 & Lq & Iq & Sq & (Wq & Nq & _ & LQ) & (b & Cb & Vb))].
    + rewrite VY. intros Q. assert (X : a = 0%R) by (unfold a; rewrite Q; apply ln_1). lra.
    + lia.
    + lia.
    + rewrite PW. apply Z.le_trans with (work h (w + 128) 64); [apply work_mono; lia|exact HB].
    + left. reflexivity.
    + right. exists c1, q. split; [reflexivity|]. split; [exact Hc1|]. rewrite PW in *. rewrite VY in *. fold a in Sq, LQ, Cb. intros p rm Hp Hp64 Hpw.
      assert (SP : ns q = Pos). { destruct (ns q); [|reflexivity]. unfold has_sign in Sq. cbn [sgnZ] in Sq. lra. }
      apply (accept_trunc r b); try assumption; [lra|]. unfold close in Cb. rewrite (Rabs_pos_eq a) in Cb by lra.
      replace (b - r)%R with ((b - a) + (a - r))%R by ring. eapply Rle_trans; [apply Rabs_triang|].
      assert (B2 : (bpow radix2 (- (w + 64)) <= / 1048576 * bpow radix2 (- (w + 2)))%R). { change (/ 1048576)%R with (bpow radix2 (-20)). rewrite <- bpow_plus. apply bpow_le. lia. }
      assert (B3 : (a * bpow radix2 (- (w + 64)) <= 2 * r * bpow radix2 (- (w + 64)))%R) by (apply Rmult_le_compat_r; lra).
      assert (B4 : (2 * r * bpow radix2 (- (w + 64)) <= 2 * r * (/ 1048576 * bpow radix2 (- (w + 2))))%R) by (apply Rmult_le_compat_l; lra).
      assert (B5 : (1 * bpow radix2 (- (w + 2)) <= r * bpow radix2 (- (w + 2)))%R) by (apply Rmult_le_compat_r; [apply bpow_ge_0|lra]). pose proof (bpow_gt_0 radix2 (- (w + 2))). lra.
Qed.

(** ** asinh: other arguments *)
Lemma asinh_round h g c x px w : lreach c -> wf x -> normal x -> (0 < value x)%R -> Z.abs (ne x) <= 2 ^ 17 -> 128 <= w -> w mod 64 = 0 -> prec_up (w + (Z.abs (ne x) + 5)) = px -> work h (px + 64) 64 <= 2 ^ 14 ->
  large_arg (ne x) w = false -> lends (asinh_step h g c x (ne x) w) (good w (arcsinh (value x))).
Proof.
  intros Hc W N V0 HE Hw Hw64 HP HB HL. unfold asinh_step. rewrite HL. clear HL. set (pp := w + (Z.abs (ne x) + 5)) in *. pose proof (work_ge h (px + 64) 64) as HG.
  assert (PX : w + 64 <= px /\ pp <= px) by (rewrite <- HP; unfold pp, prec_up; clear - Hw64; dlia). specialize (HG ltac:(lia) ltac:(lia)). change (2 ^ 14) with 16384 in *. assert (PL : px < P_LIM) by (apply Z.le_lt_trans with 16384; [lia|vm_compute; reflexivity]).
  destruct (normal_range x W N) as [A1 A2]. pose proof (value_has_sign x W ltac:(apply N)) as HS. assert (SX : ns x = Pos). { destruct (ns x); [|reflexivity]. unfold has_sign in HS. cbn [sgnZ] in HS. lra. }
  rewrite Rabs_pos_eq in A1, A2 by lra. set (v := value x) in *. set (e := ne x) in *. destruct (asinh_root v V0) as (R1 & R2 & R3). set (s := sqrt (v * v + 1)) in *.
  pose proof (eta_small px ltac:(lia)) as ES. pose proof (eta_pos px) as EP. set (et := eta px) in *.
  assert (SV : (s <= v + 1)%R) by (apply Rnot_lt_le; intros Q; nra). set (k := 2 ^ 17) in *. assert (K : 131072 = k) by reflexivity.
  assert (VK : (bpow radix2 (- (k + 1)) <= v <= bpow radix2 k)%R). { split; [eapply Rle_trans; [|exact A1]|left; eapply Rlt_le_trans; [exact A2|]]; apply bpow_le; lia. }
  pose proof (bpow_gt_0 radix2 (- (k + 1))) as BK0. assert (BK1 : (1 <= bpow radix2 k)%R) by (change 1%R with (bpow radix2 0); apply bpow_le; lia).
  assert (KK : (bpow radix2 (2 * k + 2) = bpow radix2 k * bpow radix2 k * 4)%R) by (replace (2 * k + 2) with (k + k + 2) by ring; rewrite !bpow_plus; reflexivity).
  assert (KL : (bpow radix2 (- (2 * k + 2)) = bpow radix2 (- (k + 1)) * bpow radix2 (- (k + 1)))%R) by (rewrite <- bpow_plus; f_equal; ring). assert (KL1 : (bpow radix2 (- (k + 1)) <= 1)%R) by (change 1%R with (bpow radix2 0); apply bpow_le; lia).
  assert (MM : forall a, (v * v <= a \/ v <= a)%R -> (a <= 2 * v + 2 \/ a <= v * v + 1)%R -> mid a).
  { intros a H1 H2. apply (mid_small (2 * k + 2)); [rewrite <- K; vm_compute; split; discriminate|]. rewrite KK, KL. split; [destruct H1; nra|destruct H2; nra]. }
  assert (NX : near 0 Pos v x) by (split; [exact W|split; [exact N|split; [exact SX|fold v; rewrite Rabs_pos_eq by lra; apply lc_refl; exact V0]]]).
  destruct (near_mul px pp RNone ltac:(lia) HP PL _ _ _ _ _ _ _ _ NX NX ltac:(lra) (MM (v * v)%R ltac:(left; lra) ltac:(right; lra))) as (xx & Exx & Nxx & _ & _). change (sign_mul Pos Pos) with Pos in Nxx. fold et in Nxx.
  pose proof ONE_wf as W1. pose proof ONE_nonzero as N1. pose proof ONE_value as VO.
  assert (NO : near 0 Pos 1 ONE). { split; [exact W1|]. split; [apply normal_iff; [exact W1|]; rewrite VO, Rabs_R1; change 1%R with (bpow radix2 0); apply bpow_le; vm_compute; discriminate|]. split; [reflexivity|]. rewrite VO, Rabs_R1. apply lc_refl. lra. }
  assert (LD : lc et (v * v + 1) (Rabs (value xx) + Rabs (value ONE))). { apply lc_add; [apply (lc_weak (0 + 0 + et)); [lra|apply Nxx]|apply (lc_weak 0); [lra|apply NO]]. }
  destruct (near_add px pp RNone ltac:(lia) HP PL _ _ _ _ _ _ _ et Nxx NO ltac:(lra) LD (MM (v * v + 1)%R ltac:(left; lra) ltac:(right; lra))) as (d1 & Ed1 & Nd1 & _ & _). fold et in Nd1.
  destruct (near_sqrt px pp RNone _ _ _ ltac:(lia) HP PL Nd1 ltac:(lra) (MM s ltac:(right; lra) ltac:(left; lra))) as (d2 & Ed2 & Nd2 & _). fold et s in Nd2.
  assert (LD2 : lc (2 * et) (s + v) (Rabs (value d2) + Rabs (value x))). { apply lc_add; [apply (lc_weak ((et + et) / 2 + et)); [lra|apply Nd2]|apply (lc_weak 0); [lra|apply NX]]. }
  destruct (near_add px pp RFromZero ltac:(lia) HP PL _ _ _ _ _ _ _ (2 * et)%R Nd2 NX ltac:(lra) LD2 (MM (s + v)%R ltac:(right; lra) ltac:(left; lra))) as (d3 & Ed3 & (W3 & N3 & S3 & LC3) & L3 & _). fold et in LC3.
  rewrite Exx. cbn [bind]. rewrite Ed1. cbn [bind]. rewrite Ed2. cbn [bind]. rewrite Ed3. unfold lpure. cbn [lbind].
  rewrite arcsinh_root. fold s. pose proof (asinh_low v V0) as AL. fold s in AL. replace (s + v)%R with (v + s)%R in LC3 by ring. set (y := (v + s)%R) in *. pose proof (value_has_sign d3 W3 ltac:(apply N3)) as HS3. rewrite S3 in HS3. unfold has_sign in HS3. cbn [sgnZ] in HS3. rewrite (Rabs_pos_eq (value d3)) in LC3 by lra.
  assert (RL : (/ 3 * bpow radix2 (- Z.abs e) <= v / (1 + v))%R).
  { assert (BE : (bpow radix2 (- Z.abs e) <= 1)%R) by (change 1%R with (bpow radix2 0); apply bpow_le; lia). pose proof (bpow_gt_0 radix2 (- Z.abs e)) as B0. set (b := bpow radix2 (- Z.abs e)) in *. apply Rmult_le_reg_r with (1 + v)%R; [lra|]. replace (v / (1 + v) * (1 + v))%R with v by (field; lra).
    assert (BV : (b <= 2 * v)%R). { apply Rle_trans with (2 * bpow radix2 (e - 1))%R; [|lra]. change 2%R with (bpow radix2 1) at 1. rewrite <- bpow_plus. apply bpow_le. lia. } nra. }
  assert (LY : (0 < ln y)%R) by (pose proof (bpow_gt_0 radix2 (- Z.abs e)); lra).
  apply (ln_good h g c d3 pp w y (2 * et + et)); try assumption; try (rewrite HP; exact HB); try (rewrite HP; lia); try lra.
  - rewrite Rabs_pos_eq by lra. apply Rle_trans with (13 / 16 * bpow radix2 (- w) * (/ 3 * bpow radix2 (- Z.abs e)))%R; [|apply Rmult_le_compat_l; [pose proof (bpow_gt_0 radix2 (- w)); lra|lra]].
    assert (EB : (et <= 65 / 64 * / 16 * (bpow radix2 (- w) * bpow radix2 (- Z.abs e)))%R). { unfold et, eta. rewrite Rmult_assoc. apply Rmult_le_compat_l; [lra|]. change (/ 16)%R with (bpow radix2 (-4)). rewrite <- !bpow_plus. apply bpow_le. unfold pp in PX. lia. }
    pose proof (bpow_gt_0 radix2 (- w)). pose proof (bpow_gt_0 radix2 (- Z.abs e)). assert (0 < bpow radix2 (- w) * bpow radix2 (- Z.abs e))%R by (apply Rmult_lt_0_compat; lra). lra.
Qed.

(** ** acosh: other arguments *)
Lemma acosh_gap x : wf x -> normal x -> (1 < value x)%R -> let n := if ne x =? 1 then count_leading_zeroes_skip_first (mm (nm x)) else 0 in 0 <= n <= 64 * wlen x /\ (bpow radix2 (- n) <= value x - 1)%R.
Proof.
  intros W N V n. destruct (normal_range x W N) as [A1 A2]. rewrite Rabs_pos_eq in A1, A2 by lra. pose proof (zlen_nonneg (mm (nm x))) as L0. fold (wlen x) in L0. assert (E1 : 1 <= ne x). { assert (0 < ne x); [|lia]. apply (lt_bpow radix2). change (bpow radix2 0) with 1%R. lra. }
  unfold n. clear n. destruct (Z.eqb_spec (ne x) 1) as [E|E].
  - pose proof (wf_words x W) as Hok. destruct N as [Nb Nz]. pose proof (val_bound _ Hok) as VB. fold (magnitude x) (wlen x) in VB. pose proof (wf_bits x W) as HB. rewrite Nb in HB.
    assert (M0 : 0 < magnitude x) by (unfold nonzero in Nz; lia). pose proof (bitlen_spec _ M0) as BS. rewrite <- HB in BS. assert (L1 : 0 < wlen x) by (pose proof (bitlen_pos _ M0); lia).
    rewrite (clz_skip_spec _ Hok L1). fold (magnitude x) (wlen x). set (L := 64 * wlen x) in *. set (b := magnitude x mod 2 ^ (L - 1)).
    assert (P2 : 2 ^ L = 2 * 2 ^ (L - 1)) by (rewrite <- Z.pow_succ_r by lia; f_equal; lia). pose proof (Z.pow_pos_nonneg 2 (L - 1) ltac:(lia) ltac:(lia)) as PP.
    assert (EB : b = magnitude x - 2 ^ (L - 1)). { unfold b. symmetry. apply Z.mod_unique with 1; lia. }
    assert (HS : ns x = Pos). { pose proof (value_has_sign x W Nz) as HS. destruct (ns x); [|reflexivity]. unfold has_sign in HS. cbn [sgnZ] in HS. lra. }
    assert (VX : (value x - 1 = IZR b * bpow radix2 (1 - L))%R). { unfold value, F2R. cbn [Fnum Fexp]. rewrite HS, E. cbn [sgnZ]. rewrite Z.mul_1_l. fold L. rewrite EB, minus_IZR, Rmult_minus_distr_r. f_equal. change 2 with (radix_val radix2). rewrite IZR_Zpower by lia. rewrite <- bpow_plus. replace (L - 1 + (1 - L)) with 0 by ring. reflexivity. }
    assert (B0 : 0 < b). { assert (Q : (0 < IZR b)%R); [|now apply lt_IZR in Q]. pose proof (bpow_gt_0 radix2 (1 - L)). apply Rmult_lt_reg_r with (bpow radix2 (1 - L)); [exact H|]. rewrite Rmult_0_l. lra. }
    pose proof (bitlen_spec b B0) as BB. pose proof (bitlen_pos b B0) as BP. assert (BL : bitlen b <= L - 1) by (apply WordsP.bitlen_le; lia). split; [lia|].
    rewrite VX. apply Rle_trans with (IZR (2 ^ (bitlen b - 1)) * bpow radix2 (1 - L))%R; [|apply Rmult_le_compat_r; [apply bpow_ge_0|apply IZR_le; lia]]. change 2 with (radix_val radix2). rewrite IZR_Zpower by lia. rewrite <- bpow_plus. apply bpow_le. lia.
  - split; [lia|]. change (bpow radix2 (- 0)) with 1%R. assert (bpow radix2 1 <= bpow radix2 (ne x - 1))%R by (apply bpow_le; lia). change (bpow radix2 1) with 2%R in H. lra.
Qed.

Lemma acosh_round h g c x0 x px w : lreach c -> wf x -> normal x -> (1 < value x)%R -> ne x0 = ne x -> mm (nm x0) = mm (nm x) -> ne x <= 2 ^ 17 -> 128 <= w -> w mod 64 = 0 -> 64 * wlen x <= w ->
  prec_up (w + (6 + (if ne x =? 1 then count_leading_zeroes_skip_first (mm (nm x)) else 0))) = px -> work h (px + 64) 64 <= 2 ^ 14 ->
  large_arg (ne x) w = false -> lends (acosh_step h g c x0 x w) (good w (arcosh (value x))).
Proof.
  intros Hc W N V0 X1 X2 HE Hw Hw64 HLen HP HB HL. unfold acosh_step. rewrite X1, X2, HL. clear HL X1 X2 x0. destruct (acosh_gap x W N V0) as [G1 G2]. set (n := if ne x =? 1 then count_leading_zeroes_skip_first (mm (nm x)) else 0) in *. clearbody n. cbv zeta. set (pp := w + (6 + n)) in *.
  pose proof (work_ge h (px + 64) 64) as HG. assert (PX : w + 64 <= px /\ pp <= px) by (rewrite <- HP; unfold pp, prec_up; clear - Hw64 G1; dlia). specialize (HG ltac:(lia) ltac:(lia)). change (2 ^ 14) with 16384 in *. assert (PL : px < P_LIM) by (apply Z.le_lt_trans with 16384; [lia|vm_compute; reflexivity]).
  destruct (normal_range x W N) as [_ A2]. pose proof (value_has_sign x W ltac:(apply N)) as HS. assert (SX : ns x = Pos). { destruct (ns x); [|reflexivity]. unfold has_sign in HS. cbn [sgnZ] in HS. lra. }
  rewrite Rabs_pos_eq in A2 by lra. set (v := value x) in *. destruct (acosh_root v V0) as (R1 & R2 & R3). pose proof (acosh_share v V0) as RS. pose proof (acosh_low v V0) as RL. unfold arcosh in *. set (s := sqrt (v * v - 1)) in *.
  pose proof (eta_small px ltac:(lia)) as ES. pose proof (eta_pos px) as EP. set (et := eta px) in *.
  pose proof (bpow_gt_0 radix2 (- n)) as T0. assert (T1 : (bpow radix2 (- n) <= 1)%R) by (change 1%R with (bpow radix2 0); apply bpow_le; lia). assert (TN : (bpow radix2 n * bpow radix2 (- n) = 1)%R) by (rewrite <- bpow_plus, Z.add_opp_diag_r; reflexivity). pose proof (bpow_gt_0 radix2 n) as TN0.
  set (t := bpow radix2 (- n)) in *. set (tn := bpow radix2 n) in *. pose proof (acosh_cancel v t T0 ltac:(lra)) as AC. assert (IT : (/ (2 * t) = tn / 2)%R). { apply Rmult_eq_reg_r with (2 * t)%R; [|lra]. rewrite Rinv_l by lra. lra. } rewrite IT in AC. clear IT.
  assert (TN1 : (1 <= tn)%R) by (apply Rmult_le_reg_r with t; lra).
  assert (ET : (et * tn <= 65 / 64 * / 32 * bpow radix2 (- w))%R). { unfold et, eta, tn. rewrite Rmult_assoc, <- bpow_plus, Rmult_assoc. apply Rmult_le_compat_l; [lra|]. change (/ 32)%R with (bpow radix2 (-5)). rewrite <- bpow_plus. apply bpow_le. unfold pp in PX. lia. }
  assert (BW : (bpow radix2 (- w) <= / 65536)%R) by (change (/ 65536)%R with (bpow radix2 (-16)); apply bpow_le; lia). pose proof (bpow_gt_0 radix2 (- w)) as BW0. set (b := bpow radix2 (- w)) in *. assert (ET1 : (et <= et * tn)%R) by (rewrite <- (Rmult_1_r et) at 1; apply Rmult_le_compat_l; lra).
  set (k := 2 ^ 17) in *. assert (K : 131072 = k) by reflexivity. assert (VK : (v <= bpow radix2 k)%R). { left; eapply Rlt_le_trans; [exact A2|]; apply bpow_le; lia. }
  assert (BK1 : (1 <= bpow radix2 k)%R) by lra. assert (KK : (bpow radix2 (2 * k + 2) = bpow radix2 k * bpow radix2 k * 4)%R) by (replace (2 * k + 2) with (k + k + 2) by ring; rewrite !bpow_plus; reflexivity).
  assert (KL : (bpow radix2 (- (2 * k + 2)) <= t)%R) by (unfold t; apply bpow_le; lia).
  assert (MM : forall a, (t <= a)%R -> (a <= 2 * v \/ a <= v * v)%R -> mid a).
  { intros a H1 H2. apply (mid_small (2 * k + 2)); [rewrite <- K; vm_compute; split; discriminate|]. rewrite KK. split; [lra|destruct H2; nra]. }
  assert (VT : (2 * t <= v * v - 1)%R) by nra. assert (ST : (t <= s)%R). { apply Rnot_lt_le. intros Q. assert (s * s < t * 1)%R by nra. lra. }
  assert (NX : near 0 Pos v x) by (split; [exact W|split; [exact N|split; [exact SX|fold v; rewrite Rabs_pos_eq by lra; apply lc_refl; lra]]]).
  destruct (near_mul px pp RNone ltac:(lia) HP PL _ _ _ _ _ _ _ _ NX NX ltac:(lra) (MM (v * v)%R ltac:(lra) ltac:(right; lra))) as (xx & Exx & (Wxx & Nxx & Sxx & Lxx) & _ & _). change (sign_mul Pos Pos) with Pos in Sxx. fold et in Lxx.
  pose proof (value_has_sign xx Wxx ltac:(apply Nxx)) as HSx. rewrite Sxx in HSx. unfold has_sign in HSx. cbn [sgnZ] in HSx. rewrite (Rabs_pos_eq (value xx)) in Lxx by lra. pose proof (lc_abs_near (0 + 0 + et) _ _ ltac:(lra) Lxx) as DX.
  pose proof ONE_wf as W1. pose proof ONE_nonzero as N1. pose proof ONE_value as VO. set (q := (v * v - 1)%R) in *. set (u := (65 / 64 * et * (1 + tn / 2))%R).
  assert (U0 : (0 <= u <= 25 / 16 * (et * tn))%R). { unfold u. assert (0 <= et * (tn - 1))%R by (apply Rmult_le_pos; lra). split; [apply Rmult_le_pos; lra|lra]. }
  assert (D1 : (Rabs (value xx + -1 * value ONE - q) <= u * Rabs q)%R).
  { rewrite VO, (Rabs_pos_eq q) by lra. replace (value xx + -1 * 1 - q)%R with (value xx - v * v)%R by (unfold q; ring). eapply Rle_trans; [exact DX|]. unfold u. replace (65 / 64 * (0 + 0 + et))%R with (65 / 64 * et)%R by ring. replace (65 / 64 * et * (1 + tn / 2) * q)%R with (65 / 64 * et * ((1 + tn / 2) * q))%R by ring. apply Rmult_le_compat_l; [lra|exact AC]. }
  assert (MQ : mid (Rabs q)) by (rewrite Rabs_pos_eq by lra; apply MM; [lra|right; unfold q; lra]).
  destruct (near_sum px pp (-1) xx ONE q u ltac:(lia) HP PL Wxx ltac:(apply Nxx) W1 N1 ltac:(right; reflexivity) MQ ltac:(lra) D1 RNone) as (d1 & s1 & Ed1 & S1 & Nd1 & _). fold et in Nd1. rewrite (Rabs_pos_eq q) in Nd1 by lra.
  assert (s1 = Pos) as ->. { destruct s1; [|reflexivity]. exfalso. unfold has_sign in S1. cbn [sgnZ] in S1. lra. }
  destruct (near_sqrt px pp RNone _ _ _ ltac:(lia) HP PL Nd1 ltac:(lra) (MM s ltac:(lra) ltac:(left; lra))) as (d2 & Ed2 & (Wd2 & Nd2 & Sd2 & Ld2) & _). fold et s in Ld2.
  pose proof (value_has_sign d2 Wd2 ltac:(apply Nd2)) as HS2. rewrite Sd2 in HS2. unfold has_sign in HS2. cbn [sgnZ] in HS2. rewrite (Rabs_pos_eq (value d2)) in Ld2 by lra.
  set (u2 := ((65 / 64 * u + et) / 2 + et)%R) in *. assert (U2 : (0 <= u2 <= 3 * (et * tn))%R) by (unfold u2; lra). pose proof (lc_abs_near u2 _ _ ltac:(lra) Ld2) as DS.
  set (y := (v + s)%R) in *. assert (Y0 : (0 < y)%R) by (unfold y; lra). set (sy := (s / y)%R) in *. assert (SY : (0 < sy <= 1)%R). { unfold sy. split; [apply Rdiv_lt_0_compat; lra|]. apply Rmult_le_reg_r with y; [exact Y0|]. unfold Rdiv. rewrite Rmult_assoc, Rinv_l by lra. unfold y. lra. }
  assert (SE : (s = sy * y)%R) by (unfold sy; field; lra).
  assert (D3 : (Rabs (value d2 + 1 * value x - y) <= 65 / 64 * u2 * sy * Rabs y)%R).
  { rewrite (Rabs_pos_eq y) by lra. fold v. replace (value d2 + 1 * v - y)%R with (value d2 - s)%R by (unfold y; ring). eapply Rle_trans; [exact DS|]. rewrite SE at 1. right. ring. }
  assert (MY : mid (Rabs y)) by (rewrite Rabs_pos_eq by lra; apply MM; [unfold y; lra|left; unfold y; lra]).
  assert (US : (0 <= 65 / 64 * u2 * sy <= 65 / 64 * u2)%R). { split; [apply Rmult_le_pos; lra|]. rewrite <- (Rmult_1_r (65 / 64 * u2)) at 2. apply Rmult_le_compat_l; lra. }
  destruct (near_sum px pp 1 d2 x y (65 / 64 * u2 * sy) ltac:(lia) HP PL Wd2 ltac:(apply Nd2) W ltac:(apply N) ltac:(left; reflexivity) MY ltac:(lra) D3 RFromZero) as (d3 & s3 & Ed3 & S3 & (W3 & N3 & SS3 & LC3) & L3). fold et in LC3. rewrite (Rabs_pos_eq y) in LC3 by lra.
  assert (s3 = Pos) as ->. { destruct s3; [|reflexivity]. exfalso. unfold has_sign in S3. cbn [sgnZ] in S3. lra. }
  pose proof (value_has_sign d3 W3 ltac:(apply N3)) as HS3. rewrite SS3 in HS3. unfold has_sign in HS3. cbn [sgnZ] in HS3. rewrite (Rabs_pos_eq (value d3)) in LC3 by lra.
  rewrite Exx. cbn [bind]. unfold n_sub, n_add. rewrite Ed1. cbn [bind]. rewrite Ed2. cbn [bind]. rewrite Ed3. unfold lpure. cbn [lbind].
  assert (LY : (t / 2 <= ln y)%R). { eapply Rle_trans; [|exact RL]. apply Rmult_le_reg_r with v; [lra|]. replace ((v - 1) / v * v)%R with (v - 1)%R by (field; lra). assert (0 <= (1 - t) * (v - 1))%R by (apply Rmult_le_pos; lra). lra. }
  apply (ln_good h g c d3 pp w y (65 / 64 * (65 / 64 * u2 * sy) + et)); try assumption; try (rewrite HP; exact HB); try (rewrite HP; lia); try lra.
  - fold b. rewrite Rabs_pos_eq by lra. set (r := ln y) in *. assert (E1 : (65 / 64 * u2 * sy <= / 8 * b * r)%R). { apply Rmult_le_compat; lra. }
    assert (E2 : (et <= / 4 * b * r)%R). { assert (EQ : et = (et * tn * t)%R) by (rewrite Rmult_assoc, TN; ring). rewrite EQ. apply Rle_trans with (/ 8 * b * t)%R; [apply Rmult_le_compat_r; lra|]. assert (b * (t / 2) <= b * r)%R by (apply Rmult_le_compat_l; lra). lra. }
    assert (0 <= b * r)%R by (apply Rmult_le_pos; lra). lra.
Qed.

(** ** The loops *)
Lemma ln_bound y k : 0 <= k <= 2 ^ 33 -> (1 < y <= bpow radix2 k)%R -> (0 < ln y <= bpow radix2 100)%R.
Proof.
  intros K Y. assert (L0 : (0 < ln y)%R) by (rewrite <- ln_1; apply ln_increasing; lra). split; [exact L0|]. assert (L1 : (ln y <= IZR k * ln 2)%R). { replace (IZR k * ln 2)%R with (ln (bpow radix2 k)) by (rewrite bpow_exp, ln_exp; reflexivity). apply ln_mono. lra. }
  pose proof ln2_range as R. assert (KR : (0 <= IZR k <= IZR (2 ^ 33))%R) by (split; apply IZR_le; lia). assert (IZR k * ln 2 <= IZR (2 ^ 33) * 1)%R by (apply Rmult_le_compat; lra). apply Rle_trans with (IZR (2 ^ 33) * 1)%R; [lra|]. rewrite Rmult_1_r. change (bpow radix2 100) with (IZR (2 ^ 100)). apply IZR_le. vm_compute. discriminate.
Qed.
Lemma good_fits w r v : good w r v -> (Rabs r <= bpow radix2 100)%R -> w mod 64 = 0 -> fits r w v.
Proof. intros G R Hw p rm Hp Hp64 Hpw. now apply good_accepts. Qed.
Lemma lends_weak {A} (r : lrun A) (P Q : A -> Prop) : lends r P -> (forall a, P a -> Q a) -> lends r Q.
Proof. intros [-> |(c & q & -> & H & H')] F; [left; reflexivity|right; exists c, q; auto]. Qed.
Lemma not_large e w : 0 <= w -> large_arg e w = false -> e <= 2 * w + 6.
Proof. unfold large_arg. intros Hw H. apply Z.ltb_ge in H. pose proof (Z.quot_rem' (e - 1) 2) as Q. pose proof (Z.rem_bound_abs (e - 1) 2 ltac:(lia)) as Q2. lia. Qed.

Lemma asinh_step_ok h g c x w : lreach c -> wf x -> normal x -> (0 < value x)%R -> - w <= ne x -> 128 <= w -> w mod 64 = 0 -> 64 * wlen x <= w -> work h (4 * w + 64) 64 <= 2 ^ 14 ->
  lends (asinh_step h g c x (ne x) w) (fits (arcsinh (value x)) w).
Proof.
  intros Hc W N V0 HE Hw Hw64 HLen HB. pose proof (work_ge h (4 * w + 64) 64 ltac:(lia) ltac:(lia)) as HG. change (2 ^ 14) with 16384 in *. destruct (large_arg (ne x) w) eqn:LA.
  - assert (V1 : (1 <= value x)%R). { unfold large_arg in LA. apply Z.ltb_lt in LA. pose proof (Z.quot_rem' (ne x - 1) 2) as Q. pose proof (Z.rem_bound_abs (ne x - 1) 2 ltac:(lia)) as Q2. destruct (normal_range x W N) as [A1 _]. rewrite Rabs_pos_eq in A1 by lra. eapply Rle_trans; [|exact A1]. change 1%R with (bpow radix2 0). apply bpow_le. lia. }
    unfold asinh_step. rewrite LA. apply ln_double_ok; try assumption; [apply Z.le_trans with (work h (4 * w + 64) 64); [apply work_mono; lia|exact HB]|]. rewrite arcsinh_root. now apply asinh_large.
  - pose proof (not_large (ne x) w ltac:(lia) LA) as NL. set (px := prec_up (w + (Z.abs (ne x) + 5))). assert (PX : px <= 4 * w /\ 0 <= px) by (unfold px, prec_up; clear - HE NL Hw; dlia).
    apply (lends_weak _ (good w (arcsinh (value x)))).
    + apply (asinh_round h g c x px w); try assumption; try reflexivity; [change (2 ^ 17) with 131072; lia|]. apply Z.le_trans with (work h (4 * w + 64) 64); [apply work_mono; lia|exact HB].
    + intros q G. apply good_fits; [exact G| |exact Hw64]. rewrite arcsinh_root. set (v := value x) in *. destruct (asinh_root v V0) as (S1 & S2 & S3). set (s := sqrt (v * v + 1)) in *. assert (SV : (s <= v + 1)%R) by (apply Rnot_lt_le; intros Q; nra).
      destruct (ln_bound (v + s) (Z.max (ne x) 0 + 2)) as [B1 B2]; [change (2 ^ 33) with 8589934592; lia| |rewrite Rabs_pos_eq; lra]. split; [lra|]. destruct (normal_range x W N) as [_ A2]. rewrite Rabs_pos_eq in A2 by (fold v; lra). fold v in A2.
      assert (X1 : (v <= bpow radix2 (Z.max (ne x) 0))%R) by (left; eapply Rlt_le_trans; [exact A2|apply bpow_le; lia]). assert (X2 : (1 <= bpow radix2 (Z.max (ne x) 0))%R) by (change 1%R with (bpow radix2 0); apply bpow_le; lia). rewrite bpow_plus. change (bpow radix2 2) with 4%R. lra.
Qed.
Lemma acosh_step_ok h g c x0 x w : lreach c -> wf x -> normal x -> (1 < value x)%R -> ne x0 = ne x -> mm (nm x0) = mm (nm x) -> 128 <= w -> w mod 64 = 0 -> 64 * wlen x <= w -> work h (4 * w + 64) 64 <= 2 ^ 14 ->
  lends (acosh_step h g c x0 x w) (fits (arcosh (value x)) w).
Proof.
  intros Hc W N V0 E1 E2 Hw Hw64 HLen HB. pose proof (work_ge h (4 * w + 64) 64 ltac:(lia) ltac:(lia)) as HG. change (2 ^ 14) with 16384 in *. destruct (large_arg (ne x) w) eqn:LA.
  - assert (V1 : (2 <= value x)%R). { unfold large_arg in LA. apply Z.ltb_lt in LA. pose proof (Z.quot_rem' (ne x - 1) 2) as Q. pose proof (Z.rem_bound_abs (ne x - 1) 2 ltac:(lia)) as Q2. destruct (normal_range x W N) as [A1 _]. rewrite Rabs_pos_eq in A1 by lra. eapply Rle_trans; [|exact A1]. change 2%R with (bpow radix2 1). apply bpow_le. lia. }
    unfold acosh_step. rewrite E1, LA. apply ln_double_ok; try assumption; [lra|apply Z.le_trans with (work h (4 * w + 64) 64); [apply work_mono; lia|exact HB]|]. now apply acosh_large.
  - pose proof (not_large (ne x) w ltac:(lia) LA) as NL. destruct (acosh_gap x W N V0) as [G1 _]. set (px := prec_up (w + (6 + (if ne x =? 1 then count_leading_zeroes_skip_first (mm (nm x)) else 0)))). assert (PX : px <= 4 * w /\ 0 <= px) by (unfold px, prec_up; clear - G1 HLen Hw; revert G1; generalize (if ne x =? 1 then count_leading_zeroes_skip_first (mm (nm x)) else 0); intros; dlia).
    apply (lends_weak _ (good w (arcosh (value x)))).
    + apply (acosh_round h g c x0 x px w); try assumption; try reflexivity; [change (2 ^ 17) with 131072; lia|]. apply Z.le_trans with (work h (4 * w + 64) 64); [apply work_mono; lia|exact HB].
    + intros q G. apply good_fits; [exact G| |exact Hw64]. unfold arcosh. set (v := value x) in *. destruct (acosh_root v V0) as (S1 & S2 & S3). set (s := sqrt (v * v - 1)) in *.
      destruct (ln_bound (v + s) (Z.max (ne x) 0 + 1)) as [B1 B2]; [change (2 ^ 33) with 8589934592; lia| |rewrite Rabs_pos_eq; lra]. split; [lra|]. destruct (normal_range x W N) as [_ A2]. rewrite Rabs_pos_eq in A2 by (fold v; lra). fold v in A2.
      assert (X1 : (v <= bpow radix2 (Z.max (ne x) 0))%R) by (left; eapply Rlt_le_trans; [exact A2|apply bpow_le; lia]). rewrite bpow_plus. change (bpow radix2 1) with 2%R. lra.
Qed.

(** ** The functions *)
Lemma elem_neg r p rm q : (0 < r)%R -> elem_result r p (invert_rm_for_sign rm) q -> elem_result (- r) p rm (set_sign q Neg).
Proof.
  intros R0 (W & L & S & I & (a & C & V) & D). assert (SP : ns q = Pos). { destruct (ns q); [|reflexivity]. unfold has_sign in S. cbn [sgnZ] in S. lra. }
  assert (VN : value (set_sign q Neg) = (- value q)%R) by (rewrite value_set_sign, SP; cbn [sgnZ ns set_sign]; ring).
  split; [now apply wf_set_sign|]. split; [exact L|]. split; [unfold has_sign; cbn [set_sign ns sgnZ]; lra|]. split; [exact I|]. split.
  - exists (- a)%R. split; [unfold close in *; rewrite Rabs_Ropp; replace (- a - - r)%R with (- (a - r))%R by ring; rewrite Rabs_Ropp; exact C|]. rewrite VN, V, rnd_prec_opp. ring.
  - intros D1 D2. rewrite VN, D, rnd_prec_opp; [ring|destruct rm; auto|destruct rm; auto; discriminate].
Qed.
Lemma elem_same r p rm q : (0 < r)%R -> elem_result r p rm q -> elem_result r p rm (set_sign q Pos).
Proof.
  intros R0 (W & L & S & I & X). assert (SP : ns q = Pos). { destruct (ns q); [|reflexivity]. unfold has_sign in S. cbn [sgnZ] in S. lra. }
  assert (VN : value (set_sign q Pos) = value q) by (rewrite value_set_sign, SP; cbn [sgnZ ns set_sign]; ring). split; [now apply wf_set_sign|]. split; [exact L|]. split; [unfold has_sign; cbn [set_sign ns sgnZ]; lra|]. split; [exact I|]. rewrite VN. exact X.
Qed.

Theorem asinh_ok f h g c x p rm : lreach c -> wf x -> nonzero x -> 0 < p -> (rm <> RNone \/ EMIN < ne x) ->
  work h (4 * work f (Z.max (prec_up p) (64 * wlen x) + 64) 64 + 64) 64 <= 2 ^ 14 ->
  match f_asinh f h g c x p rm with
  | None => True
  | Some (c', res) => lreach c' /\ exists q, res = Ok q /\ (elem_result (arcsinh (value x)) (prec_up p) rm q \/ rounded_to (prec_up p) rm (ns x) (arcsinh (value x)) q)
  end.
Proof.
  intros Hc W N Hp HN HB. change (Z.max (prec_up p) (64 * wlen x)) with (max64 (prec_up p) x) in HB. assert (P64 : 64 <= prec_up p) by (unfold prec_up; clear - Hp; dlia). assert (M1 : prec_up p <= max64 (prec_up p) x) by (unfold max64; lia). assert (M2 : 64 * wlen x <= max64 (prec_up p) x) by (unfold max64; lia).
  set (B := work f (max64 (prec_up p) x + 64) 64) in *. pose proof (work_ge f (max64 (prec_up p) x + 64) 64 ltac:(lia) ltac:(lia)) as HG. fold B in HG. pose proof (work_ge h (4 * B + 64) 64 ltac:(lia) ltac:(lia)) as HH. assert (B14 : 4 * B + 64 <= 16384) by (change 16384 with (2 ^ 14); lia).
  assert (PL : max64 (prec_up p) x + 64 < P_LIM) by (eapply Z.le_lt_trans with (2 ^ 14); [change (2 ^ 14) with 16384; lia|vm_compute; reflexivity]).
  unfold f_asinh. destruct (Z_lt_le_dec (max64 (prec_up p) x + 1) (- (ne x * 2 - 2))) as [S|S].
  - match goal with |- context [@odd_in ?A ?ok ?rest 2 true x p rm] => rewrite (@odd_in_small A ok rest (fun _ _ _ => Panic) 2 true x p rm W N Hp ltac:(lia) S) end. cbv beta. split; [exact Hc|]. destruct (asinh_small (fun _ _ _ => Panic) x p rm W N Hp PL HN S) as (q & Eq & Q). exists q. split; [exact Eq|now right].
  - match goal with |- context [@odd_in ?A ?ok ?rest 2 true x p rm] => rewrite (@odd_in_rest A ok rest 2 true x p rm W N Hp ltac:(lia) S) end. cbv beta zeta. change (mantissa_max_bit_len x) with (64 * wlen x). change (Z.max (prec_up p) (64 * wlen x)) with (max64 (prec_up p) x).
    assert (He2 : EMIN < ne x) by (apply Z.lt_le_trans with (- 2 ^ 21); [vm_compute; reflexivity|change (2 ^ 21) with 2097152; lia]).
    destruct (argument_start x W N He2) as (_ & Nx & _ & _ & _). set (y := set_inexact (set_sign x Pos) false). set (rm' := if is_negative x then invert_rm_for_sign rm else rm).
    assert (Wy : wf y) by (apply wf_inexact; now apply wf_set_sign). assert (Ny : normal y) by exact Nx. assert (Vy : value y = Rabs (value x)). { unfold y. change (value (set_inexact (set_sign x Pos) false)) with (value (set_sign x Pos)). rewrite <- abs_set_sign with (s := Pos). rewrite Rabs_pos_eq; [reflexivity|]. pose proof (value_has_sign (set_sign x Pos) (wf_set_sign _ _ W) N) as Q. unfold has_sign in Q. cbn [set_sign ns sgnZ] in Q. lra. }
    destruct (normal_range x W ltac:(exact Nx)) as [A1 _]. pose proof (bpow_gt_0 radix2 (ne x - 1)) as A0. assert (Vp : (0 < value y)%R) by lra.
    assert (R0 : (0 < arcsinh (value y))%R) by (rewrite <- arcsinh_0; apply arcsinh_lt; exact Vp).
    pose proof (loop_acc (fun f c z w i => asinh_loop f h g c x z (prec_up p) rm' w i) (fun z w => z = y) x (prec_up p) rm' (arcsinh (value y)) (max64 (prec_up p) x + 64) B ltac:(reflexivity)) as LA. cbv beta in LA.
    match type of LA with ?A -> _ => assert (HS : A) end.
    { intros f' c0 z w i Hc0 -> Hw Hw64. cbn [asinh_loop]. destruct (asinh_step_ok h g c0 y w Hc0 Wy Ny Vp) as [E|(c' & ret & E & Hc' & G)].
      - change (ne y) with (ne x). lia.
      - lia.
      - exact Hw64.
      - change (wlen y) with (wlen x). lia.
      - apply Z.le_trans with (work h (4 * B + 64) 64); [apply work_mono; lia|exact HB].
      - left. change (ne y) with (ne x) in E. rewrite E. reflexivity.
      - right. change (ne y) with (ne x) in E. rewrite E. cbn [lbind]. exists c', y, ret. split; [reflexivity|]. split; [exact Hc'|]. split; [reflexivity|]. apply G; [lia|apply prec_up_mod|lia]. }
    specialize (LA HS ltac:(lia) ltac:(change (2 ^ 14) with 16384; lia) f c y (max64 (prec_up p) x + 64) 64 Hc eq_refl ltac:(lia) (max_mod p x) ltac:(lia) eq_refl (Z.le_refl _)).
    destruct (asinh_loop f h g c x y (prec_up p) rm' _ 64) as [[c' res]|]; [|exact I]. destruct LA as (Q1 & q & -> & Q3). cbn [lbind]. unfold lpure. split; [exact Q1|]. exists (set_sign q (ns x)). split; [reflexivity|]. left.
    pose proof (value_has_sign x W N) as SX. unfold has_sign in SX. unfold rm', is_negative in Q3. destruct (ns x) eqn:ES; cbn [sgnZ] in SX.
    + assert (E : value x = (- value y)%R) by (rewrite Vy, Rabs_left by lra; ring). rewrite E. replace (arcsinh (- value y)) with (- arcsinh (value y))%R. { apply elem_neg; assumption. } rewrite <- (sinh_arcsinh (value y)) at 2. rewrite <- sinh_neg. symmetry. apply arcsinh_sinh.
    + assert (E : value x = value y) by (rewrite Vy, Rabs_pos_eq by lra; reflexivity). rewrite E. apply elem_same; assumption.
Qed.

Theorem acosh_ok f h g c x p rm : lreach c -> wf x -> (1 < value x)%R -> 0 < p ->
  work h (4 * work f (Z.max (prec_up p) (64 * wlen x) + 64) 64 + 64) 64 <= 2 ^ 14 ->
  match f_acosh f h g c x p rm with
  | None => True
  | Some (c', res) => lreach c' /\ exists q, res = Ok q /\ elem_result (arcosh (value x)) (prec_up p) rm q
  end.
Proof.
  intros Hc W V0 Hp HB. change (Z.max (prec_up p) (64 * wlen x)) with (max64 (prec_up p) x) in HB. assert (P64 : 64 <= prec_up p) by (unfold prec_up; clear - Hp; dlia). assert (M1 : prec_up p <= max64 (prec_up p) x) by (unfold max64; lia). assert (M2 : 64 * wlen x <= max64 (prec_up p) x) by (unfold max64; lia).
  set (B := work f (max64 (prec_up p) x + 64) 64) in *. pose proof (work_ge f (max64 (prec_up p) x + 64) 64 ltac:(lia) ltac:(lia)) as HG. fold B in HG. pose proof (work_ge h (4 * B + 64) 64 ltac:(lia) ltac:(lia)) as HH. assert (B14 : 4 * B + 64 <= 16384) by (change 16384 with (2 ^ 14); lia).
  assert (N : normal x) by (apply normal_iff; [exact W|]; rewrite Rabs_pos_eq by lra; left; eapply Rle_lt_trans; [|exact V0]; change 1%R with (bpow radix2 0); apply bpow_le; vm_compute; discriminate).
  pose proof (cmp_one x W) as CO. rewrite Rcompare_Gt in CO by lra. cbn [sgn_of] in CO. unfold f_acosh. cbv zeta. replace (n_cmp x ONE =? 0) with false by lia. replace (n_cmp x ONE <? 0) with false by lia.
  rewrite (round_p_eq p) by (first [lia|eapply Z.le_lt_trans with (2 ^ 14); [change (2 ^ 14) with 16384; lia|vm_compute; reflexivity]]). fold (prec_up p). change (mantissa_max_bit_len x) with (64 * wlen x). change (Z.max (prec_up p) (64 * wlen x)) with (max64 (prec_up p) x).
  set (y := set_inexact x false). assert (Wy : wf y) by now apply wf_inexact. assert (Ny : normal y) by exact N.
  pose proof (loop_acc (fun f c z w i => acosh_loop f h g c x z (prec_up p) rm w i) (fun z w => z = y) x (prec_up p) rm (arcosh (value x)) (max64 (prec_up p) x + 64) B ltac:(reflexivity)) as LA. cbv beta in LA.
  match type of LA with ?A -> _ => assert (HS : A) end.
  { intros f' c0 z w i Hc0 -> Hw Hw64. cbn [acosh_loop]. destruct (acosh_step_ok h g c0 x y w Hc0 Wy Ny V0 eq_refl eq_refl) as [E|(c' & ret & E & Hc' & G)].
    - lia.
    - exact Hw64.
    - change (wlen y) with (wlen x). lia.
    - apply Z.le_trans with (work h (4 * B + 64) 64); [apply work_mono; lia|exact HB].
    - left. rewrite E. reflexivity.
    - right. rewrite E. cbn [lbind]. exists c', y, ret. split; [reflexivity|]. split; [exact Hc'|]. split; [reflexivity|]. apply G; [lia|apply prec_up_mod|lia]. }
  specialize (LA HS ltac:(lia) ltac:(change (2 ^ 14) with 16384; lia) f c y (max64 (prec_up p) x + 64) 64 Hc eq_refl ltac:(lia) (max_mod p x) ltac:(lia) eq_refl (Z.le_refl _)).
  destruct (acosh_loop f h g c x y (prec_up p) rm _ 64) as [[c' res]|]; [|exact I]. destruct LA as (Q1 & q & -> & Q3). split; [exact Q1|]. exists q. split; [reflexivity|exact Q3].
Qed.
