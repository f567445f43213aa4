(** The inverse hyperbolic tangent. *)

From Coq Require Import ZArith List Bool Lia Reals Lra.
From Flocq Require Import Core Relative.
From Verif Require Import ElemR Words IntModel Mantissa Num Pow Consts Elem Ctx Series Ln Exp Hyp InvHyp SpecZ SpecOps SpecConst SpecReach SpecPow SpecElem WordsP Spec RealP RealP2 NumP CmpP AddP SetP AddNum MulNum DivNum RootNum ArithTop RoundableNum PowNum PowTop ConstP ConstTop ConstNum ConstReach ConvNum Conv2Num SmallP PowExt IntNum CtxP ElemNum ElemDom ApproxR ApproxNum SeriesP SeriesNum SinhNum SinhTop ExpNum RetryNum ExpTop HypTop LnR LnConst LnNum LnSharp LnSharp2 LnSharp3 LnMant LnTop LnUse.
Import ListNotations.
Open Scope Z_scope.
Ltac Zify.zify_post_hook ::= idtac.
Arguments Z.mul : simpl never.
Arguments Z.add : simpl never.
Arguments Z.pow : simpl never.
Arguments Z.sub : simpl never.
Arguments Z.of_nat : simpl never.
Ltac dlia := Z.div_mod_to_equations; lia.

(** ** Halving *)
Lemma half_good w r v : 0 <= w -> good w r v -> (bpow radix2 (- 2 ^ 21) <= Rabs r)%R -> good w (r / 2) (div_by_2 v RNone).
Proof.
  intros Hw (W & N & Ix & L & S & D) R0. assert (B1 : (bpow radix2 (- w) <= 1)%R) by (change 1%R with (bpow radix2 0); apply bpow_le; lia). pose proof (bpow_gt_0 radix2 (- w)) as B0. pose proof (bpow_gt_0 radix2 (- 2 ^ 21)) as Z0.
  assert (V1 : (Rabs r / 16 <= Rabs (value v))%R). { apply Rabs_le_inv in D. assert (15 / 16 * bpow radix2 (- w) * Rabs r <= 15 / 16 * Rabs r)%R by (apply Rmult_le_compat_r; lra). lra. }
  destruct (normal_range v W N) as [_ V2]. pose proof (wf_exp v W) as [X1 X2].
  assert (E : - 2 ^ 22 <= ne v). { assert (- 2 ^ 21 - 4 < ne v); [|change (2 ^ 21) with 2097152 in *; change (2 ^ 22) with 4194304; lia]. apply (lt_bpow radix2). eapply Rle_lt_trans; [|exact V2]. unfold Z.sub at 1. rewrite bpow_plus. change (bpow radix2 (- (4))) with (/ 16)%R. lra. }
  unfold div_by_2. destruct (Z.eqb_spec (ne v) EXPONENT_MIN) as [Q|Q]; [exfalso; rewrite Q in E; revert E; vm_compute; intros E; exact (E eq_refl)|].
  assert (HE : EMIN <= ne v - 1 <= EMAX). { split; [eapply Z.le_trans with (- 2 ^ 22 - 1); [vm_compute; discriminate|lia]|lia]. }
  pose proof (set_exponent_spec v (ne v - 1) W HE) as SE. cbv zeta in SE. destruct SE as (W1 & L1 & S1 & I1 & VV). set (q := set_exponent v (ne v - 1)) in *. clearbody q.
  replace (ne v - 1 - ne v) with (-1) in VV by ring. change (bpow radix2 (-1)) with (/ 2)%R in VV. assert (VA : Rabs (value q) = (/ 2 * Rabs (value v))%R). { rewrite VV, Rabs_mult, (Rabs_pos_eq (/ 2)) by lra. ring. }
  assert (RA : Rabs (r / 2) = (/ 2 * Rabs r)%R). { unfold Rdiv. rewrite Rabs_mult, (Rabs_pos_eq (/ 2)) by lra. ring. }
  split; [exact W1|]. split; [|split; [rewrite I1; exact Ix|split; [rewrite L1; exact L|split]]].
  - apply normal_iff; [exact W1|]. rewrite VA. apply Rle_trans with (bpow radix2 (- 2 ^ 21 + -5)); [apply bpow_le; vm_compute; discriminate|]. rewrite bpow_plus. change (bpow radix2 (-5)) with (/ 32)%R. lra.
  - rewrite S1. unfold has_sign in *. lra.
  - rewrite VA, RA. replace (/ 2 * Rabs (value v) - / 2 * Rabs r)%R with (/ 2 * (Rabs (value v) - Rabs r))%R by ring. rewrite Rabs_mult, (Rabs_pos_eq (/ 2)) by lra. lra.
Qed.

(** ** The function *)
Lemma artanh_size v : (Rabs v < 1)%R -> (3 / 2 * Rabs v <= Rabs (ln ((1 + v) / (1 - v))))%R.
Proof.
  assert (K : forall v, (0 <= v < 1)%R -> (3 / 2 * v <= ln ((1 + v) / (1 - v)))%R).
  { clear v. intros v V. unfold Rdiv. assert (I0 : (0 < / (1 - v))%R) by (apply Rinv_0_lt_compat; lra). rewrite ln_mult, ln_Rinv by lra. pose proof (ln_1p (- v) ltac:(lra)) as A. replace (1 + - v)%R with (1 - v)%R in A by ring.
    assert (J0 : (0 < / (1 + v))%R) by (apply Rinv_0_lt_compat; lra). pose proof (ln_1p (/ (1 + v) - 1) ltac:(lra)) as B. replace (1 + (/ (1 + v) - 1))%R with (/ (1 + v))%R in B by ring. rewrite ln_Rinv in B by lra.
    assert (C : (v / 2 <= 1 - / (1 + v))%R). { replace (1 - / (1 + v))%R with (v * / (1 + v))%R by (field; lra). apply Rmult_le_compat_l; [lra|]. apply Rinv_le; lra. } lra. }
  intros H. destruct (Rle_or_lt 0 v) as [P|P].
  - rewrite Rabs_pos_eq in H |- * by exact P. specialize (K v ltac:(lra)). rewrite Rabs_pos_eq; lra.
  - rewrite Rabs_left in H |- * by exact P. specialize (K (- v)%R ltac:(lra)). replace ((1 + v) / (1 - v))%R with (/ ((1 + - v) / (1 - - v)))%R by (field; lra). assert (Q : (0 < (1 + - v) / (1 - - v))%R) by (apply Rdiv_lt_0_compat; lra). rewrite ln_Rinv, Rabs_Ropp by exact Q. rewrite Rabs_pos_eq; lra.
Qed.

Lemma mid_small k a : 0 <= k <= 2 ^ 21 -> (bpow radix2 (- k) <= a <= bpow radix2 k)%R -> mid a.
Proof. intros K A. apply (mid_range (- k) k); [| |exact A]; change HX with (2 ^ 30); change (2 ^ 30) with 1073741824; change (2 ^ 21) with 2097152 in K; lia. Qed.

Lemma atanh_round h g c x px w v : lreach c -> wf x -> normal x -> value x = v -> v <> 0%R -> (Rabs v < 1)%R -> (bpow radix2 (- 2 ^ 15) <= 1 - Rabs v)%R -> (bpow radix2 (- 2 ^ 15) <= Rabs v)%R ->
  128 <= w -> w + 64 <= prec_up px -> work h (prec_up px + 64) 64 <= 2 ^ 14 -> (bpow radix2 (- prec_up px) <= / 8 * bpow radix2 (- w) * Rabs v)%R ->
  lends (atanh_step h g c x px) (good w (artanh v)).
Proof.
  intros Hc W N V V0 V1 G1 G2 Hw HW HB HE. set (P := prec_up px) in *. pose proof (work_ge h (P + 64) 64 ltac:(lia) ltac:(lia)) as HG. assert (HL : P < P_LIM) by (apply Z.le_lt_trans with (2 ^ 14); [lia|vm_compute; reflexivity]). pose proof ONE_wf as W1. pose proof ONE_nonzero as N1. pose proof ONE_value as VO.
  assert (B1 : (bpow radix2 (2 ^ 15) * bpow radix2 (- 2 ^ 15) = 1)%R) by (rewrite <- bpow_plus; reflexivity). assert (B2 : (2 <= bpow radix2 (2 ^ 15))%R) by (change 2%R with (bpow radix2 1); apply bpow_le; vm_compute; discriminate). pose proof (bpow_gt_0 radix2 (- 2 ^ 15)) as B0.
  assert (RV : (- Rabs v <= v <= Rabs v)%R) by (pose proof (Rle_abs v); pose proof (Rle_abs (- v)) as Q; rewrite Rabs_Ropp in Q; lra).
  assert (K : 0 <= 2 ^ 15 <= 2 ^ 21) by (vm_compute; split; discriminate).
  assert (M1 : mid (Rabs (1 + v))) by (apply (mid_small _ _ K); rewrite Rabs_pos_eq by lra; split; lra). assert (M2 : mid (Rabs (1 - v))) by (apply (mid_small _ _ K); rewrite Rabs_pos_eq by lra; split; lra).
  destruct (near_sum P px 1 ONE x (1 + v)%R 0%R ltac:(lia) eq_refl HL W1 N1 W ltac:(apply N) ltac:(left; reflexivity) M1 ltac:(lra) ltac:(rewrite VO, V; replace (1 + 1 * v - (1 + v))%R with 0%R by ring; rewrite Rabs_R0; lra) RNone) as (d1 & s1 & E1 & S1 & D1 & L1).
  destruct (near_sum P px (-1) ONE x (1 - v)%R 0%R ltac:(lia) eq_refl HL W1 N1 W ltac:(apply N) ltac:(right; reflexivity) M2 ltac:(lra) ltac:(rewrite VO, V; replace (1 + -1 * v - (1 - v))%R with 0%R by ring; rewrite Rabs_R0; lra) RNone) as (d2 & s2 & E2 & S2 & D2 & L2).
  assert (s1 = Pos) as ->. { destruct s1; [|reflexivity]. exfalso. unfold has_sign in S1. cbn [sgnZ] in S1. lra. } assert (s2 = Pos) as ->. { destruct s2; [|reflexivity]. exfalso. unfold has_sign in S2. cbn [sgnZ] in S2. lra. }
  rewrite Rabs_pos_eq in D1, D2 by lra. pose proof (eta_small P ltac:(lia)) as ES. pose proof (eta_pos P) as EP.
  assert (I1 : (0 < / (1 - v))%R) by (apply Rinv_0_lt_compat; lra).
  assert (B3 : (bpow radix2 (2 ^ 15 + 2) = bpow radix2 (2 ^ 15) * 4)%R) by (rewrite bpow_plus; reflexivity). assert (B4 : (bpow radix2 (- (2 ^ 15 + 2)) = bpow radix2 (- 2 ^ 15) * / 4)%R) by (rewrite Z.opp_add_distr, bpow_plus; reflexivity).
  assert (I2 : (/ 2 <= / (1 - v) <= bpow radix2 (2 ^ 15))%R). { split; [apply Rinv_le; lra|]. apply Rmult_le_reg_r with (1 - v)%R; [lra|]. rewrite Rinv_l by lra. rewrite <- B1. apply Rmult_le_compat_l; lra. }
  assert (M3 : mid ((1 + v) / (1 - v))).
  { apply (mid_small (2 ^ 15 + 2)); [vm_compute; split; discriminate|]. rewrite B3, B4. unfold Rdiv. split; [apply Rle_trans with (bpow radix2 (- 2 ^ 15) * / 2)%R; [lra|apply Rmult_le_compat; lra]|]. rewrite (Rmult_comm (bpow radix2 (2 ^ 15))). apply Rmult_le_compat; lra. }
  destruct (near_div P px RNone ltac:(lia) eq_refl HL Pos Pos _ _ _ _ _ _ D1 D2 ltac:(lra) M3) as (d3 & E3 & D3 & L3 & _). change (sign_mul Pos Pos) with Pos in D3.
  unfold atanh_step, n_add, n_sub. rewrite E1, E2. cbn [bind]. rewrite E3. cbn [lpure lbind]. unfold lpure. cbn [lbind].
  set (y := ((1 + v) / (1 - v))%R) in *. pose proof (artanh_size v V1) as AS. fold y in AS. destruct D3 as (W3 & N3 & S3 & LC3). pose proof (value_has_sign d3 W3 ltac:(apply N3)) as HS. rewrite S3 in HS. unfold has_sign in HS. cbn [sgnZ] in HS. rewrite Rabs_pos_eq in LC3 by lra.
  assert (AV : (0 < Rabs v)%R) by now apply Rabs_pos_lt. assert (LY : ln y <> 0%R). { intros E. rewrite E, Rabs_R0 in AS. lra. }
  pose proof (bpow_gt_0 radix2 (- w)) as BW.
  assert (EE : (65 / 64 * 0 + eta P + (65 / 64 * 0 + eta P) + eta P <= 13 / 16 * bpow radix2 (- w) * Rabs (ln y))%R).
  { unfold eta. unfold Z.sub. rewrite bpow_plus. change (bpow radix2 1) with 2%R. apply Rle_trans with (13 / 16 * bpow radix2 (- w) * (3 / 2 * Rabs v))%R; [|apply Rmult_le_compat_l; [|exact AS]; lra]. assert (0 <= bpow radix2 (- w) * Rabs v)%R by (apply Rmult_le_pos; lra). lra. }
  destruct (ln_good h g c d3 px w y _ Hc W3 ltac:(lra) ltac:(fold P; lia) HB Hw HW LC3 ltac:(lra) LY EE) as [-> |(c' & q & -> & Hc' & G)]; [left; reflexivity|]. cbn [lbind]. right. exists c', (div_by_2 q RNone). split; [reflexivity|]. split; [exact Hc'|].
  replace (artanh v) with (ln y / 2)%R by (unfold artanh; fold y; field). apply half_good; [lia|exact G|]. apply Rle_trans with (bpow radix2 (- 2 ^ 15)); [apply bpow_le; vm_compute; discriminate|]. lra.
Qed.

(** ** The loop and the whole function *)
Lemma below_one x : wf x -> (Rabs (value x) < 1)%R -> (bpow radix2 (- (64 * wlen x)) <= 1 - Rabs (value x))%R \/ (Rabs (value x) < / 2)%R.
Proof.
  intros W H. destruct (Rlt_or_le (Rabs (value x)) (/ 2)) as [L|L]; [now right|left].
  assert (N : normal x) by (apply normal_iff; [exact W|]; eapply Rle_trans; [|exact L]; change (/ 2)%R with (bpow radix2 (-1)); apply bpow_le; vm_compute; discriminate).
  destruct (normal_range x W N) as [A1 A2]. assert (E : ne x = 0). { assert (ne x - 1 < 0) by (apply (lt_bpow radix2); change (bpow radix2 0) with 1%R; lra). assert (-1 < ne x) by (apply (lt_bpow radix2); change (bpow radix2 (-1)) with (/ 2)%R; lra). lia. }
  assert (V : Rabs (value x) = (IZR (magnitude x) * bpow radix2 (- (64 * wlen x)))%R).
  { unfold value. rewrite <- F2R_Zabs. unfold F2R. cbn [Fnum Fexp]. rewrite E, Z.sub_0_l. f_equal. f_equal. pose proof (val_nonneg _ (wf_words x W)) as P. fold (magnitude x) in P. destruct (ns x); cbn [sgnZ]; lia. }
  set (l := 64 * wlen x) in *. assert (L0 : 0 <= l) by (unfold l, wlen; pose proof (zlen_nonneg (mm (nm x))); lia). assert (Q : (bpow radix2 l * bpow radix2 (- l) = 1)%R) by (rewrite <- bpow_plus, Z.add_opp_diag_r; reflexivity). pose proof (bpow_gt_0 radix2 (- l)) as B0.
  assert (M : magnitude x + 1 <= 2 ^ l). { pose proof (val_bound _ (wf_words x W)) as B. fold (magnitude x) (wlen x) l in B. lia. }
  apply IZR_le in M. rewrite plus_IZR in M. change 2 with (radix_val radix2) in M. rewrite IZR_Zpower in M by exact L0. rewrite V. apply Rmult_le_compat_r with (r := bpow radix2 (- l)) in M; [|lra]. lra.
Qed.

Definition atanh_inv (x : num) (ap : Z) (y : num) (w : Z) : Prop := wf y /\ normal y /\ value y = value x /\ 64 * wlen y <= prec_up (w + ap).
Lemma prec_up_le a b : a <= b -> prec_up a <= prec_up b.
Proof. intros H. unfold prec_up. apply Z.mul_le_mono_nonneg_l; [lia|]. apply Z.div_le_mono; lia. Qed.

Theorem atanh_ok f h g c x p rm : lreach c -> wf x -> nonzero x -> (Rabs (value x) < 1)%R -> 0 < p -> (rm <> RNone \/ EMIN < ne x) ->
  work h (4 * work f (Z.max (prec_up p) (64 * wlen x) + 64) 64 + 64) 64 <= 2 ^ 14 ->
  match f_atanh f h g c x p rm with
  | None => True
  | Some (c', res) => lreach c' /\ exists q, res = Ok q /\ (elem_result (artanh (value x)) (prec_up p) rm q \/ rounded_to (prec_up p) rm (ns x) (artanh (value x)) q)
  end.
Proof.
  intros Hc W N HV Hp HN HB. change (Z.max (prec_up p) (64 * wlen x)) with (max64 (prec_up p) x) in HB. assert (P64 : 64 <= prec_up p) by (unfold prec_up; clear - Hp; dlia). assert (M1 : prec_up p <= max64 (prec_up p) x) by (unfold max64; lia). assert (M2 : 64 * wlen x <= max64 (prec_up p) x) by (unfold max64; lia).
  set (B := work f (max64 (prec_up p) x + 64) 64) in *. pose proof (work_ge f (max64 (prec_up p) x + 64) 64 ltac:(lia) ltac:(lia)) as HG. fold B in HG. pose proof (work_ge h (4 * B + 64) 64 ltac:(lia) ltac:(lia)) as HH. assert (B14 : 4 * B + 64 <= 16384) by (change 16384 with (2 ^ 14); lia).
  assert (PL : max64 (prec_up p) x + 64 < P_LIM) by (eapply Z.le_lt_trans with (2 ^ 14); [change (2 ^ 14) with 16384; lia|vm_compute; reflexivity]).
  destruct (exp_one x W N) as [E1 _]. pose proof (proj2 E1 HV) as HE.
  set (ap := 4 + (if ne x <? 0 then Z.abs (ne x) else count_leading_ones (mm (nm x)))).
  assert (EQ : f_atanh f h g c x p rm = odd_in (fun r => Some (c, r)) (fun x' p' rm' => atanh_loop f h g c x' (set_inexact x' false) ap p' rm' (Z.max p' (mantissa_max_bit_len x') + 64) 64) 1 false x p rm).
  { unfold f_atanh, odd_in, small_exp, lpure. cbv zeta. rewrite (is_zero_false x W N). replace (ne x =? 1) with false by lia. replace (1 <? ne x) with false by lia. reflexivity. }
  rewrite EQ. clear EQ. destruct (Z_lt_le_dec (max64 (prec_up p) x + 1) (- (ne x * 2 - 1))) as [S|S].
  - match goal with |- context [@odd_in ?A ?ok ?rest 1 false x p rm] => rewrite (@odd_in_small A ok rest (fun _ _ _ => Panic) 1 false x p rm W N Hp ltac:(lia) S) end. cbv beta. split; [exact Hc|]. destruct (atanh_small (fun _ _ _ => Panic) x p rm W N Hp PL HN S) as (q & Eq & Q). rewrite (atanh_inside _ x p rm W N HV) in Eq. exists q. split; [exact Eq|now right].
  - match goal with |- context [@odd_in ?A ?ok ?rest 1 false x p rm] => rewrite (@odd_in_rest A ok rest 1 false x p rm W N Hp ltac:(lia) S) end. cbv beta. change (mantissa_max_bit_len x) with (64 * wlen x). change (Z.max (prec_up p) (64 * wlen x)) with (max64 (prec_up p) x).
    assert (He2 : EMIN < ne x) by (apply Z.lt_le_trans with (- 2 ^ 21); [vm_compute; reflexivity|change (2 ^ 21) with 2097152; lia]).
    destruct (argument_start x W N He2) as (Wy & Ny & _ & _ & _). destruct (normal_range _ Wy Ny) as [A1 A2]. change (value (set_inexact x false)) with (value x) in A1, A2. change (ne (set_inexact x false)) with (ne x) in A1, A2.
    assert (AP : 4 <= ap <= 4 + max64 (prec_up p) x /\ (ne x < 0 -> ap = 4 - ne x)). { unfold ap. destruct (Z.ltb_spec (ne x) 0) as [L|L]; [split; [lia|intros _; lia]|]. split; [|lia]. rewrite (clo_spec _ (wf_words x W)). fold (wlen x) (magnitude x). pose proof (val_bound _ (wf_words x W)) as VB. fold (wlen x) (magnitude x) in VB. assert (BN : 0 <= bitlen (2 ^ (64 * wlen x) - 1 - magnitude x)) by (unfold bitlen; destruct (_ =? _); [lia|]; pose proof (Z.log2_nonneg (2 ^ (64 * wlen x) - 1 - magnitude x)); lia).
      assert (bitlen (2 ^ (64 * wlen x) - 1 - magnitude x) <= 64 * wlen x); [|lia]. apply WordsP.bitlen_le; [unfold wlen; pose proof (zlen_nonneg (mm (nm x))); lia|lia]. }
    destruct AP as [AP1 AP2].
    assert (V0 : value x <> 0%R). { intros E. rewrite E, Rabs_R0 in A1. pose proof (bpow_gt_0 radix2 (ne x - 1)). lra. }
    assert (LOW : (bpow radix2 (- 2 ^ 15) <= Rabs (value x))%R). { eapply Rle_trans; [|exact A1]. apply bpow_le. change (2 ^ 15) with 32768. lia. }
    assert (UP : (bpow radix2 (- 2 ^ 15) <= 1 - Rabs (value x))%R). { destruct (below_one x W HV) as [Q|Q]; [eapply Rle_trans; [|exact Q]; apply bpow_le; change (2 ^ 15) with 32768; lia|]. apply Rle_trans with (/ 2)%R; [change (/ 2)%R with (bpow radix2 (-1)); apply bpow_le; vm_compute; discriminate|lra]. }
    pose proof (loop_acc (fun f c y w i => atanh_loop f h g c x y ap (prec_up p) rm w i) (atanh_inv x ap) x (prec_up p) rm (artanh (value x)) (max64 (prec_up p) x + 64) B ltac:(reflexivity)) as LA. cbv beta in LA.
    assert (AR : (Rabs (artanh (value x)) <= bpow radix2 100)%R).
    { unfold artanh. rewrite Rabs_mult, (Rabs_pos_eq (/ 2)) by lra. pose proof (Rabs_triang_inv (1 + value x) 0) as _. set (v := value x) in *. assert (RV : (- Rabs v <= v <= Rabs v)%R) by (pose proof (Rle_abs v); pose proof (Rle_abs (- v)) as Q; rewrite Rabs_Ropp in Q; lra).
      pose proof (bpow_gt_0 radix2 (- 2 ^ 15)) as B0. assert (LT : forall t, (bpow radix2 (- 2 ^ 15) <= t <= 2)%R -> (- IZR (2 ^ 15) <= ln t <= 1)%R).
      { intros t T. split.
        - assert (LB : ln (bpow radix2 (- 2 ^ 15)) = (- IZR (2 ^ 15) * ln 2)%R). { rewrite bpow_exp, ln_exp, opp_IZR. reflexivity. }
          assert (LE : (ln (bpow radix2 (- 2 ^ 15)) <= ln t)%R) by (destruct (Req_dec (bpow radix2 (- 2 ^ 15)) t) as [E|E]; [rewrite E; lra|left; apply ln_increasing; lra]). pose proof ln2_range. rewrite LB in LE. assert (0 <= IZR (2 ^ 15))%R by (apply IZR_le; lia). nra.
        - pose proof (ln_1p (t - 1) ltac:(lra)) as Q. replace (1 + (t - 1))%R with t in Q by ring. lra. }
      unfold Rdiv. assert (I0 : (0 < / (1 - v))%R) by (apply Rinv_0_lt_compat; lra). rewrite ln_mult, ln_Rinv by lra. destruct (LT (1 + v)%R ltac:(lra)) as [T1 T2]. destruct (LT (1 - v)%R ltac:(lra)) as [T3 T4]. apply Rle_trans with (2 * IZR (2 ^ 15) + 2)%R.
      - assert (0 <= IZR (2 ^ 15))%R by (apply IZR_le; lia). assert (Rabs (ln (1 + v) + - ln (1 - v)) <= 2 * IZR (2 ^ 15) + 2)%R by (apply Rabs_le; lra). lra.
      - rewrite <- !mult_IZR, <- plus_IZR. change (bpow radix2 100) with (IZR (2 ^ 100)). apply IZR_le. vm_compute. discriminate. }
    match type of LA with ?A -> _ => assert (HS : A) end.
    { intros f' c0 y w i Hc0 (W1 & N1 & V1 & L1) Hw Hw64. assert (PX : w + 64 <= prec_up (w + ap) <= 4 * w /\ w + ap <= prec_up (w + ap)). { unfold prec_up. clear - AP1 Hw64 Hw M1 P64. dlia. }
      destruct PX as [PX PX2]. assert (PL2 : prec_up (w + ap) < P_LIM) by (eapply Z.le_lt_trans with (2 ^ 14); [change (2 ^ 14) with 16384; lia|vm_compute; reflexivity]).
      cbn [atanh_loop]. destruct (apx_len_up 128 (ns y) 0 _ y (w + ap) (apx_self 128 y W1 N1) L1 ltac:(lia) PL2) as (z & -> & (Wz & Nz & _) & Lz & Vz). unfold lpure. cbn [lbind].
      assert (BW : (bpow radix2 (- prec_up (w + ap)) <= / 8 * bpow radix2 (- w) * Rabs (value x))%R).
      { apply Rle_trans with (/ 8 * bpow radix2 (- w) * bpow radix2 (ne x - 1))%R; [|apply Rmult_le_compat_l; [pose proof (bpow_gt_0 radix2 (- w)); lra|exact A1]]. change (/ 8)%R with (bpow radix2 (-3)). rewrite <- !bpow_plus. apply bpow_le. destruct (Z_lt_le_dec (ne x) 0) as [Q|Q]; [specialize (AP2 Q); lia|lia]. }
      assert (HB2 : work h (prec_up (w + ap) + 64) 64 <= 2 ^ 14) by (eapply Z.le_trans; [|exact HB]; apply work_mono; lia).
      destruct (atanh_round h g c0 z (w + ap) w (value x) Hc0 Wz Nz ltac:(congruence) V0 HV UP LOW ltac:(lia) ltac:(lia) HB2 BW) as [-> |(c' & ret & -> & Hc' & G)]; [left; reflexivity|]. cbn [lbind]. right. exists c', z, ret. split; [reflexivity|]. split; [exact Hc'|]. split.
      - intros w' Hw'. split; [exact Wz|]. split; [exact Nz|]. split; [congruence|]. rewrite Lz. apply prec_up_le. lia.
      - apply good_accepts; [exact G|exact AR|lia|apply prec_up_mod|exact Hw64|lia]. }
    specialize (LA HS ltac:(lia) ltac:(change (2 ^ 14) with 16384; lia) f c (set_inexact x false) (max64 (prec_up p) x + 64) 64 Hc).
    assert (HI : atanh_inv x ap (set_inexact x false) (max64 (prec_up p) x + 64)). { split; [exact Wy|]. split; [exact Ny|]. split; [reflexivity|]. change (wlen (set_inexact x false)) with (wlen x). revert M2 AP1. generalize (max64 (prec_up p) x). intros k M2 AP1. unfold prec_up. clear - M2 AP1. dlia. }
    specialize (LA HI ltac:(lia) (max_mod p x) ltac:(lia) eq_refl (Z.le_refl _)). destruct (atanh_loop f h g c x (set_inexact x false) ap (prec_up p) rm _ 64) as [[c' res]|]; [|exact I]. destruct LA as (Q1 & q & Q2 & Q3). split; [exact Q1|]. exists q. split; [exact Q2|now left].
Qed.
