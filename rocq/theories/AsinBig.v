(** The arcsine for arguments between 7/10 and one in magnitude. *)

From Coq Require Import ZArith List Bool Lia Reals Lra.
From Flocq Require Import Core Relative.
From Verif Require Import Words IntModel Mantissa Num Pow Consts Elem Series Exp Ln Sin Atan Asin SpecZ SpecOps SpecConst SpecPow SpecElem WordsP Spec RealP RealP2 NumP CmpP AddP SetP AddNum MulNum DivNum ArithTop ConvNum Conv2Num RootP ConstP ConstNum ExtP CtxP PowExt Refute1 ElemR ElemDom SmallP ElemNum ApproxR ApproxNum SeriesNum SinhR SinhNum SinhTop ExpNum LnR LnNum RetryNum ConstReach SpecReach ExpTop HypNum HypTop TanhNum LnMant AltNum AltDiv AtanR AtanTop AsinTop PowTop PiNum PropsConst AtanBig AcosTop ElemInf.
Import ListNotations.
Open Scope Z_scope.
Ltac Zify.zify_post_hook ::= idtac.
Arguments Z.mul : simpl never.
Arguments Z.add : simpl never.
Arguments Z.pow : simpl never.
Arguments Z.sub : simpl never.
Arguments Z.of_nat : simpl never.
Ltac dlia := Z.div_mod_to_equations; lia.

(** ** The distance from one *)
Lemma gap_one x : wf x -> normal x -> ne x = 0 -> let lo := count_leading_ones (mm (nm x)) in
  0 <= lo <= 64 * wlen x /\ (bpow radix2 (- (lo + 1)) <= 1 - Rabs (value x))%R.
Proof.
  intros W N E. cbv zeta. assert (V : Rabs (value x) = (IZR (magnitude x) * bpow radix2 (- (64 * wlen x)))%R).
  { unfold value. rewrite <- F2R_Zabs. unfold F2R. cbn [Fnum Fexp]. rewrite E, Z.sub_0_l. f_equal. f_equal. pose proof (val_nonneg _ (wf_words x W)) as P. fold (magnitude x) in P. destruct (ns x); cbn [sgnZ]; lia. }
  rewrite (clo_spec _ (wf_words x W)). fold (wlen x) (magnitude x). pose proof (val_bound _ (wf_words x W)) as VB. fold (wlen x) (magnitude x) in VB.
  assert (LW : 0 <= wlen x) by (unfold wlen; pose proof (zlen_nonneg (mm (nm x))); lia).
  set (l := 64 * wlen x) in *. assert (L0 : 0 <= l) by lia. clearbody l. set (n := 2 ^ l - 1 - magnitude x). assert (N1 : 0 <= n < 2 ^ l) by (unfold n; lia).
  assert (BN : 0 <= bitlen n <= l). { split; [|apply WordsP.bitlen_le; lia]. unfold bitlen. destruct (_ =? _); [lia|]. pose proof (Z.log2_nonneg n). lia. }
  split; [lia|]. assert (G : 2 ^ bitlen n <= 2 * (n + 1)). { unfold bitlen. destruct (Z.eqb_spec n 0) as [Z|Z]; [rewrite Z; vm_compute; discriminate|]. rewrite Z.pow_add_r by (try apply Z.log2_nonneg; lia). pose proof (Z.log2_spec n ltac:(lia)). lia. }
  replace (1 - Rabs (value x))%R with (IZR (n + 1) * bpow radix2 (- l))%R.
  2:{ rewrite V. replace (n + 1) with (2 ^ l - magnitude x) by (unfold n; ring). rewrite minus_IZR. change (2 ^ l) with (radix_val radix2 ^ l). rewrite IZR_Zpower by exact L0. rewrite Rmult_minus_distr_r, <- bpow_plus, Z.add_opp_diag_r. reflexivity. }
  replace (- (l - bitlen n + 1)) with (bitlen n + -1 + - l) by ring. rewrite bpow_plus. apply Rmult_le_compat_r; [apply bpow_ge_0|]. rewrite bpow_plus, <- IZR_Zpower by apply BN. change (radix_val radix2) with 2. change (bpow radix2 (-1)) with (/ 2)%R. apply IZR_le in G. rewrite mult_IZR in G. lra.
Qed.

(** ** The argument of the arctangent *)
Lemma asin_arg_near P px lo x s v : prec_up px = P -> 128 <= P - lo -> 0 <= lo <= 2 ^ 20 -> P < P_LIM -> wf x -> normal x -> ns x = s -> Rabs (value x) = v -> (7 / 10 < v < 1)%R -> (bpow radix2 (- (lo + 1)) <= 1 - v)%R ->
  exists d, asin_arg x px = Ok d /\ apx (P - lo) s 16 (tan_of_sin v) d /\ 64 * wlen d = P /\ (7 / 10 < tan_of_sin v <= bpow radix2 (lo + 1))%R.
Proof.
  intros EP HQ Hlo HL W N S EV V G. assert (HP : 128 <= P) by lia. assert (HPP : 128 <= P <= prec_up px) by lia. assert (HPQ : 128 <= P - lo <= prec_up px) by lia. rewrite <- EP in HL.
  set (q := (1 - v * v)%R). assert (Q1 : (1 - v <= q < 51 / 100)%R) by (unfold q; split; nra). pose proof (bpow_gt_0 radix2 (- (lo + 1))) as G0.
  pose proof (eps_pos P) as E0. assert (EQ : eps (P - lo) = (bpow radix2 lo * eps P)%R) by (unfold eps; rewrite <- bpow_plus; f_equal; ring). assert (E1 : (eps P <= eps (P - lo))%R) by (unfold eps; apply bpow_le; lia).
  assert (E2 : (eps P <= 2 * (eps (P - lo) * q))%R). { apply Rle_trans with (2 * (eps (P - lo) * bpow radix2 (- (lo + 1))))%R; [|apply Rmult_le_compat_l; [lra|]; apply Rmult_le_compat_l; lra]. rewrite EQ. right. replace (- (lo + 1)) with (- lo + -1) by ring. rewrite bpow_plus. change (bpow radix2 (-1)) with (/ 2)%R. replace (2 * (bpow radix2 lo * eps P * (bpow radix2 (- lo) * / 2)))%R with (eps P * (bpow radix2 lo * bpow radix2 (- lo)))%R by field. rewrite <- bpow_plus, Z.add_opp_diag_r. change (bpow radix2 0) with 1%R. ring. }
  assert (E3 : (eps (P - lo) <= / 64)%R). { pose proof (eps_small (P - lo) 1 HQ ltac:(clear; lia)) as Q. rewrite Rmult_1_l in Q. eapply Rle_trans; [exact Q|]. change (/ 64)%R with (bpow radix2 (-6)). apply bpow_le. clear. lia. }
  assert (E4 : (eps (P - lo) * q <= / 64 * q)%R) by (apply Rmult_le_compat_r; lra). assert (E5 : (eps P * q <= eps (P - lo) * q)%R) by (apply Rmult_le_compat_r; lra).
  assert (E6 : (0 <= eps P * (v * v) <= eps P)%R). { assert (0 <= v * v <= 1)%R by (clear - V; nra). split; [apply Rmult_le_pos; lra|]. rewrite <- (Rmult_1_r (eps P)) at 2. apply Rmult_le_compat_l; lra. }
  assert (AX : apx P s 0 v x) by (rewrite <- S, <- EV; now apply apx_self). assert (AXQ : apx (P - lo) s 0 v x) by (rewrite <- S, <- EV; now apply apx_self).
  unfold asin_arg. destruct (apx_mul P px RNone HPP HL s s 0 0 v v x x AX AX) as (xx & -> & Hxx & Lxx & _); [clear; lia| |].
  { apply (mid_range (-2) 0); [vm_compute; discriminate|vm_compute; discriminate|]. change (bpow radix2 0) with 1%R. change (bpow radix2 (-2)) with (/ 4)%R. clear - V. nra. }
  replace (sign_mul s s) with Pos in Hxx by (destruct s; reflexivity). cbn [bind]. apply apx_sab in Hxx; [|exact HP|clear; lia]. pose proof (apx_sab P Pos 0 1 ONE HP (apx_ONE P) ltac:(lia)) as H1.
  change (sr Pos) with 1%R in Hxx, H1. rewrite !Rmult_1_l in Hxx. change (0 + 0 + 1) with 1 in Hxx. replace (2 * 1 * eps P * (v * v))%R with (2 * (eps P * (v * v)))%R in Hxx by ring. replace (2 * 0 * eps P * 1)%R with 0%R in H1 by ring.
  destruct (sab_sub P px RNone HPP HL _ _ _ _ ONE xx H1 Hxx) as (t & -> & Ht & Lt & _).
  { rewrite Rmult_1_l. fold q. rewrite Rabs_pos_eq by lra. lra. }
  { rewrite Rmult_1_l. fold q. rewrite Rabs_pos_eq by lra. apply (mid_range (- (lo + 1)) 0); [unfold HX; clear - Hlo; lia|vm_compute; discriminate|]. change (bpow radix2 0) with 1%R. lra. }
  cbn [bind]. rewrite Rmult_1_l in Ht. fold q in Ht. rewrite (Rabs_pos_eq q) in Ht by lra. apply (sab_same _ _ (sr Pos * q)) in Ht; [|change (sr Pos) with 1%R; ring].
  apply (sab_apx (P - lo) Pos 14) in Ht; [|exact HQ|lra|clear; lia|lra].
  assert (SQ : (q <= sqrt q < 1)%R). { assert (0 <= q)%R by lra. pose proof (sqrt_sqrt q H) as SS. pose proof (sqrt_pos q) as SP. assert (sqrt q < 1)%R by (rewrite <- sqrt_1; apply sqrt_lt_1; lra). split; [|exact H0]. rewrite <- SS at 1. rewrite <- (Rmult_1_r (sqrt q)) at 3. apply Rmult_le_compat_l; lra. }
  destruct (apx_sqrt (P - lo) px RNone HPQ HL 14 _ t Ht) as (r & -> & Hr & Lr & _); [clear; lia|clear; lia| |].
  { apply (mid_range (- (lo + 1)) 0); [unfold HX; clear - Hlo; lia|vm_compute; discriminate|]. change (bpow radix2 0) with 1%R. lra. }
  assert (TB : (7 / 10 < tan_of_sin v <= bpow radix2 (lo + 1))%R).
  { unfold tan_of_sin. fold q. assert (S0 : (0 < sqrt q)%R) by lra. split.
    - apply Rmult_lt_reg_r with (sqrt q); [exact S0|]. replace (v / sqrt q * sqrt q)%R with v by (field; lra). assert (7 / 10 * sqrt q <= 7 / 10 * 1)%R by (apply Rmult_le_compat_l; lra). lra.
    - apply Rmult_le_reg_r with (sqrt q); [exact S0|]. replace (v / sqrt q * sqrt q)%R with v by (field; lra). apply Rle_trans with (bpow radix2 (lo + 1) * bpow radix2 (- (lo + 1)))%R; [rewrite <- bpow_plus, Z.add_opp_diag_r; change (bpow radix2 0) with 1%R; lra|]. apply Rmult_le_compat_l; [apply bpow_ge_0|lra]. }
  cbn [bind]. destruct (apx_div (P - lo) px RNone HPQ HL s Pos 0 (14 + 1) _ _ x r AXQ Hr) as (d & -> & Hd & Ld & _); [clear; lia| |].
  { fold q. change (v / sqrt q)%R with (tan_of_sin v). apply (mid_range (-1) (lo + 1)); [vm_compute; discriminate|unfold HX; clear - Hlo; lia|]. change (bpow radix2 (-1)) with (/ 2)%R. lra. }
  exists d. split; [reflexivity|]. split; [|split; [lia|exact TB]]. replace (sign_mul s Pos) with s in Hd by (destruct s; reflexivity). exact Hd.
Qed.

(** ** The arctangent of it *)
Lemma atan_any e g c d p rm : reachable pi_new pi_for_prec c -> wf d -> normal d -> 0 <= ne d <= 2 ^ 21 -> 0 < p -> 64 * wlen d = prec_up p -> work e (prec_up p + 64) 64 + 64 <= 2048 ->
  big_post d (prec_up p) rm (f_atan e g 31 c d p rm).
Proof.
  intros R W N He Hp L HB. assert (P64 : 64 <= prec_up p) by (unfold prec_up; clear - Hp; dlia). destruct (normal_range d W N) as [N1 _]. destruct (Z_le_gt_dec (ne d) 0) as [E|E].
  - pose proof (atan_rest e g 31 c d p rm W (proj2 N) Hp E ltac:(lia) ltac:(rewrite L, Z.max_id; eapply Z.le_trans; [exact HB|vm_compute; discriminate])) as O. unfold atan_post in O. unfold big_post. destruct (f_atan e g 31 c d p rm) as [[c' res]|]; [|exact I]. destruct O as (-> & q & -> & Q). split; [exact R|exact Q].
  - apply atan_big_ok; try assumption; [apply N| |lia|rewrite L, Z.max_id; exact HB]. eapply Rle_trans; [|exact N1]. change 1%R with (bpow radix2 0). apply bpow_le. lia.
Qed.

(** ** The loop *)
Section Loop.
Context (x0 : num) (lo p : Z) (rm : rmode) (e g : nat).
Hypotheses (W0 : wf x0) (N0 : nonzero x0) (Hp : 0 < p) (Hp64 : p mod 64 = 0) (HV : (7 / 10 < Rabs (value x0) < 1)%R) (Hlo : 0 <= lo) (HG : (bpow radix2 (- (lo + 1)) <= 1 - Rabs (value x0))%R).

Definition near_post (o : prun num) : Prop :=
  match o with
  | None => True
  | Some (c, res) => reachable pi_new pi_for_prec c /\ match res with Ok q => elem_result (asin (value x0)) p rm q | _ => overflowed res end
  end.
Theorem asin_near_loop_ok : forall f c x w i, reachable pi_new pi_for_prec c -> argument x0 (w + (8 + lo)) x -> ns x = ns x0 -> p + 64 <= w -> lo <= w -> w mod 64 = 0 -> 64 <= i -> i mod 64 = 0 -> 128 <= w -> i <= 64 * (((w + i) / 5 + 63) / 64) ->
  work e (2 * work f w i + 128) 64 + 64 <= 2048 -> near_post (asin_loop f e g 31 c x0 x (8 + lo) p rm w i).
Proof.
  induction f as [|f IH]; intros c x w i R HX Sx Hpw Hlw Hw64 Hi Hi64 Hw Hii HB; [exact I|].
  pose proof (work_ge (Datatypes.S f) w i ltac:(lia) ltac:(lia)) as H1. pose proof (work_ge e (2 * work (Datatypes.S f) w i + 128) 64 ltac:(lia) ltac:(lia)) as H2.
  set (P := prec_up (w + (8 + lo))). assert (HP : w + 8 + lo <= P <= 2 * w + 64 /\ w + 64 <= P) by (unfold P, prec_up; clear - Hw64 Hlw Hlo; dlia).
  assert (HBw : work e (P + 64) 64 + 64 <= 2048). { eapply Z.le_trans; [|exact HB]. apply Z.add_le_mono_r. apply work_mono; lia. }
  change (work (Datatypes.S f) w i) with (work f (w + i) (64 * (((w + i) / 5 + 63) / 64))) in HB, H1, H2.
  pose proof (work_ge f (w + i) (64 * (((w + i) / 5 + 63) / 64)) ltac:(lia) ltac:(clear - Hw Hi; dlia)) as H3.
  pose proof (work_ge e (P + 64) 64 ltac:(lia) ltac:(lia)) as H4.
  assert (PL : P < P_LIM) by (apply Z.lt_le_trans with 2048; [lia|vm_compute; discriminate]).
  cbn [asin_loop]. cbv zeta. destruct (argument_len x0 (w + (8 + lo)) x (w + (8 + lo)) ltac:(lia) PL ltac:(lia) HX) as (y & -> & HY & Sy & Ly). fold P in HY, Ly. cbn [ppure pbind]. pose proof HY as (Wy & Ny & Vy & Ey & _). rewrite Sx in Sy.
  set (v := Rabs (value x0)) in *.
  destruct (asin_arg_near P (w + (8 + lo)) lo y (ns x0) v eq_refl ltac:(lia) ltac:(clear - Hlo Hlw HP H4 HBw; lia) PL Wy Ny Sy Vy HV HG) as (d & -> & (Wd & Nd & Sd & LCd) & Ld & T1 & T2). cbn [ppure pbind].
  set (PQ := P - lo) in *. assert (HPQ : 128 <= PQ) by (unfold PQ; lia). pose proof (eps_small PQ 16 HPQ ltac:(clear; lia)) as ES. pose proof (eps_pos PQ) as E0.
  assert (D0 : (0 <= IZR 16 * eps PQ)%R) by (apply Rmult_le_pos; lra).
  pose proof (lc_two _ _ _ (eps_quarter PQ 16 HPQ ltac:(clear; lia)) LCd) as [DA DB].
  assert (D1 : (/ 2 < Rabs (value d))%R). { destruct LCd as (_ & LA & _). eapply Rlt_le_trans; [|exact LA]. pose proof (exp_ineq1_le (- (IZR 16 * eps PQ))) as EL. assert (IZR 16 * eps PQ <= / 64)%R by (eapply Rle_trans; [exact ES|]; change (/ 64)%R with (bpow radix2 (-6)); apply bpow_le; clear; lia). apply Rlt_le_trans with (7 / 10 * (63 / 64))%R; [lra|]. apply Rmult_le_compat; lra. }
  destruct (normal_range d Wd Nd) as [Z1 Z2].
  assert (ND : 0 <= ne d <= 2 ^ 21). { split.
    - assert (-1 < ne d); [|lia]. apply (lt_bpow radix2). change (bpow radix2 (-1)) with (/ 2)%R. lra.
    - assert (ne d - 1 <= lo + 2); [|change (2 ^ 21) with 2097152; clear - H Hlw HP H4 HBw; lia]. apply (le_bpow radix2). eapply Rle_trans; [exact Z1|]. replace (lo + 2) with (1 + (lo + 1)) by ring. rewrite bpow_plus. change (bpow radix2 1) with 2%R. lra. }
  pose proof (atan_any e g c d (w + (8 + lo)) rm R Wd Nd ND ltac:(lia) Ld HBw) as AT. fold P in AT. unfold big_post in AT.
  destruct (f_atan e g 31 c d (w + (8 + lo)) rm) as [[c' res]|]; [|exact I]. destruct AT as [R' AT]. destruct res as [ret|[t| | |]|]; try contradiction; cbn [ppure pbind]; [|split; [exact R'|exact I]].
  pose proof (value_has_sign x0 W0 N0) as VS. pose proof (value_has_sign d Wd (proj2 Nd)) as VD. rewrite Sd in VD. destruct (atan_sign _ _ VD) as [SS SA].
  assert (AA : (Rabs (asin (value x0)) = atan (tan_of_sin v) /\ has_sign (ns x0) (asin (value x0)))%R).
  { pose proof (atan_pos (tan_of_sin v) ltac:(lra)) as PV. rewrite <- (asin_tan v) in * by lra. unfold v in *. unfold has_sign in *. destruct (ns x0); cbn [sgnZ] in *.
    - rewrite (Rabs_left (value x0)) in * by lra. rewrite asin_opp in *. rewrite (Rabs_left (asin _)) by lra. split; [reflexivity|]. lra.
    - rewrite (Rabs_pos_eq (value x0)) in * by lra. rewrite (Rabs_pos_eq (asin _)) by lra. split; [reflexivity|]. lra. }
  destruct AA as (AE1 & AS1). pose proof (lc_atan _ _ _ D0 LCd) as LA. rewrite <- SA in LA. rewrite <- AE1 in LA.
  assert (LOW : (bpow radix2 EMIN <= Rabs (atan (value d)))%R).
  { rewrite SA. apply Rle_trans with (atan (/ 2)); [|apply atan_mono; lra]. apply Rle_trans with (/ 8)%R; [change (/ 8)%R with (bpow radix2 (-3)); apply bpow_le; vm_compute; discriminate|]. pose proof (atan_scale 2 (/ 2) ltac:(lra) ltac:(lra)) as SC. rewrite Rinv_r, atan_1 in SC by lra. pose proof PI2_3_2. lra. }
  pose proof (elem_apx_low _ _ _ _ AT ltac:(lia) LOW) as (Wr & Nr & _ & LR). destruct AT as (_ & Lr & Sr & Ir & _).
  assert (LR2 : lc (IZR 1 * eps PQ) (Rabs (atan (value d))) (Rabs (value ret))). { eapply lc_weak; [|exact LR]. apply Rmult_le_compat_l; [lra|]. unfold eps. apply bpow_le. unfold PQ. lia. }
  pose proof (lc_trans _ _ _ _ _ LA LR2) as LC2.
  assert (SR2 : has_sign (ns ret) (asin (value x0))). { unfold has_sign in *. destruct (ns ret), (ns x0); cbn [sgnZ] in *; lra. }
  assert (DD : (0 <= IZR 16 * eps PQ + IZR 1 * eps PQ <= 3 / 8 * bpow radix2 (- w))%R).
  { split; [lra|]. assert (EQ : (eps PQ <= / 64 * bpow radix2 (- w))%R). { change (/ 64)%R with (bpow radix2 (-6)). rewrite <- bpow_plus. unfold eps, PQ. apply bpow_le. clear - HP. lia. } pose proof (bpow_gt_0 radix2 (- w)). lra. }
  pose proof (accept_gen (asin (value x0)) ret p rm w _ Wr Nr Ir ltac:(lia) SR2 LC2 DD Hp Hp64 Hw64 Hpw) as AE.
  destruct (try_set_precision ret p rm w) as [[q [|]]|[t| | |]|]; try contradiction; cbn [ppure pbind].
  + split; [exact R'|]. now apply elem_mark.
  + rewrite round_step by (clear - H1 H2 H3 HB Hw Hi; lia). apply IH; [exact R'|apply (argument_wide x0 P); [|exact HY]|exact Sy|lia|lia| |clear - Hw Hi; dlia|rewrite Z.mul_comm; apply Z.mod_mul; lia|lia| |exact HB].
    * unfold P, prec_up. clear - Hi. dlia.
    * clear - Hw64 Hi64. dlia.
    * assert (D : (w + i) / 5 <= (w + i + 64 * (((w + i) / 5 + 63) / 64)) / 5) by (apply Z.div_le_mono; [lia|]; clear - Hw Hi; dlia). assert ((((w + i) / 5 + 63) / 64) <= (((w + i + 64 * (((w + i) / 5 + 63) / 64)) / 5 + 63) / 64)) by (apply Z.div_le_mono; lia). lia.
  + exfalso. revert AE. apply no_overflow; [exact Hp|]. rewrite AE1. pose proof (atan_bound (tan_of_sin v)). pose proof PI_4. apply Rle_trans with (bpow radix2 1); [change (bpow radix2 1) with 2%R; lra|apply bpow_le; clear; lia].
Qed.
End Loop.

Theorem asin_near_ok f e g c x p rm : reachable pi_new pi_for_prec c -> wf x -> 0 < p -> (7 / 10 < Rabs (value x) < 1)%R ->
  work e (2 * work f (Z.max (prec_up p) (64 * wlen x) + 64) 64 + 128) 64 + 64 <= 2048 -> near_post x (prec_up p) rm (f_asin f e g 31 c x p rm).
Proof.
  intros R W Hp HV HB. assert (N : nonzero x) by (intros Z; rewrite (value_zero x Z), Rabs_R0 in HV; lra). change (Z.max (prec_up p) (64 * wlen x)) with (max64 (prec_up p) x) in HB. assert (P64 : 64 <= prec_up p) by (unfold prec_up; clear - Hp; dlia). assert (M1 : prec_up p <= max64 (prec_up p) x) by (unfold max64; lia). assert (M2 : 64 * wlen x <= max64 (prec_up p) x) by (unfold max64; lia).
  pose proof (work_ge f (max64 (prec_up p) x + 64) 64 ltac:(lia) ltac:(lia)) as H1. pose proof (work_ge e (2 * work f (max64 (prec_up p) x + 64) 64 + 128) 64 ltac:(lia) ltac:(lia)) as H2. assert (PL : max64 (prec_up p) x + 64 < P_LIM) by (eapply Z.le_lt_trans with 2048; [lia|vm_compute; reflexivity]).
  assert (E1 : -1 < ne x). { apply (lt_bpow radix2). change (bpow radix2 (-1)) with (/ 2)%R. pose proof (value_lt_bpow x W). lra. }
  pose proof (argument_start x W N ltac:(apply Z.lt_trans with (-1); [vm_compute; reflexivity|exact E1])) as HA. assert (Nx : normal x) by (destruct HA as (_ & Q & _); exact Q).
  assert (E0 : ne x = 0). { destruct (normal_range x W Nx) as [N1 _]. assert (ne x - 1 < 0); [apply (lt_bpow radix2); change (bpow radix2 0) with 1%R; lra|lia]. }
  destruct (gap_one x W Nx E0) as [G1 G2]. set (lo := count_leading_ones (mm (nm x))) in *.
  assert (EQ : f_asin f e g 31 c x p rm = odd_in (fun r => Some (c, r)) (fun x' p' rm' => asin_loop f e g 31 c x' (set_inexact x' false) (8 + lo) p' rm' (Z.max p' (mantissa_max_bit_len x') + 64) 64) 2 false x p rm).
  { unfold f_asin, odd_in, small_exp, ppure. cbv zeta. rewrite (is_zero_false x W N). pose proof (abs_cmp_one x W) as C. rewrite Rcompare_Lt in C by lra. cbn [sgn_of] in C. replace (0 <? n_abs_cmp x ONE) with false by (symmetry; apply Z.ltb_ge; lia). replace (n_abs_cmp x ONE =? 0) with false by (symmetry; apply Z.eqb_neq; lia). rewrite E0. reflexivity. }
  rewrite EQ. clear EQ. match goal with |- context [@odd_in ?A ?ok ?rest 2 false x p rm] => rewrite (@odd_in_rest A ok rest 2 false x p rm W N Hp ltac:(lia) ltac:(lia)) end. cbv beta. change (mantissa_max_bit_len x) with (64 * wlen x). change (Z.max (prec_up p) (64 * wlen x)) with (max64 (prec_up p) x).
  apply (argument_wide x _ (max64 (prec_up p) x + 64 + (8 + lo))) in HA; [|lia].
  exact (asin_near_loop_ok x lo (prec_up p) rm e g W N ltac:(lia) (prec_up_mod p) HV ltac:(apply G1) G2 f c _ (max64 (prec_up p) x + 64) 64 R HA eq_refl ltac:(lia) ltac:(lia) (max_mod p x) ltac:(lia) eq_refl ltac:(lia) ltac:(clear - M1 P64; dlia) HB).
Qed.

(** ** At plus and minus one *)
Lemma prec_up_idem p : prec_up (prec_up p) = prec_up p.
Proof. unfold prec_up. dlia. Qed.
Lemma half_rounded k rm s y : 64 <= k -> is_pi k (if is_pos s then rm else invert_rm_for_sign rm) y ->
  let q := set_sign (set_exponent y (ne y - 1)) s in wf q /\ 64 * wlen q = k /\ ns q = s /\ ninexact q = true /\ value q = rnd_prec k rm (sr s * (PI / 2)).
Proof.
  intros Hk (W & L & S & I & V & _). cbv zeta. set (rm' := if is_pos s then rm else invert_rm_for_sign rm) in *. assert (PB : (3 < PI <= 4)%R) by (pose proof PI2_3_2; pose proof PI_4; lra). assert (Hp0 : Prec_gt_0 k) by (red; lia).
  assert (G : (bpow radix2 1 <= Rabs (value y) <= bpow radix2 2)%R). { rewrite V. unfold rnd_prec. split; [apply abs_round_ge_generic|apply abs_round_le_generic]; try (apply FLX_exp_valid; exact Hp0); try apply rnd_valid; try (apply generic_format_bpow; unfold FLX_exp; lia); rewrite Rabs_pos_eq by lra; [change (bpow radix2 1) with 2%R|change (bpow radix2 2) with 4%R]; lra. }
  assert (N : normal y). { apply normal_iff; [exact W|]. eapply Rle_trans; [|apply G]. apply bpow_le. vm_compute. discriminate. }
  destruct (normal_range y W N) as [N1 N2]. assert (E : 1 < ne y <= 3). { split; [apply (lt_bpow radix2); lra|]. assert (ne y - 1 <= 2); [apply (le_bpow radix2); lra|lia]. }
  destruct (set_exponent_spec y (ne y - 1) W ltac:(change EMIN with (-2147483648); change EMAX with 2147483647; clear - E; lia)) as (W1 & L1 & S1 & I1 & V1). replace (ne y - 1 - ne y) with (-1) in V1 by ring. set (q := set_exponent y (ne y - 1)) in *. clearbody q.
  split; [now apply wf_set_sign|]. split; [change (wlen (set_sign q s)) with (wlen q); congruence|]. split; [reflexivity|]. split; [cbn [set_sign ninexact]; congruence|].
  assert (VQ : value (set_sign q s) = (sr s * (rnd_prec k rm' PI * bpow radix2 (-1)))%R).
  { rewrite <- V, <- V1. pose proof (value_has_sign y W (proj2 N)) as VS. rewrite S in VS. unfold has_sign in VS. cbn [sgnZ] in VS. rewrite Rmult_1_l in VS. pose proof (bpow_gt_0 radix2 (-1)) as B0. assert (Q0 : (0 < value q)%R) by (rewrite V1; apply Rmult_lt_0_compat; lra). rewrite value_set_sign, S1, S. unfold sr. cbn [sgnZ]. ring. }
  rewrite VQ, <- rnd_prec_scale. change (bpow radix2 (-1)) with (/ 2)%R. unfold rm', sr. destruct s; cbn [sgnZ is_pos].
  - rewrite rnd_prec_opp. replace (- (PI * / 2))%R with (-1 * (PI / 2))%R by (unfold Rdiv; ring). ring.
  - rewrite !Rmult_1_l. reflexivity.
Qed.
Theorem asin_end_ok f e g c x p rm : reachable pi_new pi_for_prec c -> wf x -> 0 < p <= 2048 -> Rabs (value x) = 1%R ->
  exists c' res, f_asin f e g 31 c x p rm = Some (c', res) /\ reachable pi_new pi_for_prec c' /\
    match res with Ok q => wf q /\ 64 * wlen q = prec_up p /\ ns q = ns x /\ ninexact q = true /\ value q = rnd_prec (prec_up p) rm (asin (value x)) | _ => overflowed res end.
Proof.
  intros R W Hp H. assert (N : nonzero x) by (intros Z; rewrite (value_zero x Z), Rabs_R0 in H; lra). assert (P64 : 64 <= prec_up p <= 2048) by (unfold prec_up; clear - Hp; dlia). assert (PL : prec_up p < P_LIM) by (eapply Z.le_lt_trans; [apply P64|vm_compute; reflexivity]).
  unfold f_asin. cbv zeta. rewrite (is_zero_false x W N). pose proof (abs_cmp_one x W) as C. rewrite Rcompare_Eq in C by exact H. cbn [sgn_of] in C. replace (0 <? n_abs_cmp x ONE) with false by (symmetry; apply Z.ltb_ge; lia). replace (n_abs_cmp x ONE =? 0) with true by (symmetry; apply Z.eqb_eq; lia).
  rewrite round_p_eq by (try exact PL; lia). fold (prec_up p). set (rm' := if is_negative x then invert_rm_for_sign rm else rm).
  assert (RM : rm' = (if is_pos (ns x) then rm else invert_rm_for_sign rm)) by (unfold rm', is_negative; destruct (ns x); reflexivity).
  destruct (pi_num_ok c (prec_up p) rm' R ltac:(lia) ltac:(rewrite prec_up_idem; apply P64)) as (c' & r & HP & R' & HR). rewrite prec_up_idem in HR. rewrite HP.
  destruct r as [y|[t| | |]|]; try contradiction; cbn [ppure pbind]; [|eexists; eexists; split; [reflexivity|]; split; [exact R'|exact I]].
  eexists. eexists. split; [reflexivity|]. split; [exact R'|]. rewrite RM in HR. destruct (half_rounded (prec_up p) rm (ns x) y ltac:(lia) HR) as (Q1 & Q2 & Q3 & Q4 & Q5).
  split; [exact Q1|]. split; [exact Q2|]. split; [exact Q3|]. split; [exact Q4|]. rewrite Q5. f_equal. pose proof (value_has_sign x W N) as S. unfold has_sign, sr in *. destruct (ns x); cbn [sgnZ] in *.
  - rewrite Rabs_left in H by lra. replace (value x) with (- (1))%R by lra. rewrite asin_opp, asin_1. ring.
  - rewrite Rabs_pos_eq in H by lra. rewrite H, asin_1. ring.
Qed.
