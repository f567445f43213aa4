(** The arcsine for arguments up to 7/10 in magnitude. *)

From Coq Require Import ZArith List Bool Lia Reals Lra.
From Flocq Require Import Core Relative.
From Verif Require Import Words IntModel Mantissa Num Pow Consts Elem Ctx Series Exp Ln Sin Atan Asin SpecZ SpecOps SpecConst SpecPow SpecElem WordsP Spec RealP RealP2 NumP CmpP AddP SetP AddNum MulNum DivNum RootNum ArithTop ConvNum Conv2Num RootP ConstP ConstNum ExtP PowExt CtxP Refute1 ElemR ElemDom SmallP ElemNum ApproxR ApproxNum SeriesNum SinhR SinhNum SinhTop ExpNum LnR LnNum LnSharp RetryNum ConstReach SpecReach ExpTop HypNum HypTop TanhNum AltNum AltDiv AtanR AtanTop.
Import ListNotations.
Open Scope Z_scope.
Ltac Zify.zify_post_hook ::= idtac.
Arguments Z.mul : simpl never.
Arguments Z.add : simpl never.
Arguments Z.pow : simpl never.
Arguments Z.sub : simpl never.
Arguments Z.of_nat : simpl never.
Ltac dlia := Z.div_mod_to_equations; lia.

(** ** The result of a function as an approximation *)
Lemma elem_apx_low r P rm q : elem_result r P rm q -> 128 <= P -> (bpow radix2 EMIN <= Rabs r)%R -> apx P (ns q) 1 (Rabs r) q.
Proof.
  intros (Wq & Lq & Sq & Iq & (a & Ca & Va) & _) HP B1. pose proof (bpow_gt_0 radix2 EMIN) as B0. assert (R0 : (0 < Rabs r)%R) by lra.
  assert (CE : (bpow radix2 (- (P + 64)) <= / 1048576 * bpow radix2 (1 - P))%R). { change (/ 1048576)%R with (bpow radix2 (-20)). rewrite <- bpow_plus. apply bpow_le. lia. }
  assert (E1 : (bpow radix2 (1 - P) <= / 256)%R) by (change (/ 256)%R with (bpow radix2 (-8)); apply bpow_le; lia). pose proof (bpow_gt_0 radix2 (1 - P)) as E0. set (u := bpow radix2 (1 - P)) in *.
  assert (CA : (Rabs (a - r) <= / 1048576 * u * Rabs r)%R). { unfold close in Ca. eapply Rle_trans; [exact Ca|]. rewrite Rmult_comm. apply Rmult_le_compat_r; lra. }
  assert (A1 : (Rabs r / 2 <= Rabs a <= 2 * Rabs r)%R). { pose proof (Rabs_triang_inv a r). pose proof (Rabs_triang_inv r a). rewrite (Rabs_minus_sym r a) in H0. assert (/ 1048576 * u * Rabs r <= / 4 * Rabs r)%R by (apply Rmult_le_compat_r; lra). lra. }
  assert (A0 : a <> 0%R) by (intros E; rewrite E, Rabs_R0 in A1; lra).
  pose proof (relative_error_FLX radix2 P ltac:(lia) (rnd rm) a A0) as RE. fold (rnd_prec P rm a) in RE. rewrite <- Va in RE. replace (- P + 1) with (1 - P) in RE by ring. fold u in RE.
  assert (D : (Rabs (Rabs (value q) - Rabs r) <= 65 / 64 * u * Rabs r)%R).
  { eapply Rle_trans; [apply Rabs_triang_inv2|]. replace (value q - r)%R with ((value q - a) + (a - r))%R by ring. eapply Rle_trans; [apply Rabs_triang|].
    assert (u * Rabs a <= u * (1025 / 1024 * Rabs r))%R. { apply Rmult_le_compat_l; [lra|]. pose proof (Rabs_triang_inv a r). assert (/ 1048576 * u * Rabs r <= / 1024 * Rabs r)%R by (apply Rmult_le_compat_r; lra). lra. }
    assert (0 <= u * Rabs r)%R by (apply Rmult_le_pos; lra). lra. }
  assert (NQ : normal q). { apply normal_iff; [exact Wq|]. change (EMIN - 1) with (EMIN + -1). rewrite bpow_plus. change (bpow radix2 (-1)) with (/ 2)%R. apply Rabs_le_inv in D. assert (65 / 64 * u * Rabs r <= / 2 * Rabs r)%R by (apply Rmult_le_compat_r; lra). lra. }
  split; [exact Wq|]. split; [exact NQ|]. split; [reflexivity|]. apply lc_weak with (65 / 64 * (65 / 64 * u))%R; [|apply lc_near; [exact R0|lra|exact D]].
  unfold eps. replace (2 - P) with (1 + (1 - P)) by ring. rewrite bpow_plus. change (bpow radix2 1) with 2%R. fold u. lra.
Qed.
Lemma elem_apx r P rm q : elem_result r P rm q -> 128 <= P -> (bpow radix2 (- 2 ^ 22) <= Rabs r)%R -> apx P (ns q) 1 (Rabs r) q.
Proof. intros H HP B. apply (elem_apx_low r P rm q H HP). eapply Rle_trans; [|exact B]. apply bpow_le. vm_compute. discriminate. Qed.

(** ** The argument of the arctangent *)
Definition tan_of_sin (y : R) : R := (y / sqrt (1 - y * y))%R.
Lemma tan_of_sin_bounds y : (0 < y <= 7 / 10)%R -> (714 / 1000 <= sqrt (1 - y * y) <= 1 /\ y <= tan_of_sin y <= 63 / 64)%R.
Proof.
  intros Y. assert (Q : (0 < y * y <= 49 / 100)%R) by (split; [apply Rmult_lt_0_compat; lra|nra]).
  assert (S1 : (714 / 1000 <= sqrt (1 - y * y))%R). { rewrite <- (sqrt_square (714 / 1000)) by lra. apply sqrt_le_1_alt. lra. }
  assert (S2 : (sqrt (1 - y * y) <= 1)%R). { apply Rle_trans with (sqrt 1); [apply sqrt_le_1_alt; lra|rewrite sqrt_1; lra]. }
  split; [lra|]. unfold tan_of_sin. set (s := sqrt (1 - y * y)) in *. split.
  - apply Rmult_le_reg_r with s; [lra|]. unfold Rdiv. rewrite Rmult_assoc, Rinv_l by lra. apply Rmult_le_compat_l; lra.
  - apply Rmult_le_reg_r with s; [lra|]. unfold Rdiv. rewrite Rmult_assoc, Rinv_l by lra. lra.
Qed.
Lemma asin_arg_ok P px x s y : prec_up px = P -> 128 <= P -> P < P_LIM -> wf x -> normal x -> ns x = s -> Rabs (value x) = y -> (bpow radix2 (- 2 ^ 22) <= y <= 7 / 10)%R ->
  exists d, asin_arg x px = Ok d /\ apx P s 12 (tan_of_sin y) d /\ 64 * wlen d = P.
Proof.
  intros EP HP HL W N S EY Y. assert (HPP : 128 <= P <= prec_up px) by lia. rewrite <- EP in HL. pose proof (bpow_gt_0 radix2 (- 2 ^ 22)) as B0.
  assert (Y0 : (0 < y <= 7 / 10)%R) by lra. destruct (tan_of_sin_bounds y Y0) as [[S1 S2] [D1 D2]]. assert (Q : (0 < y * y <= 49 / 100)%R) by (split; [apply Rmult_lt_0_compat; lra|nra]).
  assert (AX : apx P s 0 y x) by (rewrite <- S, <- EY; now apply apx_self).
  assert (BY : (bpow radix2 (- 2 ^ 22) <= y)%R) by apply Y. pose proof (low_mul _ _ _ _ BY BY) as BQ.
  unfold asin_arg. destruct (apx_mul P px RNone HPP HL s s 0 0 y y x x AX AX) as (xx & -> & Hxx & Lxx & _); [clear; lia| |].
  { apply (mid_range (- 2 ^ 22 + - 2 ^ 22) 0); [vm_compute; discriminate|vm_compute; discriminate|]. split; [exact BQ|]. change (bpow radix2 0) with 1%R. lra. }
  replace (sign_mul s s) with Pos in Hxx by (destruct s; reflexivity). cbn [bind]. apply apx_sab in Hxx; [|exact HP|clear; lia]. pose proof (apx_sab P Pos 0 1 ONE HP (apx_ONE P) ltac:(lia)) as H1.
  change (sr Pos) with 1%R in Hxx, H1. rewrite !Rmult_1_l in Hxx. pose proof (eps_pos P) as E0. set (e := eps P) in *.
  assert (E2 : (e * (y * y) <= e * (49 / 100))%R) by (apply Rmult_le_compat_l; lra).
  destruct (sab_sub P px RNone HPP HL _ _ _ _ ONE xx H1 Hxx) as (t & -> & Ht & Lt & _).
  { rewrite Rmult_1_l, Rabs_pos_eq by lra. pose proof (eps_small P 1 HP ltac:(lia)) as ES. fold e in ES. assert (bpow radix2 (-66) <= bpow radix2 (-4))%R by (apply bpow_le; lia). change (bpow radix2 (-4)) with (/ 16)%R in H. cbn [Z.add] in *. change (0 + 0 + 1) with 1 in *. change (IZR 1) with 1%R in *. lra. }
  { rewrite Rmult_1_l, Rabs_pos_eq by lra. apply (mid_range (-1) 0); [vm_compute; discriminate|vm_compute; discriminate|]. change (bpow radix2 (-1)) with (/ 2)%R. change (bpow radix2 0) with 1%R. lra. }
  cbn [bind]. rewrite Rmult_1_l in Ht. rewrite (Rabs_pos_eq (1 - y * y)) in Ht by lra. apply (sab_same _ _ (sr Pos * (1 - y * y))) in Ht; [|change (sr Pos) with 1%R; ring].
  apply (sab_apx P Pos 10) in Ht; [|exact HP|lra|clear; lia|].
  2:{ fold e. change (0 + 0 + 1) with 1. change (IZR 0) with 0%R. change (IZR 1) with 1%R. change (IZR 10) with 10%R. assert (e * (51 / 100) <= e * (1 - y * y))%R by (apply Rmult_le_compat_l; lra). lra. }
  destruct (apx_sqrt P px RNone HPP HL 10 _ t Ht) as (q & -> & Hq & Lq & _); [clear; lia|clear; lia| |].
  { apply (mid_range (-1) 0); [vm_compute; discriminate|vm_compute; discriminate|]. change (bpow radix2 (-1)) with (/ 2)%R. change (bpow radix2 0) with 1%R. lra. }
  cbn [bind]. destruct (apx_div P px RNone HPP HL s Pos 0 (10 + 1) _ _ x q AX Hq) as (d & -> & Hd & Ld & _); [clear; lia| |].
  { fold (tan_of_sin y). apply (mid_range (- 2 ^ 22) 0); [vm_compute; discriminate|vm_compute; discriminate|]. change (bpow radix2 0) with 1%R. lra. }
  exists d. split; [reflexivity|]. split; [|lia]. replace (sign_mul s Pos) with s in Hd by (destruct s; reflexivity). exact Hd.
Qed.
Lemma asin_tan y : (-1 < y < 1)%R -> asin y = atan (tan_of_sin y).
Proof. intros H. rewrite asin_atan by exact H. unfold tan_of_sin, Rsqr. reflexivity. Qed.

(** ** The loop *)
(** atan away from its small arguments. *)
Theorem atan_rest f g h c x p rm : wf x -> nonzero x -> 0 < p -> ne x <= 0 -> - (ne x * 2 - 1) <= Z.max (prec_up p) (64 * wlen x) + 1 ->
  work f (Z.max (prec_up p) (64 * wlen x) + 64) 64 + 64 <= 2 ^ 20 -> atan_post x (prec_up p) rm c (f_atan f g h c x p rm).
Proof.
  intros W N Hp He S HB. change (Z.max (prec_up p) (64 * wlen x)) with (max64 (prec_up p) x) in HB, S. assert (P64 : 64 <= prec_up p) by (unfold prec_up; clear - Hp; dlia). assert (M1 : prec_up p <= max64 (prec_up p) x) by (unfold max64; lia). assert (M2 : 64 * wlen x <= max64 (prec_up p) x) by (unfold max64; lia).
  pose proof (work_ge f (max64 (prec_up p) x + 64) 64 ltac:(lia) ltac:(lia)) as HG. assert (PL : max64 (prec_up p) x + 64 < P_LIM) by (eapply Z.le_lt_trans with (2 ^ 20); [lia|vm_compute; reflexivity]).
  unfold f_atan. match goal with |- context [@odd_in ?A ?ok ?rest 1 true x p rm] => rewrite (@odd_in_rest A ok rest 1 true x p rm W N Hp ltac:(lia) S) end. cbv beta. change (mantissa_max_bit_len x) with (64 * wlen x). change (Z.max (prec_up p) (64 * wlen x)) with (max64 (prec_up p) x).
  exact (atan_loop_ok x (prec_up p) rm h g c W N ltac:(lia) (prec_up_mod p) ltac:(lia) f (max64 (prec_up p) x + 64) 64 ltac:(lia) (max_mod p x) ltac:(lia) eq_refl ltac:(lia) ltac:(lia) ltac:(clear - M1 P64; dlia) ltac:(lia)).
Qed.

Section Loop.
Context (x0 : num) (ap p : Z) (rm : rmode) (e g h : nat) (c : pi_cache) (B : Z).
Hypotheses (W0 : wf x0) (N0 : nonzero x0) (Hp : 0 < p) (Hp64 : p mod 64 = 0) (HV : (Rabs (value x0) <= 7 / 10)%R) (Hap : 1 <= ap <= 64).

Definition asin_post (o : prun num) : Prop :=
  match o with
  | None => True
  | Some (c', res) => c' = c /\ exists q, res = Ok q /\ elem_result (asin (value x0)) p rm q
  end.
Theorem asin_loop_ok : forall f x w i, argument x0 w x -> ns x = ns x0 -> p + 64 <= w -> w mod 64 = 0 -> 64 <= i -> i mod 64 = 0 -> 128 <= w -> - (ne x0 * 2 - 2) <= w -> i <= 64 * (((w + i) / 5 + 63) / 64) ->
  work e (work f w i + 128) 64 + 64 <= 2 ^ 20 -> asin_post (asin_loop f e g h c x0 x ap p rm w i).
Proof.
  induction f as [|f IH]; intros x w i HX Sx Hpw Hw64 Hi Hi64 Hw Hs Hii HB; [exact I|].
  pose proof (work_ge (Datatypes.S f) w i ltac:(lia) ltac:(lia)) as HG. pose proof (work_ge e (work (Datatypes.S f) w i + 128) 64 ltac:(lia) ltac:(lia)) as HH. assert (HBw : work e (w + 64 + 64) 64 + 64 <= 2 ^ 20). { eapply Z.le_trans; [|exact HB]. apply Z.add_le_mono_r. apply work_mono; lia. }
  change (work (Datatypes.S f) w i) with (work f (w + i) (64 * (((w + i) / 5 + 63) / 64))) in HB, HG, HH.
  pose proof (work_ge f (w + i) (64 * (((w + i) / 5 + 63) / 64)) ltac:(lia) ltac:(clear - Hw Hi; dlia)) as HG2.
  assert (PW : prec_up (w + ap) = w + 64) by (unfold prec_up; clear - Hw64 Hap; dlia).
  assert (PL : w + 64 < P_LIM) by (apply Z.lt_le_trans with (2 ^ 21); [clear - HG HG2 HH HB Hi; lia|vm_compute; discriminate]).
  cbn [asin_loop]. cbv zeta. destruct (argument_len x0 w x (w + ap) ltac:(lia) ltac:(rewrite PW; exact PL) ltac:(lia) HX) as (y & -> & HY & Sy & Ly). rewrite PW in HY, Ly. cbn [ppure pbind]. pose proof HY as (Wy & Ny & Vy & Ey & _). rewrite Sx in Sy.
  destruct (normal_range y Wy Ny) as [Y1 Y2]. rewrite Ey, Vy in Y1, Y2. set (v := Rabs (value x0)) in *.
  assert (W20 : w + 64 <= 2 ^ 20) by (clear - HG HG2 HH HB Hi; lia). assert (NE : - 2 ^ 20 <= ne x0) by (clear - Hs W20; lia).
  assert (VL : (bpow radix2 (- 2 ^ 22) <= v)%R). { eapply Rle_trans; [|exact Y1]. apply bpow_le. change (2 ^ 22) with 4194304. change (2 ^ 20) with 1048576 in NE. lia. }
  pose proof (bpow_gt_0 radix2 (- 2 ^ 22)) as B0.
  destruct (asin_arg_ok (w + 64) (w + ap) y (ns x0) v PW ltac:(lia) PL Wy Ny Sy Vy (conj VL HV)) as (d & -> & (Wd & Nd & Sd & LCd) & Ld). cbn [ppure pbind].
  destruct (tan_of_sin_bounds v ltac:(lra)) as [_ [T1 T2]]. pose proof (eps_small (w + 64) 12 ltac:(lia) ltac:(lia)) as ES. pose proof (eps_pos (w + 64)) as E0.
  assert (D0 : (0 <= IZR 12 * eps (w + 64))%R) by (apply Rmult_le_pos; lra). assert (D1 : (IZR 12 * eps (w + 64) <= / 128)%R) by (eapply Rle_trans; [exact ES|]; change (/ 128)%R with (bpow radix2 (-7)); apply bpow_le; lia).
  assert (DB : (v / 2 <= Rabs (value d) < 1)%R).
  { pose proof LCd as (_ & L1 & L2). assert (D3 : (IZR 12 * eps (w + 64) <= / 2)%R) by lra. pose proof (exp_upper _ (conj D0 D3)) as EU. pose proof (exp_ineq1_le (- (IZR 12 * eps (w + 64)))) as EL. split.
    - eapply Rle_trans; [|exact L1]. apply Rle_trans with (v * / 2)%R; [lra|]. apply Rmult_le_compat; lra.
    - eapply Rle_lt_trans; [exact L2|]. apply Rle_lt_trans with (63 / 64 * (1 + 2 * / 128))%R; [|lra]. apply Rmult_le_compat; [lra|left; apply exp_pos|lra|lra]. }
  destruct (normal_range d Wd Nd) as [Z1 Z2].
  assert (ND : ne x0 - 1 <= ne d <= 0). { split.
    - assert (ne x0 - 2 < ne d); [|lia]. apply (lt_bpow radix2). eapply Rle_lt_trans; [|exact Z2]. eapply Rle_trans; [|apply DB]. replace (ne x0 - 2) with (ne x0 - 1 + -1) by ring. rewrite bpow_plus. change (bpow radix2 (-1)) with (/ 2)%R. lra.
    - assert (ne d - 1 < 0); [|lia]. apply (lt_bpow radix2). eapply Rle_lt_trans; [exact Z1|]. change (bpow radix2 0) with 1%R. apply DB. }
  assert (MX : Z.max (prec_up (w + ap)) (64 * wlen d) = w + 64) by (rewrite PW, Ld; apply Z.max_id).
  pose proof (atan_rest e g h c d (w + ap) rm Wd (proj2 Nd) ltac:(lia) ltac:(lia) ltac:(rewrite MX; lia) ltac:(rewrite MX; exact HBw)) as AT. rewrite PW in AT. unfold atan_post in AT.
  destruct (f_atan e g h c d (w + ap) rm) as [[c' res]|]; [|exact I]. destruct AT as (-> & ret & -> & Q). cbn [pbind].
  pose proof (value_has_sign x0 W0 N0) as VS. pose proof (value_has_sign d Wd (proj2 Nd)) as VD. rewrite Sd in VD.
  assert (V0 : value d <> 0%R) by (intros Z; unfold has_sign in VD; rewrite Z in VD; lra). destruct (atan_sign_abs (value d) ltac:(lra) V0) as (SA & SS & S1). specialize (SS _ VD).
  assert (AA : (Rabs (asin (value x0)) = atan (tan_of_sin v) /\ has_sign (ns x0) (asin (value x0)) /\ Rabs (asin (value x0)) <= 1)%R).
  { assert (PV : (0 < atan (tan_of_sin v) <= 1)%R). { split; [apply atan_pos; lra|]. pose proof (atan_le_id (tan_of_sin v) ltac:(lra)). lra. }
    rewrite <- (asin_tan v) in * by lra. unfold v in *. unfold has_sign in *. destruct (ns x0); cbn [sgnZ] in *.
    - rewrite (Rabs_left (value x0)) in * by lra. rewrite asin_opp in *. rewrite (Rabs_left (asin _)) by lra. split; [reflexivity|]. split; lra.
    - rewrite (Rabs_pos_eq (value x0)) in * by lra. rewrite (Rabs_pos_eq (asin _)) by lra. split; [reflexivity|]. split; lra. }
  destruct AA as (AE1 & AS1 & AB).
  pose proof (lc_atan _ _ _ D0 LCd) as LA. rewrite SA in LA. rewrite <- AE1 in LA.
  assert (LOW : (bpow radix2 (- 2 ^ 22) <= Rabs (atan (value d)))%R).
  { rewrite <- SA. apply Rle_trans with (Rabs (value d) / 2)%R.
    - apply Rle_trans with (bpow radix2 (ne x0 - 1) * / 4)%R; [|lra]. change (/ 4)%R with (bpow radix2 (-2)). rewrite <- bpow_plus. apply bpow_le. change (2 ^ 22) with 4194304. change (2 ^ 20) with 1048576 in NE. lia.
    - pose proof (atan_scale (/ Rabs (value d)) (Rabs (value d))) as SC. rewrite Rinv_l in SC by lra. assert (1 <= / Rabs (value d))%R. { apply Rle_trans with (/ 1)%R; [rewrite Rinv_1; lra|]. apply Rinv_le_contravar; lra. } specialize (SC H ltac:(lra)). rewrite atan_1 in SC. pose proof PI2_1 as P2. apply Rmult_le_compat_l with (r := Rabs (value d)) in SC; [|lra]. rewrite <- Rmult_assoc, Rinv_r, Rmult_1_l in SC by lra. assert (/ 2 <= PI / 4)%R by lra. assert (Rabs (value d) * / 2 <= Rabs (value d) * (PI / 4))%R by (apply Rmult_le_compat_l; lra). lra. }
  pose proof (elem_apx _ _ _ _ Q ltac:(lia) LOW) as (Wr & Nr & _ & LR). destruct Q as (_ & Lr & Sr & Ir & _).
  assert (LC2 : lc (IZR 13 * eps (w + 64)) (Rabs (asin (value x0))) (Rabs (value ret))). { replace (IZR 13 * eps (w + 64))%R with (IZR 12 * eps (w + 64) + IZR 1 * eps (w + 64))%R by (change (IZR 1) with 1%R; change (IZR 12) with 12%R; change (IZR 13) with 13%R; ring). exact (lc_trans _ _ _ _ _ LA LR). }
  assert (SR2 : has_sign (ns ret) (asin (value x0))). { unfold has_sign in *. destruct (ns ret), (ns x0); cbn [sgnZ] in *; lra. }
  pose proof (accept_elem (asin (value x0)) ret p rm w 13 Wr Nr Ir ltac:(lia) SR2 LC2 ltac:(split; vm_compute; discriminate) Hp Hp64 Hw64 Hpw) as AE.
  destruct (try_set_precision ret p rm w) as [[q [|]]|[t| | |]|]; try contradiction; cbn [ppure pbind].
  + split; [reflexivity|]. eexists. split; [reflexivity|]. now apply elem_mark.
  + rewrite round_step by (clear - HG HG2 HH HB Hw Hi; lia). apply IH; [apply (argument_wide x0 (w + 64)); [lia|exact HY]|exact Sy|lia| |clear - Hw Hi; dlia|rewrite Z.mul_comm; apply Z.mod_mul; lia|lia|lia| |exact HB].
    * clear - Hw64 Hi64. dlia.
    * assert (D : (w + i) / 5 <= (w + i + 64 * (((w + i) / 5 + 63) / 64)) / 5) by (apply Z.div_le_mono; [lia|]; clear - Hw Hi; dlia). assert ((((w + i) / 5 + 63) / 64) <= (((w + i + 64 * (((w + i) / 5 + 63) / 64)) / 5 + 63) / 64)) by (apply Z.div_le_mono; lia). lia.
  + exfalso. revert AE. now apply no_overflow.
Qed.
End Loop.

(** ** The whole function *)
Lemma leading_one x : wf x -> normal x -> ne x = 0 -> (Rabs (value x) <= 7 / 10)%R -> 0 <= count_leading_ones (mm (nm x)) <= 1.
Proof.
  intros W N E H. assert (V : Rabs (value x) = (IZR (magnitude x) * bpow radix2 (- (64 * wlen x)))%R).
  { unfold value. rewrite <- F2R_Zabs. unfold F2R. cbn [Fnum Fexp]. rewrite E, Z.sub_0_l. f_equal. f_equal. pose proof (val_nonneg _ (wf_words x W)) as P. fold (magnitude x) in P. destruct (ns x); cbn [sgnZ]; lia. }
  rewrite (clo_spec _ (wf_words x W)). fold (wlen x) (magnitude x). pose proof (val_bound _ (wf_words x W)) as VB. fold (wlen x) (magnitude x) in VB.
  assert (LW : 1 <= wlen x). { destruct (Z.eq_dec (wlen x) 0) as [Z|Z]; [|unfold wlen in *; pose proof (zlen_nonneg (mm (nm x))); lia]. exfalso. rewrite Z in VB. change (2 ^ (64 * 0)) with 1 in VB. pose proof (proj2 N) as NZ. unfold nonzero in NZ. lia. }
  set (l := 64 * wlen x) in *. assert (L0 : 64 <= l) by lia. assert (Q : (bpow radix2 l * bpow radix2 (- l) = 1)%R) by (rewrite <- bpow_plus, Z.add_opp_diag_r; reflexivity). pose proof (bpow_gt_0 radix2 (- l)) as B0. pose proof (bpow_gt_0 radix2 l) as B1.
  assert (M : 10 * magnitude x <= 7 * 2 ^ l). { apply le_IZR. rewrite !mult_IZR. change (2 ^ l) with (radix_val radix2 ^ l). rewrite IZR_Zpower by lia. rewrite V in H. apply Rmult_le_reg_r with (bpow radix2 (- l)); [exact B0|]. rewrite !Rmult_assoc, Q. lra. }
  assert (P2 : 2 ^ l = 4 * 2 ^ (l - 2)) by (change 4 with (2 ^ 2); rewrite <- Z.pow_add_r by lia; f_equal; lia). assert (P3 : 2 ^ 62 <= 2 ^ (l - 2)) by (apply Z.pow_le_mono_r; lia). change (2 ^ 62) with 4611686018427387904 in P3.
  set (n := 2 ^ l - 1 - magnitude x) in *. assert (N1 : 2 ^ (l - 2) <= n < 2 ^ l) by (unfold n; lia). clearbody n.
  assert (UB : bitlen n <= l) by (apply WordsP.bitlen_le; lia). assert (LB : l - 1 <= bitlen n). { unfold bitlen. destruct (Z.eqb_spec n 0) as [Z|Z]; [lia|]. assert (l - 2 <= Z.log2 n); [|lia]. apply Z.log2_le_pow2; lia. }
  lia.
Qed.

Theorem asin_ok f e g h c x p rm : wf x -> nonzero x -> 0 < p -> (rm <> RNone \/ EMIN < ne x) -> (Rabs (value x) <= 7 / 10)%R ->
  work e (work f (Z.max (prec_up p) (64 * wlen x) + 64) 64 + 128) 64 + 64 <= 2 ^ 20 ->
  match f_asin f e g h c x p rm with
  | None => True
  | Some (c', res) => c' = c /\ exists q, res = Ok q /\ (elem_result (asin (value x)) (prec_up p) rm q \/ rounded_to (prec_up p) rm (ns x) (asin (value x)) q)
  end.
Proof.
  intros W N Hp HN HV HB. change (Z.max (prec_up p) (64 * wlen x)) with (max64 (prec_up p) x) in HB. assert (P64 : 64 <= prec_up p) by (unfold prec_up; clear - Hp; dlia). assert (M1 : prec_up p <= max64 (prec_up p) x) by (unfold max64; lia). assert (M2 : 64 * wlen x <= max64 (prec_up p) x) by (unfold max64; lia).
  pose proof (work_ge f (max64 (prec_up p) x + 64) 64 ltac:(lia) ltac:(lia)) as HG. pose proof (work_ge e (work f (max64 (prec_up p) x + 64) 64 + 128) 64 ltac:(lia) ltac:(lia)) as HG2. assert (PL : max64 (prec_up p) x + 64 < P_LIM) by (eapply Z.le_lt_trans with (2 ^ 20); [lia|vm_compute; reflexivity]).
  set (ap := 8 + (if ne x =? 0 then count_leading_ones (mm (nm x)) else 0)).
  assert (EQ : f_asin f e g h c x p rm = odd_in (fun r => Some (c, r)) (fun x' p' rm' => asin_loop f e g h c x' (set_inexact x' false) ap p' rm' (Z.max p' (mantissa_max_bit_len x') + 64) 64) 2 false x p rm).
  { unfold f_asin, odd_in, small_exp, ppure. cbv zeta. rewrite (is_zero_false x W N). pose proof (abs_cmp_one x W) as C. rewrite Rcompare_Lt in C by lra. cbn [sgn_of] in C. replace (0 <? n_abs_cmp x ONE) with false by (symmetry; apply Z.ltb_ge; lia). replace (n_abs_cmp x ONE =? 0) with false by (symmetry; apply Z.eqb_neq; lia). reflexivity. }
  rewrite EQ. clear EQ. destruct (Z_lt_le_dec (max64 (prec_up p) x + 1) (- (ne x * 2 - 2))) as [S|S].
  - match goal with |- context [@odd_in ?A ?ok ?rest 2 false x p rm] => rewrite (@odd_in_small A ok rest (fun _ _ _ => Panic) 2 false x p rm W N Hp ltac:(lia) S) end. cbv beta. split; [reflexivity|]. destruct (asin_small (fun _ _ => Panic) (fun _ _ _ => Panic) x p rm W N Hp PL HN S) as (q & Eq & Q). rewrite asin_inside in Eq by (try exact W; lra). exists q. split; [exact Eq|now right].
  - match goal with |- context [@odd_in ?A ?ok ?rest 2 false x p rm] => rewrite (@odd_in_rest A ok rest 2 false x p rm W N Hp ltac:(lia) S) end. cbv beta. change (mantissa_max_bit_len x) with (64 * wlen x). change (Z.max (prec_up p) (64 * wlen x)) with (max64 (prec_up p) x).
    assert (He2 : EMIN < ne x) by (apply Z.lt_le_trans with (- 2 ^ 21); [vm_compute; reflexivity|change (2 ^ 21) with 2097152; change (2 ^ 20) with 1048576 in HB; lia]).
    pose proof (argument_start x W N He2) as HA. assert (Nx : normal x) by (destruct HA as (_ & H2 & _); exact H2). apply (argument_wide x _ (max64 (prec_up p) x + 64)) in HA; [|lia].
    assert (HAP : 1 <= ap <= 64). { unfold ap. destruct (Z.eqb_spec (ne x) 0) as [Z|Z]; [pose proof (leading_one x W Nx Z HV); lia|lia]. }
    pose proof (asin_loop_ok x ap (prec_up p) rm e g h c W N ltac:(lia) (prec_up_mod p) HV HAP f _ (max64 (prec_up p) x + 64) 64 HA eq_refl ltac:(lia) (max_mod p x) ltac:(lia) eq_refl ltac:(lia) ltac:(lia) ltac:(clear - M1 P64; dlia) HB) as O. unfold asin_post in O.
    destruct (asin_loop f e g h c x _ ap _ _ _ _) as [[c' res]|]; [|exact I]. destruct O as (-> & q & -> & Q). split; [reflexivity|]. exists q. split; [reflexivity|now left].
Qed.

Theorem asin_out f e g h c x p rm : wf x -> (1 < Rabs (value x))%R -> f_asin f e g h c x p rm = Some (c, Err InvalidArgument).
Proof.
  intros W H. assert (N : nonzero x) by (intros Z; rewrite (value_zero x Z), Rabs_R0 in H; lra).
  unfold f_asin. cbv zeta. rewrite (is_zero_false x W N). pose proof (abs_cmp_one x W) as C. rewrite Rcompare_Gt in C by lra. cbn [sgn_of] in C. replace (0 <? n_abs_cmp x ONE) with true by (symmetry; apply Z.ltb_lt; lia). reflexivity.
Qed.
