(** The tangent for arguments from four to 2^64 in magnitude. *)

From Coq Require Import ZArith List Bool Lia Reals Lra.
From Flocq Require Import Core Relative.
From Verif Require Import Words IntModel Mantissa Num Pow Consts Elem Series Exp Sin Cos Tan SpecZ SpecOps SpecConst SpecPow SpecElem WordsP Spec RealP RealP2 NumP CmpP AddP SetP AddNum MulNum DivNum ArithTop ConvNum Conv2Num RootP ConstP ConstNum ExtP PowExt Refute1 ElemR ElemDom SmallP ElemNum ApproxR ApproxNum SeriesNum SinhR SinhNum SinhTop ExpNum RetryNum ConstReach SpecReach ExpTop HypNum HypTop TanhNum AltNum SinTop SinBig SinFour SinEight SinHuge CosHuge.
From Verif Require Import MulModel DivModel WordsP2 MulP MulP2 DivP DivP2 RemNum Ln AltDiv AtanR AtanTop PiNum IntNum WfTop AtanBig PropsConst CosTop CosBig CosFour CosEight LnMant TanTop TanBig TanFour TanEight.
Import ListNotations.
Open Scope Z_scope.
Ltac Zify.zify_post_hook ::= idtac.
Arguments Z.mul : simpl never.
Arguments Z.add : simpl never.
Arguments Z.pow : simpl never.
Arguments Z.sub : simpl never.
Arguments Z.of_nat : simpl never.
Ltac dlia := Z.div_mod_to_equations; lia.




(** ** The tangent of the reduced argument *)
Lemma tan_close r x e : (Rabs (sin r - sin x) <= e)%R -> (Rabs (cos r - cos x) <= e)%R -> (bpow radix2 (-59) <= Rabs (sin x))%R -> (bpow radix2 (-59) <= Rabs (cos x))%R -> (0 <= e <= bpow radix2 (-100))%R ->
  lc (2 * (bpow radix2 62 * e)) (Rabs (tan x)) (Rabs (tan r)) /\ (forall s, has_sign s (tan r) -> has_sign s (tan x)).
Proof.
  intros DS DC SX CX [E0 E1]. pose proof (bpow_gt_0 radix2 (-61)) as B61. assert (B60 : (bpow radix2 (-60) = 2 * bpow radix2 (-61))%R) by (change (-60) with (1 + -61); rewrite bpow_plus; reflexivity). assert (B59 : (bpow radix2 (-59) = 2 * bpow radix2 (-60))%R) by (change (-59) with (1 + -60); rewrite bpow_plus; reflexivity).
  assert (B100 : (bpow radix2 (-100) <= bpow radix2 (-61))%R) by (apply bpow_le; lia). assert (B10 : (bpow radix2 (-61) <= / 1024)%R) by (change (/ 1024)%R with (bpow radix2 (-10)); apply bpow_le; lia).
  assert (CR : (Rabs (cos x) - e <= Rabs (cos r))%R). { pose proof (Rabs_triang (cos r) (- (cos r - cos x))) as T. rewrite Rabs_Ropp in T. replace (cos r + - (cos r - cos x))%R with (cos x) in T by ring. lra. }
  assert (S1 : (Rabs (sin x) <= 1)%R) by (apply Rabs_le; apply SIN_bound). assert (C1 : (Rabs (cos x) <= 1)%R) by (apply Rabs_le; apply COS_bound).
  assert (SC : (Rabs (sin x) * Rabs (sin x) + Rabs (cos x) * Rabs (cos x) = 1)%R). { rewrite <- !Rabs_mult, !Rabs_pos_eq by apply Rle_0_sqr. exact (sin2_cos2 x). }
  assert (AB : (bpow radix2 (-61) <= Rabs (cos r) * Rabs (sin x))%R).
  { destruct (Rle_or_lt (/ 2) (Rabs (cos x))) as [H|H].
    - apply Rle_trans with (/ 4 * bpow radix2 (-59))%R; [lra|apply Rmult_le_compat; lra].
    - assert (SX2 : (/ 2 <= Rabs (sin x))%R) by (pose proof (Rabs_pos (cos x)); pose proof (Rabs_pos (sin x)); nra). apply Rle_trans with (bpow radix2 (-60) * / 2)%R; [lra|apply Rmult_le_compat; lra]. }
  assert (R0 : cos r <> 0%R) by (intros E; rewrite E, Rabs_R0 in CR; lra). assert (X0 : cos x <> 0%R) by (intros E; rewrite E, Rabs_R0 in CX; lra). assert (Y0 : sin x <> 0%R) by (intros E; rewrite E, Rabs_R0 in SX; lra).
  set (N := ((sin r - sin x) * cos x - (cos r - cos x) * sin x)%R). set (d := (N / (cos r * sin x))%R).
  assert (NB : (Rabs N <= 2 * e)%R). { unfold N. eapply Rle_trans; [apply Rabs_triang|]. rewrite Rabs_Ropp, !Rabs_mult. assert (Rabs (sin r - sin x) * Rabs (cos x) <= e * 1)%R by (apply Rmult_le_compat; [apply Rabs_pos|apply Rabs_pos|exact DS|exact C1]). assert (Rabs (cos r - cos x) * Rabs (sin x) <= e * 1)%R by (apply Rmult_le_compat; [apply Rabs_pos|apply Rabs_pos|exact DC|exact S1]). lra. }
  assert (DB : (Rabs d <= bpow radix2 62 * e)%R).
  { unfold d, Rdiv. rewrite Rabs_mult, Rabs_inv, Rabs_mult. assert (I : (/ (Rabs (cos r) * Rabs (sin x)) <= bpow radix2 61)%R) by (change (bpow radix2 61) with (bpow radix2 (- -61)); rewrite bpow_opp; apply Rinv_le; lra). assert (I0 : (0 < / (Rabs (cos r) * Rabs (sin x)))%R) by (apply Rinv_0_lt_compat; lra).
    apply Rle_trans with (2 * e * bpow radix2 61)%R; [apply Rmult_le_compat; [apply Rabs_pos|lra|exact NB|exact I]|]. right. change 62 with (1 + 61). rewrite bpow_plus. change (bpow radix2 1) with 2%R. ring. }
  assert (EQ : tan r = (tan x * (1 + d))%R) by (unfold d, N, tan; field; repeat split; assumption).
  assert (EB : (0 <= bpow radix2 62 * e <= / 4)%R). { split; [apply Rmult_le_pos; [apply bpow_ge_0|exact E0]|]. apply Rle_trans with (bpow radix2 62 * bpow radix2 (-100))%R; [apply Rmult_le_compat_l; [apply bpow_ge_0|exact E1]|]. rewrite <- bpow_plus. change (/ 4)%R with (bpow radix2 (-2)). apply bpow_le. lia. }
  assert (D1 : (3 / 4 <= 1 + d)%R) by (apply Rabs_le_inv in DB; lra). assert (T0 : tan x <> 0%R) by (unfold tan, Rdiv; apply Rmult_integral_contrapositive_currified; [exact Y0|now apply Rinv_neq_0_compat]). split.
  - assert (TP : (0 < Rabs (tan x))%R) by now apply Rabs_pos_lt. apply lc_round; [exact TP|lra|]. rewrite EQ, Rabs_mult, (Rabs_pos_eq (1 + d)) by lra. replace (Rabs (tan x) * (1 + d) - Rabs (tan x))%R with (d * Rabs (tan x))%R by ring. rewrite Rabs_mult, Rabs_Rabsolu. apply Rmult_le_compat_r; lra.
  - intros s H. unfold has_sign in *. rewrite EQ, <- Rmult_assoc in H. apply Rmult_lt_reg_r with (1 + d)%R; [lra|]. lra.
Qed.
Lemma apx_low P Q s k k' a v : Q <= P -> 0 <= k <= k' -> apx P s k a v -> apx Q s k' a v.
Proof.
  intros HQ Hk (W & N & S & L). split; [exact W|]. split; [exact N|]. split; [exact S|]. eapply lc_weak; [|exact L]. apply Rmult_le_compat; [apply IZR_le; lia|left; apply eps_pos|apply IZR_le; lia|unfold eps; apply bpow_le; lia].
Qed.
Lemma tan_abs_abs y : Rabs (tan (Rabs y)) = Rabs (tan y).
Proof. unfold Rabs at 2. destruct (Rcase_abs y); [rewrite tan_neg, Rabs_Ropp|]; reflexivity. Qed.

(** ** The proximity to any multiple of half of pi *)
Lemma proximity_both c y P : reachable pi_new pi_for_prec c -> wf y -> normal y -> 64 * wlen y = P -> 192 <= P <= 1984 -> (bpow radix2 (-60) <= Rabs (value y) <= 7)%R -> (bpow radix2 (-60) <= Rabs (sin (value y)))%R -> (bpow radix2 (-60) <= Rabs (cos (value y)))%R ->
  match trig_arg_pi_proximity 31 c y RNone with
  | None => False
  | Some (c, res) => reachable pi_new pi_for_prec c /\ match res with Ok (t, q) => (67 <? t) = false | _ => overflowed res end
  end.
Proof.
  intros R W N L HP V FS FC. pose proof (proximity_any c y P R W N L HP V FS) as A. pose proof (proximity_odd c y P R W N L HP V FC) as B.
  destruct (trig_arg_pi_proximity 31 c y RNone) as [[c1 [[t q]|e|]]|]; try exact A. destruct A as [A1 A2]. destruct B as [_ B2]. split; [exact A1|]. rewrite <- Z.negb_odd in A2. destruct (Z.odd q); cbn [negb andb] in *; [|exact A2]. apply Z.ltb_ge in B2. apply Z.ltb_ge. lia.
Qed.

(** ** The series of a reduced argument *)
Lemma tan_series_any g y P : 256 <= P <= 1984 -> wf y -> normal y -> 64 * wlen y = P -> (bpow radix2 (-60) <= Rabs (value y) <= 7)%R -> (bpow radix2 (-60) <= Rabs (sin (value y)))%R -> (bpow radix2 (-60) <= Rabs (cos (value y)))%R ->
  ends (tan_series g y RNone) (fun q => (exists s, has_sign s (tan (value y)) /\ apx (P - 128) s KTD (Rabs (tan (value y))) q) /\ P <= 64 * wlen q /\ ninexact q = true).
Proof.
  intros HP W N L [V1 V2] FS FC. pose proof (ne_between y (-60) 3 W N V1 ltac:(change (bpow radix2 3) with 8%R; lra)) as NY. rewrite <- sin_abs_abs in FS. destruct (cos_parts _ _ FS) as [C2 C4].
  assert (B1 : (bpow radix2 (-60) / 2 = bpow radix2 (-61))%R) by (change (-60) with (1 + -61); rewrite bpow_plus; change (bpow radix2 1) with 2%R; field). assert (B2 : (bpow radix2 (-60) / 4 = bpow radix2 (-62))%R) by (change (-60) with (2 + -62); rewrite bpow_plus; change (bpow radix2 2) with 4%R; field). rewrite B1 in C2. rewrite B2 in C4.
  rewrite <- cos_abs_abs in FC. assert (F1 : (bpow radix2 (-61) <= Rabs (cos (Rabs (value y))))%R) by (eapply Rle_trans; [|exact FC]; apply bpow_le; lia). assert (C2' : (bpow radix2 (-62) <= Rabs (cos (Rabs (value y) / 2)))%R) by (eapply Rle_trans; [|exact C2]; apply bpow_le; lia).
  pose proof (value_has_sign y W (proj2 N)) as VS. pose proof (sr_tan _ _ VS) as ST. rewrite <- (tan_abs_abs (value y)). rewrite <- ST.
  destruct (Z_le_gt_dec (ne y) 0) as [H0|H0]; [|destruct (Z.eq_dec (ne y) 1) as [H1|H1]; [|destruct (Z.eq_dec (ne y) 2) as [H2|H2]]].
  - destruct (tan_series_ok g y P (ns y) ltac:(lia) W N eq_refl L ltac:(lia)) as [E|(q & E & A & B)]; [left; exact E|right; exists q; split; [exact E|]; split; [|exact B]]. pose proof A as (_ & _ & _ & (T0 & _)). exists (ns y). rewrite (Rabs_pos_eq (tan (Rabs (value y)))) by lra. split; [unfold has_sign, sr; destruct (ns y); cbn [sgnZ]; lra|]. apply (apx_low P (P - 128) _ TanTop.KA); [lia|split; vm_compute; discriminate|exact A].
  - destruct (tan_series_big g y P (ns y) ltac:(lia) W N eq_refl L H1 F1) as [E|(q & E & (s' & S1 & A) & B)]; [left; exact E|right; exists q; split; [exact E|]; split; [|exact B]]. exists s'. split; [exact S1|]. apply (apx_low (P - 64) (P - 128) _ KTB); [lia|split; vm_compute; discriminate|exact A].
  - destruct (tan_series_four g y P (ns y) ltac:(lia) W N eq_refl L H2 C2') as [E|(q & E & (s' & S1 & A) & B)]; [left; exact E|right; exists q; split; [exact E|]; split; [|exact B]]. exists s'. split; [exact S1|]. apply (apx_low (P - 64) (P - 128) _ KTC); [lia|split; vm_compute; discriminate|exact A].
  - exact (tan_series_eight g y P (ns y) ltac:(lia) W N eq_refl L ltac:(lia) V2 C4 FC FS).
Qed.

(** ** The loop *)
Section Loop.
Context (x0 : num) (p : Z) (rm : rmode) (g : nat).
Hypotheses (W0 : wf x0) (N0 : nonzero x0) (Hp : 0 < p) (Hp64 : p mod 64 = 0) (He : 3 <= ne x0 <= 64) (FARS : (bpow radix2 (-59) <= Rabs (sin (value x0)))%R) (FAR : (bpow radix2 (-59) <= Rabs (cos (value x0)))%R).

Theorem tan_loop_huge : forall f c w i, reachable pi_new pi_for_prec c -> p + 64 <= w -> w mod 64 = 0 -> 64 <= i -> i mod 64 = 0 -> 128 <= w -> 64 * wlen x0 <= w -> i <= 64 * (((w + i) / 5 + 63) / 64) ->
  work f w i + 128 <= 1792 -> tan_big_post x0 p rm (tan_loop f g 31 c x0 p rm w i 67).
Proof.
  induction f as [|f IH]; intros c w i RC Hpw Hw64 Hi Hi64 Hw HLx Hii HB; [exact I|].
  pose proof (work_ge (Datatypes.S f) w i ltac:(lia) ltac:(lia)) as HG.
  change (work (Datatypes.S f) w i) with (work f (w + i) (64 * (((w + i) / 5 + 63) / 64))) in HB, HG.
  pose proof (work_ge f (w + i) (64 * (((w + i) / 5 + 63) / 64)) ltac:(lia) ltac:(clear - Hw Hi; dlia)) as HG2.
  assert (PW : prec_up (w + 67) = w + 128) by (unfold prec_up; clear - Hw64; dlia). assert (HPX : 192 <= w + 128 <= 1792) by (clear - HB HG HG2 Hw Hi; lia). assert (PL : prec_up (w + 67) < P_LIM) by (rewrite PW; apply Z.le_lt_trans with 1792; [apply HPX|vm_compute; reflexivity]).
  assert (HX : argument x0 w x0). { pose proof (argument_start x0 W0 N0 ltac:(change EMIN with (-2147483648); clear - He; lia)) as (_ & H2 & _). split; [exact W0|]. split; [exact H2|]. split; [reflexivity|]. split; [reflexivity|exact HLx]. }
  cbn [tan_loop]. destruct (argument_len x0 w x0 (w + 67) ltac:(lia) PL ltac:(lia) HX) as (y & -> & HY & Sy & Ly). rewrite PW in HY, Ly. cbn [ppure pbind]. pose proof HY as (Wy & Ny & Vy & Ey & _). rewrite <- Ey in He.
  assert (VV : value y = value x0). { pose proof (value_has_sign x0 W0 N0) as S1. pose proof (value_has_sign y Wy (proj2 Ny)) as S2. rewrite Sy in S2. unfold has_sign, Rabs in *. destruct (Rcase_abs (value y)), (Rcase_abs (value x0)), (ns x0); cbn [sgnZ] in *; lra. }
  pose proof (reduce_ok c y (w + 128) RC Wy Ny Ly ltac:(clear - HPX; lia) He ltac:(rewrite VV; exact FARS)) as RO. destruct (reduce_trig_arg 31 c y RNone) as [[c0 [z|e|]]|]; [|exact RO|exact RO|exact I]. cbn [red_post pbind] in RO |- *. destruct RO as (RC0 & Wz & Nz & Lz & Vz & Sz & Ds & Dz). rewrite VV in Ds, Dz.
  assert (ES : (eps (w + 128) <= bpow radix2 (-60))%R) by (unfold eps; apply bpow_le; clear - Hw; lia). assert (B59e : (bpow radix2 (-59) = 2 * bpow radix2 (-60))%R) by (change (-59) with (1 + -60); rewrite bpow_plus; reflexivity).
  assert (Cz : (bpow radix2 (-60) <= Rabs (cos (value z)))%R). { pose proof (Rabs_triang (cos (value z)) (- (cos (value z) - cos (value x0)))) as T. rewrite Rabs_Ropp in T. replace (cos (value z) + - (cos (value z) - cos (value x0)))%R with (cos (value x0)) in T by ring. lra. }
  set (Q := 64 * wlen z) in *.
  pose proof (proximity_both c0 z Q RC0 Wz Nz eq_refl ltac:(clear - HPX Lz; lia) Vz Sz Cz) as PP. destruct (trig_arg_pi_proximity 31 c0 z RNone) as [[c1 [[t q]|e|]]|]; [|exact PP|exact PP|exact I]. destruct PP as (R1 & PF). cbn [pbind]. rewrite PF.
  destruct (tan_series_any g z Q ltac:(clear - HPX Lz Hw; lia) Wz Nz eq_refl Vz Sz Cz) as [->|(ret & -> & (s & HS & A) & L & Ir)]; [exact I|]. cbn [ppure pbind].
  destruct (tan_close (value z) (value x0) (eps (w + 128)) Ds Dz FARS FAR) as [LC1 SG]; [split; [left; apply eps_pos|unfold eps; apply bpow_le; clear - Hw; lia]|]. apply SG in HS. set (r := tan (value x0)) in *.
  destruct A as (Wr & Nr & Sr & LCr). pose proof (lc_trans _ _ _ _ _ LC1 LCr) as LC2.
  assert (LC3 : lc (IZR (KTD + 1) * eps (w + 64)) (Rabs r) (Rabs (value ret))).
  { eapply lc_weak; [|exact LC2]. rewrite plus_IZR. assert (X1 : (2 * (bpow radix2 62 * eps (w + 128)) <= eps (w + 64))%R) by (change 2%R with (bpow radix2 1); unfold eps; rewrite <- !bpow_plus; apply bpow_le; lia). assert (X2 : (IZR KTD * eps (Q - 128) <= IZR KTD * eps (w + 64))%R) by (apply Rmult_le_compat_l; [apply IZR_le; vm_compute; discriminate|unfold eps; apply bpow_le; clear - Lz; lia]). lra. }
  pose proof (accept_elem r ret p rm w (KTD + 1) Wr Nr Ir ltac:(clear - L Lz; lia) ltac:(rewrite Sr; exact HS) LC3 ltac:(split; vm_compute; discriminate) Hp Hp64 Hw64 Hpw) as AE.
  destruct (try_set_precision ret p rm w) as [[qq [|]]|[tt| | |]|]; try contradiction; cbn [ppure pbind].
  - split; [exact R1|]. now apply elem_mark.
  - rewrite round_step by (clear - HG HG2 HB Hw Hi; lia). apply IH; [exact R1|lia| |clear - Hw Hi; dlia|rewrite Z.mul_comm; apply Z.mod_mul; lia|lia|lia| |exact HB].
    + clear - Hw64 Hi64. dlia.
    + assert (D : (w + i) / 5 <= (w + i + 64 * (((w + i) / 5 + 63) / 64)) / 5) by (apply Z.div_le_mono; [lia|]; clear - Hw Hi; dlia). assert ((((w + i) / 5 + 63) / 64) <= (((w + i + 64 * (((w + i) / 5 + 63) / 64)) / 5 + 63) / 64)) by (apply Z.div_le_mono; lia). lia.
  - split; [exact R1|exact I].
Qed.
End Loop.

Theorem tan_huge_ok f g c x p rm : reachable pi_new pi_for_prec c -> wf x -> 0 < p -> (4 <= Rabs (value x) < bpow radix2 64)%R -> (bpow radix2 (-59) <= Rabs (sin (value x)))%R -> (bpow radix2 (-59) <= Rabs (cos (value x)))%R ->
  work f (Z.max (prec_up p) (64 * wlen x) + 64) 64 + 128 <= 1792 ->
  tan_big_post x (prec_up p) rm (f_tan f g 31 c x p rm).
Proof.
  intros R W Hp HV FARS FAR HB. assert (N : normal x). { apply normal_iff; [exact W|]. eapply Rle_trans with (bpow radix2 0); [apply bpow_le; vm_compute; discriminate|]. change (bpow radix2 0) with 1%R. lra. }
  assert (He : 3 <= ne x <= 64). { pose proof (ne_between x 2 64 W N ltac:(change (bpow radix2 2) with 4%R; lra) ltac:(lra)). lia. }
  change (Z.max (prec_up p) (64 * wlen x)) with (max64 (prec_up p) x) in HB. assert (P64 : 64 <= prec_up p) by (unfold prec_up; clear - Hp; dlia). assert (M1 : prec_up p <= max64 (prec_up p) x) by (unfold max64; lia). assert (M2 : 64 * wlen x <= max64 (prec_up p) x) by (unfold max64; lia).
  pose proof (work_ge f (max64 (prec_up p) x + 64) 64 ltac:(lia) ltac:(lia)) as HG. assert (PL : max64 (prec_up p) x + 64 < P_LIM) by (eapply Z.le_lt_trans with 1984; [lia|vm_compute; reflexivity]).
  unfold f_tan. match goal with |- context [@odd_in ?A ?ok ?rest 1 false x p rm] => rewrite (@odd_in_rest A ok rest 1 false x p rm W (proj2 N) Hp ltac:(lia) ltac:(lia)) end. cbv beta. change (mantissa_max_bit_len x) with (64 * wlen x). change (Z.max (prec_up p) (64 * wlen x)) with (max64 (prec_up p) x).
  apply tan_loop_huge; [exact W|exact (proj2 N)|lia|apply prec_up_mod|exact He|exact FARS|exact FAR|exact R|lia|apply max_mod|lia|reflexivity|lia|lia|clear - M1 P64; dlia|exact HB].
Qed.
