(** The arccosine of zero, of minus one and above 7/10 in magnitude. *)

From Coq Require Import ZArith List Bool Lia Reals Lra.
From Flocq Require Import Core Relative.
From Verif Require Import Words IntModel Mantissa Num Pow Consts Elem Series Exp Ln Sin Atan Asin Acos SpecZ SpecOps SpecConst SpecPow SpecElem WordsP Spec RealP RealP2 NumP CmpP AddP SetP AddNum MulNum DivNum ArithTop ConvNum Conv2Num RootP ConstP ConstNum ExtP PowExt Refute1 ElemR ElemDom SmallP ElemNum ApproxR ApproxNum SeriesNum SinhR SinhNum SinhTop ExpNum LnR LnNum RetryNum ConstReach SpecReach ExpTop HypNum HypTop TanhNum LnMant AltNum AltDiv AtanR AtanTop AsinTop PowTop PiNum PropsConst AtanBig AcosTop ElemInf AsinBig.
Import ListNotations.
Open Scope Z_scope.
Ltac Zify.zify_post_hook ::= idtac.
Arguments Z.mul : simpl never.
Arguments Z.add : simpl never.
Arguments Z.pow : simpl never.
Arguments Z.sub : simpl never.
Arguments Z.of_nat : simpl never.
Ltac dlia := Z.div_mod_to_equations; lia.

(** ** The arccosine near one *)
Lemma acos_low v : (-1 <= v <= 1)%R -> (bpow radix2 (-62) <= 1 - v)%R -> (bpow radix2 (-31) <= acos v <= PI)%R.
Proof.
  intros V G. pose proof (acos_bound v) as [A0 A1]. split; [|exact A1]. destruct (Rle_or_lt (bpow radix2 (-31)) (acos v)) as [L|L]; [exact L|exfalso].
  pose proof (cos_acos v V) as C. set (y := acos v) in *. clearbody y. replace y with (2 * (y / 2))%R in C by field. rewrite cos_2a_sin in C.
  assert (BB : (bpow radix2 (-62) = bpow radix2 (-31) * bpow radix2 (-31))%R) by (rewrite <- bpow_plus; reflexivity). rewrite BB in G. pose proof (bpow_gt_0 radix2 (-31)) as B0. assert (B1 : (bpow radix2 (-31) <= 1)%R) by (change 1%R with (bpow radix2 0); apply bpow_le; lia). set (b := bpow radix2 (-31)) in *. clearbody b. clear BB.
  assert (S : (0 <= sin (y / 2) <= y / 2)%R). { split; [apply sin_ge_0; lra|]. destruct (Req_dec y 0) as [Z|Z]; [rewrite Z; replace (0 / 2)%R with 0%R by field; rewrite sin_0; lra|left; apply sin_lt_x; lra]. }
  set (s := sin (y / 2)) in *. clearbody s. assert (s * s <= (y / 2) * (y / 2))%R by (apply Rmult_le_compat; lra). assert ((y / 2) * (y / 2) <= (b / 2) * (b / 2))%R by (apply Rmult_le_compat; lra). nra.
Qed.

(** ** One round *)
Definition K0 : Z := 2 ^ 40.
Definition round_post (P : Z) (r : R) (o : prun (num * num)) : Prop :=
  match o with
  | None => True
  | Some (c, res) => reachable pi_new pi_for_prec c /\
      match res with
      | Ok (u, v) => apx P Pos K0 r u /\ 64 * wlen u = P /\ ninexact u = true /\ Z.abs (ne u) <= 32 /\ Z.abs (ne v) <= 32
      | _ => overflowed res
      end
  end.
Lemma far_exp v E a : sab E a v -> (E <= bpow radix2 (-40))%R -> (bpow radix2 (-31) <= a <= 4)%R -> Z.abs (ne v) <= 32.
Proof.
  intros (W & N & D) HE HA. apply Rabs_le_inv in D. assert (B : (bpow radix2 (-32) + bpow radix2 (-40) < bpow radix2 (-31))%R).
  { replace (bpow radix2 (-31)) with (bpow radix2 (-40) * 512)%R by (change 512%R with (bpow radix2 9); rewrite <- bpow_plus; reflexivity). replace (bpow radix2 (-32)) with (bpow radix2 (-40) * 256)%R by (change 256%R with (bpow radix2 8); rewrite <- bpow_plus; reflexivity). pose proof (bpow_gt_0 radix2 (-40)). lra. }
  pose proof (bpow_gt_0 radix2 (-32)) as B0. assert (B1 : (bpow radix2 (-40) <= 1)%R) by (change 1%R with (bpow radix2 0); apply bpow_le; clear; lia).
  destruct (normal_range v W N) as [N1 N2]. rewrite Rabs_pos_eq in N1, N2 by lra.
  assert (ne v - 1 < 3); [apply (lt_bpow radix2); change (bpow radix2 3) with 8%R; lra|]. assert (-32 < ne v); [apply (lt_bpow radix2); lra|]. lia.
Qed.
Lemma half_pi_pos P z : 128 <= P -> is_pi P RNone z -> sab (eps P) (PI / 2) (set_exponent z 1) /\ ninexact (set_exponent z 1) = true.
Proof.
  intros HP HR. destruct (half_pi P z Pos HP HR) as [HS HI].
  assert (EZ : set_sign (set_exponent z 1) Pos = set_exponent z 1). { destruct HR as (Wz & _ & Sz & _). destruct (set_exponent_spec z 1 Wz ltac:(vm_compute; split; discriminate)) as (_ & _ & S1 & _). rewrite Sz in S1. destruct (set_exponent z 1) as [m s0 e0 i0]. cbn [ns] in S1. subst s0. reflexivity. }
  rewrite EZ in HS, HI. replace (sr Pos * (PI / 2))%R with (PI / 2)%R in HS by (unfold sr; cbn [sgnZ]; ring). split; assumption.
Qed.
Lemma parts_near a e g c x p P : reachable pi_new pi_for_prec c -> wf x -> (7 / 10 < Rabs (value x) <= 1 - bpow radix2 (-62))%R -> 0 < p -> prec_up p = P -> 64 * wlen x = P -> 128 <= P <= 2048 ->
  work e (2 * work a (P + 64) 64 + 128) 64 + 64 <= 2048 -> round_post P (acos (value x)) (acos_parts a e g 31 c x p).
Proof.
  intros R W HV Hp EP L HP HB. assert (HL : prec_up p < P_LIM) by (rewrite EP; eapply Z.le_lt_trans; [apply HP|vm_compute; reflexivity]). pose proof (bpow_gt_0 radix2 (-62)) as G0.
  unfold acos_parts. pose proof (asin_near_ok a e g c x p RNone R W Hp ltac:(lra)) as O. rewrite EP, L, Z.max_id in O. specialize (O HB).
  destruct (f_asin a e g 31 c x p RNone) as [[c1 res]|]; [|exact I]. destruct O as (R1 & O). destruct res as [q|[t| | |]|]; try contradiction; cbn [pbind]; [|split; [exact R1|exact I]].
  destruct HV as [HV1 HV2]. pose proof (Rabs_le_inv _ _ HV2) as HV3. destruct (acos_low (value x) ltac:(lra) ltac:(lra)) as [U0 U1]. destruct (acos_low (- value x) ltac:(lra) ltac:(lra)) as [V0 V1].
  rewrite acos_asin in U0, U1, V0, V1 by lra. rewrite asin_opp in V0, V1. rewrite (acos_asin (value x)) by lra.
  assert (LOW : (bpow radix2 EMIN <= Rabs (asin (value x)))%R).
  { apply Rle_trans with (bpow radix2 (-1)); [apply bpow_le; vm_compute; discriminate|]. change (bpow radix2 (-1)) with (/ 2)%R.
    assert (S : (Rabs (value x) <= Rabs (asin (value x)))%R); [|lra]. rewrite <- (sin_asin (value x)) at 1 by lra. set (r := asin (value x)) in *. clearbody r. clear - U1 V1 U0 V0. pose proof (bpow_gt_0 radix2 (-31)). pose proof PI_RGT_0 as PI0.
    destruct (Rlt_or_le 0 r) as [Q|Q]; [|destruct (Req_dec r 0) as [Z|Z]].
    - rewrite (Rabs_pos_eq r), (Rabs_pos_eq (sin r)) by (try lra; apply sin_ge_0; lra). left. now apply sin_lt_x.
    - rewrite Z, sin_0. lra.
    - rewrite <- (Rabs_Ropp (sin r)), <- sin_neg, <- (Rabs_Ropp r). rewrite (Rabs_pos_eq (- r)), (Rabs_pos_eq (sin (- r))) by (try lra; apply sin_ge_0; lra). left. apply sin_lt_x. lra. }
  set (r := asin (value x)) in *. clearbody r. pose proof (elem_apx_low r P RNone q O ltac:(apply HP) LOW) as AQ. destruct O as (_ & _ & SQ & IQ & _).
  pose proof (apx_sab P (ns q) 1 _ q ltac:(apply HP) AQ ltac:(split; vm_compute; discriminate)) as SB. rewrite (sr_sign _ _ SQ) in SB. replace (2 * 1 * eps P * Rabs r)%R with (2 * (eps P * Rabs r))%R in SB by ring.
  destruct (pi_num_ok c1 p RNone R1 Hp ltac:(rewrite EP; apply HP)) as (c' & t & -> & R' & HR). rewrite EP in HR.
  destruct t as [z|[t| | |]|]; try contradiction; cbn [ppure pbind]; [|split; [exact R'|exact I]].
  rewrite (pi_exp P z ltac:(apply HP) HR). change (2 - 1) with 1. destruct (half_pi_pos P z ltac:(apply HP) HR) as [HS HI]. set (hp := set_exponent z 1) in *. clearbody hp.
  assert (PB : (3 < PI <= 4)%R) by (pose proof PI2_3_2; pose proof PI_4; lra).
  pose proof (eps_pos P) as Ep. assert (ES : (eps P <= bpow radix2 (-40) / 512)%R). { replace (bpow radix2 (-40) / 512)%R with (bpow radix2 (-49)) by (change 512%R with (bpow radix2 9); unfold Rdiv; rewrite <- bpow_opp, <- bpow_plus; reflexivity). unfold eps. apply bpow_le. clear - HP. lia. }
  assert (B40 : (bpow radix2 (-31) = 512 * bpow radix2 (-40))%R) by (change 512%R with (bpow radix2 9); rewrite <- bpow_plus; reflexivity). pose proof (bpow_gt_0 radix2 (-40)) as B4.
  assert (RA : (0 <= Rabs r <= 2)%R) by (split; [apply Rabs_pos|apply Rabs_le; lra]). assert (ER : (0 <= eps P * Rabs r <= 2 * eps P)%R). { split; [apply Rmult_le_pos; lra|]. rewrite (Rmult_comm 2). apply Rmult_le_compat_l; lra. }
  assert (HPP : 128 <= P <= prec_up p) by lia.
  assert (M : forall y, (bpow radix2 (-31) <= y <= 4)%R -> mid (Rabs y)). { intros y Y. rewrite Rabs_pos_eq by lra. apply (mid_range (-31) 3); [vm_compute; discriminate|vm_compute; discriminate|]. change (bpow radix2 3) with 8%R. lra. }
  destruct (sab_add P p RNone HPP HL (eps P) (2 * (eps P * Rabs r)) (PI / 2) r hp q HS SB) as (v & -> & SV & _ & _); [rewrite (Rabs_pos_eq (PI / 2 + r)) by lra; lra|apply M; lra|]. cbn [ppure pbind].
  destruct (sab_sub P p RNone HPP HL (eps P) (2 * (eps P * Rabs r)) (PI / 2) r hp q HS SB) as (u & -> & SU & LU & IU); [rewrite (Rabs_pos_eq (PI / 2 - r)) by lra; lra|apply M; lra|]. cbn [ppure pbind].
  rewrite (Rabs_pos_eq (PI / 2 + r)) in SV by lra. rewrite (Rabs_pos_eq (PI / 2 - r)) in SU by lra.
  assert (V2 : (0 <= eps P * (PI / 2 + r) <= 4 * eps P)%R) by (split; [apply Rmult_le_pos; lra|rewrite (Rmult_comm 4); apply Rmult_le_compat_l; lra]). assert (U2 : (bpow radix2 (-31) * eps P <= eps P * (PI / 2 - r) <= 4 * eps P)%R) by (split; [rewrite Rmult_comm|rewrite (Rmult_comm 4)]; apply Rmult_le_compat_l; lra).
  split; [exact R'|]. split; [|split; [rewrite LU; exact EP|split; [apply IU; rewrite HI; reflexivity|]]].
  - apply (sab_apx P Pos K0 (PI / 2 - r) (eps P + 2 * (eps P * Rabs r) + 3 * eps P * (PI / 2 - r))%R u ltac:(apply HP) ltac:(lra) ltac:(split; vm_compute; discriminate)); [|].
    + replace (sr Pos * (PI / 2 - r))%R with (PI / 2 - r)%R by (unfold sr; cbn [sgnZ]; ring). exact SU.
    + assert (K1 : (IZR K0 * bpow radix2 (-31) = 512)%R) by (change (IZR K0) with (bpow radix2 40); rewrite <- bpow_plus; reflexivity). assert (K2 : (512 * eps P <= IZR K0 * (eps P * (PI / 2 - r)))%R). { rewrite <- K1, Rmult_assoc. apply Rmult_le_compat_l; [change (IZR K0) with (bpow radix2 40); apply bpow_ge_0|apply U2]. } rewrite Rmult_assoc. lra.
  - split; [apply (far_exp u _ _ SU)|apply (far_exp v _ _ SV)]; lra.
Qed.

(** ** The loop *)
Section Loop.
Context (inv : Z -> num -> Prop) (r : R) (x0 : num) (p : Z) (rm : rmode) (a e g : nat) (B : Z).
Hypotheses (Hp : 0 < p) (Hp64 : p mod 64 = 0) (HB : B <= 2048) (Hr : (0 < r <= 4)%R)
  (Hwide : forall w w' x, w <= w' -> inv w x -> inv w' x)
  (Hstep : forall c w x, reachable pi_new pi_for_prec c -> inv w x -> 128 <= w -> w mod 64 = 0 -> w + 64 <= B ->
     exists y, set_precision x (w + 33) RNone = Ok y /\ inv (w + 64) y /\ round_post (w + 64) r (acos_parts a e g 31 c y (w + 33))).

Definition all_post (o : prun num) : Prop :=
  match o with
  | None => True
  | Some (c, res) => reachable pi_new pi_for_prec c /\ match res with Ok q => elem_result r p rm q | _ => overflowed res end
  end.
Theorem acos_any_loop : forall f c x w i, reachable pi_new pi_for_prec c -> inv w x -> p + 64 <= w -> w mod 64 = 0 -> 64 <= i -> i mod 64 = 0 -> 128 <= w -> i <= 64 * (((w + i) / 5 + 63) / 64) ->
  work f w i + 64 <= B -> all_post (acos_loop f a e g 31 c x0 x 33 p rm w i).
Proof.
  induction f as [|f IH]; intros c x w i R HX Hpw Hw64 Hi Hi64 Hw Hii HC; [exact I|].
  pose proof (work_ge (Datatypes.S f) w i ltac:(lia) ltac:(lia)) as HG.
  change (work (Datatypes.S f) w i) with (work f (w + i) (64 * (((w + i) / 5 + 63) / 64))) in HG, HC.
  pose proof (work_ge f (w + i) (64 * (((w + i) / 5 + 63) / 64)) ltac:(lia) ltac:(clear - Hw Hi; dlia)) as HG2.
  cbn [acos_loop]. cbv zeta. destruct (Hstep c w x R HX Hw Hw64 ltac:(clear - HC HG; lia)) as (y & -> & HY & EV). cbn [ppure pbind]. unfold round_post in EV.
  destruct (acos_parts a e g 31 c y (w + 33)) as [[c' res]|]; [|exact I]. destruct EV as [R' EV]. destruct res as [[u v]|[t| | |]|]; try contradiction; cbn [ppure pbind]; [|split; [exact R'|exact I]].
  destruct EV as ((Wr & Nr & Sr & LCr) & LR & IR & U2 & V2). replace (33 <? Z.max (Z.abs (ne u)) (Z.abs (ne v)) + 1) with false by (symmetry; apply Z.ltb_ge; clear - U2 V2; lia).
  assert (SS : has_sign (ns u) r) by (rewrite Sr; unfold has_sign; cbn [sgnZ]; lra).
  pose proof (accept_elem r u p rm w K0 Wr Nr IR ltac:(clear - LR; lia) SS ltac:(rewrite (Rabs_pos_eq r) by lra; exact LCr) ltac:(split; vm_compute; discriminate) Hp Hp64 Hw64 Hpw) as AE.
  destruct (try_set_precision u p rm w) as [[q [|]]|[t| | |]|]; try contradiction; cbn [ppure pbind].
  + split; [exact R'|]. now apply elem_mark.
  + rewrite round_step by (clear - HG HG2 HC HB Hw Hi; lia). apply IH; [exact R'|apply (Hwide (w + 64)); [lia|exact HY]|lia| |clear - Hw Hi; dlia|rewrite Z.mul_comm; apply Z.mod_mul; lia|lia| |exact HC].
    * clear - Hw64 Hi64. dlia.
    * assert (D : (w + i) / 5 <= (w + i + 64 * (((w + i) / 5 + 63) / 64)) / 5) by (apply Z.div_le_mono; [lia|]; clear - Hw Hi; dlia). assert ((((w + i) / 5 + 63) / 64) <= (((w + i + 64 * (((w + i) / 5 + 63) / 64)) / 5 + 63) / 64)) by (apply Z.div_le_mono; lia). lia.
  + exfalso. revert AE. apply no_overflow; [exact Hp|]. rewrite Rabs_pos_eq by lra. apply Rle_trans with (bpow radix2 2); [change (bpow radix2 2) with 4%R; lra|apply bpow_le; clear; lia].
Qed.
End Loop.

Lemma acos_start f a e g c x p rm : wf x -> (Rabs (value x) < 1 \/ value x = -1)%R -> 0 < p -> prec_up p < P_LIM ->
  f_acos f a e g 31 c x p rm = acos_loop f a e g 31 c x (set_inexact x false) 33 (prec_up p) rm (max64 (prec_up p) x + 64) 64.
Proof.
  intros W H Hp PL. unfold f_acos. cbv zeta. rewrite round_p_eq by (try exact PL; lia). change (mantissa_max_bit_len x) with (64 * wlen x). change (1 - -32) with 33. fold (prec_up p). change (Z.max (prec_up p) (64 * wlen x)) with (max64 (prec_up p) x).
  pose proof (abs_cmp_one x W) as C. destruct H as [H|H].
  - rewrite Rcompare_Lt in C by lra. cbn [sgn_of] in C. replace (n_abs_cmp x ONE =? 0) with false by (symmetry; apply Z.eqb_neq; lia). replace (0 <? n_abs_cmp x ONE) with false by (symmetry; apply Z.ltb_ge; lia). reflexivity.
  - assert (N : nonzero x) by (intros Z; rewrite (value_zero x Z) in H; lra). pose proof (value_has_sign x W N) as S. rewrite H in S. unfold has_sign in S. unfold is_positive. destruct (ns x); cbn [sgnZ] in S; [|lra]. rewrite H, Rabs_left, Rcompare_Eq in C by lra. cbn [sgn_of] in C. replace (0 <? n_abs_cmp x ONE) with false by (symmetry; apply Z.ltb_ge; lia). cbn [is_pos]. rewrite andb_false_r. reflexivity.
Qed.

(** ** Between 7/10 and one *)
Definition arg (x0 : num) (w : Z) (x : num) : Prop := argument x0 w x /\ value x = value x0.
Lemma arg_wide x0 w w' x : w <= w' -> arg x0 w x -> arg x0 w' x.
Proof. intros H [A V]. split; [now apply (argument_wide x0 w)|exact V]. Qed.
Lemma arg_len x0 w x : arg x0 w x -> 128 <= w -> w mod 64 = 0 -> w + 64 <= 2048 -> exists y, set_precision x (w + 33) RNone = Ok y /\ arg x0 (w + 64) y /\ 64 * wlen y = w + 64.
Proof.
  intros [A V] Hw Hw64 HB. assert (PW : prec_up (w + 33) = w + 64) by (unfold prec_up; clear - Hw64; dlia). assert (PL : w + 64 < P_LIM) by (apply Z.le_lt_trans with 2048; [exact HB|vm_compute; reflexivity]).
  destruct (argument_len x0 w x (w + 33) ltac:(lia) ltac:(rewrite PW; exact PL) ltac:(lia) A) as (y & Ey & HY & Sy & Ly). rewrite PW in HY, Ly. exists y. split; [exact Ey|]. split; [|exact Ly]. split; [exact HY|].
  destruct HY as (Wy & Ny & Vy & _). destruct A as (Wx & Nx & Vx & _). pose proof (value_has_sign x Wx (proj2 Nx)) as V1. pose proof (value_has_sign y Wy (proj2 Ny)) as V2. rewrite Sy in V2. rewrite <- V, <- (sr_sign _ _ V1), <- (sr_sign _ _ V2), Vy, Vx. reflexivity.
Qed.
Theorem acos_near_ok f a e g c x p rm : reachable pi_new pi_for_prec c -> wf x -> 0 < p -> (7 / 10 < Rabs (value x) <= 1 - bpow radix2 (-62))%R ->
  let B := work f (Z.max (prec_up p) (64 * wlen x) + 64) 64 + 64 in work e (2 * work a (B + 64) 64 + 128) 64 + 64 <= 2048 ->
  all_post (acos (value x)) (prec_up p) rm (f_acos f a e g 31 c x p rm).
Proof.
  intros R W Hp HV B HB. unfold B in HB. clear B. change (Z.max (prec_up p) (64 * wlen x)) with (max64 (prec_up p) x) in HB. assert (N : nonzero x) by (intros Z; rewrite (value_zero x Z), Rabs_R0 in HV; lra). assert (P64 : 64 <= prec_up p) by (unfold prec_up; clear - Hp; dlia). assert (M1 : prec_up p <= max64 (prec_up p) x) by (unfold max64; lia). assert (M2 : 64 * wlen x <= max64 (prec_up p) x) by (unfold max64; lia).
  pose proof (work_ge f (max64 (prec_up p) x + 64) 64 ltac:(lia) ltac:(lia)) as H0. set (B := work f (max64 (prec_up p) x + 64) 64 + 64) in *. pose proof (work_ge a (B + 64) 64 ltac:(lia) ltac:(lia)) as H1. pose proof (work_ge e (2 * work a (B + 64) 64 + 128) 64 ltac:(lia) ltac:(lia)) as H2.
  assert (PL : prec_up p < P_LIM) by (eapply Z.le_lt_trans with 2048; [lia|vm_compute; reflexivity]). pose proof (bpow_gt_0 radix2 (-62)) as G0.
  assert (E1 : -1 < ne x). { apply (lt_bpow radix2). change (bpow radix2 (-1)) with (/ 2)%R. pose proof (value_lt_bpow x W). lra. }
  rewrite acos_start by (try exact W; try exact Hp; try exact PL; left; lra).
  destruct HV as [HV1 HV2]. pose proof (Rabs_le_inv _ _ HV2) as HV3. destruct (acos_low (value x) ltac:(lra) ltac:(lra)) as [U0 U1]. pose proof (bpow_gt_0 radix2 (-31)) as G1. pose proof PI_4 as P4.
  apply (acos_any_loop (arg x) (acos (value x)) x (prec_up p) rm a e g B); try lia; try exact R.
  - apply prec_up_mod.
  - lra.
  - intros w w' y. apply arg_wide.
  - intros c1 w y R1 A Hw Hw64 HWB. destruct (arg_len x w y A Hw Hw64 ltac:(lia)) as (z & Ez & Az & Lz). exists z. split; [exact Ez|]. split; [exact Az|]. destruct Az as [(Wz & _) Vz]. rewrite <- Vz.
    apply parts_near; try assumption; try (rewrite Vz; split; assumption); try lia.
    + unfold prec_up. clear - Hw64. dlia.
    + eapply Z.le_trans; [|exact HB]. apply Z.add_le_mono_r. pose proof (work_ge a (w + 64 + 64) 64 ltac:(lia) ltac:(lia)). apply work_mono; [|lia]. split; [lia|]. pose proof (work_mono a (w + 64 + 64) (B + 64) 64 64 ltac:(lia) ltac:(lia)). lia.
  - split; [|reflexivity]. apply (argument_wide x (64 * wlen x)); [lia|]. apply argument_start; [exact W|exact N|apply Z.lt_trans with (-1); [vm_compute; reflexivity|exact E1]].
  - apply max_mod.
  - reflexivity.
  - clear - M1 P64. dlia.
Qed.

(** ** Minus one *)
Lemma parts_minus a e g c x p P : reachable pi_new pi_for_prec c -> wf x -> value x = (-1)%R -> 0 < p -> prec_up p = P -> 128 <= P <= 2048 -> round_post P PI (acos_parts a e g 31 c x p).
Proof.
  intros R W V Hp EP HP. assert (HL : prec_up p < P_LIM) by (rewrite EP; eapply Z.le_lt_trans; [apply HP|vm_compute; reflexivity]). assert (N : nonzero x) by (intros Z; rewrite (value_zero x Z) in V; lra).
  assert (S : ns x = Neg) by (pose proof (value_has_sign x W N) as S; rewrite V in S; unfold has_sign in S; destruct (ns x); [reflexivity|cbn [sgnZ] in S; lra]).
  assert (PP : p <= prec_up p) by (unfold prec_up; clear; dlia). unfold acos_parts. destruct (asin_end_ok a e g c x p RNone R W ltac:(lia) ltac:(rewrite V, Rabs_left by lra; lra)) as (c1 & res & -> & R1 & O).
  destruct res as [q|[t| | |]|]; try contradiction; cbn [ppure pbind]; [|split; [exact R1|exact I]]. destruct O as (Wq & Lq & Sq & Iq & Vq). rewrite EP in Lq, Vq. rewrite V in Vq. replace (asin (-1)) with (- (PI / 2))%R in Vq by (replace (-1)%R with (- (1))%R by ring; rewrite asin_opp, asin_1; reflexivity).
  destruct (pi_num_ok c1 p RNone R1 Hp ltac:(rewrite EP; apply HP)) as (c' & t & -> & R' & HR). rewrite EP in HR.
  destruct t as [z|[t| | |]|]; try contradiction; cbn [ppure pbind]; [|split; [exact R'|exact I]].
  rewrite (pi_exp P z ltac:(apply HP) HR). change (2 - 1) with 1. destruct (half_pi_pos P z ltac:(apply HP) HR) as [HS HI].
  assert (VZ : value (set_exponent z 1) = rnd_prec P RNone (PI / 2)).
  { destruct (half_rounded P RNone Pos z ltac:(lia) HR) as (_ & _ & _ & _ & Q). rewrite (pi_exp P z ltac:(apply HP) HR) in Q. change (2 - 1) with 1 in Q. unfold sr in Q. cbn [sgnZ] in Q. rewrite Rmult_1_l in Q. rewrite <- Q. destruct HR as (Wz & _ & Sz & _). destruct (set_exponent_spec z 1 Wz ltac:(vm_compute; split; discriminate)) as (_ & _ & S1 & _). rewrite value_set_sign, S1, Sz. cbn [sgnZ]. ring. }
  set (hp := set_exponent z 1) in *. clearbody hp. assert (VN : value q = (- value hp)%R). { rewrite Vq, VZ. pose proof (rnd_prec_opp P RNone (PI / 2)) as Q. cbn [invert_rm_for_sign] in Q. lra. }
  pose proof HS as (Wh & Nh & Dh). assert (PB : (3 < PI <= 4)%R) by (pose proof PI2_3_2; pose proof PI_4; lra). pose proof (eps_pos P) as Ep. assert (ES : (eps P <= / 1024)%R) by (change (/ 1024)%R with (bpow radix2 (-10)); unfold eps; apply bpow_le; clear - HP; lia).
  assert (NQ : normal q). { apply normal_iff; [exact Wq|]. rewrite VN, Rabs_Ropp. apply (proj1 (normal_iff hp Wh)). exact Nh. }
  assert (SQ : sab (eps P) (- (PI / 2)) q). { split; [exact Wq|]. split; [exact NQ|]. rewrite VN. replace (- value hp - - (PI / 2))%R with (- (value hp - PI / 2))%R by ring. now rewrite Rabs_Ropp. }
  destruct (add_sub_nonzero hp q p 1 RNone Wh Wq (proj2 Nh) (proj2 NQ) (or_introl eq_refl) Hp HL) as [_ AZ]. change (n_add hp q p RNone) with (add_sub hp q p 1 RNone false). rewrite AZ by (rewrite VN; ring). cbn [ppure pbind].
  assert (HPP : 128 <= P <= prec_up p) by lia.
  destruct (sab_sub P p RNone HPP HL (eps P) (eps P) (PI / 2) (- (PI / 2)) hp q HS SQ) as (u & -> & SU & LU & IU); [rewrite (Rabs_pos_eq (PI / 2 - - (PI / 2))) by lra; lra| |].
  { rewrite Rabs_pos_eq by lra. apply (mid_range 1 3); [vm_compute; discriminate|vm_compute; discriminate|]. change (bpow radix2 3) with 8%R. change (bpow radix2 1) with 2%R. lra. }
  cbn [ppure pbind]. rewrite (Rabs_pos_eq (PI / 2 - - (PI / 2))) in SU by lra. replace (PI / 2 - - (PI / 2))%R with PI in SU by field.
  assert (EQ : (3 * eps P * PI <= 12 * eps P)%R) by (assert (eps P * PI <= eps P * 4)%R by (apply Rmult_le_compat_l; lra); lra). assert (EQ2 : (3 * eps P <= eps P * PI)%R) by (rewrite (Rmult_comm 3); apply Rmult_le_compat_l; lra).
  split; [exact R'|]. split; [|split; [rewrite LU; exact EP|split; [apply IU; rewrite HI; reflexivity|]]].
  - apply (sab_apx P Pos K0 PI (eps P + eps P + 3 * eps P * PI)%R u ltac:(apply HP) ltac:(lra) ltac:(split; vm_compute; discriminate)); [|].
    + replace (sr Pos * PI)%R with PI by (unfold sr; cbn [sgnZ]; ring). exact SU.
    + assert (K2 : (28 <= IZR K0)%R) by (apply IZR_le; vm_compute; discriminate). rewrite Rmult_assoc. assert (28 * (eps P * PI) <= IZR K0 * (eps P * PI))%R by (apply Rmult_le_compat_r; lra). lra.
  - split; [|vm_compute; discriminate]. destruct SU as (Wu & Nu & Du). apply Rabs_le_inv in Du. destruct (normal_range u Wu Nu) as [N1 N2]. rewrite Rabs_pos_eq in N1, N2 by lra. assert (ne u - 1 < 3); [apply (lt_bpow radix2); change (bpow radix2 3) with 8%R; lra|]. assert (0 < ne u); [apply (lt_bpow radix2); change (bpow radix2 0) with 1%R; lra|]. lia.
Qed.
Theorem acos_minus_ok f a e g c x p rm : reachable pi_new pi_for_prec c -> wf x -> 0 < p -> value x = (-1)%R -> work f (Z.max (prec_up p) (64 * wlen x) + 64) 64 + 64 <= 2048 ->
  all_post PI (prec_up p) rm (f_acos f a e g 31 c x p rm).
Proof.
  intros R W Hp HV HB. change (Z.max (prec_up p) (64 * wlen x)) with (max64 (prec_up p) x) in HB. assert (N : nonzero x) by (intros Z; rewrite (value_zero x Z) in HV; lra). assert (P64 : 64 <= prec_up p) by (unfold prec_up; clear - Hp; dlia). assert (M1 : prec_up p <= max64 (prec_up p) x) by (unfold max64; lia). assert (M2 : 64 * wlen x <= max64 (prec_up p) x) by (unfold max64; lia).
  pose proof (work_ge f (max64 (prec_up p) x + 64) 64 ltac:(lia) ltac:(lia)) as H0. assert (PL : prec_up p < P_LIM) by (eapply Z.le_lt_trans with 2048; [lia|vm_compute; reflexivity]).
  assert (E1 : 0 < ne x). { apply (lt_bpow radix2). change (bpow radix2 0) with 1%R. pose proof (value_lt_bpow x W) as Q. rewrite HV, Rabs_left in Q by lra. lra. }
  rewrite acos_start by (try exact W; try exact Hp; try exact PL; right; exact HV). assert (PB : (3 < PI <= 4)%R) by (pose proof PI2_3_2; pose proof PI_4; lra).
  apply (acos_any_loop (arg x) PI x (prec_up p) rm a e g 2048); try lia; try exact R.
  - apply prec_up_mod.
  - lra.
  - intros w w' y. apply arg_wide.
  - intros c1 w y R1 A Hw Hw64 HWB. destruct (arg_len x w y A Hw Hw64 HWB) as (z & Ez & Az & Lz). exists z. split; [exact Ez|]. split; [exact Az|]. destruct Az as [(Wz & _) Vz].
    apply parts_minus; try assumption; try lia; [congruence|unfold prec_up; clear - Hw64; dlia].
  - split; [|reflexivity]. apply (argument_wide x (64 * wlen x)); [lia|]. apply argument_start; [exact W|exact N|apply Z.lt_trans with 0; [vm_compute; reflexivity|exact E1]].
  - apply max_mod.
  - reflexivity.
  - clear - M1 P64. dlia.
Qed.

(** ** Zero *)
Lemma parts_zero a e g c x p P : reachable pi_new pi_for_prec c -> wf x -> magnitude x = 0 -> 0 < p -> prec_up p = P -> 128 <= P <= 2048 -> round_post P (PI / 2) (acos_parts a e g 31 c x p).
Proof.
  intros R W Z Hp EP HP. assert (HL : prec_up p < P_LIM) by (rewrite EP; eapply Z.le_lt_trans; [apply HP|vm_compute; reflexivity]). assert (UU : prec_up P = P) by (rewrite <- EP; apply prec_up_idem).
  unfold acos_parts. unfold f_asin. cbv zeta. rewrite is_zero_true by auto. destruct (new2_exact p (ns x) (ninexact x) Hp HL) as (q & -> & Wq & _ & _ & Vq & _). cbn [ppure pbind].
  assert (Zq : magnitude q = 0) by (destruct (nonzero_dec q) as [Q|Q]; [exact Q|]; pose proof (value_has_sign q Wq Q) as Q1; rewrite Vq in Q1; unfold has_sign in Q1; lra).
  destruct (pi_num_ok c p RNone R Hp ltac:(rewrite EP; apply HP)) as (c' & t & -> & R' & HR). rewrite EP in HR.
  destruct t as [z|[t| | |]|]; try contradiction; cbn [ppure pbind]; [|split; [exact R'|exact I]].
  rewrite (pi_exp P z ltac:(apply HP) HR). change (2 - 1) with 1. destruct (half_pi_pos P z ltac:(apply HP) HR) as [HS HI].
  assert (LH : 64 * wlen (set_exponent z 1) = P) by (destruct HR as (Wz & Lz & _); destruct (set_exponent_spec z 1 Wz ltac:(vm_compute; split; discriminate)) as (_ & L1 & _); rewrite L1; exact Lz).
  set (hp := set_exponent z 1) in *. clearbody hp. pose proof HS as (Wh & Nh & Dh).
  change (n_add hp q p RNone) with (add_sub hp q p 1 RNone false). change (n_sub hp q p RNone) with (add_sub hp q p (-1) RNone false). rewrite !(add_sub_zero_r hp q p _ RNone Wh Wq (proj2 Nh) Zq Hp HL). rewrite EP.
  destruct (apx_len 128 (ns hp) 0 _ hp P (apx_self 128 hp Wh Nh) ltac:(lia) ltac:(lia) ltac:(rewrite UU, <- EP; exact HL)) as (u & -> & (Wu & Nu & Su & _) & Lu & Vu & Iu). rewrite UU in Lu.
  cbn [ppure pbind]. assert (PB : (3 < PI <= 4)%R) by (pose proof PI2_3_2; pose proof PI_4; lra). pose proof (eps_pos P) as Ep. assert (ES : (eps P <= / 1024)%R) by (change (/ 1024)%R with (bpow radix2 (-10)); unfold eps; apply bpow_le; clear - HP; lia).
  assert (SU : sab (eps P) (PI / 2) u) by (split; [exact Wu|split; [exact Nu|rewrite Vu; exact Dh]]).
  assert (EU : Z.abs (ne u) <= 32). { destruct SU as (_ & _ & Du). apply Rabs_le_inv in Du. destruct (normal_range u Wu Nu) as [N1 N2]. rewrite Rabs_pos_eq in N1, N2 by lra. assert (ne u - 1 < 3); [apply (lt_bpow radix2); change (bpow radix2 3) with 8%R; lra|]. assert (0 < ne u); [apply (lt_bpow radix2); change (bpow radix2 0) with 1%R; lra|]. lia. }
  split; [exact R'|]. split; [|split; [exact Lu|split; [|split; exact EU]]].
  - apply (sab_apx P Pos K0 (PI / 2) (eps P)%R u ltac:(apply HP) ltac:(lra) ltac:(split; vm_compute; discriminate)); [|].
    + replace (sr Pos * (PI / 2))%R with (PI / 2)%R by (unfold sr; cbn [sgnZ]; ring). exact SU.
    + assert (K2 : (28 <= IZR K0)%R) by (apply IZR_le; vm_compute; discriminate). rewrite Rmult_assoc. assert (EQ2 : (eps P * 1 <= eps P * (PI / 2))%R) by (apply Rmult_le_compat_l; lra). assert (28 * (eps P * (PI / 2)) <= IZR K0 * (eps P * (PI / 2)))%R by (apply Rmult_le_compat_r; lra). lra.
  - rewrite Iu. exact HI.
Qed.
Theorem acos_zero_ok f a e g c x p rm : reachable pi_new pi_for_prec c -> wf x -> 0 < p -> magnitude x = 0 -> work f (Z.max (prec_up p) (64 * wlen x) + 64) 64 + 64 <= 2048 ->
  all_post (PI / 2) (prec_up p) rm (f_acos f a e g 31 c x p rm).
Proof.
  intros R W Hp HZ HB. change (Z.max (prec_up p) (64 * wlen x)) with (max64 (prec_up p) x) in HB. assert (P64 : 64 <= prec_up p) by (unfold prec_up; clear - Hp; dlia). assert (M1 : prec_up p <= max64 (prec_up p) x) by (unfold max64; lia).
  pose proof (work_ge f (max64 (prec_up p) x + 64) 64 ltac:(lia) ltac:(lia)) as H0. assert (PL : prec_up p < P_LIM) by (eapply Z.le_lt_trans with 2048; [lia|vm_compute; reflexivity]).
  rewrite acos_start by (try exact W; try exact Hp; try exact PL; left; rewrite (value_zero x HZ), Rabs_R0; lra). assert (PB : (3 < PI <= 4)%R) by (pose proof PI2_3_2; pose proof PI_4; lra).
  apply (acos_any_loop (fun _ y => wf y /\ magnitude y = 0) (PI / 2) x (prec_up p) rm a e g 2048); try lia; try exact R.
  - apply prec_up_mod.
  - lra.
  - intros w w' y _ A. exact A.
  - intros c1 w y R1 [Wy Zy] Hw Hw64 HWB. assert (PW : prec_up (w + 33) = w + 64) by (unfold prec_up; clear - Hw64; dlia). destruct (set_precision_zero y (w + 33) RNone Wy Zy ltac:(lia) ltac:(rewrite PW; apply Z.le_lt_trans with 2048; [exact HWB|vm_compute; reflexivity])) as (z & Ez & Wz & _ & _ & Zz & _).
    exists z. split; [exact Ez|]. split; [split; assumption|]. apply parts_zero; try assumption; lia.
  - split; [now apply wf_inexact|exact HZ].
  - apply max_mod.
  - reflexivity.
  - clear - M1 P64. dlia.
Qed.
