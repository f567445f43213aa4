(** The arccosine for arguments up to 7/10 in magnitude. *)

From Coq Require Import ZArith List Bool Lia Reals Lra.
From Flocq Require Import Core Relative.
From Verif Require Import Words IntModel Mantissa Num Pow Consts Elem Series Exp Ln Sin Atan Asin Acos SpecZ SpecOps SpecConst SpecPow SpecElem WordsP Spec RealP RealP2 NumP CmpP AddP SetP AddNum MulNum DivNum ArithTop ConvNum Conv2Num RootP ConstP ConstNum ExtP PowExt Refute1 ElemR ElemDom SmallP ElemNum ApproxR ApproxNum SeriesNum SinhR SinhNum SinhTop ExpNum LnR LnNum RetryNum ConstReach SpecReach ExpTop HypNum HypTop TanhNum LnMant AltNum AltDiv AtanR AtanTop AsinTop PowTop PiNum PropsConst AtanBig.
Import ListNotations.
Open Scope Z_scope.
Ltac Zify.zify_post_hook ::= idtac.
Arguments Z.mul : simpl never.
Arguments Z.add : simpl never.
Arguments Z.pow : simpl never.
Arguments Z.sub : simpl never.
Arguments Z.of_nat : simpl never.
Ltac dlia := Z.div_mod_to_equations; lia.

(** ** The arcsine *)
Lemma asin_range s r : has_sign s r -> (Rabs r <= 7 / 10)%R -> (has_sign s (asin r) /\ Rabs r <= Rabs (asin r) <= PI / 4)%R.
Proof.
  intros S H. assert (P : forall v, (0 < v <= 7 / 10)%R -> (v <= asin v <= PI / 4)%R).
  { intros v V. destruct (tan_of_sin_bounds v V) as [_ [T1 T2]]. pose proof (sin_asin v ltac:(lra)) as SA. rewrite (asin_tan v) in * by lra. set (t := tan_of_sin v) in *. split.
    - pose proof (sin_lt_x (atan t) (atan_pos t ltac:(lra))). lra.
    - rewrite <- atan_1. apply atan_mono. lra. }
  unfold has_sign in *. destruct s; cbn [sgnZ] in *.
  - rewrite (Rabs_left r) in * by lra. pose proof (P (- r)%R ltac:(lra)) as Q. rewrite asin_opp in Q. rewrite (Rabs_left (asin r)) by lra. split; lra.
  - rewrite (Rabs_pos_eq r) in * by lra. pose proof (P r ltac:(lra)) as Q. rewrite (Rabs_pos_eq (asin r)) by lra. split; lra.
Qed.
Lemma sr_sign s r : has_sign s r -> (sr s * Rabs r = r)%R.
Proof. unfold has_sign, sr. destruct s; cbn [sgnZ]; intros H; [rewrite Rabs_left by lra|rewrite Rabs_pos_eq by lra]; lra. Qed.

(** ** One round *)
Definition parts_post (P : Z) (r : R) (o : prun (num * num)) : Prop :=
  match o with
  | None => True
  | Some (c, res) => reachable pi_new pi_for_prec c /\
      match res with
      | Ok (u, v) => apx P Pos 32 r u /\ 64 * wlen u = P /\ ninexact u = true /\ Z.abs (ne u) <= 2 /\ Z.abs (ne v) <= 2
      | _ => overflowed res
      end
  end.
Lemma near_exp v E a : sab E a v -> (E <= / 8)%R -> (3 / 4 <= a <= 3)%R -> Z.abs (ne v) <= 2.
Proof.
  intros (W & N & D) HE HA. apply Rabs_le_inv in D. destruct (normal_range v W N) as [N1 N2]. rewrite Rabs_pos_eq in N1, N2 by lra.
  assert (ne v - 1 < 2); [apply (lt_bpow radix2); change (bpow radix2 2) with 4%R; lra|]. assert (-1 < ne v); [apply (lt_bpow radix2); change (bpow radix2 (-1)) with (/ 2)%R; lra|]. lia.
Qed.
Lemma acos_parts_ok a e g c x p P : reachable pi_new pi_for_prec c -> wf x -> normal x -> EMIN < ne x -> (Rabs (value x) <= 7 / 10)%R -> 0 < p -> prec_up p = P -> 64 * wlen x = P -> 128 <= P <= 2048 ->
  work e (work a (P + 64) 64 + 128) 64 + 64 <= 2 ^ 20 -> parts_post P (acos (value x)) (acos_parts a e g 31 c x p).
Proof.
  intros R W N He HV Hp EP L HP HB. assert (HL : prec_up p < P_LIM) by (rewrite EP; eapply Z.le_lt_trans; [apply HP|vm_compute; reflexivity]).
  unfold acos_parts. pose proof (asin_ok a e g 31 c x p RNone W (proj2 N) Hp (or_intror He) HV) as O. rewrite EP, L, Z.max_id in O. specialize (O HB).
  destruct (f_asin a e g 31 c x p RNone) as [[c1 res]|]; [|exact I]. destruct O as (-> & q & -> & Q). cbn [pbind].
  pose proof (value_has_sign x W (proj2 N)) as VS. destruct (asin_range _ _ VS HV) as (AS & AL & AU). destruct (normal_range x W N) as [N1 _].
  set (r := asin (value x)) in *.
  assert (LOW : (bpow radix2 EMIN <= Rabs r)%R) by (eapply Rle_trans; [|eapply Rle_trans; [exact N1|exact AL]]; apply bpow_le; clear - He; lia).
  assert (EQ : elem_result r P RNone q). { destruct Q as [Q|Q]; [exact Q|]. apply (rounded_elem P RNone (ns x) r q ltac:(lia) AS); [|exact Q]. eapply Rle_trans; [|exact LOW]. apply bpow_le. clear. lia. }
  pose proof (elem_apx_low r P RNone q EQ ltac:(apply HP) LOW) as AQ. destruct EQ as (_ & _ & SQ & IQ & _).
  pose proof (apx_sab P (ns q) 1 _ q ltac:(apply HP) AQ ltac:(split; vm_compute; discriminate)) as SB. rewrite (sr_sign _ _ SQ) in SB. replace (2 * 1 * eps P * Rabs r)%R with (2 * (eps P * Rabs r))%R in SB by ring.
  destruct (pi_num_ok c p RNone R Hp ltac:(rewrite EP; apply HP)) as (c' & t & -> & R' & HR). rewrite EP in HR.
  destruct t as [z|[t| | |]|]; try contradiction; cbn [ppure pbind]; [|split; [exact R'|exact I]].
  rewrite (pi_exp P z ltac:(apply HP) HR). change (2 - 1) with 1. destruct (half_pi P z Pos ltac:(apply HP) HR) as [HS HI].
  assert (EZ : set_sign (set_exponent z 1) Pos = set_exponent z 1). { destruct HR as (Wz & _ & Sz & _). destruct (set_exponent_spec z 1 Wz ltac:(vm_compute; split; discriminate)) as (_ & _ & S1 & _). rewrite Sz in S1. destruct (set_exponent z 1) as [m s0 e0 i0]. cbn [ns] in S1. subst s0. reflexivity. }
  rewrite EZ in HS, HI. set (hp := set_exponent z 1) in *. clearbody hp. replace (sr Pos * (PI / 2))%R with (PI / 2)%R in HS by (unfold sr; cbn [sgnZ]; ring).
  assert (PB : (3 < PI <= 4)%R) by (pose proof PI2_3_2; pose proof PI_4; lra).
  pose proof (eps_pos P) as Ep. assert (E64 : (eps P <= / 256)%R). { pose proof (eps_small P 1 ltac:(apply HP) ltac:(clear; lia)) as Q1. rewrite Rmult_1_l in Q1. eapply Rle_trans; [exact Q1|]. change (/ 256)%R with (bpow radix2 (-8)). apply bpow_le. clear. lia. }
  assert (ER : (0 <= eps P * Rabs r <= eps P)%R). { pose proof (Rabs_pos r). split; [apply Rmult_le_pos; lra|]. rewrite <- (Rmult_1_r (eps P)) at 2. apply Rmult_le_compat_l; lra. }
  pose proof (Rabs_le_inv _ _ AU) as RB. assert (HPP : 128 <= P <= prec_up p) by lia.
  assert (M : forall y, (3 / 4 <= y <= 3)%R -> mid (Rabs y)). { intros y Y. rewrite Rabs_pos_eq by lra. apply (mid_range (-1) 2); [vm_compute; discriminate|vm_compute; discriminate|]. change (bpow radix2 (-1)) with (/ 2)%R. change (bpow radix2 2) with 4%R. lra. }
  destruct (sab_add P p RNone HPP HL (eps P) (2 * (eps P * Rabs r)) (PI / 2) r hp q HS SB) as (v & -> & SV & _ & _); [rewrite (Rabs_pos_eq (PI / 2 + r)) by lra; lra|apply M; lra|]. cbn [ppure pbind].
  destruct (sab_sub P p RNone HPP HL (eps P) (2 * (eps P * Rabs r)) (PI / 2) r hp q HS SB) as (u & -> & SU & LU & IU); [rewrite (Rabs_pos_eq (PI / 2 - r)) by lra; lra|apply M; lra|]. cbn [ppure pbind].
  rewrite (Rabs_pos_eq (PI / 2 + r)) in SV by lra. rewrite (Rabs_pos_eq (PI / 2 - r)) in SU by lra. assert (V1 : (0 <= eps P * (PI / 2 + r) <= 3 * eps P)%R) by (split; [apply Rmult_le_pos; lra|rewrite (Rmult_comm 3); apply Rmult_le_compat_l; lra]). assert (U1 : (3 / 4 * eps P <= eps P * (PI / 2 - r) <= 3 * eps P)%R) by (split; [rewrite Rmult_comm|rewrite (Rmult_comm 3)]; apply Rmult_le_compat_l; lra).
  split; [exact R'|]. rewrite acos_asin by (apply Rabs_le_inv in HV; lra). fold r. split; [|split; [rewrite LU; exact EP|split; [apply IU; rewrite HI; reflexivity|]]].
  - apply (sab_apx P Pos 32 (PI / 2 - r) (eps P + 2 * (eps P * Rabs r) + 3 * eps P * (PI / 2 - r))%R u ltac:(apply HP) ltac:(lra) ltac:(split; vm_compute; discriminate)); [|lra]. replace (sr Pos * (PI / 2 - r))%R with (PI / 2 - r)%R by (unfold sr; cbn [sgnZ]; ring). exact SU.
  - split; [apply (near_exp u _ _ SU)|apply (near_exp v _ _ SV)]; lra.
Qed.

(** ** The loop *)
Section Loop.
Context (x0 : num) (p : Z) (rm : rmode) (a e g : nat).
Hypotheses (W0 : wf x0) (N0 : nonzero x0) (Hp : 0 < p) (Hp64 : p mod 64 = 0) (HV : (Rabs (value x0) <= 7 / 10)%R) (He : EMIN < ne x0).

Definition acos_post (o : prun num) : Prop :=
  match o with
  | None => True
  | Some (c, res) => reachable pi_new pi_for_prec c /\ match res with Ok q => elem_result (acos (value x0)) p rm q | _ => overflowed res end
  end.
Theorem acos_loop_ok : forall f c x w i, reachable pi_new pi_for_prec c -> argument x0 w x -> ns x = ns x0 -> p + 64 <= w -> w mod 64 = 0 -> 64 <= i -> i mod 64 = 0 -> 128 <= w -> i <= 64 * (((w + i) / 5 + 63) / 64) ->
  work f w i + 64 <= 2048 -> work e (work a (work f w i + 128) 64 + 128) 64 + 64 <= 2 ^ 20 -> acos_post (acos_loop f a e g 31 c x0 x 33 p rm w i).
Proof.
  induction f as [|f IH]; intros c x w i R HX Sx Hpw Hw64 Hi Hi64 Hw Hii HB HC; [exact I|].
  pose proof (work_ge (Datatypes.S f) w i ltac:(lia) ltac:(lia)) as HG.
  assert (HCw : work e (work a (w + 64 + 64) 64 + 128) 64 + 64 <= 2 ^ 20). { eapply Z.le_trans; [|exact HC]. apply Z.add_le_mono_r. pose proof (work_ge a (w + 64 + 64) 64 ltac:(lia) ltac:(lia)). apply work_mono; [|lia]. split; [lia|]. apply Z.add_le_mono_r. apply work_mono; lia. }
  change (work (Datatypes.S f) w i) with (work f (w + i) (64 * (((w + i) / 5 + 63) / 64))) in HB, HG, HC.
  pose proof (work_ge f (w + i) (64 * (((w + i) / 5 + 63) / 64)) ltac:(lia) ltac:(clear - Hw Hi; dlia)) as HG2.
  assert (PW : prec_up (w + 33) = w + 64) by (unfold prec_up; clear - Hw64; dlia).
  assert (HPX : 128 <= w + 64 <= 2048) by (clear - HB HG HG2 Hw Hi; lia). assert (PL : w + 64 < P_LIM) by (apply Z.le_lt_trans with 2048; [apply HPX|vm_compute; reflexivity]).
  cbn [acos_loop]. cbv zeta. destruct (argument_len x0 w x (w + 33) ltac:(lia) ltac:(rewrite PW; exact PL) ltac:(lia) HX) as (y & -> & HY & Sy & Ly). rewrite PW in HY, Ly. cbn [ppure pbind]. pose proof HY as (Wy & Ny & Vy & Ey & _). rewrite Sx in Sy.
  assert (VY : value y = value x0). { pose proof (value_has_sign x0 W0 N0) as V1. pose proof (value_has_sign y Wy (proj2 Ny)) as V2. rewrite Sy in V2. rewrite <- (sr_sign _ _ V1), <- (sr_sign _ _ V2), Vy. reflexivity. }
  pose proof (acos_parts_ok a e g c y (w + 33) (w + 64) R Wy Ny ltac:(rewrite Ey; exact He) ltac:(rewrite Vy; exact HV) ltac:(lia) PW Ly HPX HCw) as EV. unfold parts_post in EV. rewrite VY in EV.
  destruct (acos_parts a e g 31 c y (w + 33)) as [[c' res]|]; [|exact I]. destruct EV as [R' EV]. destruct res as [[u v]|[t| | |]|]; try contradiction; cbn [ppure pbind]; [|split; [exact R'|exact I]].
  destruct EV as ((Wr & Nr & Sr & LCr) & LR & IR & U2 & V2). replace (33 <? Z.max (Z.abs (ne u)) (Z.abs (ne v)) + 1) with false by (symmetry; apply Z.ltb_ge; clear - U2 V2; lia).
  destruct (asin_range _ _ (value_has_sign x0 W0 N0) HV) as (_ & _ & AU). apply Rabs_le_inv in AU. assert (PB : (3 < PI <= 4)%R) by (pose proof PI2_3_2; pose proof PI_4; lra).
  assert (AC : (0 < acos (value x0) <= 4)%R) by (rewrite acos_asin by (apply Rabs_le_inv in HV; lra); lra).
  assert (SS : has_sign (ns u) (acos (value x0))) by (rewrite Sr; unfold has_sign; cbn [sgnZ]; lra).
  pose proof (accept_elem (acos (value x0)) u p rm w 32 Wr Nr IR ltac:(clear - LR; lia) SS ltac:(rewrite (Rabs_pos_eq (acos _)) by lra; exact LCr) ltac:(split; vm_compute; discriminate) Hp Hp64 Hw64 Hpw) as AE.
  destruct (try_set_precision u p rm w) as [[q [|]]|[t| | |]|]; try contradiction; cbn [ppure pbind].
  + split; [exact R'|]. now apply elem_mark.
  + rewrite round_step by (clear - HG HG2 HB Hw Hi; lia). apply IH; [exact R'|apply (argument_wide x0 (w + 64)); [lia|exact HY]|exact Sy|lia| |clear - Hw Hi; dlia|rewrite Z.mul_comm; apply Z.mod_mul; lia|lia| |exact HB|exact HC].
    * clear - Hw64 Hi64. dlia.
    * assert (D : (w + i) / 5 <= (w + i + 64 * (((w + i) / 5 + 63) / 64)) / 5) by (apply Z.div_le_mono; [lia|]; clear - Hw Hi; dlia). assert ((((w + i) / 5 + 63) / 64) <= (((w + i + 64 * (((w + i) / 5 + 63) / 64)) / 5 + 63) / 64)) by (apply Z.div_le_mono; lia). lia.
  + exfalso. revert AE. apply no_overflow; [exact Hp|]. rewrite Rabs_pos_eq by lra. apply Rle_trans with (bpow radix2 2); [change (bpow radix2 2) with 4%R; lra|apply bpow_le; clear; lia].
Qed.
End Loop.

Theorem acos_ok f a e g c x p rm : reachable pi_new pi_for_prec c -> wf x -> nonzero x -> 0 < p -> EMIN < ne x -> (Rabs (value x) <= 7 / 10)%R ->
  work f (Z.max (prec_up p) (64 * wlen x) + 64) 64 + 64 <= 2048 ->
  work e (work a (work f (Z.max (prec_up p) (64 * wlen x) + 64) 64 + 128) 64 + 128) 64 + 64 <= 2 ^ 20 ->
  acos_post x (prec_up p) rm (f_acos f a e g 31 c x p rm).
Proof.
  intros R W N Hp He HV HB HC. change (Z.max (prec_up p) (64 * wlen x)) with (max64 (prec_up p) x) in HB, HC. assert (P64 : 64 <= prec_up p) by (unfold prec_up; clear - Hp; dlia). assert (M1 : prec_up p <= max64 (prec_up p) x) by (unfold max64; lia). assert (M2 : 64 * wlen x <= max64 (prec_up p) x) by (unfold max64; lia).
  pose proof (work_ge f (max64 (prec_up p) x + 64) 64 ltac:(lia) ltac:(lia)) as HG. assert (PL : prec_up p < P_LIM) by (eapply Z.le_lt_trans with 2048; [lia|vm_compute; reflexivity]).
  unfold f_acos. cbv zeta. pose proof (abs_cmp_one x W) as C. rewrite Rcompare_Lt in C by lra. cbn [sgn_of] in C. replace (n_abs_cmp x ONE =? 0) with false by (symmetry; apply Z.eqb_neq; lia). replace (0 <? n_abs_cmp x ONE) with false by (symmetry; apply Z.ltb_ge; lia). cbn [andb]. change (1 - -32) with 33.
  rewrite round_p_eq by (try exact PL; lia). change (mantissa_max_bit_len x) with (64 * wlen x). change (Z.max (prec_up p) (64 * wlen x)) with (max64 (prec_up p) x).
  pose proof (argument_start x W N He) as HA. apply (argument_wide x _ (max64 (prec_up p) x + 64)) in HA; [|lia].
  exact (acos_loop_ok x (prec_up p) rm a e g W N ltac:(lia) (prec_up_mod p) HV He f c _ (max64 (prec_up p) x + 64) 64 R HA eq_refl ltac:(lia) (max_mod p x) ltac:(lia) eq_refl ltac:(lia) ltac:(clear - M1 P64; dlia) HB HC).
Qed.
Theorem acos_out f a e g h c x p rm : wf x -> (1 < Rabs (value x))%R -> f_acos f a e g h c x p rm = Some (c, Err InvalidArgument).
Proof.
  intros W H. unfold f_acos. cbv zeta. pose proof (abs_cmp_one x W) as C. rewrite Rcompare_Gt in C by lra. cbn [sgn_of] in C. replace (n_abs_cmp x ONE =? 0) with false by (symmetry; apply Z.eqb_neq; lia). replace (0 <? n_abs_cmp x ONE) with true by (symmetry; apply Z.ltb_lt; lia). reflexivity.
Qed.
Theorem acos_one f a e g h c x p rm : wf x -> value x = 1%R -> 0 < p -> prec_up p < P_LIM -> exists res, f_acos f a e g h c x p rm = Some (c, res) /\ exactly (prec_up p) 0 Pos (ninexact x) res.
Proof.
  intros W H Hp HP. assert (N : nonzero x) by (intros Z; rewrite (value_zero x Z) in H; lra). unfold f_acos. cbv zeta. pose proof (abs_cmp_one x W) as C. rewrite H, Rabs_R1, Rcompare_Eq in C by reflexivity. cbn [sgn_of] in C.
  replace (n_abs_cmp x ONE =? 0) with true by (symmetry; apply Z.eqb_eq; lia). pose proof (value_has_sign x W N) as S. rewrite H in S. unfold has_sign in S. unfold is_positive. destruct (ns x); cbn [sgnZ] in S; [lra|]. cbn [is_pos andb]. eexists. split; [reflexivity|]. now apply new2_exact.
Qed.
