(** The cosine for arguments from four to 2^64 in magnitude. *)

From Coq Require Import ZArith List Bool Lia Reals Lra.
From Flocq Require Import Core Relative.
From Verif Require Import Words IntModel Mantissa Num Pow Consts Elem Series Exp Sin Cos SpecZ SpecOps SpecConst SpecPow SpecElem WordsP Spec RealP RealP2 NumP CmpP AddP SetP AddNum MulNum DivNum ArithTop ConvNum Conv2Num RootP ConstP ConstNum ExtP PowExt Refute1 ElemR ElemDom SmallP ElemNum ApproxR ApproxNum SeriesNum SinhR SinhNum SinhTop ExpNum RetryNum ConstReach SpecReach ExpTop HypNum HypTop TanhNum AltNum SinTop SinBig SinFour SinEight SinHuge.
From Verif Require Import MulModel DivModel WordsP2 MulP MulP2 DivP DivP2 RemNum Ln AltDiv AtanR AtanTop PiNum IntNum WfTop AtanBig PropsConst CosTop CosBig CosFour CosEight TanBig.
Import ListNotations.
Open Scope Z_scope.
Ltac Zify.zify_post_hook ::= idtac.
Arguments Z.mul : simpl never.
Arguments Z.add : simpl never.
Arguments Z.pow : simpl never.
Arguments Z.sub : simpl never.
Arguments Z.of_nat : simpl never.
Ltac dlia := Z.div_mod_to_equations; lia.



(** ** The cosine near its zeros *)
Lemma cos_near_half y : (Rabs (cos y) <= Rabs (y - PI / 2))%R.
Proof. rewrite <- (sin_shift y), Rabs_minus_sym. apply sin_abs_le. Qed.
Lemma cos_near_three y : (Rabs (cos y) <= Rabs (y - 3 * (PI / 2)))%R.
Proof. rewrite cos_sin, <- (sin_turns (PI / 2 + y) 1), Rmult_1_l. replace (PI / 2 + y - 2 * PI)%R with (y - 3 * (PI / 2))%R by field. apply sin_abs_le. Qed.
Lemma cos_abs_abs y : Rabs (cos (Rabs y)) = Rabs (cos y).
Proof. now rewrite cos_abs. Qed.
(** A sine away from zero keeps the cosines of the half and of the quarter away from it. *)
Lemma cos_parts y d : (d <= Rabs (sin y))%R -> (d / 2 <= Rabs (cos (y / 2)))%R /\ (d / 4 <= Rabs (cos (y / 4)))%R.
Proof.
  intros H. assert (E : sin y = (2 * sin (y / 2) * cos (y / 2))%R) by (rewrite <- sin_2a; f_equal; field). assert (E2 : sin (y / 2) = (2 * sin (y / 4) * cos (y / 4))%R) by (rewrite <- sin_2a; f_equal; field).
  assert (B1 : (Rabs (sin (y / 2)) <= 1)%R) by (apply Rabs_le; apply SIN_bound). assert (B2 : (Rabs (sin (y / 4)) <= 1)%R) by (apply Rabs_le; apply SIN_bound). assert (B3 : (Rabs (cos (y / 2)) <= 1)%R) by (apply Rabs_le; apply COS_bound).
  rewrite E, !Rabs_mult, (Rabs_pos_eq 2) in H by lra. assert (F : Rabs (sin (y / 2)) = (2 * Rabs (sin (y / 4)) * Rabs (cos (y / 4)))%R) by (rewrite E2, !Rabs_mult, (Rabs_pos_eq 2) by lra; reflexivity).
  pose proof (Rabs_pos (sin (y / 2))). pose proof (Rabs_pos (cos (y / 2))). pose proof (Rabs_pos (sin (y / 4))). pose proof (Rabs_pos (cos (y / 4))). set (a := Rabs (sin (y / 2))) in *. set (b := Rabs (cos (y / 2))) in *. set (c := Rabs (sin (y / 4))) in *. set (e := Rabs (cos (y / 4))) in *. clearbody a b c e.
  assert (a * b <= 1 * b)%R by (apply Rmult_le_compat_r; lra). assert (a * b <= a * 1)%R by (apply Rmult_le_compat_l; lra). assert (c * e <= 1 * e)%R by (apply Rmult_le_compat_r; lra). split; lra.
Qed.

(** ** The proximity: util.rs 20-51 *)
Definition prox_odd (o : prun (Z * Z)) : Prop :=
  match o with
  | None => False
  | Some (c, res) => reachable pi_new pi_for_prec c /\ match res with Ok (t, q) => Z.odd q && (65 <? t) = false | _ => overflowed res end
  end.
Lemma small_t_odd n : -61 <= n <= 4 -> forall q, Z.odd q && (65 <? Z.abs n) = false.
Proof. intros H q. replace (65 <? Z.abs n) with false by (symmetry; apply Z.ltb_ge; lia). apply andb_false_r. Qed.
Lemma proximity_three_odd c y P : reachable pi_new pi_for_prec c -> wf y -> normal y -> 64 * wlen y = P -> 192 <= P <= 1984 -> ne y = 3 -> (Rabs (value y) <= 7)%R -> (bpow radix2 (-60) <= Rabs (Rabs (value y) - 3 * (PI / 2)))%R ->
  prox_odd (trig_arg_pi_proximity 31 c y RNone).
Proof.
  intros R W N L HP He H7 FAR. unfold trig_arg_pi_proximity. rewrite He. change (0 <? 3) with true. change (3 <? 2) with false. cbn iota. rewrite max_len, L.
  assert (PU : prec_up (P + 3) = P + 64) by (unfold prec_up; clear - L; dlia). assert (PP : prec_up P = P) by (unfold prec_up; clear - L; dlia).
  destruct (pi_num_ok c (P + 3) RNone R ltac:(lia) ltac:(lia)) as (c1 & r & -> & R1 & Hr). destruct r as [pi|e|]; [|split; [exact R1|exact Hr]|contradiction]. rewrite PU in Hr. cbn [pbind].
  assert (H128 : 128 <= P + 64) by lia. destruct (whole_pi (P + 64) pi (ns y) H128 Hr) as [Ah EH]. pose proof (pi_swap _ _ (ns y) H128 Hr) as SW. destruct (half_pi (P + 64) pi (ns y) H128 Hr) as [Ah2 _]. rewrite <- SW in Ah2. set (hp := set_sign pi (ns y)) in *. clearbody hp.
  pose proof (eps_pos (P + 64)) as Ep. pose proof (eps_pos P) as Ep1. assert (ES : (64 * eps P <= bpow radix2 (-80))%R). { change 64%R with (bpow radix2 6). unfold eps. rewrite <- bpow_plus. apply bpow_le. lia. } assert (EQ : (eps (P + 64) <= eps P)%R) by (unfold eps; apply bpow_le; lia).
  assert (B80 : (bpow radix2 (-80) <= / 1024)%R) by (change (/ 1024)%R with (bpow radix2 (-10)); apply bpow_le; lia). assert (B60 : (1024 * bpow radix2 (-80) <= bpow radix2 (-60))%R). { change 1024%R with (bpow radix2 10). rewrite <- bpow_plus. apply bpow_le. lia. }
  destruct (normal_range y W N) as [Y1 _]. rewrite He in Y1. change (bpow radix2 (3 - 1)) with 4%R in Y1. pose proof PI_low as PL. pose proof PI_high as PH.
  assert (PLIM : prec_up P < P_LIM) by (rewrite PP; eapply Z.le_lt_trans; [apply HP|vm_compute; reflexivity]). assert (HPP : 128 <= P <= prec_up P) by lia.
  pose proof (value_has_sign y W (proj2 N)) as VS. set (s := ns y) in *. set (ay := Rabs (value y)) in *. assert (YV : value y = (sr s * ay)%R) by (unfold ay, has_sign, sr in *; destruct s; cbn [sgnZ] in *; [rewrite Rabs_left by lra|rewrite Rabs_pos_eq by lra]; ring).
  assert (SA : forall a, Rabs (sr s * a) = Rabs a). { intros a. rewrite Rabs_mult. replace (Rabs (sr s)) with 1%R; [ring|]. unfold sr. destruct s; cbn [sgnZ]; [rewrite Rabs_left by lra|rewrite Rabs_pos_eq by lra]; ring. }
  assert (AY : sab 0 (sr s * ay) y) by (split; [exact W|]; split; [exact N|]; rewrite YV, Rminus_diag_eq, Rabs_R0 by reflexivity; lra).
  assert (D1 : (Rabs (sr s * ay - sr s * PI) = ay - PI)%R) by (replace (sr s * ay - sr s * PI)%R with (sr s * (ay - PI))%R by ring; rewrite SA, Rabs_pos_eq by lra; reflexivity).
  destruct (sab_sub P P RNone HPP PLIM _ _ _ _ _ _ AY Ah) as (ret & -> & A1 & L1 & _); [rewrite D1; lra|rewrite D1; apply (mid_range (-1) 2); [vm_compute; discriminate|vm_compute; discriminate|]; change (bpow radix2 (-1)) with (/ 2)%R; change (bpow radix2 2) with 4%R; lra|]. cbn [ppure pbind]. rewrite D1 in A1. replace (sr s * ay - sr s * PI)%R with (sr s * (ay - PI))%R in A1 by ring.
  assert (E1 : (0 + 2 * eps (P + 64) + 3 * eps P * (ay - PI) <= 16 * eps P)%R). { assert (eps P * (ay - PI) <= eps P * 4)%R by (apply Rmult_le_compat_l; lra). lra. } apply (sab_weak _ _ _ _ E1) in A1. pose proof A1 as (Wr & Nr & Dr).
  pose proof (value_has_sign ret Wr (proj2 Nr)) as VR. assert (SR : ns ret = s /\ (49 / 100 <= Rabs (value ret) < 4)%R).
  { apply Rabs_le_inv in Dr. unfold has_sign, sr in *. destruct (ns ret), s; cbn [sgnZ] in *; try (exfalso; lra); (split; [reflexivity|]); [rewrite Rabs_left by lra|rewrite Rabs_pos_eq by lra]; lra. } destruct SR as [SR AR].
  pose proof (ne_between ret (-2) 2 Wr Nr ltac:(change (bpow radix2 (-2)) with (/ 4)%R; lra) ltac:(change (bpow radix2 2) with 4%R; lra)) as NR.
  destruct (Z.ltb_spec 0 (ne ret)) as [G|G]; cbn [andb]; [|split; [exact R1|]; rewrite EH; reflexivity]. rewrite SR. replace (sign_eqb s s) with true by (destruct s; reflexivity).
  destruct (Z.ltb_spec (ne ret) 2) as [G2|G2].
  - (* an odd multiple of half of pi *)
    pose proof Ah2 as (Wh & Nh & Dh). set (h2 := set_exponent hp 1) in *. clearbody h2.
    assert (AH : (3 / 2 <= Rabs (value h2) < 2)%R). { apply Rabs_le_inv in Dh. unfold sr in Dh. destruct s; cbn [sgnZ] in Dh; [rewrite Rabs_left by lra|rewrite Rabs_pos_eq by lra]; lra. }
    pose proof (ne_between h2 0 1 Wh Nh ltac:(change (bpow radix2 0) with 1%R; lra) ltac:(change (bpow radix2 1) with 2%R; lra)) as NH.
    assert (D2 : (Rabs (sr s * (ay - PI) - sr s * (PI / 2)) = Rabs (ay - 3 * (PI / 2)))%R) by (replace (sr s * (ay - PI) - sr s * (PI / 2))%R with (sr s * (ay - 3 * (PI / 2)))%R by field; apply SA). assert (D3 : (Rabs (ay - 3 * (PI / 2)) <= 3)%R) by (apply Rabs_le; lra).
    destruct (sab_sub P P RNone HPP PLIM _ _ _ _ _ _ A1 Ah2) as (ret2 & -> & A2 & _ & _); [rewrite D2; lra|rewrite D2; apply (mid_range (-60) 2); [vm_compute; discriminate|vm_compute; discriminate|]; change (bpow radix2 2) with 4%R; lra|]. cbn [ppure pbind]. split; [exact R1|]. rewrite D2 in A2. destruct A2 as (W2 & N2 & DD).
    assert (E2 : (16 * eps P + eps (P + 64) + 3 * eps P * Rabs (ay - 3 * (PI / 2)) <= bpow radix2 (-80))%R). { assert (eps P * Rabs (ay - 3 * (PI / 2)) <= eps P * 3)%R by (apply Rmult_le_compat_l; lra). lra. }
    set (a2 := (sr s * (ay - PI) - sr s * (PI / 2))%R) in *. assert (B61 : (bpow radix2 (-60) = 2 * bpow radix2 (-61))%R) by (change (-60) with (1 + -61); rewrite bpow_plus; reflexivity).
    assert (Q1 : (bpow radix2 (-61) <= Rabs (value ret2))%R). { pose proof (Rabs_triang (value ret2) (- (value ret2 - a2))) as T. rewrite Rabs_Ropp in T. replace (value ret2 + - (value ret2 - a2))%R with a2 in T by ring. lra. }
    assert (Q2 : (Rabs (value ret2) < 4)%R). { pose proof (Rabs_triang a2 (value ret2 - a2)) as T. replace (a2 + (value ret2 - a2))%R with (value ret2) in T by ring. lra. }
    pose proof (ne_between ret2 (-61) 2 W2 N2 Q1 ltac:(change (bpow radix2 2) with 4%R; exact Q2)) as NQ. apply small_t_odd. lia.
  - pose proof Ah as (Wh & Nh & Dh). assert (AH : (3 <= Rabs (value hp) < 4)%R). { apply Rabs_le_inv in Dh. unfold sr in Dh. destruct s; cbn [sgnZ] in Dh; [rewrite Rabs_left by lra|rewrite Rabs_pos_eq by lra]; lra. }
    assert (OV : (Rabs (rnd_prec P RNone (value ret - value hp)) < bpow radix2 EMAX)%R). { eapply Rle_lt_trans with (bpow radix2 3); [|apply bpow_lt; vm_compute; reflexivity]. eapply Rle_trans; [apply trunc_le; lia|]. eapply Rle_trans; [apply Rabs_triang|]. rewrite Rabs_Ropp. change (bpow radix2 3) with 8%R. lra. }
    destruct (sub_ov ret hp P RNone Wr Wh ltac:(lia) PLIM) as [_ O]. rewrite PP in O. destruct (O OV) as (ret2 & ->). cbn [ppure pbind]. split; [exact R1|]. rewrite EH. reflexivity.
Qed.
Lemma proximity_odd c y P : reachable pi_new pi_for_prec c -> wf y -> normal y -> 64 * wlen y = P -> 192 <= P <= 1984 -> (bpow radix2 (-60) <= Rabs (value y) <= 7)%R -> (bpow radix2 (-60) <= Rabs (cos (value y)))%R ->
  prox_odd (trig_arg_pi_proximity 31 c y RNone).
Proof.
  intros R W N L HP [V1 V2] FAR. pose proof (ne_between y (-60) 3 W N V1 ltac:(change (bpow radix2 3) with 8%R; lra)) as NY. rewrite <- cos_abs_abs in FAR.
  destruct (Z_le_gt_dec (ne y) 0) as [H0|H0]; [unfold trig_arg_pi_proximity; replace (0 <? ne y) with false by (symmetry; apply Z.ltb_ge; exact H0); cbn [ppure]; split; [exact R|reflexivity]|].
  destruct (Z.eq_dec (ne y) 1) as [H1|H1]; [|destruct (Z.eq_dec (ne y) 2) as [H2|H2]].
  - pose proof (proximity_ok c y P R W N L ltac:(lia) H1) as O. destruct (trig_arg_pi_proximity 31 c y RNone) as [[c1 [[t q]|e|]]|]; try exact O. destruct O as (O1 & -> & O2). split; [exact O1|]. specialize (O2 (Rle_trans _ _ _ FAR (cos_near_half _))). replace (65 <? t) with false by (symmetry; apply Z.ltb_ge; lia). reflexivity.
  - pose proof (proximity_two c y P R W N L ltac:(lia) H2) as O. destruct (trig_arg_pi_proximity 31 c y RNone) as [[c1 [[t q]|e|]]|]; try exact O. destruct O as (O1 & -> & _). split; [exact O1|reflexivity].
  - apply (proximity_three_odd c y P); try assumption; [lia|]. exact (Rle_trans _ _ _ FAR (cos_near_three _)).
Qed.

(** ** The series of a reduced argument *)
Lemma cos_series_any g y P : 192 <= P <= 2 ^ 15 -> wf y -> normal y -> 64 * wlen y = P -> (bpow radix2 (-60) <= Rabs (value y) <= 7)%R -> (bpow radix2 (-60) <= Rabs (sin (value y)))%R -> (bpow radix2 (-60) <= Rabs (cos (value y)))%R ->
  ends (cos_series g y RNone) (fun q => sab (bpow radix2 120 * eps P) (cos (value y)) q /\ P <= 64 * wlen q /\ ninexact q = true).
Proof.
  intros HP W N L [V1 V2] FS FC. pose proof (ne_between y (-60) 3 W N V1 ltac:(change (bpow radix2 3) with 8%R; lra)) as NY. rewrite <- sin_abs_abs in FS. destruct (cos_parts _ _ FS) as [C2 C4].
  assert (B1 : (bpow radix2 (-60) / 2 = bpow radix2 (-61))%R) by (change (-60) with (1 + -61); rewrite bpow_plus; change (bpow radix2 1) with 2%R; field). assert (B2 : (bpow radix2 (-60) / 4 = bpow radix2 (-62))%R) by (change (-60) with (2 + -62); rewrite bpow_plus; change (bpow radix2 2) with 4%R; field). rewrite B1 in C2. rewrite B2 in C4.
  rewrite <- cos_abs_abs in FC. assert (F1 : (bpow radix2 (-61) <= Rabs (cos (Rabs (value y))))%R) by (eapply Rle_trans; [|exact FC]; apply bpow_le; lia). assert (F2 : (bpow radix2 (-62) <= Rabs (cos (Rabs (value y))))%R) by (eapply Rle_trans; [|exact FC]; apply bpow_le; lia). assert (C2' : (bpow radix2 (-62) <= Rabs (cos (Rabs (value y) / 2)))%R) by (eapply Rle_trans; [|exact C2]; apply bpow_le; lia).
  rewrite <- (cos_abs (value y)). pose proof (eps_pos P) as Ep. assert (AP : forall k q, k <= 120 -> sab (bpow radix2 k * eps P) (cos (Rabs (value y))) q -> sab (bpow radix2 120 * eps P) (cos (Rabs (value y))) q) by (intros k q Hk; apply sab_weak; apply Rmult_le_compat_r; [lra|apply bpow_le; exact Hk]).
  destruct (Z_le_gt_dec (ne y) 0) as [H0|H0]; [|destruct (Z.eq_dec (ne y) 1) as [H1|H1]; [|destruct (Z.eq_dec (ne y) 2) as [H2|H2]]].
  - apply (cos_series_ok g y P); try assumption. lia.
  - destruct (cos_series_big g y P ltac:(lia) W N L H1 F1) as [E|(q & E & A & B)]; [left; exact E|right; exists q; split; [exact E|]; split; [|exact B]]. apply (AP 54); [lia|exact A].
  - destruct (cos_series_four g y P ltac:(lia) W N L H2 C2' F2) as [E|(q & E & A & B)]; [left; exact E|right; exists q; split; [exact E|]; split; [|exact B]]. apply (AP 57); [lia|exact A].
  - destruct (cos_series_eight g y P ltac:(lia) W N L ltac:(lia) V2 C4 C2' F2) as [E|(q & E & A & B)]; [left; exact E|right; exists q; split; [exact E|]; split; [|exact B]]. apply (AP 57); [lia|exact A].
Qed.

(** ** The loop *)
Section Loop.
Context (x0 : num) (p : Z) (rm : rmode) (g : nat).
Hypotheses (W0 : wf x0) (N0 : nonzero x0) (Hp : 0 < p) (Hp64 : p mod 64 = 0) (He : 3 <= ne x0 <= 64) (FARS : (bpow radix2 (-59) <= Rabs (sin (value x0)))%R) (FAR : (bpow radix2 (-59) <= Rabs (cos (value x0)))%R).

Theorem cos_loop_huge : forall f c w i, reachable pi_new pi_for_prec c -> p + 64 <= w -> w mod 64 = 0 -> 64 <= i -> i mod 64 = 0 -> 128 <= w -> 64 * wlen x0 <= w -> i <= 64 * (((w + i) / 5 + 63) / 64) ->
  work f w i + 128 <= 1792 -> cos_big_post x0 p rm (cos_loop f g 31 c x0 p rm w i 65).
Proof.
  induction f as [|f IH]; intros c w i RC Hpw Hw64 Hi Hi64 Hw HLx Hii HB; [exact I|].
  pose proof (work_ge (Datatypes.S f) w i ltac:(lia) ltac:(lia)) as HG.
  change (work (Datatypes.S f) w i) with (work f (w + i) (64 * (((w + i) / 5 + 63) / 64))) in HB, HG.
  pose proof (work_ge f (w + i) (64 * (((w + i) / 5 + 63) / 64)) ltac:(lia) ltac:(clear - Hw Hi; dlia)) as HG2.
  assert (PW : prec_up (w + 65) = w + 128) by (unfold prec_up; clear - Hw64; dlia). assert (HPX : 192 <= w + 128 <= 1792) by (clear - HB HG HG2 Hw Hi; lia). assert (PL : prec_up (w + 65) < P_LIM) by (rewrite PW; apply Z.le_lt_trans with 1792; [apply HPX|vm_compute; reflexivity]).
  assert (HX : argument x0 w x0). { pose proof (argument_start x0 W0 N0 ltac:(change EMIN with (-2147483648); clear - He; lia)) as (_ & H2 & _). split; [exact W0|]. split; [exact H2|]. split; [reflexivity|]. split; [reflexivity|exact HLx]. }
  cbn [cos_loop]. destruct (argument_len x0 w x0 (w + 65) ltac:(lia) PL ltac:(lia) HX) as (y & -> & HY & Sy & Ly). rewrite PW in HY, Ly. cbn [ppure pbind]. pose proof HY as (Wy & Ny & Vy & Ey & _). rewrite <- Ey in He.
  assert (VV : value y = value x0). { pose proof (value_has_sign x0 W0 N0) as S1. pose proof (value_has_sign y Wy (proj2 Ny)) as S2. rewrite Sy in S2. unfold has_sign, Rabs in *. destruct (Rcase_abs (value y)), (Rcase_abs (value x0)), (ns x0); cbn [sgnZ] in *; lra. }
  pose proof (reduce_ok c y (w + 128) RC Wy Ny Ly ltac:(clear - HPX; lia) He ltac:(rewrite VV; exact FARS)) as RO. destruct (reduce_trig_arg 31 c y RNone) as [[c0 [z|e|]]|]; [|exact RO|exact RO|exact I]. cbn [red_post pbind] in RO |- *. destruct RO as (RC0 & Wz & Nz & Lz & Vz & Sz & _ & Dz). rewrite VV in Dz.
  assert (ES : (eps (w + 128) <= bpow radix2 (-60))%R) by (unfold eps; apply bpow_le; clear - Hw; lia). assert (B59e : (bpow radix2 (-59) = 2 * bpow radix2 (-60))%R) by (change (-59) with (1 + -60); rewrite bpow_plus; reflexivity).
  assert (Cz : (bpow radix2 (-60) <= Rabs (cos (value z)))%R). { pose proof (Rabs_triang (cos (value z)) (- (cos (value z) - cos (value x0)))) as T. rewrite Rabs_Ropp in T. replace (cos (value z) + - (cos (value z) - cos (value x0)))%R with (cos (value x0)) in T by ring. lra. }
  set (Q := 64 * wlen z) in *.
  pose proof (proximity_odd c0 z Q RC0 Wz Nz eq_refl ltac:(clear - HPX Lz; lia) Vz Cz) as PP. destruct (trig_arg_pi_proximity 31 c0 z RNone) as [[c1 [[t q]|e|]]|]; [|exact PP|exact PP|exact I]. destruct PP as (R1 & PF). cbn [pbind]. rewrite PF.
  destruct (cos_series_any g z Q ltac:(clear - HPX Lz; lia) Wz Nz eq_refl Vz Sz Cz) as [->|(ret & -> & A & L & Ir)]; [exact I|]. set (r := cos (value x0)) in *. cbn [ppure pbind].
  pose proof (bpow_gt_0 radix2 (-59)) as B59. assert (R0 : r <> 0%R) by (intros E; rewrite E, Rabs_R0 in FAR; lra). destruct (sign_of r R0) as (s & HS & ER).
  assert (AP : apx (w + 64) s (2 ^ 58) (Rabs r) ret).
  { apply (sab_apx (w + 64) s (2 ^ 58) (Rabs r) (bpow radix2 57 * eps (w + 128)) ret ltac:(clear - Hw; lia) ltac:(lra) ltac:(clear; lia)).
    - rewrite <- ER. destruct A as (Wa & Na & Da). split; [exact Wa|]. split; [exact Na|]. pose proof (Rabs_triang (value ret - cos (value z)) (cos (value z) - r)) as T. replace (value ret - cos (value z) + (cos (value z) - r))%R with (value ret - r)%R in T by ring.
      assert (bpow radix2 120 * eps Q <= bpow radix2 56 * eps (w + 128))%R by (unfold eps; rewrite <- !bpow_plus; apply bpow_le; clear - Lz; lia). assert (1 * eps (w + 128) <= bpow radix2 56 * eps (w + 128))%R by (apply Rmult_le_compat_r; [left; apply eps_pos|]; change 1%R with (bpow radix2 0); apply bpow_le; lia). replace (bpow radix2 57) with (2 * bpow radix2 56)%R by (change 57 with (1 + 56); rewrite bpow_plus; reflexivity). lra.
    - apply Rle_trans with (IZR (2 ^ 58) * eps (w + 64) * bpow radix2 (-59))%R; [|apply Rmult_le_compat_l; [apply Rmult_le_pos; [apply IZR_le; lia|left; apply eps_pos]|exact FAR]]. change (IZR (2 ^ 58)) with (bpow radix2 58). change 2%R with (bpow radix2 1). unfold eps. rewrite <- !bpow_plus. apply bpow_le. lia. }
  destruct AP as (Wr & Nr & Sr & LCr).
  pose proof (accept_elem r ret p rm w (2 ^ 58) Wr Nr Ir ltac:(clear - L Lz; lia) ltac:(rewrite Sr; exact HS) LCr ltac:(clear; lia) Hp Hp64 Hw64 Hpw) as AE.
  destruct (try_set_precision ret p rm w) as [[qq [|]]|[tt| | |]|]; try contradiction; cbn [ppure pbind].
  - split; [exact R1|]. now apply elem_mark.
  - rewrite round_step by (clear - HG HG2 HB Hw Hi; lia). apply IH; [exact R1|lia| |clear - Hw Hi; dlia|rewrite Z.mul_comm; apply Z.mod_mul; lia|lia|lia| |exact HB].
    + clear - Hw64 Hi64. dlia.
    + assert (D : (w + i) / 5 <= (w + i + 64 * (((w + i) / 5 + 63) / 64)) / 5) by (apply Z.div_le_mono; [lia|]; clear - Hw Hi; dlia). assert ((((w + i) / 5 + 63) / 64) <= (((w + i + 64 * (((w + i) / 5 + 63) / 64)) / 5 + 63) / 64)) by (apply Z.div_le_mono; lia). lia.
  - split; [exact R1|exact I].
Qed.
End Loop.

Theorem cos_huge_ok f g c x p rm : reachable pi_new pi_for_prec c -> wf x -> 0 < p -> (4 <= Rabs (value x) < bpow radix2 64)%R -> (bpow radix2 (-59) <= Rabs (sin (value x)))%R -> (bpow radix2 (-59) <= Rabs (cos (value x)))%R ->
  work f (Z.max (prec_up p) (64 * wlen x) + 64) 64 + 128 <= 1792 ->
  cos_big_post x (prec_up p) rm (f_cos f g 31 c x p rm).
Proof.
  intros R W Hp HV FARS FAR HB. assert (N : normal x). { apply normal_iff; [exact W|]. eapply Rle_trans with (bpow radix2 0); [apply bpow_le; vm_compute; discriminate|]. change (bpow radix2 0) with 1%R. lra. }
  assert (He : 3 <= ne x <= 64). { pose proof (ne_between x 2 64 W N ltac:(change (bpow radix2 2) with 4%R; lra) ltac:(lra)). lia. }
  change (Z.max (prec_up p) (64 * wlen x)) with (max64 (prec_up p) x) in HB. assert (P64 : 64 <= prec_up p) by (unfold prec_up; clear - Hp; dlia). assert (M1 : prec_up p <= max64 (prec_up p) x) by (unfold max64; lia). assert (M2 : 64 * wlen x <= max64 (prec_up p) x) by (unfold max64; lia).
  pose proof (work_ge f (max64 (prec_up p) x + 64) 64 ltac:(lia) ltac:(lia)) as HG. assert (PL : max64 (prec_up p) x + 64 < P_LIM) by (eapply Z.le_lt_trans with 1984; [lia|vm_compute; reflexivity]).
  unfold f_cos. match goal with |- context [@even_in ?A ?ok ?rest true x p rm] => rewrite (@even_in_rest A ok rest true x p rm W (proj2 N) Hp ltac:(lia) ltac:(lia)) end. cbv beta. change (mantissa_max_bit_len x) with (64 * wlen x). change (Z.max (prec_up p) (64 * wlen x)) with (max64 (prec_up p) x).
  apply cos_loop_huge; [exact W|exact (proj2 N)|lia|apply prec_up_mod|exact He|exact FARS|exact FAR|exact R|lia|apply max_mod|lia|reflexivity|lia|lia|clear - M1 P64; dlia|exact HB].
Qed.
