(** Sticky rounding and gradual underflow. *)

From Coq Require Import ZArith Reals List Bool Lia Lra.
From Flocq Require Import Core.
From Verif Require Import Words Mantissa Num SpecZ WordsP RoundP Spec RealP.
Open Scope Z_scope.
Ltac Zify.zify_post_hook ::= Z.div_mod_to_equations.
Arguments Z.mul : simpl never.
Arguments Z.add : simpl never.
Arguments Z.pow : simpl never.
Arguments Z.sub : simpl never.

Definition in_cell (c : Z) (u : R) : Prop := (IZR c / 2 < u < (IZR c + 1) / 2)%R.

Lemma half_c c : (IZR (c / 2) <= IZR c / 2)%R /\ ((IZR c + 1) / 2 <= IZR (c / 2) + 1)%R.
Proof.
  assert (H1 : 2 * (c / 2) <= c) by lia. assert (H2 : c + 1 <= 2 * (c / 2) + 2) by lia.
  apply IZR_le in H1, H2. rewrite !plus_IZR, !mult_IZR in *. lra.
Qed.
Lemma cell_floor c u : in_cell c u -> Zfloor u = c / 2.
Proof.
  intros [A B]. pose proof (half_c c). apply Zfloor_imp. rewrite plus_IZR. lra.
Qed.
Lemma cell_ceil c u : in_cell c u -> Zceil u = c / 2 + 1.
Proof.
  intros [A B]. pose proof (half_c c). apply Zceil_imp. rewrite minus_IZR, plus_IZR. lra.
Qed.
Lemma cell_not_int c u n : in_cell c u -> u <> IZR n.
Proof.
  intros H E. pose proof (cell_floor _ _ H) as F. pose proof (cell_ceil _ _ H) as C. rewrite E, Zfloor_IZR in F.
  rewrite E, Zceil_IZR in C. lia.
Qed.
Lemma cell_sign c u : in_cell c u -> (0 <= c /\ (0 < u)%R) \/ (c < 0 /\ (u < 0)%R).
Proof.
  intros [A B]. destruct (Z_le_gt_dec 0 c) as [H|H]; [left|right]; split; try lia.
  - apply IZR_le in H. lra.
  - assert (c + 1 <= 0) as H' by lia. apply IZR_le in H'. rewrite plus_IZR in H'. lra.
Qed.

Lemma rnd_same_cell rm c u v : in_cell c u -> in_cell c v -> rnd rm u = rnd rm v.
Proof.
  intros Hu Hv. pose proof (cell_floor _ _ Hu) as Fu. pose proof (cell_floor _ _ Hv) as Fv.
  pose proof (cell_ceil _ _ Hu) as Cu. pose proof (cell_ceil _ _ Hv) as Cv.
  assert (Hn : forall ch, Znearest ch u = Znearest ch v).
  { intros ch. unfold Znearest. rewrite Fu, Fv, Cu, Cv.
    destruct Hu as [A B], Hv as [A' B'].
    assert (E : c = 2 * (c / 2) \/ c = 2 * (c / 2) + 1) by lia. 
    destruct E as [E|E]; apply (f_equal IZR) in E; rewrite ?plus_IZR, ?mult_IZR in E.
    - rewrite !Rcompare_Lt by lra. auto.
    - rewrite !Rcompare_Gt by lra. auto. }
  destruct rm; cbn [rnd]; try congruence; try apply Hn.
  all: destruct (cell_sign _ _ Hu) as [[? ?]|[? ?]]; destruct (cell_sign _ _ Hv) as [[? ?]|[? ?]]; try lia.
  - rewrite !Ztrunc_floor by lra. congruence.
  - rewrite !Ztrunc_ceil by lra. congruence.
  - rewrite !Ztrunc_floor by lra. congruence.
  - rewrite !Ztrunc_ceil by lra. congruence.
  - rewrite !Zaway_ceil by lra. congruence.
  - rewrite !Zaway_floor by lra. congruence.
Qed.

Definition sgnR (s : sign) : R := IZR (sgnZ s).

Lemma sgnR_cases s : sgnR s = 1%R \/ sgnR s = (-1)%R.
Proof. destruct s; cbn; auto. Qed.
Lemma F2R_sgn s X k : F2R (Float radix2 (sgnZ s * X) k) = (sgnR s * IZR X * bpow radix2 k)%R.
Proof. unfold F2R, sgnR; cbn [Fnum Fexp]. now rewrite mult_IZR. Qed.
Lemma sgnR_abs s u : (0 <= u)%R -> Rabs (sgnR s * u) = u.
Proof. destruct s; unfold sgnR; cbn [sgnZ]; intros; [rewrite Rabs_left1|rewrite Rabs_pos_eq]; lra. Qed.

Lemma mag_sgn s t k b : (IZR (2 ^ (b - 1)) <= t < IZR (2 ^ b))%R -> 0 < b ->
  mag radix2 (sgnR s * t * bpow radix2 k) = b + k :> Z.
Proof.
  intros [A B] Hb. assert (0 < t)%R. { eapply Rlt_le_trans; [|apply A]. apply IZR_lt, pow2_gt0. lia. }
  rewrite mag_mult_bpow.
  2:{ destruct (sgnR_cases s) as [-> | ->]; lra. }
  f_equal. apply mag_unique. rewrite sgnR_abs by lra. rewrite !bpow_IZR by lia. auto.
Qed.

Lemma scaled_sgn s t k d : (sgnR s * t * bpow radix2 k * bpow radix2 (- (k + d)) = sgnR s * (t * bpow radix2 (- d)))%R.
Proof.
  rewrite Rmult_assoc, <- bpow_plus. replace (k + - (k + d)) with (- d) by lia. ring.
Qed.

Lemma bpow_opp_IZR d : 0 <= d -> bpow radix2 (- d) = (/ IZR (2 ^ d))%R.
Proof. intros. now rewrite bpow_opp, bpow_IZR. Qed.

Lemma cell_scale s t d c : 1 <= d -> (IZR (c * 2 ^ (d - 1)) < t < IZR ((c + 1) * 2 ^ (d - 1)))%R ->
  in_cell (match s with Pos => c | Neg => - (c + 1) end) (sgnR s * (t * bpow radix2 (- d))).
Proof.
  intros Hd [A B]. rewrite !mult_IZR, plus_IZR in *. rewrite bpow_opp_IZR by lia.
  assert (Hp : IZR (2 ^ d) = (2 * IZR (2 ^ (d - 1)))%R).
  { rewrite <- mult_IZR. f_equal. rewrite <- Z.pow_succ_r by lia. f_equal. lia. }
  assert (Hq : (0 < IZR (2 ^ (d - 1)))%R) by (apply IZR_lt, pow2_gt0; lia).
  set (h := IZR (2 ^ (d - 1))) in *.
  assert (IZR c / 2 < t * / IZR (2 ^ d) < (IZR c + 1) / 2)%R.
  { rewrite Hp. split; apply Rmult_lt_reg_r with (2 * h)%R; try lra; field_simplify; try lra. }
  destruct s; unfold in_cell, sgnR; cbn [sgnZ]; rewrite ?opp_IZR, ?plus_IZR; lra.
Qed.

(** A real [t] and an integer [Y] in the same open half cell round alike. *)
Lemma round_sticky p rm s t Y k c :
  let d := bitlen Y - p in
  0 < p -> 1 <= d -> 0 < Y ->
  (IZR (c * 2 ^ (d - 1)) < t < IZR ((c + 1) * 2 ^ (d - 1)))%R -> c * 2 ^ (d - 1) < Y < (c + 1) * 2 ^ (d - 1) ->
  rnd_prec p rm (sgnR s * t * bpow radix2 k) = rnd_prec p rm (F2R (Float radix2 (sgnZ s * Y) k)) /\
  rnd_prec p rm (sgnR s * t * bpow radix2 k) <> (sgnR s * t * bpow radix2 k)%R.
Proof.
  intros d Hp Hd HY Ht HYc. pose proof (bitlen_spec Y HY) as [B1 B2]. set (b := bitlen Y) in *.
  pose proof (pow2_gt0 (d - 1) ltac:(lia)) as Hh.
  assert (E1 : 2 ^ (b - 1) = 2 ^ p * 2 ^ (d - 1)) by (rewrite <- Z.pow_add_r by lia; f_equal; lia).
  assert (E2 : 2 ^ b = 2 ^ (p + 1) * 2 ^ (d - 1)) by (rewrite <- Z.pow_add_r by lia; f_equal; lia).
  assert (Hc1 : 2 ^ p <= c) by nia. assert (Hc2 : c + 1 <= 2 ^ (p + 1)) by nia.
  assert (Htb : (IZR (2 ^ (b - 1)) <= t < IZR (2 ^ b))%R).
  { split.
    - apply Rle_trans with (IZR (c * 2 ^ (d - 1))); [apply IZR_le; nia|lra].
    - apply Rlt_le_trans with (IZR ((c + 1) * 2 ^ (d - 1))); [lra|apply IZR_le; nia]. }
  assert (M1 : mag radix2 (sgnR s * t * bpow radix2 k) = b + k :> Z) by (apply mag_sgn; auto; lia).
  assert (M2 : mag radix2 (F2R (Float radix2 (sgnZ s * Y) k)) = b + k :> Z) by now apply mag_F2R_bitlen.
  assert (C1 : cexp radix2 (FLX_exp p) (sgnR s * t * bpow radix2 k) = k + d) by (unfold cexp, FLX_exp; rewrite M1; lia).
  assert (C2 : cexp radix2 (FLX_exp p) (F2R (Float radix2 (sgnZ s * Y) k)) = k + d) by (unfold cexp, FLX_exp; rewrite M2; lia).
  pose proof (cell_scale s t d c Hd Ht) as Cell1.
  assert (Cell2 : in_cell (match s with Pos => c | Neg => - (c + 1) end) (sgnR s * (IZR Y * bpow radix2 (- d)))).
  { apply cell_scale; auto. split; apply IZR_lt; lia. }
  unfold rnd_prec, round, scaled_mantissa. rewrite C1, C2, F2R_sgn, !scaled_sgn. split.
  - do 2 f_equal. now apply (rnd_same_cell rm _ _ _ Cell1).
  - intros E. unfold F2R in E; cbn [Fnum Fexp] in E.
    apply (f_equal (fun v => v * bpow radix2 (- (k + d)))%R) in E. rewrite scaled_sgn in E.
    rewrite Rmult_assoc, <- bpow_plus in E. replace (k + d + - (k + d)) with 0 in E by lia. cbn [bpow] in E. rewrite Rmult_1_r in E.
    symmetry in E. revert E. eapply cell_not_int. apply Cell1.
Qed.

(** Directed modes as floor or ceiling of the magnitude. *)
Lemma rnd_toward rm s u : is_nearest rm = false -> rounds_away rm (is_pos s) = false -> (0 <= u)%R ->
  rnd rm (sgnR s * u) = sgnZ s * Zfloor u.
Proof.
  intros Hn Ha Hu.
  destruct rm, s; cbn in Hn, Ha; try discriminate; cbn [rnd sgnZ]; unfold sgnR; cbn [sgnZ]; rewrite ?Rmult_1_l, ?Z.mul_1_l.
  all: replace (-1 * u)%R with (- u)%R in * by ring.
  all: try (rewrite Ztrunc_opp); rewrite ?Ztrunc_floor by auto; try lia.
  unfold Zceil. rewrite Ropp_involutive. lia.
Qed.
Lemma rnd_away rm s u : rounds_away rm (is_pos s) = true -> (0 <= u)%R ->
  rnd rm (sgnR s * u) = sgnZ s * Zceil u.
Proof.
  intros Ha Hu.
  destruct rm, s; cbn in Ha; try discriminate; cbn [rnd sgnZ]; unfold sgnR; cbn [sgnZ]; rewrite ?Rmult_1_l, ?Z.mul_1_l.
  all: replace (-1 * u)%R with (- u)%R in * by ring.
  - reflexivity.
  - unfold Zceil. lia.
  - rewrite Zaway_opp, Zaway_ceil by auto. lia.
  - rewrite Zaway_ceil by auto. auto.
Qed.

Lemma Zfloor_floor_div t D : 0 < D -> Zfloor (t / IZR D) = Zfloor (IZR (Zfloor t) / IZR D).
Proof.
  intros HD. assert (HR : (0 < IZR D)%R) by now apply IZR_lt.
  pose proof (Zfloor_lb (t / IZR D)) as A. pose proof (Zfloor_ub (t / IZR D)) as B. set (n := Zfloor (t / IZR D)) in *.
  symmetry. apply Zfloor_imp.
  assert (A' : (IZR n * IZR D <= t)%R).
  { apply Rmult_le_reg_r with (/ IZR D)%R; [now apply Rinv_0_lt_compat|]. rewrite Rmult_assoc, Rinv_r, Rmult_1_r by lra. exact A. }
  assert (B' : (t < (IZR n + 1) * IZR D)%R).
  { apply Rmult_lt_reg_r with (/ IZR D)%R; [now apply Rinv_0_lt_compat|]. rewrite Rmult_assoc, Rinv_r, Rmult_1_r by lra. exact B. }
  pose proof (Zfloor_lb t). 
  assert (IZR n * IZR D <= IZR (Zfloor t))%R.
  { rewrite <- mult_IZR in *. apply IZR_le. now apply Zfloor_lub. }
  rewrite plus_IZR. split.
  - apply Rmult_le_reg_r with (IZR D); auto. unfold Rdiv. rewrite Rmult_assoc, Rinv_l, Rmult_1_r by lra. auto.
  - apply Rmult_lt_reg_r with (IZR D); auto. unfold Rdiv. rewrite Rmult_assoc, Rinv_l, Rmult_1_r by lra. lra.
Qed.
Lemma Zceil_ceil_div t D : 0 < D -> Zceil (t / IZR D) = Zceil (IZR (Zceil t) / IZR D).
Proof.
  intros. unfold Zceil. f_equal. replace (- (t / IZR D))%R with (- t / IZR D)%R by (unfold Rdiv; ring).
  rewrite Zfloor_floor_div by auto. f_equal. rewrite opp_IZR. unfold Rdiv. ring.
Qed.

(** Toward-zero modes see only the integer part. *)
Lemma round_toward p rm s t Y k :
  is_nearest rm = false -> rounds_away rm (is_pos s) = false ->
  0 < p -> p <= bitlen Y -> 0 < Y -> (IZR Y <= t < IZR (Y + 1))%R ->
  rnd_prec p rm (sgnR s * t * bpow radix2 k) = rnd_prec p rm (F2R (Float radix2 (sgnZ s * Y) k)).
Proof.
  intros Hn Ha Hp Hb HY Ht. pose proof (bitlen_spec Y HY) as [B1 B2]. pose proof (bitlen_pos Y HY). set (b := bitlen Y) in *.
  assert (HYR : (0 < IZR Y)%R) by now apply IZR_lt.
  assert (Hft : Zfloor t = Y) by now apply Zfloor_imp.
  assert (M1 : mag radix2 (sgnR s * t * bpow radix2 k) = b + k :> Z).
  { apply mag_sgn; auto. split.
    - eapply Rle_trans; [apply IZR_le, B1|]. lra.
    - eapply Rlt_le_trans; [apply Ht|]. apply IZR_le. lia. }
  assert (M2 : mag radix2 (F2R (Float radix2 (sgnZ s * Y) k)) = b + k :> Z) by now apply mag_F2R_bitlen.
  unfold rnd_prec, round, scaled_mantissa, cexp, FLX_exp. rewrite M1, M2, F2R_sgn.
  replace (b + k - p) with (k + (b - p)) by lia. rewrite !scaled_sgn. do 2 f_equal.
  rewrite bpow_opp_IZR by lia. 
  assert (HDR : (0 < / IZR (2 ^ (b - p)))%R) by (apply Rinv_0_lt_compat, IZR_lt, pow2_gt0; lia).
  rewrite !rnd_toward; auto; try (apply Rmult_le_pos; lra).
  f_equal. change (Zfloor (t / IZR (2 ^ (b - p))) = Zfloor (IZR Y / IZR (2 ^ (b - p)))).
  rewrite Zfloor_floor_div by (apply pow2_gt0; lia). now rewrite Hft.
Qed.

(** Away modes see only the ceiling. *)
Lemma round_away p rm s t Y k :
  rounds_away rm (is_pos s) = true ->
  0 < p -> p <= bitlen Y -> 0 < Y -> (IZR Y < t < IZR (Y + 1))%R ->
  rnd_prec p rm (sgnR s * t * bpow radix2 k) = rnd_prec p rm (F2R (Float radix2 (sgnZ s * (Y + 1)) k)).
Proof.
  intros Ha Hp Hb HY Ht. pose proof (bitlen_spec Y HY) as [B1 B2]. pose proof (bitlen_pos Y HY). set (b := bitlen Y) in *.
  assert (HYR : (0 < IZR Y)%R) by now apply IZR_lt.
  assert (Hct : Zceil t = Y + 1).
  { apply Zceil_imp. replace (Y + 1 - 1) with Y by lia. lra. }
  assert (M1 : mag radix2 (sgnR s * t * bpow radix2 k) = b + k :> Z).
  { apply mag_sgn; auto. split.
    - eapply Rle_trans; [apply IZR_le, B1|]. lra.
    - eapply Rlt_le_trans; [apply Ht|]. apply IZR_le. lia. }
  assert (HDR : (0 < / IZR (2 ^ (b - p)))%R) by (apply Rinv_0_lt_compat, IZR_lt, pow2_gt0; lia).
  assert (E1 : rnd_prec p rm (sgnR s * t * bpow radix2 k) =
               F2R (Float radix2 (sgnZ s * Zceil (IZR (Y + 1) / IZR (2 ^ (b - p)))) (k + (b - p)))).
  { unfold rnd_prec, round, scaled_mantissa, cexp, FLX_exp. rewrite M1.
    replace (b + k - p) with (k + (b - p)) by lia. rewrite !scaled_sgn. do 2 f_equal.
    rewrite bpow_opp_IZR by lia. rewrite rnd_away; auto; try (apply Rmult_le_pos; lra).
    f_equal. change (Zceil (t / IZR (2 ^ (b - p))) = Zceil (IZR (Y + 1) / IZR (2 ^ (b - p)))).
    rewrite Zceil_ceil_div by (apply pow2_gt0; lia). now rewrite Hct. }
  rewrite E1. destruct (Z.eq_dec (Y + 1) (2 ^ b)) as [E|E].
  - rewrite E.
    assert (Hd : (IZR (2 ^ b) / IZR (2 ^ (b - p)))%R = IZR (2 ^ p)).
    { replace (2 ^ b) with (2 ^ p * 2 ^ (b - p)) by (rewrite <- Z.pow_add_r by lia; f_equal; lia).
      rewrite mult_IZR. field. apply Rgt_not_eq, IZR_lt, pow2_gt0; lia. }
    rewrite Hd, Zceil_IZR.
    assert (E2 : F2R (Float radix2 (sgnZ s * 2 ^ b) k) = F2R (Float radix2 (sgnZ s * 1) (k + b))).
    { replace (2 ^ b) with (1 * 2 ^ b) by lia. apply F2R_shift. lia. }
    rewrite E2. rewrite round_prec_exact by (auto; try lia; cbn; lia).
    replace (2 ^ p) with (1 * 2 ^ p) by lia. rewrite F2R_shift by lia. do 2 f_equal. lia.
  - assert (Hb2 : bitlen (Y + 1) = b) by (apply bitlen_unique; lia).
    assert (M2 : mag radix2 (F2R (Float radix2 (sgnZ s * (Y + 1)) k)) = b + k :> Z).
    { rewrite mag_F2R_bitlen by lia. lia. }
    unfold rnd_prec, round, scaled_mantissa, cexp, FLX_exp. rewrite M2, (F2R_sgn s (Y + 1)).
    replace (b + k - p) with (k + (b - p)) by lia. rewrite scaled_sgn. do 2 f_equal.
    rewrite bpow_opp_IZR by lia. rewrite rnd_away; auto.
    apply Rmult_le_pos; [apply IZR_le; lia|lra].
Qed.

(** An integer part that is not exact makes the rounded value differ. *)
Lemma round_neq p rm s t Y k : 0 < p -> p <= bitlen Y -> 0 < Y -> (IZR Y < t < IZR (Y + 1))%R ->
  rnd_prec p rm (sgnR s * t * bpow radix2 k) <> (sgnR s * t * bpow radix2 k)%R.
Proof.
  intros Hp Hb HY Ht E. pose proof (bitlen_spec Y HY) as [B1 B2]. pose proof (bitlen_pos Y HY). set (b := bitlen Y) in *.
  assert (HYR : (0 < IZR Y)%R) by now apply IZR_lt.
  assert (M1 : mag radix2 (sgnR s * t * bpow radix2 k) = b + k :> Z).
  { apply mag_sgn; auto. split.
    - eapply Rle_trans; [apply IZR_le, B1|]. lra.
    - eapply Rlt_le_trans; [apply Ht|]. apply IZR_le. lia. }
  unfold rnd_prec, round, scaled_mantissa, cexp, FLX_exp in E. rewrite M1 in E.
  replace (b + k - p) with (k + (b - p)) in E by lia. rewrite scaled_sgn in E.
  set (N := rnd rm _) in E. clearbody N. unfold F2R in E; cbn [Fnum Fexp] in E.
  rewrite bpow_plus, (bpow_IZR (b - p)) in E by lia.
  assert (Ht' : t = IZR (sgnZ s * (N * 2 ^ (b - p)))).
  { rewrite !mult_IZR. fold (sgnR s). apply (Rmult_eq_reg_r (bpow radix2 k)); [|apply Rgt_not_eq, bpow_gt_0].
    replace (sgnR s * (IZR N * IZR (2 ^ (b - p))) * bpow radix2 k)%R with (sgnR s * (IZR N * (bpow radix2 k * IZR (2 ^ (b - p)))))%R by ring.
    rewrite E. destruct (sgnR_cases s) as [-> | ->]; ring. }
  rewrite Ht' in Ht. destruct Ht as [T1 T2]. apply lt_IZR in T1, T2. lia.
Qed.

(** ** Gradual underflow *)
Lemma flt_flx p : 0 < p -> forall r, generic_format radix2 (FLT_exp (EMIN - p) p) r -> generic_format radix2 (FLX_exp p) r.
Proof. intros Hp r. apply generic_format_FLX_FLT. Qed.

#[global] Instance flx_valid p : 0 < p -> Valid_exp (FLX_exp p).
Proof. intros. now apply FLX_exp_valid. Qed.

Section Directed.
Variable p : Z.
Hypothesis Hp : 0 < p.
Local Instance prec_pos : Prec_gt_0 p := Hp.
Let fx := FLX_exp p.
Let ft := FLT_exp (EMIN - p) p.

Lemma double_DN r : round radix2 ft Zfloor (round radix2 fx Zfloor r) = round radix2 ft Zfloor r.
Proof.
  pose proof (round_DN_pt radix2 fx r) as (F1 & F2 & F3).
  pose proof (round_DN_pt radix2 ft (round radix2 fx Zfloor r)) as (G1 & G2 & G3).
  eapply Rnd_DN_pt_unique; [|apply round_DN_pt; apply FLT_exp_valid; exact Hp]. split; [auto|]. split; [lra|].
  intros g Hg Hle. apply G3; auto. apply F3; auto. now apply flt_flx.
Qed.
Lemma double_UP r : round radix2 ft Zceil (round radix2 fx Zceil r) = round radix2 ft Zceil r.
Proof.
  pose proof (round_UP_pt radix2 fx r) as (F1 & F2 & F3).
  pose proof (round_UP_pt radix2 ft (round radix2 fx Zceil r)) as (G1 & G2 & G3).
  eapply Rnd_UP_pt_unique; [|apply round_UP_pt; apply FLT_exp_valid; exact Hp]. split; [auto|]. split; [lra|].
  intros g Hg Hle. apply G3; auto. apply F3; auto. now apply flt_flx.
Qed.

Lemma grad_prec_directed rm r : is_nearest rm = false -> rnd_grad p rm (rnd_prec p rm r) = rnd_grad p rm r.
Proof.
  intros Hn. unfold rnd_grad, rnd_prec. fold fx ft.
  assert (Hpos : forall rm', (0 <= r)%R -> (0 <= round radix2 fx (rnd rm') r)%R).
  { intros. rewrite <- (round_0 radix2 fx (rnd rm')). apply round_le; auto; [apply FLX_exp_valid; exact Hp|apply rnd_valid]. }
  assert (Hneg : forall rm', (r <= 0)%R -> (round radix2 fx (rnd rm') r <= 0)%R).
  { intros. rewrite <- (round_0 radix2 fx (rnd rm')). apply round_le; auto; [apply FLX_exp_valid; exact Hp|apply rnd_valid]. }
  destruct (Rle_dec 0 r) as [H|H].
  - destruct rm; try discriminate; cbn [rnd].
    + pose proof (Hpos RToZero H) as P. cbn [rnd] in P. rewrite (round_ZR_DN _ ft (round _ _ _ _)) by exact P.
      rewrite !(round_ZR_DN _ _ r) by auto. apply double_DN.
    + apply double_UP.
    + apply double_DN.
    + pose proof (Hpos RToZero H) as P. cbn [rnd] in P. rewrite (round_ZR_DN _ ft (round _ _ _ _)) by exact P.
      rewrite !(round_ZR_DN _ _ r) by auto. apply double_DN.
    + pose proof (Hpos RFromZero H) as P. cbn [rnd] in P. rewrite (round_AW_UP _ ft (round _ _ _ _)) by exact P.
      rewrite !(round_AW_UP _ _ r) by auto. apply double_UP.
  - assert (H' : (r <= 0)%R) by lra. destruct rm; try discriminate; cbn [rnd].
    + pose proof (Hneg RToZero H') as P. cbn [rnd] in P. rewrite (round_ZR_UP _ ft (round _ _ _ _)) by exact P.
      rewrite !(round_ZR_UP _ _ r) by auto. apply double_UP.
    + apply double_UP.
    + apply double_DN.
    + pose proof (Hneg RToZero H') as P. cbn [rnd] in P. rewrite (round_ZR_UP _ ft (round _ _ _ _)) by exact P.
      rewrite !(round_ZR_UP _ _ r) by auto. apply double_UP.
    + pose proof (Hneg RFromZero H') as P. cbn [rnd] in P. rewrite (round_AW_DN _ ft (round _ _ _ _)) by exact P.
      rewrite !(round_AW_DN _ _ r) by auto. apply double_DN.
Qed.

(** On the fixed grid of subnormal numbers. *)
Lemma grad_small rm s X k : 0 < X -> bitlen X + k <= EMIN -> k <= EMIN - p ->
  rnd_grad p rm (F2R (Float radix2 (sgnZ s * X) k)) =
  F2R (Float radix2 (sgnZ s * rndN rm (is_pos s) X (EMIN - p - k)) (EMIN - p)).
Proof.
  intros HX Hb Hk. unfold rnd_grad.
  assert (Hc : cexp radix2 (FLT_exp (EMIN - p) p) (F2R (Float radix2 (sgnZ s * X) k)) = EMIN - p).
  { unfold cexp, FLT_exp. rewrite mag_F2R_bitlen by auto. lia. }
  rewrite round_at by (try rewrite Hc; lia). now rewrite Hc.
Qed.

Lemma grad_normal rm r : (bpow radix2 (EMIN - 1) <= Rabs r)%R -> rnd_grad p rm r = rnd_prec p rm r.
Proof.
  intros H. unfold rnd_grad, rnd_prec. apply round_FLT_FLX. 
  replace (EMIN - p + p - 1) with (EMIN - 1) by lia. auto.
Qed.
End Directed.
