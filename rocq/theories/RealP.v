(** From integer rounding to Flocq rounding. *)

From Coq Require Import ZArith Reals List Bool Lia Lra.
From Flocq Require Import Core.
From Verif Require Import Words Mantissa Num SpecZ WordsP RoundP Spec.
Open Scope Z_scope.
Ltac Zify.zify_post_hook ::= Z.div_mod_to_equations.
Arguments Z.mul : simpl never.
Arguments Z.add : simpl never.
Arguments Z.pow : simpl never.
Arguments Z.sub : simpl never.

#[global] Instance rnd_valid rm : Valid_rnd (rnd rm).
Proof. destruct rm; cbn [rnd]; auto with typeclass_instances. Qed.

Lemma bpow_IZR e : 0 <= e -> bpow radix2 e = IZR (2 ^ e).
Proof. intros. now rewrite <- (IZR_Zpower radix2) by auto. Qed.

(** ** The seven modes on X / 2^d *)
Section RndN.
Variables (X d : Z).
Hypothesis Hd : 0 <= d.
Hypothesis HX : 0 <= X.
Let D := 2 ^ d.
Let x : R := (IZR X / IZR D)%R.
Let HD : 0 < D. Proof. now apply pow2_gt0. Qed.
Let HDR : (0 < IZR D)%R. Proof. now apply IZR_lt. Qed.

Lemma fl_div : Zfloor x = X / D.
Proof. unfold x. apply Zfloor_div. lia. Qed.

Lemma x_split : x = (IZR (X / D) + IZR (X mod D) / IZR D)%R.
Proof.
  unfold x. pose proof (Z.div_mod X D ltac:(lia)) as E. rewrite E at 1. rewrite plus_IZR, mult_IZR. field. lra.
Qed.

Lemma frac_bound : (0 <= IZR (X mod D) / IZR D < 1)%R.
Proof.
  pose proof (Z.mod_pos_bound X D HD) as [A B]. apply IZR_le in A. apply IZR_lt in B. split.
  - apply Rmult_le_pos; auto. left. now apply Rinv_0_lt_compat.
  - apply Rmult_lt_reg_r with (IZR D); auto. unfold Rdiv. rewrite Rmult_assoc, Rinv_l, Rmult_1_r, Rmult_1_l by lra. auto.
Qed.

Lemma cl_div : Zceil x = X / D + Z.b2z (negb (X mod D =? 0)).
Proof.
  destruct (Z.eqb_spec (X mod D) 0) as [E|E]; cbn [negb Z.b2z].
  - rewrite x_split, E. unfold Rdiv. rewrite Rmult_0_l, Rplus_0_r, Zceil_IZR. lia.
  - apply Zceil_imp. rewrite x_split. pose proof frac_bound. 
    assert (0 < IZR (X mod D) / IZR D)%R.
    { apply Rmult_lt_0_compat; [|now apply Rinv_0_lt_compat]. apply IZR_lt. pose proof (Z.mod_pos_bound X D HD). lia. }
    rewrite minus_IZR, plus_IZR. lra.
Qed.

Lemma x_pos : (0 <= x)%R.
Proof. unfold x. apply Rmult_le_pos; [now apply IZR_le|]. left. now apply Rinv_0_lt_compat. Qed.

Lemma near_div ch : Znearest ch x =
  X / D + Z.b2z ((D <? 2 * (X mod D)) || ((2 * (X mod D) =? D) && ch (X / D))).
Proof.
  unfold Znearest. rewrite fl_div. 
  assert (E : (x - IZR (X / D) = IZR (X mod D) / IZR D)%R) by (rewrite x_split at 1; lra).
  rewrite E.
  assert (Hc : Rcompare (IZR (X mod D) / IZR D) (/ 2) = Z.compare (2 * (X mod D)) D).
  { rewrite <- Rcompare_IZR, mult_IZR.
    rewrite <- (Rcompare_mult_r (2 * IZR D)) by lra. f_equal; field; lra. }
  rewrite Hc. destruct (Z.compare_spec (2 * (X mod D)) D) as [H|H|H].
  - rewrite (proj2 (Z.ltb_ge _ _)) by lia. rewrite (proj2 (Z.eqb_eq _ _)) by lia. cbn [orb andb].
    destruct (ch (X / D)); cbn [Z.b2z]; [rewrite cl_div|]; [|lia]. rewrite (proj2 (Z.eqb_neq _ _)) by lia. reflexivity.
  - rewrite (proj2 (Z.ltb_ge _ _)) by lia. rewrite (proj2 (Z.eqb_neq _ _)) by lia. cbn. lia.
  - rewrite (proj2 (Z.ltb_lt _ _)) by lia. cbn [orb]. rewrite cl_div. rewrite (proj2 (Z.eqb_neq _ _)) by lia. reflexivity.
Qed.

Lemma rnd_rndN_pos rm : rnd rm x = rndN rm true X d.
Proof.
  pose proof x_pos as Hp. unfold rndN, rup. fold D.
  destruct rm; cbn [rnd Z.b2z andb negb orb]; rewrite ?Z.add_0_r.
  - rewrite Ztrunc_floor by auto. apply fl_div.
  - apply cl_div.
  - apply fl_div.
  - rewrite Ztrunc_floor by auto. apply fl_div.
  - rewrite Zaway_ceil by auto. apply cl_div.
  - rewrite (near_div (fun t => negb (Z.even t))). rewrite <- Z.negb_even. reflexivity.
  - apply near_div.
Qed.

Lemma rnd_rndN_neg rm : rnd rm (- x) = - rndN rm false X d.
Proof.
  pose proof x_pos as Hp. unfold rndN, rup. fold D.
  destruct rm; cbn [rnd Z.b2z andb negb orb]; rewrite ?Z.add_0_r.
  - rewrite Ztrunc_opp, Ztrunc_floor by auto. f_equal. apply fl_div.
  - unfold Zceil. rewrite Ropp_involutive. f_equal. apply fl_div.
  - pose proof cl_div as C. unfold Zceil in C. lia.
  - rewrite Ztrunc_opp, Ztrunc_floor by auto. f_equal. apply fl_div.
  - rewrite Zaway_opp, Zaway_ceil by auto. f_equal. apply cl_div.
  - rewrite Znearest_opp. f_equal. rewrite near_div. do 4 f_equal.
    rewrite Z.even_opp, Z.even_add, <- Z.negb_even. now destruct (Z.even (X / D)).
  - rewrite Znearest_opp. f_equal. rewrite near_div. do 4 f_equal.
    rewrite Z.even_opp, Z.even_add. now destruct (Z.even (X / D)).
Qed.
End RndN.

Lemma rnd_rndN rm s X d : 0 <= d -> 0 <= X ->
  rnd rm (IZR (sgnZ s * X) / IZR (2 ^ d)) = sgnZ s * rndN rm (is_pos s) X d.
Proof.
  intros. destruct s; cbn [sgnZ is_pos].
  - rewrite mult_IZR. replace (-1 * IZR X / IZR (2 ^ d))%R with (- (IZR X / IZR (2 ^ d)))%R by (unfold Rdiv; ring).
    rewrite rnd_rndN_neg by auto. lia.
  - rewrite !Z.mul_1_l. now apply rnd_rndN_pos.
Qed.

(** ** Rounding of X * 2^k to p bits *)
Lemma sgnZ_abs s X : 0 <= X -> Z.abs (sgnZ s * X) = X.
Proof. destruct s; cbn [sgnZ]; lia. Qed.

Lemma mag_F2R_bitlen s X k : 0 < X -> mag radix2 (F2R (Float radix2 (sgnZ s * X) k)) = bitlen X + k :> Z.
Proof.
  intros HX. rewrite mag_F2R by (destruct s; cbn [sgnZ]; lia). f_equal.
  apply mag_unique. rewrite <- abs_IZR, sgnZ_abs by lia. pose proof (bitlen_spec X HX) as [A B]. pose proof (bitlen_pos X HX).
  rewrite !bpow_IZR by lia. split; [now apply IZR_le|now apply IZR_lt].
Qed.

Lemma scaled_div s X k c : k <= c ->
  (F2R (Float radix2 (sgnZ s * X) k) * bpow radix2 (- c) = IZR (sgnZ s * X) / IZR (2 ^ (c - k)))%R.
Proof.
  intros. unfold F2R; cbn [Fnum Fexp]. rewrite Rmult_assoc, <- bpow_plus. unfold Rdiv. f_equal.
  rewrite <- bpow_IZR by lia. rewrite <- bpow_opp. f_equal. lia.
Qed.

(** Rounding on a fixed grid 2^c. *)
Lemma round_at fexp rm s X k : 0 <= X -> k <= cexp radix2 fexp (F2R (Float radix2 (sgnZ s * X) k)) ->
  let c := cexp radix2 fexp (F2R (Float radix2 (sgnZ s * X) k)) in
  round radix2 fexp (rnd rm) (F2R (Float radix2 (sgnZ s * X) k)) =
  F2R (Float radix2 (sgnZ s * rndN rm (is_pos s) X (c - k)) c).
Proof.
  intros HX Hc c. unfold round, scaled_mantissa. fold c. f_equal. f_equal. fold c in Hc.
  rewrite scaled_div by auto. apply rnd_rndN; lia.
Qed.

Lemma round_prec_down p rm s X k : 0 < X -> 0 < p -> p <= bitlen X ->
  let d := bitlen X - p in
  rnd_prec p rm (F2R (Float radix2 (sgnZ s * X) k)) = F2R (Float radix2 (sgnZ s * rndN rm (is_pos s) X d) (k + d)).
Proof.
  intros HX Hp Hb d. unfold rnd_prec.
  assert (Hc : cexp radix2 (FLX_exp p) (F2R (Float radix2 (sgnZ s * X) k)) = k + d).
  { unfold cexp, FLX_exp. rewrite mag_F2R_bitlen by auto. unfold d; lia. }
  rewrite round_at by (try rewrite Hc; unfold d; lia). rewrite Hc. do 3 f_equal. f_equal. lia.
Qed.

Lemma round_prec_exact p rm s X k : 0 < p -> 0 <= X -> bitlen X <= p ->
  rnd_prec p rm (F2R (Float radix2 (sgnZ s * X) k)) = F2R (Float radix2 (sgnZ s * X) k).
Proof.
  intros Hp HX Hb. destruct (Z.eq_dec X 0) as [->|Hne].
  { rewrite Z.mul_0_r. rewrite F2R_0. unfold rnd_prec. apply round_0. apply rnd_valid. }
  unfold rnd_prec. apply round_generic; [apply rnd_valid|].
  apply generic_format_F2R. intros _. unfold cexp, FLX_exp. rewrite mag_F2R_bitlen by lia. lia.
Qed.

Lemma F2R_shift s X k j : 0 <= j -> F2R (Float radix2 (sgnZ s * (X * 2 ^ j)) k) = F2R (Float radix2 (sgnZ s * X) (k + j)).
Proof.
  intros. unfold F2R; cbn [Fnum Fexp]. rewrite Z.mul_assoc, mult_IZR, bpow_plus, (bpow_IZR j) by auto. ring.
Qed.

Lemma F2R_inj_num m1 m2 e : F2R (Float radix2 m1 e) = F2R (Float radix2 m2 e) <-> m1 = m2.
Proof.
  split; [|congruence]. unfold F2R; cbn [Fnum Fexp]. intros H. apply Rmult_eq_reg_r in H; [now apply eq_IZR|].
  apply Rgt_not_eq, bpow_gt_0.
Qed.

Lemma sgnZ_inj s a b : sgnZ s * a = sgnZ s * b -> a = b.
Proof. destruct s; cbn [sgnZ]; lia. Qed.

(** Rounding changes the value exactly when bits are dropped. *)
Lemma rndN_exact rm pos X d : 0 <= d -> 0 <= X -> rndN rm pos X d * 2 ^ d = X <-> X mod 2 ^ d = 0.
Proof.
  intros Hd HX. pose proof (pow2_gt0 d Hd) as Hp. pose proof (Z.div_mod X (2 ^ d) ltac:(lia)) as E.
  pose proof (Z.mod_pos_bound X (2 ^ d) Hp) as B. unfold rndN. set (q := X / 2 ^ d) in *. split.
  - intros H. assert (X mod 2 ^ d = Z.b2z (rup rm pos X d) * 2 ^ d) by lia.
    destruct (rup rm pos X d); cbn [Z.b2z] in *; lia.
  - intros H. assert (rup rm pos X d = false) as ->; [|cbn [Z.b2z]; lia].
    unfold rup. rewrite H. destruct rm, pos; cbn [andb negb Z.eqb orb]; auto.
    all: rewrite Z.mul_0_r. all: rewrite (proj2 (Z.ltb_ge _ _)) by lia; rewrite (proj2 (Z.eqb_neq _ _)) by lia; auto.
Qed.

Lemma rndN_bounds rm pos X d : 0 <= d -> 0 <= X -> X / 2 ^ d <= rndN rm pos X d <= X / 2 ^ d + 1.
Proof. intros. unfold rndN. destruct (rup rm pos X d); cbn [Z.b2z]; lia. Qed.
