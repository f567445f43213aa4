(** Half of pi: asin at the ends of its domain and atan at the infinities; the other
    functions at the infinities; logarithms to any base. *)

From Coq Require Import ZArith List Bool Lia Reals Lra.
From Flocq Require Import Core.
From Verif Require Import Words IntModel Mantissa Num Ext Elem SpecZ WordsP WordsP2 Spec SpecOps SpecConst RoundP RealP RealP2 NumP CmpP AddP SetP AddNum DivNum ArithTop IntNum ConvNum Conv2Num RoundableNum PowNum PowTop ConstNum PiP SmallP ElemR ElemNum ElemDom.
Import ListNotations.
Open Scope Z_scope.
Ltac Zify.zify_post_hook ::= idtac.
Arguments Z.mul : simpl never.
Arguments Z.add : simpl never.
Arguments Z.pow : simpl never.
Arguments Z.sub : simpl never.
Arguments Z.of_nat : simpl never.
Ltac dlia := Z.div_mod_to_equations; lia.

Lemma rnd_prec_scale p rm x k : rnd_prec p rm (x * bpow radix2 k) = (rnd_prec p rm x * bpow radix2 k)%R.
Proof.
  unfold rnd_prec, round, scaled_mantissa, F2R. cbn [Fnum Fexp]. destruct (Req_dec x 0) as [->|Nx].
  - rewrite !Rmult_0_l. assert (Z : rnd rm 0 = 0) by (apply Zrnd_IZR; apply rnd_valid). rewrite Z. ring.
  - unfold cexp. rewrite mag_mult_bpow by exact Nx. unfold FLX_exp. rewrite Rmult_assoc, <- bpow_plus. replace (k + - (mag radix2 x + k - p)) with (- (mag radix2 x - p)) by lia.
    rewrite (Rmult_assoc (IZR _)), <- bpow_plus. do 2 f_equal. lia.
Qed.

Lemma Znearest_ext c1 c2 x : (forall t, c1 t = c2 t) -> Znearest c1 x = Znearest c2 x.
Proof. intros H. unfold Znearest. now rewrite H. Qed.

Lemma rnd_invert rm x : rnd (invert_rm_for_sign rm) x = - rnd rm (- x).
Proof.
  destruct rm; cbn [invert_rm_for_sign rnd]; try (rewrite Ztrunc_opp, Z.opp_involutive; reflexivity); try (rewrite Zaway_opp, Z.opp_involutive; reflexivity).
  all: first [reflexivity | unfold Zceil; rewrite Ropp_involutive, Z.opp_involutive; reflexivity
    | rewrite Znearest_opp, Z.opp_involutive; apply Znearest_ext; intros t; rewrite Z.even_opp, Z.add_1_r, Z.even_succ, <- Z.negb_even; now destruct (Z.even t)].
Qed.

Lemma rnd_prec_opp p rm x : rnd_prec p (invert_rm_for_sign rm) x = (- rnd_prec p rm (- x))%R.
Proof.
  unfold rnd_prec. rewrite round_opp, Ropp_involutive. apply round_ext. intros t. unfold Zrnd_opp. apply rnd_invert.
Qed.

(** Rounding to [k] bits of half the constant [c], with either sign: what
    [const_result] says of [c]. *)
Definition half_result (c : R) (k : Z) (rm : rmode) (s : sign) (y : num) : Prop :=
  wf y /\ 64 * wlen y = k /\ ns y = s /\
  (exists a, (Rabs (IZR (sgnZ s) * (c / 2) - a) < bpow radix2 (1 - (k + 64)))%R /\ value y = rnd_prec k rm a) /\
  (rm <> RNone -> nearest rm = false -> value y = rnd_prec k rm (IZR (sgnZ s) * (c / 2))).

Lemma const_range c k rm v : 64 <= k -> (3 <= c <= 7 / 2)%R -> const_result c 2 k rm v -> normal v /\ ne v = 2.
Proof.
  intros Hk Hc (W & L & S1 & _ & (a & Ha & Va) & _).
  assert (B : (bpow radix2 (2 - (k + 64)) <= / 4)%R) by (change (/ 4)%R with (bpow radix2 (-2)); apply bpow_le; lia).
  destruct (Rabs_def2 _ _ Ha) as [Ha1 Ha2]. assert (A1 : (2 <= a <= 15 / 4)%R) by lra.
  assert (R1 : rnd_prec k rm 2 = 2%R) by (change 2%R with (bpow radix2 1); apply rnd_prec_bpow; lia).
  assert (R2 : rnd_prec k rm (15 / 4) = (15 / 4)%R).
  { unfold rnd_prec. apply round_generic; [apply rnd_valid|]. apply generic_format_FLX. exists (Float radix2 15 (-2)); [unfold F2R; cbn [Fnum Fexp]; change (bpow radix2 (-2)) with (/ 4)%R; lra|].
    cbn [Fnum]. change (Z.abs 15 < 2 ^ k). apply Z.lt_le_trans with (2 ^ 64); [reflexivity|]. apply Z.pow_le_mono_r; lia. }
  assert (B1 : (2 <= value v <= 15 / 4)%R). { rewrite Va. pose proof (rnd_prec_le k rm 2 a ltac:(lia) (proj1 A1)). pose proof (rnd_prec_le k rm a (15 / 4) ltac:(lia) (proj2 A1)). lra. }
  assert (N : normal v). { apply normal_iff; [exact W|]. rewrite Rabs_pos_eq by lra. apply Rle_trans with 2%R; [change 2%R with (bpow radix2 1); apply bpow_le; lia|lra]. }
  split; [exact N|]. apply exp_of_range; auto. rewrite Rabs_pos_eq by lra. change (bpow radix2 (2 - 1)) with 2%R. change (bpow radix2 2) with 4%R. lra.
Qed.

Lemma half_ok c k rm rm' s v e : 64 <= k -> (3 <= c <= 7 / 2)%R -> const_result c 2 k rm' v -> e = 1 -> rm' = (if is_pos s then rm else invert_rm_for_sign rm) ->
  half_result c k rm s (set_sign (set_exponent v e) s).
Proof.
  intros Hk Hc C -> Erm. destruct (const_range c k rm' v Hk Hc C) as [N Ne]. destruct C as (W & L & S1 & _ & (a & Ha & Va) & Vd).
  destruct (set_exponent_spec v 1 W ltac:(lia)) as (W1 & L1 & S2 & _ & V1). rewrite Ne in V1.
  assert (V2 : value (set_sign (set_exponent v 1) s) = (IZR (sgnZ s) * (value v * bpow radix2 (-1)))%R).
  { rewrite value_set_sign, S2, S1, V1. cbn [sgnZ]. change (1 - 2) with (-1). ring. }
  assert (K : forall b, value v = rnd_prec k rm' b -> value (set_sign (set_exponent v 1) s) = rnd_prec k rm (IZR (sgnZ s) * (b / 2))).
  { intros b Hb. rewrite V2, Hb, Erm. replace (b / 2)%R with (b * bpow radix2 (-1))%R by (change (bpow radix2 (-1)) with (/ 2)%R; field). destruct s; cbn [is_pos sgnZ].
    - rewrite rnd_prec_opp. replace (-1 * (b * bpow radix2 (-1)))%R with (- b * bpow radix2 (-1))%R by ring. rewrite rnd_prec_scale. ring.
    - rewrite !Rmult_1_l. symmetry. apply rnd_prec_scale. }
  split; [now apply wf_set_sign|]. split; [change (64 * wlen (set_exponent v 1) = k); lia|]. split; [reflexivity|]. split.
  - exists (IZR (sgnZ s) * (a / 2))%R. split; [|now apply K]. replace (IZR (sgnZ s) * (c / 2) - IZR (sgnZ s) * (a / 2))%R with (IZR (sgnZ s) * ((c - a) * / 2))%R by field.
    assert (As : Rabs (IZR (sgnZ s)) = 1%R) by (destruct s; cbn [sgnZ]; [rewrite Rabs_left by lra; ring|apply Rabs_R1]).
    rewrite !Rabs_mult, As, Rmult_1_l, (Rabs_pos_eq (/ 2)) by lra. replace (1 - (k + 64)) with (2 - (k + 64) + -1) by lia. rewrite bpow_plus. change (bpow radix2 (-1)) with (/ 2)%R. lra.
  - intros H1 H2. apply K. apply Vd; subst rm'; destruct (is_pos s), rm; cbn; try discriminate; auto.
Qed.

(** ** asin at 1 and -1 *)
Theorem asin_one pi rest x p rm c v : wf x -> Rabs (value x) = 1%R -> 0 < p -> prec_up p < P_LIM -> (3 <= c <= 7 / 2)%R ->
  pi (prec_up p) (if is_negative x then invert_rm_for_sign rm else rm) = Ok v -> const_result c 2 (prec_up p) (if is_negative x then invert_rm_for_sign rm else rm) v ->
  exists q, n_asin rest pi x p rm = Ok q /\ half_result c (prec_up p) rm (ns x) q.
Proof.
  intros W H Hp HP Hc Hpi Hv. assert (N : nonzero x) by (intros Z; rewrite (value_zero x Z), Rabs_R0 in H; lra).
  unfold n_asin. cbv zeta. rewrite (is_zero_false x W N). pose proof (abs_cmp_one x W) as C. rewrite Rcompare_Eq in C by lra. cbn [sgn_of] in C.
  replace (0 <? n_abs_cmp x ONE) with false by lia. replace (n_abs_cmp x ONE =? 0) with true by lia.
  rewrite round_p_eq by lia. fold (prec_up p). rewrite Hpi. cbn [bind]. assert (PP : 64 <= prec_up p) by (unfold prec_up; dlia).
  eexists. split; [reflexivity|]. destruct (const_range c _ _ v PP Hc Hv) as [_ Ne]. rewrite Ne.
  apply (half_ok c (prec_up p) rm (if is_negative x then invert_rm_for_sign rm else rm)); auto. unfold is_negative. destruct (is_pos (ns x)); reflexivity.
Qed.

(** ** atan at the infinities *)
Lemma half_pi_ok pi p rm c v s : 0 < p -> prec_up p < P_LIM -> (3 <= c <= 7 / 2)%R -> pi p rm = Ok v -> const_result c 2 (prec_up p) rm v ->
  half_pi pi s p rm = Ok (set_sign (set_exponent v 1) s) /\
  half_result c (prec_up p) (if is_pos s then rm else invert_rm_for_sign rm) s (set_sign (set_exponent v 1) s).
Proof.
  intros Hp HP Hc E C. unfold half_pi. rewrite E. cbn [bind]. split; [reflexivity|]. assert (PP : 64 <= prec_up p) by (unfold prec_up; dlia).
  apply (half_ok c _ _ rm); auto. destruct s; cbn [is_pos]; [|reflexivity]. destruct rm; reflexivity.
Qed.

(** The series value that stands for pi is in the range assumed above. *)
Lemma chud_range S : chud_limit S -> (3 <= chud_value S <= 7 / 2)%R.
Proof.
  intros H. pose proof (chud_limit_small S H) as L. apply Rabs_le_inv in L. pose proof sqrt_range as Q. unfold chud_value. set (s := sqrt 10005) in *.
  assert (D : (0 < 13591409 + S)%R) by lra. split; apply Rmult_le_reg_r with (13591409 + S)%R; auto; unfold Rdiv; rewrite ?(Rmult_assoc (426880 * s)), Rinv_l by lra; lra.
Qed.

Theorem x_atan_inf f pi s p rm c v : 0 < p -> prec_up p < P_LIM -> (3 <= c <= 7 / 2)%R -> pi p rm = Ok v -> const_result c 2 (prec_up p) rm v ->
  exists q, x_atan f pi (Inf s) p rm = Ok (Value q) /\ half_result c (prec_up p) (if is_pos s then rm else invert_rm_for_sign rm) s q.
Proof.
  intros Hp HP Hc E C. pose proof (half_pi_ok pi p rm c v s Hp HP Hc E C) as [E1 E2]. eexists. split; [|exact E2].
  unfold x_atan, x_wrap_r. destruct s; cbn [is_pos]; rewrite E1; reflexivity.
Qed.

(** With the mode Up the result at minus infinity is below -c/2. *)
Theorem x_atan_neg_inf_wrong f pi p c v : 0 < p -> prec_up p < P_LIM -> (3 <= c <= 7 / 2)%R -> pi p RUp = Ok v -> const_result c 2 (prec_up p) RUp v ->
  exists q, x_atan f pi (Inf Neg) p RUp = Ok (Value q) /\ (value q < - (c / 2))%R.
Proof.
  intros Hp HP Hc E C. destruct (x_atan_inf f pi Neg p RUp c v Hp HP Hc E C) as (q & Eq & Hq). exists q. split; [exact Eq|].
  destruct Hq as (W & L & S1 & _ & Vd). cbn [is_pos invert_rm_for_sign sgnZ] in Vd. specialize (Vd ltac:(discriminate) eq_refl).
  assert (LE : (value q <= -1 * (c / 2))%R). { rewrite Vd. unfold rnd_prec, rnd. apply round_DN_pt. apply FLX_exp_valid. exact (prec_up_pos p Hp). }
  destruct (Req_dec (value q) (-1 * (c / 2))) as [Q|Q]; [|lra]. exfalso.
  destruct C as (Wv & Lv & Sv & _ & _ & Cd). destruct (Cd ltac:(discriminate) eq_refl) as (Cv & Cn). apply Cn. rewrite Cv.
  assert (Ec : c = (- value q * bpow radix2 1)%R) by (change (bpow radix2 1) with 2%R; lra).
  unfold rnd_prec. apply round_generic; [apply rnd_valid|]. rewrite Ec.
  assert (G : generic_format radix2 (FLX_exp (prec_up p)) (value q)). { rewrite Vd. unfold rnd_prec. apply generic_format_round; [apply FLX_exp_valid; exact (prec_up_pos p Hp)|apply rnd_valid]. }
  apply generic_format_opp in G. assert (PV : Prec_gt_0 (prec_up p)) by exact (prec_up_pos p Hp). apply FLX_format_generic in G; [|exact PV]. destruct G as [[m e] G1 G2]. cbn [Fnum] in G2.
  apply generic_format_FLX. exists (Float radix2 m (e + 1)); [|exact G2]. rewrite G1. unfold F2R. cbn [Fnum Fexp]. rewrite bpow_plus. ring.
Qed.

(** ** The other functions at the infinities *)
Theorem x_exp_inf f p rm : 0 < p -> prec_up p < P_LIM -> x_exp f (Inf Pos) p rm = Ok (Inf Pos) /\
  exists q, x_exp f (Inf Neg) p rm = Ok (Value q) /\ wf q /\ value q = 0%R /\ ns q = Pos /\ ninexact q = false /\ 64 * wlen q = prec_up p.
Proof.
  intros Hp HP. split; [reflexivity|]. unfold x_exp, x_wrap_r. cbn [is_pos]. unfold x_new.
  destruct (zero_exact p (n_new p) ltac:(lia) HP eq_refl) as (q & -> & Wq & Lq & Sq & Iq & Vq). exists q. split; [reflexivity|]. auto.
Qed.

Theorem x_tanh_inf f s p rm : 0 < p -> prec_up p < P_LIM ->
  (p < 8 -> x_tanh f (Inf s) p rm = Ok (NaN (Some InvalidArgument))) /\
  (8 <= p -> exists q, x_tanh f (Inf s) p rm = Ok (Value q) /\ wf q /\ value q = IZR (sgnZ s) /\ ninexact q = false /\ 64 * wlen q = prec_up p).
Proof.
  intros Hp HP. assert (T : 1 < 2 ^ 63) by reflexivity. destruct (from_int_spec 8 (sgnZ s) p ltac:(lia) ltac:(destruct s; cbn [sgnZ]; lia) HP) as [A B].
  assert (E : x_tanh f (Inf s) p rm = result_to_ext (from_int 8 (sgnZ s) p) false true) by (destruct s; reflexivity). rewrite E. split; intros H.
  - rewrite (A H). reflexivity.
  - destruct (B H) as (q & -> & Wq & Lq & Iq & Vq & _). exists q. split; [reflexivity|]. auto.
Qed.
