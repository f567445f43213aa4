(** The hyperbolic tangent. *)

From Coq Require Import ZArith List Bool Lia Reals Lra.
From Flocq Require Import Core.
From Verif Require Import Words IntModel Mantissa Num Pow Consts Elem Series Exp Hyp SpecZ SpecOps SpecConst SpecReach SpecPow SpecElem WordsP Spec RealP RealP2 NumP CmpP SetP AddNum DivNum ArithTop ConvNum Conv2Num RoundableNum PowP PowExt ConstNum ConstReach SmallP ElemR ElemNum ElemDom ApproxR ApproxNum SeriesNum SinhTop ExpNum RetryNum ExpTop HypNum HypTop.
Import ListNotations.
Open Scope Z_scope.
Ltac Zify.zify_post_hook ::= idtac.
Arguments Z.mul : simpl never.
Arguments Z.add : simpl never.
Arguments Z.pow : simpl never.
Arguments Z.sub : simpl never.
Arguments Z.of_nat : simpl never.
Ltac dlia := Z.div_mod_to_equations; lia.

(** ** Results next to one *)
Lemma round_below_one p f t : 0 < p -> (1 - bpow radix2 (- p) < Rabs t < 1)%R -> round radix2 (FLX_exp p) f t = (IZR (f (t * bpow radix2 p)) * bpow radix2 (- p))%R.
Proof.
  intros Hp H. assert (B : (bpow radix2 (- p) <= / 2)%R) by (change (/ 2)%R with (bpow radix2 (-1)); apply bpow_le; lia).
  assert (M : mag radix2 t = 0 :> Z). { apply mag_unique. change (bpow radix2 (0 - 1)) with (/ 2)%R. change (bpow radix2 0) with 1%R. lra. }
  unfold round, F2R, scaled_mantissa, cexp, FLX_exp. cbn [Fnum Fexp]. cbv zeta. rewrite M. replace (0 - p) with (- p) by lia. rewrite Z.opp_involutive. reflexivity.
Qed.
Definition toward_zero (rm : rmode) (s : sign) : bool :=
  match rm, s with RToZero, _ | RDown, Pos | RUp, Neg => true | _, _ => false end.
Lemma near_one p rm s t : 0 < p -> has_sign s t -> (1 - bpow radix2 (- p) < Rabs t < 1)%R -> nearest rm = false -> rm <> RNone ->
  rnd_prec p rm t = (IZR (sgnZ s) * (if toward_zero rm s then 1 - bpow radix2 (- p) else 1))%R.
Proof.
  intros Hp S H Hn HN. unfold rnd_prec. rewrite round_below_one by assumption. assert (PP : (bpow radix2 p * bpow radix2 (- p) = 1)%R) by (rewrite <- bpow_plus; replace (p + - p) with 0 by lia; reflexivity).
  pose proof (bpow_gt_0 radix2 p) as P0. assert (EP : bpow radix2 p = IZR (2 ^ p)) by (apply bpow_IZR; lia).
  assert (A : (IZR (2 ^ p) - 1 < Rabs t * bpow radix2 p < IZR (2 ^ p))%R). { rewrite <- EP. split; [|nra]. apply Rle_lt_trans with ((1 - bpow radix2 (- p)) * bpow radix2 p)%R; [lra|]. apply Rmult_lt_compat_r; lra. }
  set (u := (t * bpow radix2 p)%R). unfold has_sign in S. destruct s; cbn [sgnZ] in *.
  - rewrite Rabs_left in A by lra. assert (U : (- IZR (2 ^ p) < u < - IZR (2 ^ p) + 1)%R) by (unfold u; lra).
    assert (FL : Zfloor u = - 2 ^ p) by (apply Zfloor_imp; rewrite plus_IZR, opp_IZR; lra). assert (CL : Zceil u = - 2 ^ p + 1) by (apply Zceil_imp; rewrite minus_IZR, plus_IZR, opp_IZR; lra).
    assert (U0 : (u <= 0)%R) by (unfold u; nra).
    destruct rm; try (now elim HN); try discriminate Hn; cbn [rnd toward_zero].
    + rewrite CL, plus_IZR, opp_IZR, <- EP. lra.
    + rewrite FL, opp_IZR, <- EP. lra.
    + rewrite Ztrunc_ceil, CL, plus_IZR, opp_IZR, <- EP by exact U0. lra.
    + rewrite Zaway_floor, FL, opp_IZR, <- EP by exact U0. lra.
  - rewrite Rabs_pos_eq in A by lra. assert (U : (IZR (2 ^ p) - 1 < u < IZR (2 ^ p))%R) by (unfold u; lra).
    assert (FL : Zfloor u = 2 ^ p - 1) by (apply Zfloor_imp; rewrite plus_IZR, minus_IZR; lra). assert (CL : Zceil u = 2 ^ p) by (apply Zceil_imp; rewrite minus_IZR; lra).
    assert (U0 : (0 <= u)%R) by (unfold u; nra).
    destruct rm; try (now elim HN); try discriminate Hn; cbn [rnd toward_zero].
    + rewrite CL, <- EP. lra.
    + rewrite FL, minus_IZR, <- EP. lra.
    + rewrite Ztrunc_floor, FL, minus_IZR, <- EP by exact U0. lra.
    + rewrite Zaway_ceil, CL, <- EP by exact U0. lra.
Qed.

Theorem process_large_ok x p rm r : 64 <= p -> p mod 64 = 0 -> p < P_LIM -> has_sign (ns x) r -> (1 - bpow radix2 (- p - 66) < Rabs r < 1)%R ->
  exists q, process_large_exp x p rm = Ok q /\ elem_result r p rm q.
Proof.
  intros Hp Hp64 HP S R. assert (PU : prec_up p = p) by (unfold prec_up; clear - Hp64; dlia).
  assert (B0 : (bpow radix2 (- p - 66) <= / 4)%R) by (change (/ 4)%R with (bpow radix2 (-2)); apply bpow_le; lia). assert (B1 : (bpow radix2 (- p - 66) <= bpow radix2 (- p))%R) by (apply bpow_le; lia).
  assert (SI : sign_int (ns x) = sgnZ (ns x)) by (destruct (ns x); reflexivity).
  assert (AB : (Rabs (r - IZR (sgnZ (ns x))) = 1 - Rabs r)%R). { unfold has_sign in S. destruct (ns x); cbn [sgnZ] in *; [rewrite (Rabs_left r) in * by lra; rewrite Rabs_pos_eq by lra; lra|rewrite (Rabs_pos_eq r) in * by lra; rewrite Rabs_left by lra; lra]. }
  assert (CL : close p r (IZR (sgnZ (ns x)))). { unfold close. rewrite Rabs_minus_sym, AB. replace (- (p + 64)) with (- p - 66 + 2) by lia. rewrite bpow_plus. change (bpow radix2 2) with 4%R. pose proof (bpow_gt_0 radix2 (- p - 66)). nra. }
  assert (TW : (match rm with RToZero => true | RDown => is_positive x | RUp => negb (is_positive x) | _ => false end) = toward_zero rm (ns x)) by (unfold is_positive; destruct rm, (ns x); reflexivity).
  unfold process_large_exp. cbv zeta. rewrite TW. destruct (toward_zero rm (ns x)) eqn:ET.
  - destruct (max_value_spec p ltac:(lia) ltac:(lia)) as (q & _ & EQ & _ & Wq & _ & Lq & _ & Nq & _ & Sq & _ & _ & Vq & _). assert (NQ : ne q = EMAX). { unfold max_value in EQ. rewrite p_assertion_ok in EQ by lia. cbn [bind] in EQ. injection EQ as <-. reflexivity. } rewrite EQ. cbn [bind]. eexists. split; [reflexivity|].
    set (v := set_inexact _ true). rewrite PU in *.
    pose proof (set_exponent_spec (set_sign q (ns x)) 0 (wf_set_sign q (ns x) Wq) ltac:(lia)) as SE. cbv zeta in SE. destruct SE as (Wv & Lv & Sv & _ & Vv). set (u := set_exponent (set_sign q (ns x)) 0) in *. change (ns (set_sign q (ns x))) with (ns x) in Sv. change (ne (set_sign q (ns x))) with (ne q) in Vv. change (wlen (set_sign q (ns x))) with (wlen q) in Lv.
    assert (EV : value u = (IZR (sgnZ (ns x)) * (1 - bpow radix2 (- p)))%R). { rewrite Vv, value_set_sign, Sq, Vq, NQ. unfold F2R. cbn [Fnum Fexp sgnZ]. rewrite minus_IZR, <- bpow_IZR by lia. rewrite Rmult_1_r, !Rmult_assoc, <- bpow_plus. replace (EMAX - p + (0 - EMAX)) with (- p) by lia. rewrite Rmult_minus_distr_r, <- bpow_plus. replace (p + - p) with 0 by lia. change (bpow radix2 0) with 1%R. ring. }
    change (value v) with (value u). change (ns v) with (ns u). assert (HD : nearest rm = false /\ rm <> RNone) by (destruct rm, (ns x); try discriminate ET; split; try reflexivity; discriminate). destruct HD as [Hn HN].
    assert (VR : value u = rnd_prec p rm r) by (rewrite (near_one p rm (ns x) r ltac:(lia) S ltac:(lra) Hn HN), ET; exact EV).
    split; [now apply wf_inexact|]. split; [change (64 * wlen u = p); lia|]. split; [change (has_sign (ns u) r); rewrite Sv; exact S|]. split; [reflexivity|]. split; [|intros _ _; exact VR]. exists r. split; [|exact VR]. unfold close. replace (r - r)%R with 0%R by ring. rewrite Rabs_R0. apply Rmult_le_pos; [apply Rabs_pos|apply bpow_ge_0].
  - destruct (from_int_spec 8 (sign_int (ns x)) p ltac:(lia)) as [_ F]; [rewrite SI; destruct (ns x); cbn [sgnZ]; split; [intros Q; vm_compute in Q; discriminate|reflexivity|intros Q; vm_compute in Q; discriminate|reflexivity]|lia|].
    destruct (F ltac:(lia)) as (o & -> & Wo & Lo & _ & Vo & So). cbn [bind]. eexists. split; [reflexivity|]. rewrite SI in Vo.
    split; [now apply wf_inexact|]. split; [change (64 * wlen o = p); lia|]. split; [change (has_sign (ns o) r); rewrite So, SI; destruct (ns x); exact S|]. split; [reflexivity|]. change (value (set_inexact o true)) with (value o). rewrite Vo. split.
    + exists (IZR (sgnZ (ns x))). split; [exact CL|]. symmetry. apply prec_id; [lia|]. destruct (ns x); cbn [sgnZ]; [change (IZR (-1)) with (- bpow radix2 0)%R; apply generic_format_opp|change (IZR 1) with (bpow radix2 0)]; apply generic_format_bpow; unfold FLX_exp; lia.
    + intros Hn HN. rewrite (near_one p rm (ns x) r ltac:(lia) S ltac:(lra) Hn HN), ET. ring.
Qed.

(** ** The quotient *)
Lemma tanh_exp t : tanh t = ((exp (2 * t) - 1) / (exp (2 * t) + 1))%R.
Proof.
  unfold tanh, sinh, cosh. rewrite exp_Ropp. replace (2 * t)%R with (t + t)%R by ring. rewrite exp_plus. pose proof (exp_pos t). field. repeat split; nra.
Qed.
Lemma tanh_large t n : (bpow radix2 n <= exp (2 * t))%R -> (0 < t)%R -> (1 - bpow radix2 (1 - n) < tanh t < 1)%R.
Proof.
  intros E T. rewrite tanh_exp. set (y := exp (2 * t)) in *. pose proof (bpow_gt_0 radix2 n) as B. assert (Y : (0 < y)%R) by lra. clearbody y.
  replace ((y - 1) / (y + 1))%R with (1 - 2 * / (y + 1))%R by (field; lra). unfold Zminus. rewrite bpow_plus, bpow_opp. change (bpow radix2 1) with 2%R.
  assert (I0 : (0 < / (y + 1))%R) by (apply Rinv_0_lt_compat; lra). assert (I1 : (/ (y + 1) < / bpow radix2 n)%R) by (apply Rinv_lt_contravar; [apply Rmult_lt_0_compat; lra|lra]). lra.
Qed.

(** The exponential, rounded away from zero. *)
Definition exp_away (P : Z) (X : R) (v : num) : Prop :=
  wf v /\ normal v /\ ns v = Pos /\ 64 * wlen v = P /\ ninexact v = true /\ (exp X <= value v <= exp X * (1 + bpow radix2 (1 - P)))%R.
Lemma exp_from_zero h g c x p P : prec_up p = P -> 64 <= P -> 0 < p -> reachable e_new e_for_prec c -> wf x -> nonzero x -> ns x = Pos -> 64 * wlen x <= P -> work h (P + 64) 64 + 64 <= 2 ^ 20 ->
  match n_exp h g c x p RFromZero with
  | None => True
  | Some (c', res) => reachable e_new e_for_prec c' /\ (match res with
     | Ok v => exp_away P (value x) v
     | Err (ExponentOverflow _) => (bpow radix2 (EMAX - 1) <= exp (value x))%R
     | _ => False end)
  end.
Proof.
  intros E HP Hp Hc W N S L HB. pose proof (exp_ok h g c x p RFromZero Hc W N Hp) as H. rewrite E, Z.max_l in H by exact L. specialize (H HB). destruct (n_exp h g c x p RFromZero) as [[c' res]|]; [|exact I].
  destruct H as [Hc' H]. split; [exact Hc'|]. pose proof (value_has_sign x W N) as V. rewrite S in V. unfold has_sign in V. cbn [sgnZ] in V. assert (E1 : (1 <= exp (value x))%R) by (apply exp_ge1; lra).
  assert (HP0 : 0 < P) by lia. destruct res as [v|[t| | |]|]; cbn [exp_post] in H; try contradiction.
  - destruct H as [H|[H _]]; [|exfalso; lra]. destruct H as (Wv & Lv & Sv & Iv & _ & D). specialize (D eq_refl ltac:(discriminate)). pose proof (away_bounds P (exp (value x)) HP0) as A. rewrite <- D in A. rewrite (Rabs_pos_eq (exp _)) in A by lra.
    assert (Sp : ns v = Pos). { unfold has_sign in Sv. destruct (ns v); [cbn [sgnZ] in Sv; exfalso; lra|reflexivity]. }
    assert (Nv : normal v). { apply normal_iff; [exact Wv|]. eapply Rle_trans; [|apply A]. eapply Rle_trans; [|exact E1]. change 1%R with (bpow radix2 0). apply bpow_le. vm_compute. discriminate. }
    split; [exact Wv|]. split; [exact Nv|]. split; [exact Sp|]. split; [exact Lv|]. split; [exact Iv|]. rewrite (pos_value v Wv (proj2 Nv) Sp) in A. exact A.
  - destruct H as (_ & a & C & B). pose proof (away_bounds P a HP0) as [_ A]. unfold close in C. rewrite (Rabs_pos_eq (exp _)) in C by lra.
    assert (B1 : (bpow radix2 (1 - P) <= / 4)%R) by (change (/ 4)%R with (bpow radix2 (-2)); apply bpow_le; lia). assert (B2 : (bpow radix2 (- (P + 64)) <= / 4)%R) by (change (/ 4)%R with (bpow radix2 (-2)); apply bpow_le; lia).
    assert (AB : (Rabs a <= exp (value x) + exp (value x) * / 4)%R). { replace a with (exp (value x) + (a - exp (value x)))%R by ring. eapply Rle_trans; [apply Rabs_triang|]. rewrite (Rabs_pos_eq (exp _)) by lra. apply Rplus_le_compat_l. eapply Rle_trans; [exact C|]. apply Rmult_le_compat_l; lra. }
    unfold Zminus. rewrite bpow_plus. change (bpow radix2 (-(1))) with (/ 2)%R. eapply Rle_trans in A; [|exact B]. set (b := bpow radix2 EMAX) in *. clearbody b. pose proof (bpow_gt_0 radix2 (1 - P)) as B3. set (d := bpow radix2 (1 - P)) in *. clearbody d. clear - A AB B1 B3 E1. pose proof (Rabs_pos a). nra.
Qed.

Lemma tanh_quotient P p k X v : 128 <= P <= 2 ^ 20 + 64 -> prec_up p = P -> 0 < p -> exp_away P X v -> 0 <= k -> (bpow radix2 (- k) <= X)%R -> k + 4 <= P -> ne v <= 2 ^ 21 ->
  exists d1 d2 ret, n_sub v ONE p RNone = Ok d1 /\ n_add v ONE p RNone = Ok d2 /\ n_div d1 d2 p RNone = Ok ret /\ wf ret /\ normal ret /\ ns ret = Pos /\ 64 * wlen ret = P /\ ninexact ret = true /\
    lc (bpow radix2 (k + 2 - P) + 4 * eps P) ((exp X - 1) / (exp X + 1)) (Rabs (value ret)).
Proof.
  intros HP E Hp (Wv & Nv & Sv & Lv & Iv & V1 & V2) Hk HX HkP Hne. set (Ex := exp X) in *. set (y := value v) in *. set (dl := bpow radix2 (1 - P)) in *. assert (D0 : (0 < dl)%R) by apply bpow_gt_0.
  assert (HL : prec_up p < P_LIM) by (rewrite E; apply Z.le_lt_trans with (2 ^ 21); [lia|vm_compute; reflexivity]).
  pose proof (bpow_gt_0 radix2 (- k)) as K0. assert (X1 : (X <= Ex - 1)%R) by (unfold Ex; pose proof (exp_ineq1_le X); lra). pose proof (eps_pos P) as EP. assert (ED : eps P = (2 * dl)%R) by (unfold eps, dl; replace (2 - P) with (1 + (1 - P)) by lia; rewrite bpow_plus; reflexivity).
  pose proof (eps_quarter P 4 ltac:(lia) ltac:(lia)) as EQ.
  (* v - 1 *)
  assert (K1 : (bpow radix2 (- k) * bpow radix2 k = 1)%R) by (rewrite <- bpow_plus; replace (- k + k) with 0 by lia; reflexivity). assert (K2 : (1 <= bpow radix2 k)%R) by (change 1%R with (bpow radix2 0); apply bpow_le; lia).
  assert (L1 : lc (bpow radix2 (k + 2 - P)) (Ex - 1) (y - 1)).
  { apply lc_tail; [lra|left; apply bpow_gt_0|]. split; [lra|]. replace (k + 2 - P) with (k + 1 + (1 - P)) by lia. rewrite !bpow_plus. fold dl. change (bpow radix2 1) with 2%R.
    assert (Ex <= 2 * bpow radix2 k * (Ex - 1))%R by (assert (1 <= bpow radix2 k * (Ex - 1))%R by (rewrite <- K1; rewrite Rmult_comm; apply Rmult_le_compat_l; lra); nra). assert (Ex * dl <= 2 * bpow radix2 k * (Ex - 1) * dl)%R by (apply Rmult_le_compat_r; lra). lra. }
  pose proof (lc_pos _ _ _ L1) as Y1.
  assert (BK : (bpow radix2 (k + 2 - P) <= / 4)%R) by (change (/ 4)%R with (bpow radix2 (-2)); apply bpow_le; lia).
  assert (KL : (bpow radix2 EMIN <= bpow radix2 (- k))%R) by (apply bpow_le; apply Z.le_trans with (- 2 ^ 21); [vm_compute; discriminate|lia]).
  pose proof (add_sub_nonzero v ONE p (-1) RNone Wv ONE_wf (proj2 Nv) ONE_nonzero (or_intror eq_refl) Hp HL) as [C1 _]. pose proof (add_sub_nonzero v ONE p 1 RNone Wv ONE_wf (proj2 Nv) ONE_nonzero (or_introl eq_refl) Hp HL) as [C2 _].
  rewrite ONE_value, Iv, E in C1, C2. fold y in C1, C2. cbn [orb] in C1, C2. replace (y + -1 * 1)%R with (y - 1)%R in C1 by ring. replace (y + 1 * 1)%R with (y + 1)%R in C2 by ring.
  assert (PS : forall s t, (0 < t)%R -> has_sign s t -> s = Pos). { intros s t T. unfold has_sign. destruct s; cbn [sgnZ]; [intros; exfalso; lra|reflexivity]. }
  destruct (C1 ltac:(lra)) as (s1 & S1 & R1). rewrite (PS s1 (y - 1)%R Y1 S1) in R1. destruct (C2 ltac:(lra)) as (s2 & S2 & R2). rewrite (PS s2 (y + 1)%R ltac:(lra) S2) in R2. clear C1 C2.
  assert (YB : (y + 1 <= bpow radix2 (EMAX - 1))%R). { pose proof (normal_range v Wv Nv) as [_ B]. fold y in B. rewrite Rabs_pos_eq in B by lra. assert (HM : 0 <= 2 ^ 21 /\ 2 ^ 21 + 1 <= EMAX - 1) by (split; vm_compute; discriminate). set (n := 2 ^ 21) in *. clearbody n. apply Rle_trans with (bpow radix2 (n + 1)); [|apply bpow_le; apply HM]. rewrite bpow_plus. change (bpow radix2 1) with 2%R. assert (bpow radix2 (ne v) <= bpow radix2 n)%R by (apply bpow_le; exact Hne). assert (1 <= bpow radix2 n)%R by (change 1%R with (bpow radix2 0); apply bpow_le; apply HM). lra. }
  assert (NB : forall r, (0 <= r <= y + 1)%R -> ~ (bpow radix2 EMAX <= r * exp (eps P))%R). { intros r Hr B. pose proof (exp_upper (eps P) ltac:(lra)) as U. unfold Zminus in YB. rewrite bpow_plus in YB. change (bpow radix2 (-(1))) with (/ 2)%R in YB. pose proof (bpow_gt_0 radix2 EMAX) as B0. set (b := bpow radix2 EMAX) in *. clearbody b. set (e := exp (eps P)) in *. clearbody e. clear - Hr B U YB B0 EQ EP. nra. }
  assert (RA1 : Rabs (y - 1) = (y - 1)%R) by (apply Rabs_pos_eq; lra). assert (RA2 : Rabs (y + 1) = (y + 1)%R) by (apply Rabs_pos_eq; lra).
  destruct (cut_wide P P RNone _ Pos true _ R1 ltac:(lia) ltac:(rewrite RA1; eapply Rle_trans; [exact KL|lra])) as [(d1 & E1 & W1 & N1 & Sg1 & Ln1 & LC1 & I1)|[_ O]]; [|exfalso; rewrite RA1 in O; refine (NB _ _ O); lra].
  destruct (cut_wide P P RNone _ Pos true _ R2 ltac:(lia) ltac:(rewrite RA2; eapply Rle_trans; [exact KL|]; assert (bpow radix2 (- k) <= 1)%R by (change 1%R with (bpow radix2 0); apply bpow_le; lia); lra)) as [(d2 & E2 & W2 & N2 & Sg2 & Ln2 & LC2 & I2)|[_ O]]; [|exfalso; rewrite RA2 in O; refine (NB _ _ O); lra].
  rewrite RA1 in LC1. rewrite RA2 in LC2.
  assert (L2 : lc (eps P) (Ex + 1) (y + 1)) by (apply lc_tail; [lra|lra|split; [lra|rewrite ED; nra]]).
  pose proof (lc_div _ _ _ _ _ _ (lc_trans _ _ _ _ _ L1 LC1) (lc_trans _ _ _ _ _ L2 LC2)) as LD. replace (Rabs (value d1) / Rabs (value d2))%R with (Rabs (value d1 / value d2)) in LD by (unfold Rdiv; rewrite Rabs_mult, Rabs_inv; reflexivity).
  pose proof (div_nonzero d1 d2 p RNone W1 W2 (proj2 N1) (proj2 N2) Hp HL) as CD. rewrite E, Sg1, Sg2, (I1 eq_refl) in CD. change (sign_mul Pos Pos) with Pos in CD. cbn [orb] in CD.
  set (Q := ((Ex - 1) / (Ex + 1))%R) in *. assert (Q1 : (bpow radix2 (- k) * / 4 <= Q <= 1)%R).
  { assert (EI : (0 < / (Ex + 1))%R) by (apply Rinv_0_lt_compat; lra). assert (EE : ((Ex + 1) * / (Ex + 1) = 1)%R) by (apply Rinv_r; lra). unfold Q, Rdiv. assert (bpow radix2 (- k) <= 1)%R by (change 1%R with (bpow radix2 0); apply bpow_le; lia). set (b := bpow radix2 (- k)) in *. clearbody b. set (i := (/ (Ex + 1))%R) in *. clearbody i. clear - EI EE H X1 HX K0. split; [|nra].
    destruct (Rle_or_lt Ex 2); [assert (/ 3 <= i)%R by nra; nra|]. assert (/ 3 <= (Ex - 1) * i)%R by nra. lra. }
  set (dd := (_ + _ + _)%R) in LD. assert (DD : (dd <= 1)%R) by (unfold dd; lra). pose proof (lc_factor _ _ _ DD LD) as [F1 F2].
  assert (RL : (bpow radix2 EMIN <= Rabs (value d1 / value d2))%R). { apply Rle_trans with (bpow radix2 (- k - 4)); [apply bpow_le; apply Z.le_trans with (- 2 ^ 21); [vm_compute; discriminate|lia]|]. unfold Zminus. rewrite bpow_plus. change (bpow radix2 (-(4))) with (/ 16)%R. lra. }
  destruct (cut_wide P P RNone _ Pos true _ CD ltac:(lia) RL) as [(ret & E3 & W3 & N3 & Sg3 & Ln3 & LC3 & I3)|[_ O]].
  - exists d1, d2, ret. split; [exact E1|]. split; [exact E2|]. split; [exact E3|]. split; [exact W3|]. split; [exact N3|]. split; [exact Sg3|]. split; [exact Ln3|]. split; [exact (I3 eq_refl)|].
    eapply lc_weak; [|exact (lc_trans _ _ _ _ _ LD LC3)]. unfold dd. lra.
  - exfalso. pose proof (exp_upper (eps P) ltac:(lra)) as U. assert (B : (16 <= bpow radix2 EMAX)%R) by (change 16%R with (bpow radix2 4); apply bpow_le; vm_compute; discriminate). set (b := bpow radix2 EMAX) in *. clearbody b. set (e := exp (eps P)) in *. clearbody e. set (z := Rabs (value d1 / value d2)) in *. clearbody z. clear - O U B F2 Q1 EQ EP F1 K0. nra.
Qed.

(** ** The loop *)
Lemma no_overflow r p rm s : 0 < p -> (Rabs r <= 1)%R -> ~ elem_overflow r p rm s.
Proof.
  intros Hp R (_ & a & C & B). assert (A : (Rabs a <= bpow radix2 1)%R).
  { change (bpow radix2 1) with 2%R. unfold close in C. replace a with (r + (a - r))%R by ring. eapply Rle_trans; [apply Rabs_triang|]. assert (bpow radix2 (- (p + 64)) <= 1)%R by (change 1%R with (bpow radix2 0); apply bpow_le; lia). pose proof (bpow_gt_0 radix2 (- (p + 64))). pose proof (Rabs_pos r). assert (Rabs r * bpow radix2 (- (p + 64)) <= 1 * 1)%R by (apply Rmult_le_compat; lra). lra. }
  assert (D : (Rabs (rnd_prec p rm a) <= bpow radix2 1)%R). { pose proof (flx_valid p Hp) as V. unfold rnd_prec. destruct rm; cbn [rnd]; apply abs_round_le_generic; auto; try typeclasses eauto; apply generic_format_bpow; unfold FLX_exp; lia. }
  assert (F : EMAX <= 1) by (apply (le_bpow radix2); eapply Rle_trans; [exact B|exact D]). revert F. vm_compute. intros F. now apply F.
Qed.
Definition tanh_outcome (r : R) (p : Z) (rm : rmode) (o : crun num) : Prop :=
  match o with
  | None => True
  | Some (c', res) => reachable e_new e_for_prec c' /\ exists q, res = Ok q /\ elem_result r p rm q
  end.
Lemma accept_tanh c ret x0 p rm w again r s d : reachable e_new e_for_prec c -> has_sign s r -> (Rabs r <= 1)%R -> wf ret -> normal ret -> lc d (Rabs r) (Rabs (value ret)) -> w + 64 <= 64 * wlen ret -> ninexact ret = true -> (0 <= d <= 3 / 8 * bpow radix2 (- w))%R ->
  0 < p -> p mod 64 = 0 -> w mod 64 = 0 -> p + 64 <= w -> tanh_outcome r p rm again -> tanh_outcome r p rm (accept c (set_sign ret s) x0 p rm w again).
Proof.
  intros Hc S R1 Wr Nr LCr Lr Ir HK Hp Hp64 Hw64 Hpw HA. unfold accept.
  assert (Ws : wf (set_sign ret s)) by now apply wf_set_sign. assert (Vs : Rabs (value (set_sign ret s)) = Rabs (value ret)) by apply abs_set_sign.
  pose proof (accept_gen r (set_sign ret s) p rm w d Ws Nr Ir Lr S) as A. rewrite Vs in A. specialize (A LCr HK Hp Hp64 Hw64 Hpw).
  destruct (try_set_precision (set_sign ret s) p rm w) as [[y [|]]|[t| | |]|]; try contradiction; cbn [tanh_outcome].
  - split; [exact Hc|]. eexists. split; [reflexivity|]. now apply elem_mark.
  - exact HA.
  - exfalso. exact (no_overflow _ _ _ _ Hp R1 A).
Qed.

Section Loop.
Context (x0 z : num) (p : Z) (rm : rmode) (h g : nat) (k : Z).
Hypotheses (W0 : wf x0) (N0 : nonzero x0) (Hp : 0 < p) (Hp64 : p mod 64 = 0) (Sz : ns z = Pos) (Vz : value z = (2 * Rabs (value x0))%R) (Hk : 0 <= k) (Hz : (bpow radix2 (- k) <= value z)%R).

Let T := tanh (value x0).
Lemma T_abs : Rabs T = tanh (Rabs (value x0)) /\ has_sign (ns x0) T.
Proof.
  pose proof (value_has_sign x0 W0 N0) as V. unfold has_sign in *. unfold T. destruct (ns x0); cbn [sgnZ] in *.
  - rewrite (Rabs_left (value x0)) by lra. pose proof (tanh_pos (- value x0) ltac:(lra)) as P1. rewrite tanh_neg in *. rewrite Rabs_left by lra. split; [reflexivity|lra].
  - rewrite (Rabs_pos_eq (value x0)) by lra. pose proof (tanh_pos (value x0) ltac:(lra)) as P1. rewrite Rabs_pos_eq by lra. split; [reflexivity|lra].
Qed.
Lemma T_one : (Rabs T <= 1)%R.
Proof.
  rewrite (proj1 T_abs), tanh_exp. set (t := exp _). assert (0 < t)%R by apply exp_pos. clearbody t. apply Rmult_le_reg_r with (t + 1)%R; [lra|]. unfold Rdiv. rewrite Rmult_assoc, Rinv_l by lra. lra.
Qed.
Lemma T_large c n : reachable e_new e_for_prec c -> p + 67 <= n -> p < P_LIM -> (bpow radix2 n <= exp (value z))%R -> tanh_outcome T p rm (Some (c, process_large_exp x0 p rm)).
Proof.
  intros Hc Hn HP B. destruct T_abs as [TA TS]. rewrite Vz in B. assert (X0 : (0 < Rabs (value x0))%R) by (pose proof (value_has_sign x0 W0 N0) as V; apply Rabs_pos_lt; intros E; rewrite E in V; unfold has_sign in V; lra).
  pose proof (tanh_large _ n B X0) as L. destruct (process_large_ok x0 p rm T ltac:(clear - Hp Hp64; dlia) Hp64 HP TS) as (q & Eq & Rq).
  - rewrite TA. assert (bpow radix2 (1 - n) <= bpow radix2 (- p - 66))%R by (apply bpow_le; lia). lra.
  - split; [exact Hc|]. exists q. split; [exact Eq|exact Rq].
Qed.

Theorem tanh_loop_ok : forall f c x w i, reachable e_new e_for_prec c -> argument z (w + (4 + k)) x -> ns x = Pos ->
  p + 64 <= w -> w mod 64 = 0 -> 64 <= i -> i mod 64 = 0 -> 128 <= w -> work h (work f w i + k + 192) 64 + 64 <= 2 ^ 20 -> tanh_outcome T p rm (tanh_loop f h g c x0 x p rm (4 + k) w i).
Proof.
  induction f as [|f IH]; intros c x w i Hc HX S Hpw Hw64 Hi Hi64 Hw HB; [exact I|].
  pose proof (work_ge (Datatypes.S f) w i ltac:(lia) ltac:(lia)) as HG. pose proof (work_ge h (work (Datatypes.S f) w i + k + 192) 64 ltac:(lia) ltac:(lia)) as HH. change (work (Datatypes.S f) w i) with (work f (w + i) (64 * (((w + i) / 5 + 63) / 64))) in HB, HG, HH.
  pose proof (work_ge f (w + i) (64 * (((w + i) / 5 + 63) / 64)) ltac:(lia) ltac:(clear - Hw Hi; dlia)) as HG2.
  set (px := w + (4 + k)) in *. set (P := prec_up px) in *. assert (HP : px <= P <= px + 63 /\ w + 64 <= P) by (unfold P, prec_up, px; clear - Hw64 Hk; dlia).
  assert (HPB : P + 64 <= w + k + 192) by (unfold px in HP; clear - HP; lia). assert (HP20 : P <= 2 ^ 20) by (clear - HPB HG HH HB; lia). assert (PL : P < P_LIM) by (apply Z.le_lt_trans with (2 ^ 20); [exact HP20|vm_compute; reflexivity]).
  assert (HBw : work h (P + 64) 64 + 64 <= 2 ^ 20). { eapply Z.le_trans; [|exact HB]. apply Z.add_le_mono_r. apply work_mono; [|lia]. clear - HPB HG HP Hw. lia. }
  cbn [tanh_loop]. cbv zeta. fold px. destruct (argument_len z px x px ltac:(unfold px; lia) ltac:(fold P; exact PL) ltac:(lia) HX) as (y & -> & HY & Sy & Ly). cbn [pure cbind]. fold P in HY, Ly. rewrite S in Sy. pose proof HY as (Wy & Ny & Vy & Ey & _).
  assert (VY : value y = value z). { rewrite (pos_value y Wy (proj2 Ny) Sy) in Vy. rewrite Vy. apply Rabs_pos_eq. pose proof (bpow_gt_0 radix2 (- k)). lra. }
  pose proof (exp_from_zero h g c y px P eq_refl ltac:(lia) ltac:(unfold px; lia) Hc Wy (proj2 Ny) Sy ltac:(lia) HBw) as EV. rewrite VY in EV.
  destruct (n_exp h g c y px RFromZero) as [[c' res]|]; [|exact I]. destruct EV as [Hc' EV]. assert (PP : p < P_LIM) by lia. destruct res as [v|[t| | |]|]; try contradiction.
  - destruct (Z.ltb_spec px (ne v)) as [B|B].
    + apply (T_large c' (px - 1)); [exact Hc'|unfold px; lia|exact PP|]. destruct EV as (Wv & Nv & Sv & _ & _ & V1 & V2). destruct (normal_range v Wv Nv) as [R1 _]. rewrite (pos_value v Wv (proj2 Nv) Sv) in R1.
      assert (D : (bpow radix2 (1 - P) <= 1)%R) by (change 1%R with (bpow radix2 0); apply bpow_le; lia). assert (R2 : (bpow radix2 px <= bpow radix2 (ne v - 1))%R) by (apply bpow_le; lia). unfold Zminus at 1. rewrite bpow_plus. change (bpow radix2 (-(1))) with (/ 2)%R. pose proof (exp_pos (value z)) as E0. set (e := exp (value z)) in *. clearbody e. assert (e * (1 + bpow radix2 (1 - P)) <= e * 2)%R by (apply Rmult_le_compat_l; lra). lra.
    + destruct (tanh_quotient P px k (value z) v ltac:(lia) eq_refl ltac:(unfold px; lia) EV Hk Hz ltac:(unfold px in HP; lia) ltac:(lia)) as (d1 & d2 & ret & -> & -> & -> & W3 & N3 & S3 & L3 & I3 & LC). cbn [pure cbind].
      assert (EQ : ((exp (value z) - 1) / (exp (value z) + 1))%R = Rabs T) by (rewrite (proj1 T_abs), tanh_exp, Vz; reflexivity). rewrite EQ in LC.
      eapply accept_tanh; [exact Hc'|apply T_abs|exact T_one|exact W3|exact N3|exact LC|rewrite L3; apply HP|exact I3| |exact Hp|exact Hp64|exact Hw64|exact Hpw|].
      * pose proof (bpow_gt_0 radix2 (k + 2 - P)). pose proof (eps_pos P). split; [lra|]. assert (Q1 : (bpow radix2 (k + 2 - P) <= bpow radix2 (- w + -2))%R) by (apply bpow_le; unfold px in HP; lia). assert (Q2 : (eps P <= bpow radix2 (- w + -6))%R) by (unfold eps; apply bpow_le; lia). rewrite bpow_plus in Q1, Q2. change (bpow radix2 (-2)) with (/ 4)%R in Q1. change (bpow radix2 (-6)) with (/ 64)%R in Q2. pose proof (bpow_gt_0 radix2 (- w)). lra.
      * rewrite round_step by lia. apply IH; [exact Hc'| |exact Sy|lia| |clear - Hw Hi; dlia|rewrite Z.mul_comm; apply Z.mod_mul; lia|lia|exact HB].
        { apply (argument_wide z P); [unfold px in HP; lia|exact HY]. }
        clear - Hw64 Hi64. dlia.
  - apply (T_large c' (EMAX - 1)); [exact Hc'| |exact PP|exact EV]. apply Z.le_trans with (2 ^ 21); [lia|vm_compute; discriminate].
Qed.
End Loop.

Lemma tanh_in_small {A} (ok : result num -> A) rest rest' x p rm : wf x -> nonzero x -> 0 < p -> prec_up p < P_LIM -> max64 (prec_up p) x + 1 < - (ne x * 2 - 1) \/ ne x = EMAX ->
  tanh_in ok rest x p rm = ok (n_tanh rest' x p rm).
Proof.
  intros W N Hp HP H. unfold n_tanh, tanh_in, small_exp. cbv zeta. rewrite (is_zero_false x W N), (p_wrk_eq x p HP Hp). destruct (Z.eqb_spec (ne x) EXPONENT_MAX) as [E|E]; [reflexivity|].
  destruct H as [H|H]; [|now elim E]. replace (max64 (prec_up p) x + 1 <? - (ne x * 2 - 1)) with true by (symmetry; apply Z.ltb_lt; exact H). reflexivity.
Qed.
Lemma tanh_in_rest {A} (ok : result num -> A) rest x p rm : wf x -> nonzero x -> 0 < p -> prec_up p < P_LIM -> - (ne x * 2 - 1) <= max64 (prec_up p) x + 1 -> ne x <> EMAX ->
  tanh_in ok rest x p rm = rest x (prec_up p) rm.
Proof.
  intros W N Hp HP H HE. unfold tanh_in, small_exp. cbv zeta. rewrite (is_zero_false x W N), (p_wrk_eq x p HP Hp). destruct (Z.eqb_spec (ne x) EXPONENT_MAX) as [E|E]; [now elim HE|]. replace (max64 (prec_up p) x + 1 <? - (ne x * 2 - 1)) with false by (symmetry; apply Z.ltb_ge; exact H). rewrite round_p_eq by (try exact HP; lia). reflexivity.
Qed.

Theorem tanh_ok f h g c x p rm : reachable e_new e_for_prec c -> wf x -> nonzero x -> 0 < p -> (rm <> RNone \/ EMIN < ne x) ->
  work h (work f (Z.max (prec_up p) (64 * wlen x) + 64) 64 + Z.max (prec_up p) (64 * wlen x) + 192) 64 + 64 <= 2 ^ 20 ->
  match f_tanh f h g c x p rm with
  | None => True
  | Some (c', res) => reachable e_new e_for_prec c' /\ exists q, res = Ok q /\ (elem_result (tanh (value x)) (prec_up p) rm q \/ rounded_to (prec_up p) rm (ns x) (tanh (value x)) q)
  end.
Proof.
  intros Hc W N Hp HN HB. change (Z.max (prec_up p) (64 * wlen x)) with (max64 (prec_up p) x) in HB. assert (P64 : 64 <= prec_up p) by (unfold prec_up; clear - Hp; dlia). assert (M1 : prec_up p <= max64 (prec_up p) x) by (unfold max64; lia). assert (M2 : 64 * wlen x <= max64 (prec_up p) x) by (unfold max64; lia).
  set (k := Z.max 0 (- ne x)) in *. assert (Hk : 0 <= k) by (unfold k; lia).
  pose proof (work_ge f (max64 (prec_up p) x + 64) 64 ltac:(lia) ltac:(lia)) as HG. pose proof (work_ge h (work f (max64 (prec_up p) x + 64) 64 + max64 (prec_up p) x + 192) 64 ltac:(lia) ltac:(lia)) as HH. assert (PL : max64 (prec_up p) x + 64 < P_LIM) by (eapply Z.le_lt_trans with (2 ^ 20); [lia|vm_compute; reflexivity]).
  unfold f_tanh. assert (SMALL : forall rest, (max64 (prec_up p) x + 1 < - (ne x * 2 - 1) \/ ne x = EMAX) -> match tanh_in (fun r => Some (c, r)) rest x p rm with | None => True
  | Some (c', res) => reachable e_new e_for_prec c' /\ exists q, res = Ok q /\ (elem_result (tanh (value x)) (prec_up p) rm q \/ rounded_to (prec_up p) rm (ns x) (tanh (value x)) q) end).
  { intros rest H. rewrite (tanh_in_small _ rest (fun _ _ _ => Panic) x p rm W N Hp ltac:(lia) H). split; [exact Hc|]. assert (Q : exists q, n_tanh (fun _ _ _ => Panic) x p rm = Ok q /\ rounded_to (prec_up p) rm (ns x) (tanh (value x)) q) by (destruct H as [H|H]; [now apply tanh_small|apply tanh_max; [exact W|exact H|exact Hp|lia]]). destruct Q as (q & E & Q). exists q. auto. }
  destruct (Z_lt_le_dec (max64 (prec_up p) x + 1) (- (ne x * 2 - 1))) as [S|S]; [apply SMALL; now left|]. destruct (Z.eq_dec (ne x) EMAX) as [HE|HE]; [apply SMALL; now right|]. clear SMALL. assert (HkM : k <= max64 (prec_up p) x) by (unfold k; lia).
  assert (HBk : work h (work f (max64 (prec_up p) x + 64) 64 + k + 192) 64 + 64 <= 2 ^ 20) by (eapply Z.le_trans; [|exact HB]; apply Z.add_le_mono_r; apply work_mono; lia).
  rewrite tanh_in_rest by (try assumption; lia). change (mantissa_max_bit_len x) with (64 * wlen x). change (Z.max (prec_up p) (64 * wlen x)) with (max64 (prec_up p) x).
  assert (EK : (if ne x <? 0 then Z.abs (ne x) else 0) = k) by (unfold k; destruct (Z.ltb_spec (ne x) 0); lia). rewrite EK.
  assert (He2 : EMIN < ne x) by (apply Z.lt_le_trans with (- 2 ^ 21); [vm_compute; reflexivity|lia]). pose proof (wf_exp x W) as HX.
  destruct (argument_start x W N He2) as (WS & NS & _ & _ & _). set (y := set_sign (set_inexact x false) Pos) in *. assert (Wy : wf y) by now apply wf_set_sign. assert (Ey : ne y = ne x) by reflexivity.
  pose proof (set_exponent_spec y (ne y + 1) Wy ltac:(lia)) as SE. cbv zeta in SE. destruct SE as (Wz & Lz & Sz & _ & Vz). set (z := set_exponent y (ne y + 1)) in *. replace (ne y + 1 - ne y) with 1 in Vz by lia. change (bpow radix2 1) with 2%R in Vz.
  assert (Ny : nonzero y) by exact N. assert (Vy : value y = Rabs (value x)). { rewrite <- (pos_value y Wy Ny eq_refl). unfold y. rewrite abs_set_sign. reflexivity. }
  rewrite Vy in Vz. assert (V0 : (0 < Rabs (value x))%R) by (pose proof (value_has_sign x W N) as V; apply Rabs_pos_lt; intros E; rewrite E in V; unfold has_sign in V; lra).
  assert (NX : normal x) by exact NS. destruct (normal_range x W NX) as [B1 B2].
  assert (Nz : normal z). { apply normal_iff; [exact Wz|]. rewrite Vz, Rabs_pos_eq by lra. eapply Rle_trans; [|apply Rle_trans with (Rabs (value x)); [exact B1|lra]]. apply bpow_le. lia. }
  pose proof (tanh_loop_ok x z (prec_up p) rm h g k W N ltac:(lia) (prec_up_mod p) ltac:(rewrite Vz; ring) Hk) as LO.
  assert (HZ : (bpow radix2 (- k) <= value z)%R). { rewrite Vz. apply Rle_trans with (bpow radix2 (ne x - 1) * 2)%R; [|lra]. change 2%R with (bpow radix2 1). rewrite <- bpow_plus. apply bpow_le. unfold k. lia. }
  specialize (LO HZ f c z (max64 (prec_up p) x + 64) 64 Hc).
  assert (HA : argument z (max64 (prec_up p) x + 64 + (4 + k)) z) by (split; [exact Wz|]; split; [exact Nz|]; split; [reflexivity|]; split; [reflexivity|]; rewrite Lz; change (wlen y) with (wlen x); lia).
  specialize (LO HA Sz ltac:(lia) (max_mod p x) ltac:(lia) eq_refl ltac:(lia) HBk). unfold tanh_outcome in LO. destruct (tanh_loop f h g c x z (prec_up p) rm (4 + k) _ 64) as [[c' res]|]; [|exact I]. destruct LO as (O1 & q & O2 & O3). split; [exact O1|]. exists q. auto.
Qed.
