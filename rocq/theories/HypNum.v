(** The hyperbolic sine and cosine of a positive number at the working precision. *)

From Coq Require Import ZArith List Bool Lia Reals Lra.
From Flocq Require Import Core.
From Verif Require Import Words IntModel Mantissa Num Pow Consts Elem Series Exp Hyp SpecZ SpecOps SpecConst SpecReach SpecPow SpecElem WordsP Spec RealP RealP2 NumP CmpP SetP AddNum DivNum ArithTop Conv2Num ConstNum ConstReach SmallP ElemNum ElemDom ApproxR ApproxNum SeriesNum SinhTop ExpNum RetryNum ExpTop.
Import ListNotations.
Open Scope Z_scope.
Ltac Zify.zify_post_hook ::= idtac.
Arguments Z.mul : simpl never.
Arguments Z.add : simpl never.
Arguments Z.pow : simpl never.
Arguments Z.sub : simpl never.
Arguments Z.of_nat : simpl never.
Ltac dlia := Z.div_mod_to_equations; lia.

(** ** Closeness of differences and halves *)
Lemma lc_sub d a b v w : (0 <= d <= / 4)%R -> lc d a v -> lc d b w -> (4 * b <= a)%R -> lc (3 * d) (a - b) (v - w).
Proof.
  intros D (A & L1 & U1) (B & L2 & U2) H. split; [lra|]. pose proof (exp_opp d) as O. pose proof (exp_ge1 d ltac:(lra)) as E1. pose proof (exp_upper d ltac:(lra)) as E2. pose proof (exp_pos (- d)) as E3.
  assert (T : exp (3 * d) = (exp d * exp d * exp d)%R) by (rewrite <- !exp_plus; f_equal; ring). assert (T' : exp (- (3 * d)) = (exp (- d) * exp (- d) * exp (- d))%R) by (rewrite <- !exp_plus; f_equal; ring).
  rewrite T, T'. clear T T'. set (t := exp d) in *. set (u := exp (- d)) in *. clearbody t u. assert (U : (2 / 3 <= u <= 1)%R) by (split; nra).
  assert (Q : (0 <= 1 - u * u)%R) by nra. assert (Q2 : (0 <= 3 * (u * u) - 1)%R) by nra. split.
  - apply Rle_trans with (a * u - b * t)%R; [|lra]. assert (K : (t - u * u * u <= 4 * (u - u * u * u))%R).
    { apply (Rmult_le_reg_r u); [lra|]. pose proof (Rmult_le_pos _ _ Q Q2). nra. }
    assert (G : (0 <= u - u * u * u)%R) by nra. assert (F : (0 <= b * (4 * (u - u * u * u) - (t - u * u * u)))%R) by (apply Rmult_le_pos; lra). assert (F2 : (0 <= (a - 4 * b) * (u - u * u * u))%R) by (apply Rmult_le_pos; lra). lra.
  - apply Rle_trans with (a * t - b * u)%R; [lra|]. assert (K : (0 <= t * t * t - t)%R) by nra. assert (K2 : (t - u <= t * t * t - t)%R). { assert (u <= t)%R by nra. assert (t * u = 1)%R by lra. nra. }
    assert (F : (0 <= (a - 4 * b) * (t * t * t - t))%R) by (apply Rmult_le_pos; lra). assert (F2 : (0 <= b * (t * t * t - t - (t - u)))%R) by (apply Rmult_le_pos; lra). assert (F3 : (0 <= b * (t * t * t - t))%R) by (apply Rmult_le_pos; lra). lra.
Qed.

(** A correct rounding in the working precision. *)
Lemma or_cut P p rm r ix res k a : correctly_rounded (prec_up p) rm r Pos ix res -> 128 <= P -> prec_up p = P -> lc (IZR k * eps P) a (Rabs r) -> (bpow radix2 EMIN <= Rabs r)%R -> ix = true ->
  apx_or P Pos (k + 1) a res.
Proof.
  intros C HP E L R1 I. rewrite E in C. destruct (cut_wide P P rm r Pos ix res C ltac:(lia) R1) as [(v & -> & Wv & Nv & Sv & Lv & LC & Iv)|[-> O]]; cbn [apx_or].
  - split; [|split; [exact Lv|exact (Iv I)]]. split; [exact Wv|]. split; [exact Nv|]. split; [exact Sv|]. rewrite plus_IZR, Rmult_plus_distr_r, Rmult_1_l. eapply lc_trans; [exact L|exact LC].
  - split; [reflexivity|]. eapply Rle_trans; [exact O|]. rewrite plus_IZR, Rmult_plus_distr_r, Rmult_1_l, exp_plus, <- Rmult_assoc. apply Rmult_le_compat_r; [left; apply exp_pos|]. apply L.
Qed.
Lemma emin_low r : (/ 8 <= r)%R -> (bpow radix2 EMIN <= r)%R.
Proof. intros H. eapply Rle_trans; [|exact H]. change (/ 8)%R with (bpow radix2 (-3)). apply bpow_le. vm_compute. discriminate. Qed.

(** ** exp without rounding *)
Lemma exp_none h g c x P p : 128 <= P -> prec_up p = P -> 0 < p -> reachable e_new e_for_prec c -> wf x -> nonzero x -> ns x = Pos -> 64 * wlen x <= P -> work h (P + 64) 64 + 64 <= 2 ^ 20 ->
  match n_exp h g c x p RNone with
  | None => True
  | Some (c', res) => reachable e_new e_for_prec c' /\ apx_or P Pos 2 (exp (value x)) res
  end.
Proof.
  intros HP E Hp Hc W N S L HB. pose proof (exp_ok h g c x p RNone Hc W N Hp) as H. rewrite E, Z.max_l in H by exact L. specialize (H HB). destruct (n_exp h g c x p RNone) as [[c' res]|]; [|exact I].
  destruct H as [Hc' H]. split; [exact Hc'|]. pose proof (value_has_sign x W N) as V. rewrite S in V. unfold has_sign in V. cbn [sgnZ] in V. assert (E1 : (1 <= exp (value x))%R) by (apply exp_ge1; lra).
  assert (CH : forall a, close P (exp (value x)) a -> lc (IZR 2 * eps P) (exp (value x)) (Rabs (rnd_prec P RNone a))).
  { intros a C. assert (EN : exp (value x) <> 0%R) by lra. pose proof (close_lc P P (exp (value x)) a ltac:(lia) EN C) as L1. rewrite Rabs_pos_eq in L1 by lra. pose proof (lc_pos _ _ _ L1) as A0. assert (AN : a <> 0%R) by (intros ->; rewrite Rabs_R0 in A0; lra).
    pose proof (rnd_lc P P RNone a ltac:(lia) AN) as L2. replace (IZR 2 * eps P)%R with (eps P + eps P)%R by ring. eapply lc_trans; eassumption. }
  destruct res as [v|[s| | |]|]; cbn [exp_post] in H; try contradiction; cbn [apx_or].
  - destruct H as [(Wv & Lv & Sv & Iv & (a & C & Va) & _)|(X & _)]; [|exfalso; lra]. split; [|split; [exact Lv|exact Iv]]. pose proof (CH a C) as LC. rewrite <- Va in LC.
    split; [exact Wv|]. split; [|split; [|exact LC]].
    + apply normal_iff; [exact Wv|]. pose proof (lc_two _ _ _ (eps_quarter P 2 HP ltac:(lia)) LC) as B. eapply Rle_trans with (/ 8)%R; [|lra]. change (/ 8)%R with (bpow radix2 (-3)). apply bpow_le. vm_compute. discriminate.
    + pose proof (exp_pos (value x)). unfold has_sign in Sv. destruct (ns v); [|reflexivity]. cbn [sgnZ] in Sv. exfalso; lra.
  - destruct H as (Sv & a & C & O). split; [pose proof (exp_pos (value x)); unfold has_sign in Sv; destruct s; [cbn [sgnZ] in Sv; exfalso; lra|reflexivity]|].
    eapply Rle_trans; [exact O|]. apply (CH a C).
Qed.
(** With an exponent above 64 it does not return a number. *)
Lemma exp_far h g c x p rm : wf x -> nonzero x -> ns x = Pos -> 64 < ne x -> 0 < p -> prec_up p < P_LIM -> n_exp h g c x p rm = None \/ n_exp h g c x p rm = Some (c, Err (ExponentOverflow Pos)).
Proof.
  intros W N S E Hp HP. unfold n_exp, exp_top, small_exp. cbv zeta. rewrite (is_zero_false x W N). replace (Z.max (round_p p) (mantissa_max_bit_len x) + 1 <? - ne x) with false.
  - destruct h as [|h]; [left; reflexivity|right]. cbn [exp_loop]. cbv zeta. unfold exp_positive_arg. replace (64 <? ne x) with true by (symmetry; apply Z.ltb_lt; exact E). unfold is_negative. rewrite S. reflexivity.
  - symmetry. apply Z.ltb_ge. rewrite round_p_eq by lia. fold (prec_up p). assert (0 <= prec_up p) by (unfold prec_up; clear - Hp; dlia). lia.
Qed.

(** ** Halving *)
Lemma half_apx P k a v : 128 <= P -> 0 <= k <= 2 ^ 60 -> (/ 2 <= a)%R -> apx P Pos k a v -> apx P Pos k (a / 2) (div_by_2 v RNone) /\ wlen (div_by_2 v RNone) = wlen v /\ ninexact (div_by_2 v RNone) = ninexact v.
Proof.
  intros HP Hk A (W & N & S & L). pose proof (normal_range v W N) as [_ V2]. pose proof (lc_two _ _ _ (eps_quarter P k HP ltac:(lia)) L) as B. pose proof (wf_exp v W) as [X1 X2].
  assert (E : -10 <= ne v). { destruct (Z_lt_le_dec (ne v) (-10)) as [H|H]; [exfalso|exact H]. assert (Rabs (value v) < / 8)%R. { eapply Rlt_le_trans; [exact V2|]. change (/ 8)%R with (bpow radix2 (-3)). apply bpow_le. lia. } lra. }
  unfold div_by_2. destruct (Z.eqb_spec (ne v) EXPONENT_MIN) as [Q|Q]; [exfalso; rewrite Q in E; revert E; vm_compute; intros E; exact (E eq_refl)|].
  assert (HE : EMIN <= ne v - 1 <= EMAX). { split; [eapply Z.le_trans with (-11); [vm_compute; discriminate|lia]|lia]. }
  pose proof (set_exponent_spec v (ne v - 1) W HE) as SE. cbv zeta in SE. destruct SE as (W1 & L1 & S1 & I1 & V1). set (q := set_exponent v (ne v - 1)) in *. clearbody q.
  replace (ne v - 1 - ne v) with (-1) in V1 by ring. change (bpow radix2 (-1)) with (/ 2)%R in V1. assert (VA : Rabs (value q) = (/ 2 * Rabs (value v))%R). { rewrite V1, Rabs_mult, (Rabs_pos_eq (/ 2)) by lra. ring. }
  split; [|split; [exact L1|exact I1]]. split; [exact W1|]. split.
  - apply normal_iff; [exact W1|]. eapply Rle_trans with (/ 8)%R; [change (/ 8)%R with (bpow radix2 (-3)); apply bpow_le; vm_compute; discriminate|]. rewrite VA. lra.
  - split; [rewrite S1; exact S|]. rewrite VA. replace (a / 2)%R with (/ 2 * a)%R by field. apply lc_scale; [lra|exact L].
Qed.

(** ** One evaluation *)
(** Outcomes of the evaluations: a number near [a], or an overflow with the sign [s] if
    2 [a] overflows. *)
Definition eval_post (P : Z) (s : sign) (k : Z) (a : R) (res : result num) : Prop :=
  match res with
  | Ok v => apx P Pos k a v /\ P <= 64 * wlen v /\ ninexact v = true
  | Err (ExponentOverflow t) => t = s /\ (bpow radix2 EMAX <= 2 * a * exp (IZR k * eps P))%R
  | _ => False
  end.
Lemma recip_ok P p ex k a : 128 <= P -> 0 < p -> prec_up p = P -> P < P_LIM -> 0 <= k <= 2 ^ 20 -> (1 <= a)%R -> apx P Pos k a ex -> ninexact ex = true ->
  exists v, n_reciprocal ex p RNone = Ok v /\ apx P Pos (k + 1) (/ a) v /\ 64 * wlen v = P /\ ninexact v = true.
Proof.
  intros HP Hp E HL Hk A Ax I. destruct (inv_wide P p RNone ex a k HP Hp E HL Ax I ltac:(lia)) as [H|[_ O]]; [exact H|exfalso].
  pose proof (eps_quarter P (k + 1) HP ltac:(lia)) as Q. assert (Q0 : (0 <= IZR (k + 1) * eps P)%R) by (apply Rmult_le_pos; [apply IZR_le; lia|left; apply eps_pos]). pose proof (exp_upper (IZR (k + 1) * eps P)%R ltac:(lra)) as U. assert (IA : (/ a <= 1)%R) by (rewrite <- Rinv_1; apply Rinv_le; lra). assert (IP : (0 < / a)%R) by (apply Rinv_0_lt_compat; lra).
  assert (B : (4 <= bpow radix2 EMAX)%R) by (change 4%R with (bpow radix2 2); apply bpow_le; vm_compute; discriminate). set (b := bpow radix2 EMAX) in *. clearbody b. set (t := exp (IZR (k + 1) * eps P)) in *. clearbody t. nra.
Qed.
Lemma pos_value v : wf v -> nonzero v -> ns v = Pos -> Rabs (value v) = value v.
Proof. intros W N S. pose proof (value_has_sign v W N) as V. rewrite S in V. unfold has_sign in V. cbn [sgnZ] in V. apply Rabs_pos_eq. lra. Qed.
Lemma exp_cosh x : (0 < x)%R -> (1 <= exp x)%R /\ (exp x + / exp x = 2 * cosh x)%R /\ (exp x <= 2 * cosh x)%R /\ (exp x - / exp x = 2 * sinh x)%R.
Proof. intros H. pose proof (exp_ge1 x ltac:(lra)) as E. pose proof (exp_pos (- x)) as E2. unfold cosh, sinh. rewrite exp_Ropp in *. repeat split; lra. Qed.

Theorem cosh_eval_ok h g c x P p : 128 <= P -> prec_up p = P -> 0 < p -> reachable e_new e_for_prec c -> wf x -> nonzero x -> ns x = Pos -> 64 * wlen x = P -> work h (P + 64) 64 + 64 <= 2 ^ 20 ->
  match cosh_eval h g c x p with
  | None => True
  | Some (c', res) => reachable e_new e_for_prec c' /\ eval_post P Pos 4 (cosh (value x)) res
  end.
Proof.
  intros HP E Hp Hc W N S L HB. pose proof (work_ge h (P + 64) 64 ltac:(lia) ltac:(lia)) as HG. assert (HL : P < P_LIM) by (apply Z.le_lt_trans with (2 ^ 20); [lia|vm_compute; reflexivity]).
  pose proof (exp_none h g c x P p HP E Hp Hc W N S ltac:(lia) HB) as H. pose proof (value_has_sign x W N) as V. rewrite S in V. unfold has_sign in V. cbn [sgnZ] in V. assert (V0 : (0 < value x)%R) by lra.
  destruct (exp_cosh (value x) V0) as (E1 & E2 & E3 & _). assert (EO : (bpow radix2 EMAX <= exp (value x) * exp (IZR 2 * eps P) -> bpow radix2 EMAX <= 2 * cosh (value x) * exp (IZR 4 * eps P))%R).
  { intros O. eapply Rle_trans; [exact O|]. pose proof (eps_pos P) as E0. apply Rmult_le_compat; [lra|left; apply exp_pos|exact E3|]. apply exp_mono. lra. }
  unfold cosh_eval. destruct (Z.ltb_spec (mantissa_max_bit_len x + 2) ((ne x - 1) * 2)) as [B|B].
  - assert (F : 64 < ne x). { change (mantissa_max_bit_len x) with (64 * wlen x) in B. lia. } destruct (exp_far h g c x p RNone W N S F Hp ltac:(lia)) as [X|X]; rewrite X in H |- *; [exact I|]. cbn [cbind]. destruct H as [H1 [_ H2]]. split; [exact H1|]. cbn [eval_post]. split; [reflexivity|exact (EO H2)].
  - destruct (n_exp h g c x p RNone) as [[c' res]|]; [|exact I]. destruct H as [Hc' H]. destruct res as [ex|[s| | |]|]; cbn [apx_or] in H; try contradiction; cbn [cbind].
    + destruct H as (Ax & Lx & Ix). destruct (recip_ok P p ex 2 _ HP Hp E HL ltac:(lia) E1 Ax Ix) as (xe & -> & Ae & Le & Ie). cbn [cbind pure].
      pose proof (apx_nonzero _ _ _ _ _ Ax) as Nx. pose proof (apx_nonzero _ _ _ _ _ Ae) as Ne. apply (apx_weak _ _ _ 3) in Ax; [|lia]. change (2 + 1) with 3 in Ae. destruct Ax as (Wx & _ & Sx & Lcx). destruct Ae as (We & _ & Se & Lce).
      pose proof (add_sub_nonzero ex xe p 1 RNone Wx We Nx Ne (or_introl eq_refl) Hp ltac:(lia)) as [C _]. rewrite Rmult_1_l, Ix in C. cbn [orb] in C. rewrite (pos_value ex Wx Nx Sx) in Lcx. rewrite (pos_value xe We Ne Se) in Lce. pose proof (lc_pos _ _ _ Lcx) as P1. pose proof (lc_pos _ _ _ Lce) as P2.
      destruct (C ltac:(lra)) as (t & Ht & C1). assert (t = Pos) as ->. { unfold has_sign in Ht. destruct t; [cbn [sgnZ] in Ht; exfalso; lra|reflexivity]. }
      pose proof (lc_add _ _ _ _ _ Lcx Lce) as LA. rewrite E2 in LA. pose proof (lc_two _ _ _ (eps_quarter P 3 HP ltac:(lia)) LA) as [LB _]. rewrite <- (Rabs_pos_eq (value ex + value xe)) in LA by lra.
      pose proof (or_cut P p RNone _ true _ 3 _ C1 HP E LA ltac:(apply emin_low; rewrite Rabs_pos_eq; lra) eq_refl) as R. unfold n_add. destruct (add_sub ex xe p 1 RNone false) as [v|[s| | |]|]; cbn [apx_or] in R; try contradiction; cbn [cbind].
      * destruct R as (Av & Lv & Iv). change (3 + 1) with 4 in Av. destruct (half_apx P 4 (2 * cosh (value x))%R v HP ltac:(lia) ltac:(lra) Av) as (Ah & Lh & Ih). unfold pure. split; [exact Hc'|]. cbn [eval_post]. split; [eapply apx_same; [|exact Ah]; field|]. split; [rewrite Lh; lia|rewrite Ih; exact Iv].
      * split; [exact Hc'|]. cbn [eval_post]. exact R.
    + destruct H as [-> O]. split; [exact Hc'|]. cbn [eval_post]. split; [reflexivity|exact (EO O)].
Qed.

(** A large exponential is close to twice the hyperbolic sine. *)
Lemma exp_sinh_far P x : 128 <= P <= 2 ^ 20 -> (0 < x)%R -> (bpow radix2 EMAX <= exp x * exp (IZR 2 * eps P))%R -> (exp x <= 2 * sinh x * exp (eps P))%R.
Proof.
  intros HP X O. destruct (exp_cosh x X) as (E1 & _ & _ & <-). pose proof (eps_quarter P 2 ltac:(lia) ltac:(lia)) as Q. pose proof (eps_pos P) as E0. pose proof (exp_upper (IZR 2 * eps P)%R ltac:(lra)) as U.
  assert (F : (bpow radix2 (EMAX - 1) <= exp x)%R). { unfold Zminus. rewrite bpow_plus. change (bpow radix2 (-(1))) with (/ 2)%R. set (b := bpow radix2 EMAX) in *. clearbody b. set (t := exp (IZR 2 * eps P)) in *. clearbody t. nra. }
  assert (D : (/ exp x <= / 2 * eps P)%R).
  { apply Rle_trans with (/ bpow radix2 (EMAX - 1))%R; [apply Rinv_le; [apply bpow_gt_0|exact F]|]. rewrite <- bpow_opp. change (/ 2)%R with (bpow radix2 (-1)). unfold eps. rewrite <- bpow_plus. apply bpow_le. eapply Z.le_trans with (- 2 ^ 20); [vm_compute; discriminate|lia]. }
  pose proof (exp_ineq1_le (eps P)) as G. assert (E2 : (eps P <= / 8)%R) by lra. assert (I0 : (0 < / exp x)%R) by (apply Rinv_0_lt_compat, exp_pos). set (y := exp x) in *. clearbody y. set (e := eps P) in *. clearbody e. set (t := exp e) in *. clearbody t. set (i := (/ y)%R) in *. clearbody i. clear - D G E2 I0 E0 E1. nra.
Qed.

Theorem sinh_eval_ok h g c s ethres x P p : 128 <= p -> P <= 2 ^ 20 -> prec_up p = P -> reachable e_new e_for_prec c -> wf x -> normal x -> ns x = Pos -> 64 * wlen x = P -> - 2 ^ 21 <= ne x -> work h (P + 64) 64 + 64 <= 2 ^ 20 ->
  ethres = (Z.max (Z.abs (ne x)) 1 - 1) * 2 ->
  match sinh_eval h g c s ethres x p with
  | None => True
  | Some (c', res) => reachable e_new e_for_prec c' /\ eval_post P s KS (sinh (value x)) res
  end.
Proof.
  intros Hp0 HPh E Hc W Nn S L He HB ET. assert (Hp : 0 < p) by lia. assert (HP : 128 <= P) by (rewrite <- E; unfold prec_up; clear - Hp0; dlia). pose proof (conj HP HPh) as HPb. pose proof (proj2 Nn) as N. pose proof (work_ge h (P + 64) 64 ltac:(lia) ltac:(lia)) as HG. assert (HL : P < P_LIM) by (apply Z.le_lt_trans with (2 ^ 20); [lia|vm_compute; reflexivity]).
  pose proof (exp_none h g c x P p HP E Hp Hc W N S ltac:(lia) HB) as H. pose proof (value_has_sign x W N) as V. rewrite S in V. unfold has_sign in V. cbn [sgnZ] in V. assert (V0 : (0 < value x)%R) by lra.
  assert (KB : 12 <= KS) by (vm_compute; discriminate).
  destruct (exp_cosh (value x) V0) as (E1 & _ & _ & E2). assert (EO : (bpow radix2 EMAX <= exp (value x) * exp (IZR 2 * eps P) -> bpow radix2 EMAX <= 2 * sinh (value x) * exp (IZR KS * eps P))%R).
  { intros O. eapply Rle_trans; [exact O|]. pose proof (eps_pos P) as E0. apply Rle_trans with (2 * sinh (value x) * exp (eps P) * exp (IZR 2 * eps P))%R; [apply Rmult_le_compat_r; [left; apply exp_pos|now apply exp_sinh_far]|]. rewrite Rmult_assoc, <- exp_plus.
    apply Rmult_le_compat_l; [rewrite <- E2; assert (/ exp (value x) <= 1)%R by (rewrite <- Rinv_1; apply Rinv_le; lra); lra|]. apply exp_mono. assert (3 <= IZR KS)%R by (apply IZR_le; lia). nra. }
  unfold sinh_eval. destruct (Z.leb_spec (ne x) 0) as [B|B].
  { pose proof (sinh_series_at g x p P Pos Hp0 HPh E W Nn S L ltac:(lia)) as SS. destruct SS as [->|(q & -> & Aq & Lq & Iq)]; [exact I|]. cbn [with_cache]. split; [exact Hc|]. cbn [eval_post]. rewrite Rabs_pos_eq in Aq by lra. split; [exact Aq|]. split; [exact Lq|exact Iq]. }
  destruct (Z.ltb_spec (mantissa_max_bit_len x + 2) ethres) as [B2|B2].
  - assert (F : 64 < ne x). { change (mantissa_max_bit_len x) with (64 * wlen x) in B2. rewrite ET in B2. lia. } destruct (exp_far h g c x p RNone W N S F Hp ltac:(lia)) as [X|X]; rewrite X in H |- *; [exact I|]. cbn [cbind csign_error sign_error]. destruct H as [H1 [_ H2]]. split; [exact H1|]. cbn [eval_post]. split; [reflexivity|exact (EO H2)].
  - destruct (n_exp h g c x p RNone) as [[c' res]|]; [|exact I]. destruct H as [Hc' H]. destruct res as [ex|[t| | |]|]; cbn [apx_or] in H; try contradiction; cbn [cbind csign_error sign_error].
    + destruct H as (Ax & Lx & Ix). destruct (recip_ok P p ex 2 _ HP Hp E HL ltac:(lia) E1 Ax Ix) as (xe & -> & Ae & Le & Ie). cbn [cbind pure].
      pose proof (apx_nonzero _ _ _ _ _ Ax) as Nx. pose proof (apx_nonzero _ _ _ _ _ Ae) as Ne. apply (apx_weak _ _ _ 3) in Ax; [|lia]. change (2 + 1) with 3 in Ae. destruct Ax as (Wx & _ & Sx & Lcx). destruct Ae as (We & _ & Se & Lce).
      pose proof (add_sub_nonzero ex xe p (-1) RNone Wx We Nx Ne (or_intror eq_refl) Hp ltac:(lia)) as [C _]. rewrite Ix in C. cbn [orb] in C. rewrite (pos_value ex Wx Nx Sx) in Lcx. rewrite (pos_value xe We Ne Se) in Lce.
      assert (X1 : (1 <= value x)%R). { pose proof (normal_range x W Nn) as [R1 _]. rewrite (pos_value x W N S) in R1. eapply Rle_trans; [|exact R1]. change 1%R with (bpow radix2 0). apply bpow_le. lia. }
      assert (E4 : (2 <= exp (value x))%R) by (pose proof (exp_ineq1_le (value x)); lra). assert (E5 : (4 * / exp (value x) <= exp (value x))%R). { assert (exp (value x) * / exp (value x) = 1)%R by (apply Rinv_r; lra). assert (0 < / exp (value x))%R by (apply Rinv_0_lt_compat; lra). nra. }
      pose proof (eps_pos P) as E0. assert (Q31 : (0 <= IZR 3 * eps P)%R) by (apply Rmult_le_pos; lra). assert (Q32 : (IZR 3 * eps P <= / 4)%R) by (apply eps_quarter; [exact HP|clear; lia]). pose proof (lc_sub (IZR 3 * eps P) _ _ _ _ (conj Q31 Q32) Lcx Lce E5) as LA. rewrite E2 in LA. replace (3 * (IZR 3 * eps P))%R with (IZR 9 * eps P)%R in LA by ring.
      pose proof (lc_pos _ _ _ LA) as P1. replace (value ex - value xe)%R with (value ex + IZR (-1) * value xe)%R in LA, P1 by ring.
      destruct (C ltac:(lra)) as (t & Ht & C1). assert (t = Pos) as ->. { unfold has_sign in Ht. destruct t; [cbn [sgnZ] in Ht; exfalso; lra|reflexivity]. }
      assert (SH : (3 / 2 <= 2 * sinh (value x))%R). { rewrite <- E2. lra. } pose proof (lc_two _ _ _ (eps_quarter P 9 HP ltac:(lia)) LA) as [LB _]. rewrite <- (Rabs_pos_eq (value ex + IZR (-1) * value xe)) in LA by lra.
      pose proof (or_cut P p RNone _ true _ 9 _ C1 HP E LA ltac:(apply emin_low; rewrite Rabs_pos_eq; lra) eq_refl) as R. unfold n_sub. destruct (add_sub ex xe p (-1) RNone false) as [v|[t| | |]|]; cbn [apx_or] in R; try contradiction; cbn [cbind sign_error].
      * destruct R as (Av & Lv & Iv). change (9 + 1) with 10 in Av. destruct (half_apx P 10 (2 * sinh (value x))%R v HP ltac:(lia) ltac:(lra) Av) as (Ah & Lh & Ih). split; [exact Hc'|]. cbn [eval_post]. split; [eapply apx_weak; [|eapply apx_same; [|exact Ah]; field]; lia|]. split; [rewrite Lh; lia|rewrite Ih; exact Iv].
      * split; [exact Hc'|]. cbn [eval_post]. split; [reflexivity|]. destruct R as [_ R]. eapply Rle_trans; [exact R|]. apply Rmult_le_compat_l; [lra|]. apply exp_mono. apply Rmult_le_compat_r; [lra|]. apply IZR_le. lia.
    + destruct H as [-> O]. split; [exact Hc'|]. cbn [eval_post]. split; [reflexivity|exact (EO O)].
Qed.
