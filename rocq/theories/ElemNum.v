(** The elementary functions before their loops: tiny arguments, zero, the ends of
    the domain. *)

From Coq Require Import ZArith List Bool Lia Reals Lra.
From Flocq Require Import Core.
From Verif Require Import Words IntModel Mantissa Num Elem SpecZ WordsP WordsP2 Spec SpecOps RoundP RealP RealP2 NumP CmpP AddP SetP AddNum DivNum ArithTop IntNum ConvNum Conv2Num RoundableNum PowNum PowTop ConstNum SmallP ElemR.
Import ListNotations.
Open Scope Z_scope.
Ltac Zify.zify_post_hook ::= idtac.
Arguments Z.mul : simpl never.
Arguments Z.add : simpl never.
Arguments Z.pow : simpl never.
Arguments Z.sub : simpl never.
Arguments Z.of_nat : simpl never.
Ltac dlia := Z.div_mod_to_equations; lia.

(** What a correctly rounded inexact result is. *)
Definition rounded_to (p : Z) (rm : rmode) (s : sign) (r : R) (q : num) : Prop :=
  wf q /\ 64 * wlen q = p /\ ns q = s /\ value q = rnd_grad p rm r /\ ninexact q = true.

Lemma prec_up_mod p : prec_up p mod 64 = 0.
Proof. unfold prec_up. rewrite Z.mul_comm. apply Z.mod_mul. lia. Qed.

Lemma wide_form x w : wf x -> 64 * wlen x <= w -> value x = (IZR (sgnZ (ns x) * magnitude x * 2 ^ (w - 64 * wlen x)) * bpow radix2 (ne x - w))%R.
Proof.
  intros W Hw. unfold value, F2R. cbn [Fnum Fexp]. rewrite (mult_IZR (sgnZ (ns x) * magnitude x)), <- bpow_IZR by lia. rewrite Rmult_assoc, <- bpow_plus. do 2 f_equal. lia.
Qed.

Lemma p_wrk_eq x p : prec_up p < P_LIM -> 0 < p -> Z.max (round_p p) (mantissa_max_bit_len x) = max64 (prec_up p) x.
Proof. intros. rewrite round_p_eq by lia. reflexivity. Qed.

(** ** Odd functions *)
Section Odd.
Variable f : R -> R.
Variable d : Z.
Variable inv : bool.
Hypothesis f_near : forall t, (0 < t <= / 8)%R -> (0 < (if inv then t - f t else f t - t) < bpow radix2 (- d) * (t * t * t))%R.
Hypothesis f_odd : forall t, (- / 8 <= t <= / 8)%R -> f (- t) = (- f t)%R.

Lemma tiny_le x e : wf x -> ne x <= e -> (Rabs (value x) < bpow radix2 e)%R.
Proof. intros W H. eapply Rlt_le_trans; [apply value_lt_bpow; auto|]. now apply bpow_le. Qed.

Lemma odd_beside x w : wf x -> nonzero x -> 3 <= w -> 2 * ne x - d + w + 1 < 0 -> ne x <= -3 ->
  beside (xorb inv (is_pos (ns x))) (value x) (bpow radix2 (ne x - w - 2)) (f (value x)).
Proof.
  intros W N Hw He H3. set (t := Rabs (value x)). assert (T0 : (0 < t)%R) by (apply value_pos; auto).
  assert (T1 : (t < bpow radix2 (ne x))%R) by (apply value_lt_bpow; auto).
  assert (T8 : (t <= / 8)%R). { apply Rlt_le. change (/ 8)%R with (bpow radix2 (-3)). eapply Rlt_le_trans; [exact T1|]. now apply bpow_le. }
  pose proof (f_near t (conj T0 T8)) as Fn.
  assert (B : (bpow radix2 (- d) * (t * t * t) < bpow radix2 (ne x - w - 2))%R).
  { apply Rlt_le_trans with (bpow radix2 (- d) * (bpow radix2 (ne x) * bpow radix2 (ne x) * bpow radix2 (ne x)))%R.
    - apply Rmult_lt_compat_l; [apply bpow_gt_0|]. pose proof (bpow_gt_0 radix2 (ne x)). set (b := bpow radix2 (ne x)) in *.
      assert (t * t < b * b)%R by nra. nra.
    - rewrite <- !bpow_plus. apply bpow_le. lia. }
  assert (V : value x = (IZR (sgnZ (ns x)) * t)%R).
  { unfold t. pose proof (value_has_sign x W N) as Hs. unfold has_sign in Hs. destruct (ns x); cbn [sgnZ] in *; [rewrite Rabs_left by lra|rewrite Rabs_pos_eq by lra]; ring. }
  rewrite V. unfold beside. destruct (ns x); cbn [sgnZ is_pos xorb].
  - replace (IZR (-1) * t)%R with (- t)%R by ring. rewrite f_odd by lra. destruct inv; cbn [xorb]; lra.
  - rewrite Rmult_1_l. destruct inv; cbn [xorb]; lra.
Qed.

Theorem odd_small rest x p rm : wf x -> nonzero x -> 0 < p -> max64 (prec_up p) x + 64 < P_LIM -> (rm <> RNone \/ EMIN < ne x) -> d <= 2 ->
  max64 (prec_up p) x + 1 < - (ne x * 2 - d) ->
  exists q, odd_top rest d inv x p rm = Ok q /\ rounded_to (prec_up p) rm (ns x) (f (value x)) q.
Proof.
  intros W N Hp HP Hrm Hd Hs. destruct (nonzero_bits x W N) as (_ & _ & L0). assert (PP : 64 <= prec_up p) by (unfold prec_up; dlia).
  assert (PM : prec_up p < P_LIM) by (unfold max64 in HP; lia).
  unfold odd_top, odd_in, small_exp. cbv zeta. rewrite (is_zero_false x W N), (p_wrk_eq x p PM Hp). replace (max64 (prec_up p) x + 1 <? - (ne x * 2 - d)) with true by lia.
  rewrite round_p_eq by lia. fold (prec_up p). assert (W64 : 64 <= max64 (prec_up p) x) by (unfold max64; lia).
  apply (small_value_spec x inv (prec_up p) rm (max64 (prec_up p) x) (sgnZ (ns x) * magnitude x * 2 ^ (max64 (prec_up p) x - 64 * wlen x)) (f (value x)) W N ltac:(lia) (prec_up_mod p) HP ltac:(lia) Hrm).
  - unfold max64. lia.
  - apply wide_form; [exact W|unfold max64; lia].
  - apply odd_beside; auto; lia.
Qed.
End Odd.

Theorem sin_small rest x p rm : wf x -> nonzero x -> 0 < p -> max64 (prec_up p) x + 64 < P_LIM -> (rm <> RNone \/ EMIN < ne x) ->
  max64 (prec_up p) x + 1 < - (ne x * 2 - 2) -> exists q, n_sin rest x p rm = Ok q /\ rounded_to (prec_up p) rm (ns x) (sin (value x)) q.
Proof.
  intros W N Hp HP Hrm Hs. apply (odd_small sin 2 true); auto; [|intros; apply sin_neg|lia].
  intros t T. pose proof (sin_near t ltac:(lra)). change (bpow radix2 (Z.opp 2)) with (/ 4)%R. assert (0 < t * t * t)%R by (repeat apply Rmult_lt_0_compat; lra). cbv iota. lra.
Qed.
Theorem tan_small rest x p rm : wf x -> nonzero x -> 0 < p -> max64 (prec_up p) x + 64 < P_LIM -> (rm <> RNone \/ EMIN < ne x) ->
  max64 (prec_up p) x + 1 < - (ne x * 2 - 1) -> exists q, n_tan rest x p rm = Ok q /\ rounded_to (prec_up p) rm (ns x) (tan (value x)) q.
Proof.
  intros W N Hp HP Hrm Hs. apply (odd_small tan 1 false); auto; [|intros; apply tan_neg|lia].
  intros t T. cbv iota. change (bpow radix2 (Z.opp 1)) with (/ 2)%R. apply tan_near. lra.
Qed.
Theorem atan_small rest x p rm : wf x -> nonzero x -> 0 < p -> max64 (prec_up p) x + 64 < P_LIM -> (rm <> RNone \/ EMIN < ne x) ->
  max64 (prec_up p) x + 1 < - (ne x * 2 - 1) -> exists q, n_atan rest x p rm = Ok q /\ rounded_to (prec_up p) rm (ns x) (atan (value x)) q.
Proof.
  intros W N Hp HP Hrm Hs. apply (odd_small atan 1 true); auto; [|intros; apply atan_opp|lia].
  intros t T. cbv iota. change (bpow radix2 (Z.opp 1)) with (/ 2)%R. apply atan_near. lra.
Qed.
Theorem sinh_small rest x p rm : wf x -> nonzero x -> 0 < p -> max64 (prec_up p) x + 64 < P_LIM -> (rm <> RNone \/ EMIN < ne x) ->
  max64 (prec_up p) x + 1 < - (ne x * 2 - 2) -> exists q, n_sinh rest x p rm = Ok q /\ rounded_to (prec_up p) rm (ns x) (sinh (value x)) q.
Proof.
  intros W N Hp HP Hrm Hs. apply (odd_small sinh 2 false); auto; [|intros; apply sinh_neg|lia].
  intros t T. cbv iota. change (bpow radix2 (Z.opp 2)) with (/ 4)%R. apply sinh_near. lra.
Qed.
Theorem asinh_small rest x p rm : wf x -> nonzero x -> 0 < p -> max64 (prec_up p) x + 64 < P_LIM -> (rm <> RNone \/ EMIN < ne x) ->
  max64 (prec_up p) x + 1 < - (ne x * 2 - 2) -> exists q, n_asinh rest x p rm = Ok q /\ rounded_to (prec_up p) rm (ns x) (arcsinh (value x)) q.
Proof.
  intros W N Hp HP Hrm Hs. apply (odd_small arcsinh 2 true); auto; [| |lia].
  - intros t T. cbv iota. change (bpow radix2 (Z.opp 2)) with (/ 4)%R. apply arcsinh_near. lra.
  - intros t _. rewrite <- (sinh_arcsinh t) at 1. rewrite <- sinh_neg. apply arcsinh_sinh.
Qed.

(** tanh, asin and atanh have other tests before the shortcut; past them they are the
    same. *)
Lemma tanh_odd rest x p rm : ne x <> EMAX -> n_tanh rest x p rm = odd_top rest 1 true x p rm.
Proof. intros H. unfold n_tanh, tanh_in, odd_top, odd_in. destruct (Z.eqb_spec (ne x) EXPONENT_MAX) as [E|_]; [now destruct H|reflexivity]. Qed.

Theorem tanh_small rest x p rm : wf x -> nonzero x -> 0 < p -> max64 (prec_up p) x + 64 < P_LIM -> (rm <> RNone \/ EMIN < ne x) ->
  max64 (prec_up p) x + 1 < - (ne x * 2 - 1) -> exists q, n_tanh rest x p rm = Ok q /\ rounded_to (prec_up p) rm (ns x) (tanh (value x)) q.
Proof.
  intros W N Hp HP Hrm Hs. rewrite tanh_odd by (pose proof (prec_up_pos p Hp); unfold max64 in Hs; lia). apply (odd_small tanh 1 true); auto; [|intros; apply tanh_neg|lia].
  intros t T. cbv iota. change (bpow radix2 (Z.opp 1)) with (/ 2)%R. apply tanh_near. lra.
Qed.

(** ** Comparison with one *)
Lemma abs_cmp_one x : wf x -> Z.sgn (n_abs_cmp x ONE) = sgn_of (Rcompare (Rabs (value x)) 1).
Proof.
  intros W. destruct (Z.eq_dec (magnitude x) 0) as [E|N].
  - unfold n_abs_cmp. rewrite (is_zero_spec x W), E. cbn [Z.eqb]. rewrite (is_zero_false ONE ONE_wf ONE_nonzero), (value_zero x E), Rabs_R0, Rcompare_Lt by lra. reflexivity.
  - rewrite (n_abs_cmp_spec x ONE W ONE_wf N ONE_nonzero), ONE_value, Rabs_R1. reflexivity.
Qed.

Theorem asin_small pi rest x p rm : wf x -> nonzero x -> 0 < p -> max64 (prec_up p) x + 64 < P_LIM -> (rm <> RNone \/ EMIN < ne x) ->
  max64 (prec_up p) x + 1 < - (ne x * 2 - 2) -> exists q, n_asin rest pi x p rm = Ok q /\ rounded_to (prec_up p) rm (ns x) (asin (value x)) q.
Proof.
  intros W N Hp HP Hrm Hs. assert (E : n_asin rest pi x p rm = odd_top rest 2 false x p rm).
  { unfold n_asin, odd_top, odd_in. cbv zeta. rewrite (is_zero_false x W N). pose proof (abs_cmp_one x W) as C.
    assert (L : (Rabs (value x) < 1)%R). { change 1%R with (bpow radix2 0). apply tiny_le; [exact W|]. unfold max64, prec_up in Hs. clear -Hs Hp. dlia. }
    rewrite Rcompare_Lt in C by exact L. cbn [sgn_of] in C. replace (0 <? n_abs_cmp x ONE) with false by lia. replace (n_abs_cmp x ONE =? 0) with false by lia. reflexivity. }
  rewrite E. apply (odd_small asin 2 false); auto; [|intros; apply asin_opp|lia].
  intros t T. cbv iota. change (bpow radix2 (Z.opp 2)) with (/ 4)%R. apply asin_near. lra.
Qed.

Theorem atanh_small rest x p rm : wf x -> nonzero x -> 0 < p -> max64 (prec_up p) x + 64 < P_LIM -> (rm <> RNone \/ EMIN < ne x) ->
  max64 (prec_up p) x + 1 < - (ne x * 2 - 1) -> exists q, n_atanh rest x p rm = Ok q /\ rounded_to (prec_up p) rm (ns x) (artanh (value x)) q.
Proof.
  intros W N Hp HP Hrm Hs. assert (E : n_atanh rest x p rm = odd_top rest 1 false x p rm).
  { unfold n_atanh, odd_top, odd_in. cbv zeta. rewrite (is_zero_false x W N). assert (ne x <= 0) by (unfold max64, prec_up in Hs; clear -Hs Hp; dlia).
    replace (ne x =? 1) with false by lia. replace (1 <? ne x) with false by lia. reflexivity. }
  rewrite E. apply (odd_small artanh 1 false); auto; [|intros; apply artanh_neg; lra|lia].
  intros t T. cbv iota. change (bpow radix2 (Z.opp 1)) with (/ 2)%R. apply artanh_near. lra.
Qed.

(** ** Functions with the value one at zero *)
Lemma one_small inv p rm r : 0 < p -> p mod 64 = 0 -> Z.max p 128 + 64 < P_LIM -> beside (negb inv) 1 (bpow radix2 (- p - 1)) r ->
  exists q, small_value ONE inv p rm = Ok q /\ rounded_to p rm Pos r q.
Proof.
  intros Hp Pm HP Hr. assert (N1 : ne ONE = 1) by reflexivity. assert (L1 : wlen ONE = 2) by reflexivity. assert (S1 : ns ONE = Pos) by reflexivity.
  assert (M : max64 p ONE = Z.max p 128) by (unfold max64; rewrite L1; reflexivity).
  destruct (small_value_spec ONE inv p rm p (2 ^ (p - 1)) r ONE_wf ONE_nonzero Hp Pm) as (q & E & Q).
  - rewrite M. exact HP.
  - rewrite N1. reflexivity.
  - right. rewrite N1. reflexivity.
  - rewrite M. lia.
  - rewrite ONE_value, N1, <- bpow_IZR, <- bpow_plus by lia. replace (p - 1 + (1 - p)) with 0 by lia. reflexivity.
  - rewrite ONE_value, N1, S1. cbn [is_pos]. rewrite xorb_true_r. replace (1 - p - 2) with (- p - 1) by lia. exact Hr.
  - exists q. split; [exact E|]. rewrite S1 in Q. exact Q.
Qed.

Lemma even_small (f : R -> R) (inv : bool) rest x p rm : (forall t, (0 < t <= / 4)%R -> (0 < (if inv then 1 - f t else f t - 1) < t * t)%R) -> (forall t, f (- t)%R = f t) ->
  wf x -> nonzero x -> 0 < p -> Z.max (prec_up p) 128 + 64 < P_LIM -> max64 (prec_up p) x + 1 < - (ne x * 2 - 1) ->
  exists q, even_top rest inv x p rm = Ok q /\ rounded_to (prec_up p) rm Pos (f (value x)) q.
Proof.
  intros Fn Fe W N Hp HP Hs. assert (PP : 64 <= prec_up p) by (unfold prec_up; dlia). assert (PM : prec_up p < P_LIM) by lia.
  unfold even_top, even_in, small_exp. cbv zeta. rewrite (is_zero_false x W N), (p_wrk_eq x p PM Hp). replace (max64 (prec_up p) x + 1 <? - (ne x * 2 - 1)) with true by lia.
  rewrite round_p_eq by lia. fold (prec_up p). apply one_small; [lia|apply prec_up_mod|exact HP|].
  set (t := Rabs (value x)). assert (T0 : (0 < t)%R) by (apply value_pos; auto). assert (T1 : (t < bpow radix2 (ne x))%R) by (apply value_lt_bpow; auto).
  unfold max64 in Hs.
  assert (T8 : (t <= / 4)%R). { apply Rlt_le. change (/ 4)%R with (bpow radix2 (-2)). eapply Rlt_le_trans; [exact T1|]. apply bpow_le. lia. }
  assert (F : f (value x) = f t). { unfold t. destruct (Rle_dec 0 (value x)); [rewrite Rabs_pos_eq by auto; reflexivity|]. rewrite Rabs_left by lra. symmetry. apply Fe. }
  specialize (Fn t (conj T0 T8)). assert (B : (t * t < bpow radix2 (- prec_up p - 1))%R).
  { apply Rlt_le_trans with (bpow radix2 (ne x) * bpow radix2 (ne x))%R; [nra|]. rewrite <- bpow_plus. apply bpow_le. lia. }
  rewrite F. unfold beside. destruct inv; cbn [negb]; lra.
Qed.

Theorem cos_small rest x p rm : wf x -> nonzero x -> 0 < p -> Z.max (prec_up p) 128 + 64 < P_LIM -> max64 (prec_up p) x + 1 < - (ne x * 2 - 1) ->
  exists q, n_cos rest x p rm = Ok q /\ rounded_to (prec_up p) rm Pos (cos (value x)) q.
Proof. intros. apply even_small; auto; [exact cos_near|exact cos_neg]. Qed.

Theorem cosh_small rest x p rm : wf x -> nonzero x -> 0 < p -> Z.max (prec_up p) 128 + 64 < P_LIM -> max64 (prec_up p) x + 1 < - (ne x * 2 - 1) ->
  exists q, n_cosh rest x p rm = Ok q /\ rounded_to (prec_up p) rm Pos (cosh (value x)) q.
Proof. intros. apply even_small; auto; [|exact cosh_neg]. intros t T. pose proof (cosh_near t T). split; [lra|]. nra. Qed.

Theorem exp_small {A} (ok : result num -> A) rest x p rm : wf x -> nonzero x -> 0 < p -> Z.max (prec_up p) 128 + 64 < P_LIM -> max64 (prec_up p) x + 1 < - ne x ->
  exists q, exp_top ok rest x p rm = ok (Ok q) /\ rounded_to (prec_up p) rm Pos (exp (value x)) q.
Proof.
  intros W N Hp HP Hs. assert (PP : 64 <= prec_up p) by (unfold prec_up; dlia). assert (PM : prec_up p < P_LIM) by lia.
  unfold exp_top, small_exp. cbv zeta. rewrite (is_zero_false x W N), (p_wrk_eq x p PM Hp). replace (max64 (prec_up p) x + 1 <? - ne x) with true by lia.
  rewrite round_p_eq by lia. fold (prec_up p). unfold max64 in Hs.
  destruct (one_small (is_negative x) (prec_up p) rm (exp (value x)) ltac:(lia) (prec_up_mod p) HP) as (q & E & Q); [|exists q; rewrite E; auto].
  set (t := Rabs (value x)). assert (T0 : (0 < t)%R) by (apply value_pos; auto). assert (T1 : (t < bpow radix2 (ne x))%R) by (apply value_lt_bpow; auto).
  assert (T8 : (t <= / 4)%R). { apply Rlt_le. change (/ 4)%R with (bpow radix2 (-2)). eapply Rlt_le_trans; [exact T1|]. apply bpow_le. lia. }
  assert (B : (2 * t < bpow radix2 (- prec_up p - 1))%R).
  { apply Rlt_le_trans with (bpow radix2 1 * bpow radix2 (ne x))%R; [change (bpow radix2 1) with 2%R; lra|]. rewrite <- bpow_plus. apply bpow_le. lia. }
  pose proof (value_has_sign x W N) as Hx. unfold has_sign in Hx. unfold is_negative, is_positive, beside. destruct (ns x); cbn [sgnZ] in Hx; cbn [negb is_pos sign_eqb].
  - assert (V : value x = (- t)%R) by (unfold t; rewrite Rabs_left by lra; ring). pose proof (exp_near_neg t T0). rewrite V. lra.
  - assert (V : value x = t) by (unfold t; rewrite Rabs_pos_eq by lra; ring). pose proof (exp_near_pos t (conj T0 T8)). rewrite V. lra.
Qed.

(** ** tanh at the maximal exponent *)
Lemma exp_two n : 0 <= n -> (bpow radix2 n <= exp (IZR n))%R.
Proof.
  intros Hn. pattern n. apply natlike_ind; [rewrite exp_0; change (bpow radix2 0) with 1%R; lra| |exact Hn].
  intros k Hk IH. rewrite <- Z.add_1_r, plus_IZR, exp_plus, bpow_plus. change (bpow radix2 1) with 2%R. pose proof (exp_ineq1 1 ltac:(lra)). pose proof (bpow_gt_0 radix2 k). nra.
Qed.

Lemma tanh_one x n : 0 <= n -> (IZR n <= x)%R -> (0 < x)%R -> (0 < 1 - tanh x < 2 * bpow radix2 (- n))%R.
Proof.
  intros Hn Hx H0. assert (E : (1 - tanh x = 2 * exp (- x) / (exp x + exp (- x)))%R). { unfold tanh, sinh, cosh. pose proof (exp_pos x). pose proof (exp_pos (- x)). field. lra. }
  rewrite E. pose proof (exp_pos x) as P1. pose proof (exp_pos (- x)) as P2. assert (U : (exp x * exp (- x) = 1)%R) by (rewrite <- exp_plus, Rplus_opp_r; apply exp_0).
  assert (X1 : (1 < exp x)%R) by (pose proof (exp_ineq1 x ltac:(lra)); lra).
  assert (L : (bpow radix2 n <= exp x)%R). { eapply Rle_trans; [apply exp_two; exact Hn|]. destruct (Req_dec (IZR n) x) as [->|]; [lra|]. apply Rlt_le, exp_increasing. lra. }
  assert (V : (bpow radix2 n * bpow radix2 (- n) = 1)%R) by (rewrite <- bpow_plus; replace (n + - n) with 0 by lia; reflexivity). pose proof (bpow_gt_0 radix2 (- n)) as P3.
  split; [apply Rdiv_lt_0_compat; lra|]. apply Rmult_lt_reg_r with (exp x + exp (- x))%R; [lra|]. unfold Rdiv. rewrite Rmult_assoc, Rinv_l, Rmult_1_r by lra.
  assert (exp (- x) < 1)%R by nra. assert (exp (- x) <= bpow radix2 (- n))%R by (apply Rmult_le_reg_l with (exp x); [lra|]; rewrite U, <- V; apply Rmult_le_compat_r; lra). nra.
Qed.

Theorem tanh_max rest x p rm : wf x -> ne x = EMAX -> 0 < p -> prec_up p + 64 < P_LIM ->
  exists q, n_tanh rest x p rm = Ok q /\ rounded_to (prec_up p) rm (ns x) (tanh (value x)) q.
Proof.
  intros W He Hp HP. assert (N : nonzero x). { intros Z. pose proof (wf_zero x W Z). rewrite H in He. discriminate. }
  assert (PP : 64 <= prec_up p) by (unfold prec_up; dlia).
  unfold n_tanh, tanh_in. cbv zeta. rewrite (is_zero_false x W N), He. change (EMAX =? EXPONENT_MAX) with true. cbv iota. rewrite round_p_eq by lia. fold (prec_up p).
  assert (SI : sign_int (ns x) = sgnZ (ns x)) by (destruct (ns x); reflexivity).
  assert (UI : prec_up (prec_up p) = prec_up p) by (unfold prec_up; dlia).
  destruct (from_int_spec 8 (sign_int (ns x)) (prec_up p) ltac:(lia)) as [_ F]; [rewrite SI; destruct (ns x); cbn [sgnZ]; split; [intros Q; vm_compute in Q; discriminate|reflexivity|intros Q; vm_compute in Q; discriminate|reflexivity]|rewrite UI; lia|].
  destruct (F ltac:(lia)) as (o & -> & Wo & Lo & _ & Vo & So). cbn [bind]. rewrite UI in Lo.
  assert (No : nonzero o). { intros Z. apply value_zero_iff in Z. rewrite Z in Vo. symmetry in Vo. apply eq_IZR in Vo. rewrite SI in Vo. destruct (ns x); discriminate. }
  assert (So' : ns o = ns x) by (rewrite So, SI; destruct (ns x); reflexivity).
  assert (Eo : ne o = 1). { assert (Ab : Rabs (value o) = 1%R) by (rewrite Vo, SI; destruct (ns x); cbn [sgnZ]; [rewrite Rabs_left by lra; ring|apply Rabs_R1]).
    apply exp_of_range; [exact Wo| |rewrite Ab; change (bpow radix2 (1 - 1)) with 1%R; change (bpow radix2 1) with 2%R; lra].
    apply normal_iff; [exact Wo|]. rewrite Ab. change 1%R with (bpow radix2 0). apply bpow_le. lia. }
  assert (Hmax : max64 (prec_up p) o = prec_up p) by (unfold max64; lia).
  pose proof (small_value_spec o true (prec_up p) rm (prec_up p) (sgnZ (ns x) * 2 ^ (prec_up p - 1)) (tanh (value x)) Wo No ltac:(lia) (prec_up_mod p)) as Sm.
  unfold small_value, mantissa_max_bit_len, max_bit_len, mlen in Sm. fold (wlen o) in Sm. replace (64 * wlen o <? prec_up p) with false in Sm by lia. cbn [bind] in Sm. rewrite Hmax, Eo, So' in Sm.
  apply Sm; clear Sm; [lia|reflexivity|right; reflexivity|lia| |].
  - rewrite Vo, SI, mult_IZR, <- bpow_IZR by lia. rewrite Rmult_assoc, <- bpow_plus. replace (prec_up p - 1 + (1 - prec_up p)) with 0 by lia. change (bpow radix2 0) with 1%R. ring.
  - assert (Big : (IZR (prec_up p + 2) <= Rabs (value x))%R).
    { assert (Nx : normal x) by (destruct (normal_or x W N) as [H|[_ H]]; [exact H|rewrite H in He; discriminate]). destruct (normal_range x W Nx) as [B _]. rewrite He in B.
      eapply Rle_trans; [|exact B]. apply Rle_trans with (bpow radix2 63); [|apply bpow_le; intros Q; vm_compute in Q; discriminate]. rewrite bpow_IZR by lia. apply IZR_le.
      assert (P_LIM <= 2 ^ 63) by (intros Q; vm_compute in Q; discriminate). lia. }
    assert (T0 : (0 < Rabs (value x))%R) by (apply value_pos; auto). pose proof (tanh_one (Rabs (value x)) (prec_up p + 2) ltac:(lia) Big T0) as T.
    replace (2 * bpow radix2 (- (prec_up p + 2)))%R with (bpow radix2 (1 - prec_up p - 2)) in T by (replace (1 - prec_up p - 2) with (1 + - (prec_up p + 2)) by lia; rewrite bpow_plus; reflexivity).
    rewrite Vo, SI. pose proof (value_has_sign x W N) as Hx. unfold has_sign in Hx. unfold beside. destruct (ns x); cbn [sgnZ] in *; cbn [is_pos xorb].
    + assert (V : value x = (- Rabs (value x))%R) by (rewrite Rabs_left by lra; ring). rewrite V, tanh_neg. lra.
    + assert (V : value x = Rabs (value x)) by (rewrite Rabs_pos_eq by lra; ring). rewrite V. lra.
Qed.
