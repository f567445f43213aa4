(** Claims that the code does not meet, part 1: subnormal results in the nearest
    modes, full-precision addition with a zero, comparison with a zero. *)

From Coq Require Import ZArith Reals List Bool Lia Lra.
From Flocq Require Import Core.
From Verif Require Import Words IntModel Mantissa Num SpecZ WordsP WordsP2 RoundP Spec RealP RealP2 NumP CmpP AddP SetP AddNum MulNum DivNum ArithTop.
Import ListNotations.
Open Scope Z_scope.
Ltac Zify.zify_post_hook ::= idtac.
Arguments Z.mul : simpl never.
Arguments Z.add : simpl never.
Arguments Z.pow : simpl never.
Arguments Z.sub : simpl never.
Arguments Z.of_nat : simpl never.

(** Three quarters of the smallest normal-exponent unit, and 2^-64. *)
Definition ex_three_quarters : num := mk_num (mk_m [13835058055282163712] 64) Pos EXPONENT_MIN false.
Definition ex_pow_m64 : num := mk_num (mk_m [9223372036854775808] 64) Pos (-63) false.

Ltac wf_concrete :=
  constructor;
  [ unfold words_ok; cbn [nm mm]; repeat constructor; lia
  | reflexivity | reflexivity | cbn [ne]; lia
  | let H := fresh in intros H; vm_compute in H; discriminate H
  | let H := fresh in intros [_ H]; vm_compute in H; try discriminate H; reflexivity ].

Lemma ex_three_quarters_wf : wf ex_three_quarters.
Proof. unfold ex_three_quarters. wf_concrete. Qed.
Lemma ex_pow_m64_wf : wf ex_pow_m64.
Proof. unfold ex_pow_m64. wf_concrete. Qed.

Lemma ex_prod : (value ex_three_quarters * value ex_pow_m64)%R = F2 Pos 3 (EMIN - 66).
Proof.
  unfold value. change (ns ex_three_quarters) with Pos. change (ns ex_pow_m64) with Pos. rewrite F2_mult.
  change (magnitude ex_three_quarters * magnitude ex_pow_m64) with (3 * 2 ^ 125). rewrite F2R_shift by lia. f2eq.
Qed.

Lemma ex_grad rm : nearest rm = true -> rnd_grad 64 rm (F2 Pos 3 (EMIN - 66)) = bpow radix2 (EMIN - 64).
Proof.
  intros Hn. unfold rnd_grad.
  assert (C : cexp radix2 (FLT_exp (EMIN - 64) 64) (F2 Pos 3 (EMIN - 66)) = EMIN - 64).
  { unfold cexp, FLT_exp. rewrite mag_F2R_bitlen by lia. change (bitlen 3) with 2. cbv beta. lia. }
  pose proof (round_at (FLT_exp (EMIN - 64) 64) rm Pos 3 (EMIN - 66) ltac:(lia)) as R0. rewrite C in R0. cbv zeta in R0. rewrite R0 by lia. clear R0. replace (EMIN - 64 - (EMIN - 66)) with 2 by lia.
  replace (rndN rm (is_pos Pos) 3 2) with 1 by (destruct rm; try discriminate Hn; reflexivity).
  unfold F2R. cbn [Fnum Fexp sgnZ]. change (1 * 1) with 1. apply Rmult_1_l.
Qed.

Theorem mul_subnormal_nearest_zero : exists x y, wf x /\ wf y /\ nonzero x /\ nonzero y /\
  forall rm, nearest rm = true ->
    exists q, n_mul x y 64 rm = Ok q /\ value q = 0%R /\ rnd_grad 64 rm (value x * value y) = bpow radix2 (EMIN - 64).
Proof.
  exists ex_three_quarters, ex_pow_m64. split; [exact ex_three_quarters_wf|]. split; [exact ex_pow_m64_wf|].
  split; [vm_compute; discriminate|]. split; [vm_compute; discriminate|]. intros rm Hn.
  rewrite ex_prod, ex_grad by auto.
  assert (H : exists q, n_mul ex_three_quarters ex_pow_m64 64 rm = Ok q /\ magnitude q = 0).
  { destruct rm; try discriminate Hn; eexists; split; vm_compute; reflexivity. }
  destruct H as (q & Q1 & Q2). exists q. split; [exact Q1|]. split; [now apply value_zero|reflexivity].
Qed.

(** Full-precision addition and subtraction with a zero operand return an empty zero. *)
Lemma sp0_empty x : wf x -> exists q, set_precision x 0 RNone = Ok q /\ mm (nm q) = [].
Proof.
  intros W. unfold set_precision, set_precision_internal, p_assertion. change (P_LIM <=? 0) with false. cbn [bind].
  change (0 <? 0) with false. rewrite andb_false_r. change (0 =? 0) with true. cbv iota.
  assert (Hl : forall y, wlen y = wlen x -> mm (m_set_length (nm y) 0) = []).
  { intros y Hy. unfold m_set_length. change (wlen_of_bits 0) with 0. unfold mlen. fold (wlen y). pose proof (zlen_nonneg (mm (nm y))). fold (wlen y) in *.
    assert (Hz : forall w : words, zlen w = 0 -> w = []). { intros w Hw. destruct w; auto. rewrite zlen_cons in Hw. pose proof (zlen_nonneg w). lia. }
    destruct (Z.ltb_spec 0 (wlen y)).
    - cbn [mm]. reflexivity.
    - destruct (Z.ltb_spec (wlen y) 0); [lia|]. apply Hz. unfold wlen in *. lia. }
  destruct (is_zero x).
  - cbn [andb bind]. eexists. split; [reflexivity|]. cbn [nm]. now apply Hl.
  - cbn [bind]. eexists. split; [reflexivity|]. cbn [nm set_inexact]. now apply Hl.
Qed.

Theorem add_full_zero x y : wf x -> wf y -> magnitude x = 0 \/ magnitude y = 0 ->
  (exists q, n_add_full_prec x y = Ok q /\ value q = 0%R /\ wlen q = 0) /\
  (exists q, n_sub_full_prec x y = Ok q /\ value q = 0%R /\ wlen q = 0).
Proof.
  intros Wx Wy Hz.
  assert (H : forall op, op = 1 \/ op = -1 -> exists q, add_sub x y 0 op RNone true = Ok q /\ value q = 0%R /\ wlen q = 0).
  { intros op Hop. unfold add_sub. change (round_p 0) with 0. unfold p_assertion at 1. change (P_LIM <=? 0) with false. cbn [bind].
    assert (K : forall z, wf z -> exists q, set_precision z 0 RNone = Ok q /\ value q = 0%R /\ wlen q = 0).
    { intros z W. destruct (sp0_empty z W) as (q & Q1 & Q2). exists q. split; [exact Q1|]. split; [apply value_zero; unfold magnitude; now rewrite Q2|unfold wlen; now rewrite Q2]. }
    rewrite !is_zero_spec by auto. destruct (Z.eqb_spec (magnitude x) 0).
    - apply K. destruct (op <? 0); auto using n_neg_wf.
    - destruct Hz as [|Hz]; [contradiction|]. rewrite Hz. cbn [Z.eqb]. now apply K. }
  split; apply H; auto.
Qed.

(** Comparison of a nonzero number with a zero of [wlen y] words. *)
Lemma cmp_zero_gen x y : wf x -> wf y -> nonzero x -> magnitude y = 0 -> ns x = ns y ->
  norm_exp x + 64 * wlen y <> 0 -> n_cmp x y = Z.sgn (norm_exp x + 64 * wlen y) * sgnZ (ns x).
Proof.
  intros Wx Wy Nx Zy Hs He. unfold n_cmp. rewrite (is_zero_false x) by auto. cbn [andb].
  replace (sign_eqb (ns x) (ns y)) with true by (rewrite Hs; destruct (ns y); reflexivity). cbn [negb].
  replace (sign_int (ns x)) with (sgnZ (ns x)) by (destruct (ns x); reflexivity). f_equal.
  unfold n_abs_cmp. rewrite (is_zero_false x) by auto. cbv zeta. unfold mantissa_max_bit_len, max_bit_len, mlen, precision. fold (wlen x) (wlen y).
  rewrite (wf_zero y Wy Zy). pose proof (wf_bits y Wy) as Hb. rewrite Zy in Hb. change (bitlen 0) with 0 in Hb. rewrite Hb.
  unfold norm_exp in *.
  destruct (Z.ltb_spec 0 (ne x - (64 * wlen x - mn (nm x)) - 0 + (64 * wlen y - 0))).
  - rewrite Z.sgn_pos; lia.
  - destruct (Z.ltb_spec (ne x - (64 * wlen x - mn (nm x)) - 0 + (64 * wlen y - 0)) 0); [|lia]. rewrite Z.sgn_neg; lia.
Qed.

Lemma sgn_of_Rcompare_0 x : wf x -> nonzero x -> sgn_of (Rcompare (value x) 0) = sgnZ (ns x).
Proof.
  intros W N. pose proof (value_pos x W N) as H. rewrite (value_sgn_abs x W). unfold sgnR. destruct (ns x); cbn [sgnZ].
  - rewrite Rcompare_Lt; [reflexivity|]. lra.
  - rewrite Rcompare_Gt; [reflexivity|]. lra.
Qed.

(** The comparison with a zero is right for |x| >= 2^(-64 wlen y) ... *)
Theorem cmp_zero_right_ok x y : wf x -> wf y -> nonzero x -> magnitude y = 0 ->
  ns x <> ns y \/ (bpow radix2 (- (64 * wlen y)) <= Rabs (value x))%R ->
  Z.sgn (n_cmp x y) = sgn_of (Rcompare (value x) (value y)).
Proof.
  intros Wx Wy Nx Zy H. rewrite (value_zero y) by auto. rewrite sgn_of_Rcompare_0 by auto.
  assert (Hc : ns x <> ns y \/ ns x = ns y) by (destruct (ns x), (ns y); auto; left; discriminate).
  destruct Hc as [Hd|Hs].
  - unfold n_cmp. rewrite (is_zero_false x) by auto. cbn [andb]. destruct (ns x), (ns y); try congruence; reflexivity.
  - destruct H as [|H]; [contradiction|]. pose proof (norm_bounds x Wx Nx) as [_ B].
    assert (K : (bpow radix2 (- (64 * wlen y)) < bpow radix2 (norm_exp x))%R) by lra. apply lt_bpow in K.
    rewrite cmp_zero_gen by (auto; lia). rewrite (Z.sgn_pos (norm_exp x + _)) by lia. destruct (ns x); reflexivity.
Qed.

(** ... and wrong for all |x| < 2^(-64 wlen y - 1) of the same sign. *)
Theorem cmp_zero_right_wrong x y : wf x -> wf y -> nonzero x -> magnitude y = 0 -> ns x = ns y ->
  (Rabs (value x) < bpow radix2 (- (64 * wlen y) - 1))%R ->
  Z.sgn (n_cmp x y) = - sgn_of (Rcompare (value x) (value y)).
Proof.
  intros Wx Wy Nx Zy Hs H. rewrite (value_zero y) by auto. rewrite sgn_of_Rcompare_0 by auto.
  pose proof (norm_bounds x Wx Nx) as [B _].
  assert (K : (bpow radix2 (norm_exp x - 1) < bpow radix2 (- (64 * wlen y) - 1))%R) by lra. apply lt_bpow in K.
  rewrite cmp_zero_gen by (auto; lia). rewrite (Z.sgn_neg (norm_exp x + _)) by lia. destruct (ns x); reflexivity.
Qed.

(** A zero on the left, or on both sides, is handled correctly. *)
Theorem cmp_zero_left x y : wf x -> wf y -> magnitude x = 0 ->
  Z.sgn (n_cmp x y) = sgn_of (Rcompare (value x) (value y)).
Proof.
  intros Wx Wy Zx. rewrite (value_zero x) by auto. unfold n_cmp, n_abs_cmp. rewrite !is_zero_spec, Zx by auto. cbn [Z.eqb andb].
  destruct (Z.eqb_spec (magnitude y) 0) as [Zy|Ny].
  - rewrite value_zero by auto. rewrite Rcompare_Eq by auto. reflexivity.
  - rewrite Rcompare_sym. pose proof (sgn_of_Rcompare_0 y Wy Ny) as H. destruct (Rcompare (value y) 0), (ns x), (ns y); cbn in *; try lia; discriminate.
Qed.
