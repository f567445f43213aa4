(** Integer powers: the loop terminates and its result is right. *)

From Coq Require Import ZArith List Bool Lia Reals Lra.
From Flocq Require Import Core Relative.
From Verif Require Import Words IntModel Mantissa Num Pow SpecZ WordsP WordsP2 Spec SpecPow RoundP RealP RealP2 NumP CmpP AddP SetP AddNum MulNum ArithTop IntNum RoundableNum PowP PowNum.
Import ListNotations.
Open Scope Z_scope.
Ltac Zify.zify_post_hook ::= idtac.
Arguments Z.mul : simpl never.
Arguments Z.add : simpl never.
Arguments Z.pow : simpl never.
Arguments Z.sub : simpl never.
Arguments Z.of_nat : simpl never.

Lemma pow_has_sign x n : wf x -> nonzero x -> has_sign (pow_sign (ns x) (Z.to_nat n)) (value x ^ Z.to_nat n).
Proof.
  intros W N. fold (pow_real x n). rewrite pow_real_sgn by auto. unfold has_sign. fold (sgnR (pow_sign (ns x) (Z.to_nat n))).
  assert (0 < Rabs (value x) ^ Z.to_nat n)%R. { apply pow_lt. apply Rabs_pos_lt. rewrite value_zero_iff. exact N. }
  destruct (sgnR_cases (pow_sign (ns x) (Z.to_nat n))) as [->| ->]; lra.
Qed.

Lemma pow_sign_test x n : 0 <= n -> (if is_negative x && (Z.land n 1 =? 1) then Neg else Pos) = pow_sign (ns x) (Z.to_nat n).
Proof.
  intros Hn. unfold pow_sign, is_negative. change 1 with (Z.ones 1) at 1. rewrite Z.land_ones by lia. change (2 ^ 1) with 2.
  assert (Nat.odd (Z.to_nat n) = (n mod 2 =? 1)).
  { rewrite Zmod_odd. rewrite <- (Z2Nat.id n) at 2 by auto. rewrite <- Nat.negb_even, <- Z.negb_even. 
    assert (E : Nat.even (Z.to_nat n) = Z.even (Z.of_nat (Z.to_nat n))).
    { generalize (Z.to_nat n). clear. intros m. destruct (Nat.even m) eqn:E.
      - apply Nat.even_spec in E as [j ->]. symmetry. apply Z.even_spec. exists (Z.of_nat j). lia.
      - symmetry. rewrite <- Z.negb_odd. apply negb_false_iff. apply Z.odd_spec. assert (O : Nat.odd m = true) by (rewrite <- Nat.negb_even, E; reflexivity).
        apply Nat.odd_spec in O as [j ->]. exists (Z.of_nat j). lia. }
    rewrite E. destruct (Z.even _); reflexivity. }
  rewrite H. destruct (ns x), (n mod 2 =? 1); reflexivity.
Qed.

Lemma rnd_prec_big p rm a : 0 < p -> (bpow radix2 EMAX <= Rabs a)%R -> (bpow radix2 EMAX <= Rabs (rnd_prec p rm a))%R.
Proof.
  intros Hp H. pose proof (flx_valid p Hp) as V. unfold rnd_prec. destruct rm; cbn [rnd]; apply abs_round_ge_generic; auto; try typeclasses eauto;
    apply generic_format_bpow; unfold FLX_exp; lia.
Qed.

Lemma value_lt_bpow x : wf x -> (Rabs (value x) < bpow radix2 (ne x))%R.
Proof.
  intros W. pose proof (val_bound _ (wf_words x W)) as B. fold (magnitude x) (wlen x) in B.
  rewrite value_split, sgnR_abs by (apply Rmult_le_pos; [apply IZR_le; lia|apply bpow_ge_0]).
  pose proof (zlen_nonneg (mm (nm x))) as W0. fold (wlen x) in W0.
  replace (ne x) with (64 * wlen x + (ne x - 64 * wlen x)) at 2 by lia. rewrite bpow_plus. apply Rmult_lt_compat_r; [apply bpow_gt_0|]. rewrite bpow_IZR by lia. apply IZR_lt. lia.
Qed.

Section Loop.
Variable x : num.
Hypothesis Wx : wf x.
Hypothesis Nx : nonzero x.
Variable n : Z.
Hypothesis Hn : 2 <= n < 2 ^ 64.
Variable p : Z.
Hypothesis Hp : 0 < p.
Hypothesis Hp64 : p mod 64 = 0.
Variable rm : rmode.
Let L := Z.log2 n.
Let r := (value x ^ Z.to_nat n)%R.
Hypothesis Hr : (bpow radix2 (EMIN - 1) <= Rabs r)%R.
Let B := n * (64 * wlen x).
Hypothesis HB : B + B / 5 + 320 < P_LIM.

Definition round_of (f : nat) (w i : Z) : option (result num) := powi_loop f x n L (n * 2 ^ (64 - L) - 2 ^ 64) p rm true w i.

Lemma close_mono w a : p + 64 <= w -> (Rabs (a - r) <= Rabs r * bpow radix2 (- w))%R -> close p r a.
Proof.
  intros H E. unfold close. eapply Rle_trans; [exact E|]. apply Rmult_le_compat_l; [apply Rabs_pos|]. apply bpow_le. lia.
Qed.

Lemma close_refl : close p r r.
Proof. unfold close. rewrite Rminus_diag_eq, Rabs_R0 by reflexivity. apply Rmult_le_pos; [apply Rabs_pos|apply bpow_ge_0]. Qed.

Lemma mark_fields q : wf q -> let q' := set_inexact q (ninexact q || ninexact x) in wf q' /\ wlen q' = wlen q /\ ns q' = ns q /\ value q' = value q /\ ninexact q' = ninexact q || ninexact x.
Proof. intros W q'. split; [destruct W; constructor; auto|]. repeat split. Qed.

(** One round of the loop either gives the result or (only when the working
    precision is below the exact length) starts over with a higher precision. *)
Lemma loop_step f w i : p + 64 <= w -> 64 * wlen x + 64 <= w -> w mod 64 = 0 -> prec_up (w + L * 2) < P_LIM ->
  (exists res, power_post x n p rm res /\ forall f, round_of (S f) w i = Some res) \/
  (w < B /\ round_of (S f) w i = round_of f (w + i) (round_p ((w + i) / 5)) /\ forall f, round_of (S f) w i = round_of f (w + i) (round_p ((w + i) / 5))).
Proof.
  intros Hw1 Hw2 Hw3 HPx. pose proof (attempt_spec x n w Wx Nx Hn Hw2 Hw3) as A. cbv zeta in A. unfold pow_real in A. fold L r in A. specialize (A HPx Hr).
  pose proof (pow_has_sign x n Wx Nx) as HS. fold r in HS.
  unfold round_of. cbn [powi_loop]. destruct (powi_attempt x L (n * 2 ^ (64 - L) - 2 ^ 64) (w + L * 2)) as [q|e|]; [|..].
  3: contradiction.
  2:{ left. destruct A as ((s & ->) & A). cbn [powi_map_err]. rewrite pow_sign_test by lia. eexists. split; [|intros; reflexivity].
      cbn [power_post]. fold r. split; [eexists; split; [exact HS|reflexivity]|]. exists (r * (1 + bpow radix2 (- w)))%R. split.
      - apply (close_mono w); [lia|]. replace (r * (1 + bpow radix2 (- w)) - r)%R with (r * bpow radix2 (- w))%R by ring. rewrite Rabs_mult, (Rabs_pos_eq (bpow _ _)) by apply bpow_ge_0. apply Rle_refl.
      - apply rnd_prec_big; [exact Hp|]. rewrite Rabs_mult, (Rabs_pos_eq (1 + bpow radix2 (- w))); [exact A|]. pose proof (bpow_ge_0 radix2 (- w)). clear - H. lra. }
  destruct A as (Wq & Lq & Nq & Sq & Eq & Gq & Xq & Fq). cbn [powi_map_err].
  pose proof (prec_up_ge (w + L * 2)) as PU. assert (L1 : 1 <= L) by (apply Z.log2_le_pow2; lia).
  assert (Pq : precision q = 64 * wlen q) by (destruct Nq as [Nq _]; exact Nq).
  replace (precision q =? 1) with false by (symmetry; apply Z.eqb_neq; rewrite Pq, Lq; lia). rewrite andb_false_r.
  assert (Hsp : prec_up p < P_LIM) by (unfold prec_up; pose proof PU; clear - Hp64 PU Hw1 HPx L1; dlia).
  pose proof (set_precision_spec q p rm Wq Hp Hsp ltac:(right; left; auto)) as [SE SO].
  assert (GN : rnd_grad p rm (value q) = rnd_prec p rm (value q)) by (apply grad_normal; auto; apply normal_iff; auto). rewrite GN in SE, SO.
  assert (Clq : close p r (value q)) by (apply (close_mono w); [lia|]; rewrite Rabs_minus_sym; exact Eq).
  assert (Hpq : 0 < p < 64 * wlen q) by lia.
  pose proof (try_any q p rm w Wq Nq Hpq Hp64 Hw3 ltac:(lia)) as T.
  assert (S : nearest rm = false -> rm <> RNone -> ninexact q = true -> 
    match try_set_precision q p rm w with
    | Ok (y, true) => ninexact y = true /\ value y = rnd_prec p rm r /\ value y <> r
    | _ => True end).
  { intros D1 D2 Iq. pose proof (try_sound q p rm w r Wq Nq Iq Hpq Hw3 ltac:(lia) D2 ltac:(intros E; congruence)) as TS.
    assert (ED : (Rabs (r - value q) < bpow radix2 (ne q - w))%R).
    { eapply Rle_lt_trans; [exact Eq|]. unfold Zminus. rewrite bpow_plus. apply Rmult_lt_compat_r; [apply bpow_gt_0|]. eapply Rle_lt_trans; [exact Gq|]. now apply value_lt_bpow. }
    specialize (TS ED). destruct (try_set_precision q p rm w) as [[y [|]]|e|]; try exact I. destruct TS as (_ & _ & _ & T1 & T2 & T3 & _). split; [exact T1|split; [exact T2|exact T3]]. }
  assert (R0 : (0 < Rabs r)%R). { eapply Rlt_le_trans; [|exact Hr]. apply bpow_gt_0. }
  destruct (try_set_precision q p rm w) as [[y [|]]|e|]; [..|contradiction].
  - left. eexists. split; [|intros; reflexivity].
    destruct (Rle_or_lt (bpow radix2 EMAX) (Rabs (rnd_prec p rm (value q)))) as [O|O]; [rewrite (SE O) in T; discriminate T|].
    destruct (SO O) as (y' & Ey & Wy & Ly & Sy & Vy & Iy). rewrite T in Ey. injection Ey as <-.
    destruct (mark_fields y Wy) as (M1 & M2 & M3 & M4 & M5). cbn [power_post]. fold r. rewrite M2, M3, M4, M5.
    split; [exact M1|]. split; [rewrite Ly; clear - Hp64; dlia|]. split; [rewrite Sy, Sq; exact HS|]. split; [exists (value q); split; [exact Clq|exact Vy]|].
    split; [|split].
    + intros D1 D2. destruct (ninexact q) eqn:Iq.
      * destruct (S D1 D2 eq_refl) as (S1 & S2 & S3). rewrite S1. split; [exact S2|]. cbn [orb]. split; [intros _; right; exact S3|reflexivity].
      * specialize (Xq eq_refl). rewrite Vy, Xq. split; [reflexivity|]. rewrite <- Xq. rewrite orb_true_iff. rewrite Iy. split; [intros [[H|H]|H]; [discriminate H|right; exact H|left; exact H]|intros [H|H]; [right; exact H|left; right; exact H]].
    + intros ->. apply orb_true_r.
    + intros E. apply orb_false_iff in E as [E1 E2]. destruct (ninexact q) eqn:Iq.
      * exfalso. assert (ninexact y = true) by (apply Iy; first [left; reflexivity|right; exact Ev]). congruence.
      * rewrite Vy. destruct (Req_dec (rnd_prec p rm (value q)) (value q)) as [Ev|Ev]; [rewrite Ev; exact (Xq eq_refl)|].
        exfalso. assert (ninexact y = true) by (apply Iy; first [left; reflexivity|right; exact Ev]). congruence.
  - right. split; [|split; intros; reflexivity]. destruct (Z.lt_ge_cases w B) as [H|H]; auto. exfalso.
    assert (ninexact q = false) by (apply Fq; fold B; lia). congruence.
  - left. eexists. split; [|intros; reflexivity].
    destruct (Rle_or_lt (bpow radix2 EMAX) (Rabs (rnd_prec p rm (value q)))) as [O|O].
    + rewrite (SE O) in T. injection T as <-. cbn [power_post]. fold r. rewrite Sq. split; [eexists; split; [exact HS|reflexivity]|]. exists (value q). split; [exact Clq|exact O].
    + destruct (SO O) as (y' & Ey & _). rewrite T in Ey. discriminate Ey.
Qed.

Lemma loop_top (m : nat) : forall w i, (Z.to_nat (B - w) < m)%nat -> p + 64 <= w -> 64 * wlen x + 64 <= w -> w mod 64 = 0 -> 
  0 < i -> i mod 64 = 0 -> i <= w / 5 + 64 -> w + 256 < P_LIM ->
  exists f0 res, power_post x n p rm res /\ forall f, (f0 <= f)%nat -> round_of f w i = Some res.
Proof.
  assert (L63 : L < 64) by (apply Z.log2_lt_pow2; lia). assert (L1 : 1 <= L) by (apply Z.log2_le_pow2; lia).
  induction m as [|m IH]; intros w i Hm H1 H2 H3 H4 H5 H6 H7; [lia|].
  pose proof (prec_up_ge (w + L * 2)) as PU.
  destruct (loop_step 0 w i H1 H2 H3 ltac:(lia)) as [(res & R1 & R2)|(R1 & _ & R2)].
  - exists 1%nat, res. split; auto. intros f Hf. destruct f as [|f]; [lia|]. apply R2.
  - assert (W5 : i <= B / 5 + 64) by (clear - H6 R1; dlia).
    assert (RP : round_p ((w + i) / 5) = 64 * (((w + i) / 5 + 63) / 64)). { apply round_p_eq; unfold prec_up; clear - H1 Hp H4 W5 R1 HB H7; dlia. }
    assert (Q0 : 0 < (w + i) / 5) by (clear - H1 Hp H4; dlia).
    destruct (IH (w + i) (round_p ((w + i) / 5))) as (f0 & res & F1 & F2); rewrite ?RP; try lia.
    + clear - H3 H5. dlia.
    + clear - Q0. dlia.
    + clear. dlia.
    + clear - Q0. dlia.
    + exists (S f0), res. split; auto. intros f Hf. destruct f as [|f]; [lia|]. rewrite R2. apply F2. lia.
Qed.
End Loop.

(** ** powi *)
Theorem powi_spec x n p rm : wf x -> nonzero x -> 2 <= n < 2 ^ 64 -> 0 < p -> prec_up p + 384 < P_LIM -> 2 * n * (64 * wlen x) + 384 < P_LIM ->
  (bpow radix2 (EMIN - 1) <= Rabs (value x ^ Z.to_nat n))%R ->
  exists f0 res, power_post x n (prec_up p) rm res /\ forall f, (f0 <= f)%nat -> n_powi f x n p rm = Some res.
Proof.
  intros Wx Nx Hn Hp HP HB Hr. unfold n_powi, powi_internal. rewrite round_p_eq by lia. fold (prec_up p).
  replace (n =? 0) with false by lia. rewrite is_zero_spec by auto. replace (magnitude x =? 0) with false by (symmetry; apply Z.eqb_neq; exact Nx).
  replace (n =? 1) with false by lia. cbn [orb]. 
  rewrite (top_bit_spec 64 n n ltac:(lia) ltac:(change (Z.of_nat 64) with 64; lia) ltac:(change (64 - Z.of_nat 64) with 0; rewrite Z.pow_0_r; lia)).
  pose proof (prec_up_pos p Hp) as P0. unfold mantissa_max_bit_len, max_bit_len, mlen. fold (wlen x).
  pose proof (zlen_nonneg (mm (nm x))) as W0. fold (wlen x) in W0. assert (WB : 64 * wlen x <= n * (64 * wlen x)) by nia.
  assert (W1 : 0 <= n * (64 * wlen x)) by nia.
  assert (HB' : 2 * (n * (64 * wlen x)) + 384 < P_LIM) by lia.
  apply (loop_top x Wx Nx n Hn (prec_up p) P0 ltac:(unfold prec_up; rewrite Z.mul_comm; apply Z.mod_mul; lia) rm Hr ltac:(clear - HB' W1; dlia)
    (S (Z.to_nat (n * (64 * wlen x) - (Z.max (prec_up p) (64 * wlen x) + 64))))); try lia.
  - unfold prec_up. destruct (Z.max_spec (64 * ((p + 63) / 64)) (64 * wlen x)) as [[_ ->]|[_ ->]]; clear; dlia.
  - reflexivity.
  - set (M := Z.max (prec_up p) (64 * wlen x)). assert (M0 : 0 < M) by lia. clearbody M. clear - M0. dlia.
Qed.
