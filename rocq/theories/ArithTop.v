(** Consequences of the correct-rounding theorems for the four operations:
    zero operands, uniqueness of the representation, commutativity, monotonicity. *)

From Coq Require Import ZArith Reals List Bool Lia Lra.
From Flocq Require Import Core.
From Verif Require Import Words IntModel Mantissa Num SpecZ WordsP WordsP2 RoundP Spec RealP RealP2 NumP CmpP AddP SetP AddNum MulNum DivNum.
Import ListNotations.
Open Scope Z_scope.
Ltac Zify.zify_post_hook ::= idtac.
Arguments Z.mul : simpl never.
Arguments Z.add : simpl never.
Arguments Z.pow : simpl never.
Arguments Z.sub : simpl never.
Arguments Z.of_nat : simpl never.

Lemma set_precision_zero x p rm : wf x -> magnitude x = 0 -> 0 < p -> prec_up p < P_LIM ->
  exists q, set_precision x p rm = Ok q /\ wf q /\ wlen q = (p + 63) / 64 /\ ns q = ns x /\ magnitude q = 0 /\ ninexact q = ninexact x.
Proof.
  intros W Z0 Hp HP.
  assert (Hcase : word_prec_ok p rm x \/ (rm = RNone /\ p < 64 * wlen x)).
  { unfold word_prec_ok. destruct (Z_lt_le_dec p (64 * wlen x)); [|auto]. destruct rm; auto; left; left; discriminate. }
  destruct Hcase as [Hok|[-> Hlt]].
  - destruct (set_precision_spec x p rm W Hp HP Hok) as [_ B]. rewrite value_zero, rnd_grad_0 in B by auto.
    destruct B as (q & Q1 & Q2 & Q3 & Q4 & Q5 & Q6). { rewrite Rabs_R0. apply bpow_gt_0. }
    exists q. split; [exact Q1|]. split; [exact Q2|]. split; [exact Q3|]. split; [exact Q4|]. split; [now apply value_zero_iff|].
    destruct (ninexact q), (ninexact x); auto; exfalso; [apply proj1 in Q6; destruct (Q6 eq_refl); [discriminate|congruence]|apply proj2 in Q6; discriminate Q6; auto].
  - unfold set_precision, set_precision_internal, p_assertion. unfold prec_up in HP. pose proof (zlen_nonneg (mm (nm x))) as HL. fold (wlen x) in HL.
    assert (HpL : p < P_LIM) by (clear -HP; dlia). rewrite (proj2 (Z.leb_gt _ _) HpL). cbn [bind].
    unfold mantissa_max_bit_len, max_bit_len, mlen. fold (wlen x). cbv zeta. rewrite (proj2 (Z.ltb_lt _ _) Hlt), (proj2 (Z.ltb_lt _ _) Hp). cbn [andb].
    pose proof (wf_words x W) as Hok.
    pose proof (round_mantissa_none (mm (nm x)) (64 * wlen x - p) (is_positive x) false (64 * wlen x) (ninexact x) Hok ltac:(fold (wlen x); lia)) as (R1 & R2 & R3 & R4).
    set (r := round_mantissa _ _ _ _ _ _ _) in *. rewrite R1, R2, R3. cbn [andb]. unfold m_is_all_zero. cbn [mm mn]. rewrite all_zero_spec by auto.
    fold (magnitude x). rewrite Z0. cbn [Z.eqb bind nm ns ne ninexact].
    assert (Hix : ninexact x || ro_inexact r = ninexact x).
    { rewrite R4. unfold rres_inexact. fold (magnitude x). rewrite Z0, Zmod_0_l. cbn [Z.eqb negb]. destruct (ninexact x); reflexivity. }
    rewrite Hix.
    destruct (m_set_length_spec (mm (nm x)) 0 p (ns x) 0 Hok) as (S1 & S2 & S3 & S4 & S5 & S6).
    { fold (magnitude x). rewrite Z0. reflexivity. } { lia. } { fold (magnitude x). rewrite Z0, Zmod_0_l. auto. }
    pose proof (proj2 S4 Z0) as S7.
    eexists. split; [reflexivity|]. split; [|split; [exact S2|split; [reflexivity|split; [exact S7|reflexivity]]]].
    constructor; unfold magnitude, wlen; cbn [nm ns ne ninexact]; auto; try lia.
    rewrite S3, S7. change (bitlen 0) with 0. lia.
Qed.

Lemma cr_normal p rm r s ix res : correctly_rounded p rm r s ix res -> rounds_to_normal p rm r res.
Proof.
  intros C. destruct C as [_ B]. unfold rounds_to_normal. cbv zeta. intros [H1 H2]. destruct (B H2) as (q & Q1 & Q2 & Q3 & Q4 & Q5 & _). destruct (Q5 H1). exists q. auto.
Qed.

Lemma rnd_prec_0 p rm : 0 < p -> rnd_prec p rm 0 = 0%R.
Proof. intros. unfold rnd_prec. apply round_0. apply rnd_valid. Qed.

Lemma prec_up_pos p : 0 < p -> 0 < prec_up p.
Proof. unfold prec_up. intros. dlia. Qed.

Lemma zero_m_new P s ix : 0 <= P -> 64 * P < P_LIM -> let q := mk_num (m_new (64 * P)) s 0 ix in
  wf q /\ wlen q = P /\ magnitude q = 0.
Proof.
  intros HP HL q. assert (E : mm (m_new (64 * P)) = zeros P).
  { unfold m_new. cbn [mm]. rewrite wlen_of_bits_64 by auto. reflexivity. }
  assert (Hv : magnitude q = 0). { unfold magnitude, q. cbn [nm]. rewrite E. apply val_zeros. }
  assert (Hl : wlen q = P). { unfold wlen, q. cbn [nm]. rewrite E. apply zlen_zeros. auto. }
  split; [|auto]. constructor; try rewrite Hv; try rewrite Hl; auto.
  - unfold q. cbn [nm]. rewrite E. apply ok_zeros.
  - cbn [q ne]. lia.
  - cbn [q nm m_new mn]. lia.
Qed.

Lemma zero_new p s ix res : 0 < p -> prec_up p < P_LIM -> res = Ok (mk_num (m_new (prec_up p)) s 0 ix) -> zero_result (prec_up p) res.
Proof.
  intros Hp HP ->. unfold prec_up in *. assert (0 <= (p + 63) / 64) by dlia.
  destruct (zero_m_new ((p + 63) / 64) s ix H HP) as (A & B & C). eexists. split; [reflexivity|]. split; [exact A|]. split; [rewrite B; reflexivity|].
  now apply value_zero.
Qed.

Lemma nonzero_dec x : magnitude x = 0 \/ nonzero x.
Proof. unfold nonzero. destruct (Z.eq_dec (magnitude x) 0); auto. Qed.

Lemma sp_rounds x p rm : wf x -> 0 < p -> prec_up p < P_LIM -> rounds_to_normal (prec_up p) rm (value x) (set_precision x (prec_up p) rm).
Proof.
  intros W Hp HP. unfold rounds_to_normal. cbv zeta. intros [H1 H2]. unfold prec_up in *. assert (Hq : 0 < (p + 63) / 64) by (clear -Hp; dlia).
  destruct (set_precision_normal x _ rm W Hq HP H1) as [_ B]. destruct (B H2) as (q & Q1 & Q2 & Q3 & Q4 & Q5 & Q6 & _).
  exists q. split; [exact Q1|]. split; [exact Q2|]. split; [rewrite Q3; reflexivity|]. auto.
Qed.

Lemma sp_zero x p rm : wf x -> magnitude x = 0 -> 0 < p -> prec_up p < P_LIM -> zero_result (prec_up p) (set_precision x (prec_up p) rm).
Proof.
  intros W Z0 Hp HP. assert (E : prec_up (prec_up p) = prec_up p) by (unfold prec_up; clear; dlia).
  destruct (set_precision_zero x (prec_up p) rm W Z0 (prec_up_pos p Hp) ltac:(now rewrite E)) as (q & Q1 & Q2 & Q3 & Q4 & Q5 & Q6).
  exists q. split; [exact Q1|]. split; [exact Q2|]. split; [rewrite Q3; exact E|]. now apply value_zero.
Qed.

Lemma add_sub_top x y p op rm : wf x -> wf y -> op = 1 \/ op = -1 -> 0 < p -> prec_up p < P_LIM ->
  let r := (value x + IZR op * value y)%R in
  rounds_to_normal (prec_up p) rm r (add_sub x y p op rm false) /\
  (r = 0%R -> zero_result (prec_up p) (add_sub x y p op rm false)).
Proof.
  intros Wx Wy Hop Hp HP r.
  destruct (nonzero_dec x) as [Zx|Nx].
  { rewrite add_sub_zero_l by auto. unfold r. rewrite (value_zero x) by auto. rewrite Rplus_0_l.
    assert (E : (IZR op * value y)%R = value (if op <? 0 then n_neg y else y)).
    { destruct Hop as [-> | ->]; cbn [Z.ltb Z.compare]. - apply Rmult_1_l. - rewrite n_neg_value. lra. }
    rewrite E. assert (W' : wf (if op <? 0 then n_neg y else y)) by (destruct (op <? 0); [now apply n_neg_wf|auto]).
    split; [now apply sp_rounds|]. intros H. apply sp_zero; auto. now apply value_zero_iff. }
  destruct (nonzero_dec y) as [Zy|Ny].
  { rewrite add_sub_zero_r by auto. unfold r. rewrite (value_zero y) by auto. rewrite Rmult_0_r, Rplus_0_r.
    split; [now apply sp_rounds|]. intros H. apply sp_zero; auto. now apply value_zero_iff. }
  destruct (add_sub_nonzero x y p op rm Wx Wy Nx Ny Hop Hp HP) as [A B]. fold r in A, B. split.
  - destruct (Req_dec r 0) as [E|E].
    + unfold rounds_to_normal; cbv zeta; intros [H _]; exfalso. rewrite E, rnd_prec_0, Rabs_R0 in H by now apply prec_up_pos. pose proof (bpow_gt_0 radix2 (EMIN - 1)). lra.
    + destruct (A E) as (s & _ & C). eapply cr_normal; eauto.
  - intros E. eapply zero_new; eauto.
Qed.

Theorem add_top x y p rm : wf x -> wf y -> 0 < p -> prec_up p < P_LIM ->
  rounds_to_normal (prec_up p) rm (value x + value y)%R (n_add x y p rm) /\
  ((value x + value y)%R = 0%R -> zero_result (prec_up p) (n_add x y p rm)).
Proof.
  intros Wx Wy Hp HP. pose proof (add_sub_top x y p 1 rm Wx Wy ltac:(auto) Hp HP) as H. cbv zeta in H. now rewrite Rmult_1_l in H.
Qed.

Theorem sub_top x y p rm : wf x -> wf y -> 0 < p -> prec_up p < P_LIM ->
  rounds_to_normal (prec_up p) rm (value x - value y)%R (n_sub x y p rm) /\
  ((value x - value y)%R = 0%R -> zero_result (prec_up p) (n_sub x y p rm)) /\
  (nonzero x -> value x = value y -> exists q, n_sub x y p rm = Ok q /\ ns q = Pos /\ magnitude q = 0).
Proof.
  intros Wx Wy Hp HP. pose proof (add_sub_top x y p (-1) rm Wx Wy ltac:(auto) Hp HP) as H. cbv zeta in H.
  replace (value x + -1 * value y)%R with (value x - value y)%R in H by lra. destruct H as [H1 H2]. split; [exact H1|]. split; [exact H2|].
  intros Nx E. assert (Ny : nonzero y). { intros Z0. apply Nx. apply value_zero_iff. rewrite E. now apply value_zero. }
  destruct (add_sub_nonzero x y p (-1) rm Wx Wy Nx Ny ltac:(auto) Hp HP) as [_ B]. eexists. split; [apply B; rewrite E; lra|]. split; [reflexivity|].
  cbn [nm]. unfold prec_up in *. assert (0 <= (p + 63) / 64) by (clear -Hp; dlia). now destruct (zero_m_new ((p + 63) / 64) Pos (ninexact x || ninexact y) H HP) as (_ & _ & C).
Qed.

Theorem mul_top x y p rm : wf x -> wf y -> 0 < p -> prec_up p < P_LIM ->
  rounds_to_normal (prec_up p) rm (value x * value y)%R (n_mul x y p rm) /\
  ((value x * value y)%R = 0%R -> zero_result (prec_up p) (n_mul x y p rm)).
Proof.
  intros Wx Wy Hp HP.
  assert (Hz : magnitude x = 0 \/ magnitude y = 0 -> zero_result (prec_up p) (n_mul x y p rm)).
  { intros H. eapply zero_new; eauto. apply mul_zero; auto; lia. }
  destruct (nonzero_dec x) as [Zx|Nx]; [|destruct (nonzero_dec y) as [Zy|Ny]].
  - split; [|auto]. unfold rounds_to_normal; cbv zeta; intros [H _]; exfalso. rewrite (value_zero x), Rmult_0_l, rnd_prec_0, Rabs_R0 in H by (auto using prec_up_pos). pose proof (bpow_gt_0 radix2 (EMIN - 1)). lra.
  - split; [|auto]. unfold rounds_to_normal; cbv zeta; intros [H _]; exfalso. rewrite (value_zero y), Rmult_0_r, rnd_prec_0, Rabs_R0 in H by (auto using prec_up_pos). pose proof (bpow_gt_0 radix2 (EMIN - 1)). lra.
  - split; [eapply cr_normal, mul_nonzero; auto|]. intros E. exfalso. apply Rmult_integral in E. rewrite !value_zero_iff in E. unfold nonzero in *. tauto.
Qed.

Theorem div_top x y p rm : wf x -> wf y -> nonzero y -> 0 < p -> prec_up p < P_LIM ->
  rounds_to_normal (prec_up p) rm (value x / value y)%R (n_div x y p rm) /\
  (value x = 0%R -> zero_result (prec_up p) (n_div x y p rm)).
Proof.
  intros Wx Wy Ny Hp HP.
  destruct (nonzero_dec x) as [Zx|Nx].
  - split; [|intros _; eapply zero_new; eauto; apply div_zero; auto; lia]. unfold rounds_to_normal; cbv zeta; intros [H _]; exfalso. unfold Rdiv in H.
    rewrite (value_zero x), Rmult_0_l, rnd_prec_0, Rabs_R0 in H by (auto using prec_up_pos). pose proof (bpow_gt_0 radix2 (EMIN - 1)). lra.
  - split; [eapply cr_normal, div_nonzero; auto|]. intros E. rewrite value_zero_iff in E. contradiction.
Qed.

(** Uniqueness of the representation. *)
Lemma num_unique a b : wf a -> wf b -> wlen a = wlen b -> ns a = ns b -> value a = value b -> ninexact a = ninexact b -> a = b.
Proof.
  intros Wa Wb HL Hs Hv Hi.
  assert (HM : magnitude a = magnitude b /\ ne a = ne b).
  { destruct (nonzero_dec a) as [Za|Na].
    - assert (Zb : magnitude b = 0) by (apply value_zero_iff; rewrite <- Hv; now apply value_zero).
      rewrite Za, Zb, (wf_zero a Wa Za), (wf_zero b Wb Zb). auto.
    - assert (Nb : nonzero b) by (intros Zb; apply Na; apply value_zero_iff; rewrite Hv; now apply value_zero).
      assert (Hcmp : ne a = ne b).
      { pose proof (norm_bounds a Wa Na) as Ba. pose proof (norm_bounds b Wb Nb) as Bb. rewrite Hv in Ba.
        assert (HE : norm_exp a = norm_exp b).
        { apply Z.le_antisymm; apply Z.lt_succ_r; rewrite <- Z.add_1_r.
          - assert (bpow radix2 (norm_exp a - 1) < bpow radix2 (norm_exp b))%R as K by lra. apply lt_bpow in K. lia.
          - assert (bpow radix2 (norm_exp b - 1) < bpow radix2 (norm_exp a))%R as K by lra. apply lt_bpow in K. lia. }
        unfold norm_exp in HE. rewrite HL in HE.
        destruct (nonzero_bits a Wa Na) as (A1 & A2 & A3). destruct (nonzero_bits b Wb Nb) as (B1 & B2 & B3). rewrite HL in A2.
        pose proof (wf_sub a Wa) as SA. pose proof (wf_sub b Wb) as SB. rewrite HL in SA. pose proof (wf_exp a Wa). pose proof (wf_exp b Wb).
        destruct (Z_lt_le_dec (mn (nm a)) (64 * wlen b)); destruct (Z_lt_le_dec (mn (nm b)) (64 * wlen b)); lia. }
      split; [|exact Hcmp]. unfold value in Hv. rewrite HL, Hs, Hcmp in Hv. apply F2R_inj_num in Hv. now apply sgnZ_inj in Hv. }
  destruct HM as [HM He]. destruct a as [[wa na] sa ea ia], b as [[wb nb] sb eb ib]. unfold magnitude, wlen in *. cbn [nm ns ne ninexact mm mn] in *.
  pose proof (wf_bits _ Wa) as B1. pose proof (wf_bits _ Wb) as B2. unfold magnitude in B1, B2. cbn [nm mm mn] in B1, B2.
  pose proof (wf_words _ Wa) as W1. pose proof (wf_words _ Wb) as W2. cbn [nm mm] in W1, W2.
  assert (wa = wb) as -> by (eapply val_inj; eauto). congruence.
Qed.

Lemma cr_op_value p rm r s ix q : correctly_rounded p rm r s ix (Ok q) ->
  value q = op_value p rm r /\ wf q /\ 64 * wlen q = p /\ ns q = s /\ (ninexact q = true <-> ix = true \/ value q <> r).
Proof.
  intros C. destruct C as [A B]. destruct (Rlt_le_dec (Rabs (rnd_prec p rm r)) (bpow radix2 EMAX)) as [H|H]; [|discriminate (A H)].
  destruct (B H) as (q' & Q1 & Q2 & Q3 & Q4 & Q5 & Q6 & Q7 & Q8 & Q9). injection Q1 as <-. split; [|auto].
  unfold op_value. destruct (nearest rm) eqn:E; [|auto]. cbv zeta. destruct (Rlt_dec _ _) as [L|L]; [auto|]. apply Q7. now apply Rnot_lt_le.
Qed.

Lemma cr_overflow p rm r s ix e : correctly_rounded p rm r s ix (Err e) -> e = ExponentOverflow s /\ (bpow radix2 EMAX <= Rabs (rnd_prec p rm r))%R.
Proof.
  intros C. destruct C as [A B]. destruct (Rlt_le_dec (Rabs (rnd_prec p rm r)) (bpow radix2 EMAX)) as [H|H].
  - destruct (B H) as (q' & Q1 & _). discriminate.
  - specialize (A H). split; [congruence|auto].
Qed.

Lemma flx_valid p : 0 < p -> Valid_exp (FLX_exp p).
Proof. intros. apply FLX_exp_valid. exact H. Qed.
Lemma flt_valid p : 0 < p -> Valid_exp (FLT_exp (EMIN - p) p).
Proof. intros. apply FLT_exp_valid. exact H. Qed.

Lemma rnd_prec_le p rm a b : 0 < p -> (a <= b)%R -> (rnd_prec p rm a <= rnd_prec p rm b)%R.
Proof. intros. unfold rnd_prec. apply round_le; auto. now apply flx_valid. apply rnd_valid. Qed.
Lemma rnd_grad_le p rm a b : 0 < p -> (a <= b)%R -> (rnd_grad p rm a <= rnd_grad p rm b)%R.
Proof. intros. unfold rnd_grad. apply round_le; auto. now apply flt_valid. apply rnd_valid. Qed.

Lemma op_value_le p rm a b : 0 < p -> (a <= b)%R -> (op_value p rm a <= op_value p rm b)%R.
Proof.
  intros Hp H. unfold op_value. destruct (nearest rm); [|now apply rnd_grad_le]. cbv zeta.
  pose proof (rnd_prec_le p rm a b Hp H) as L. set (za := rnd_prec p rm a) in *. set (zb := rnd_prec p rm b) in *.
  pose proof (bpow_gt_0 radix2 (EMIN - p)) as B0.
  destruct (Rlt_dec (Rabs za) _) as [Ha|Ha]; destruct (Rlt_dec (Rabs zb) _) as [Hb|Hb].
  - lra.
  - rewrite <- (rnd_grad_0 p rm Hp). apply rnd_grad_le; auto. apply Rabs_def2 in Ha. destruct (Rle_dec 0 zb); auto. exfalso. apply Hb. apply Rabs_def1; lra.
  - eapply Rle_trans; [|right; apply (rnd_grad_0 p rm Hp)]. apply rnd_grad_le; auto. apply Rabs_def2 in Hb. destruct (Rle_dec za 0); auto. exfalso. apply Ha. apply Rabs_def1; lra.
  - now apply rnd_grad_le.
Qed.

Lemma op_value_0 p rm : 0 < p -> op_value p rm 0 = 0%R.
Proof.
  intros. unfold op_value. rewrite rnd_prec_0 by auto. rewrite rnd_grad_0 by auto. destruct (nearest rm); auto. cbv zeta. destruct (Rlt_dec _ _); auto.
Qed.

(** Two results allowed by [correctly_rounded] for the same data are equal. *)
Lemma cr_panic p rm r s ix : ~ correctly_rounded p rm r s ix Panic.
Proof.
  intros C. destruct C as [A B]. destruct (Rlt_le_dec (Rabs (rnd_prec p rm r)) (bpow radix2 EMAX)) as [H|H].
  - destruct (B H) as (q' & Q1 & _). discriminate.
  - discriminate (A H).
Qed.

Lemma cr_unique p rm r s ix a b : correctly_rounded p rm r s ix a -> correctly_rounded p rm r s ix b -> a = b.
Proof.
  intros A B. destruct a as [qa|ea|]; [| |now apply cr_panic in A]; (destruct b as [qb|eb|]; [| |now apply cr_panic in B]).
  - apply cr_op_value in A, B. destruct A as (A1 & A2 & A3 & A4 & A5). destruct B as (B1 & B2 & B3 & B4 & B5). f_equal. apply num_unique; auto; try congruence; try lia.
    rewrite A1 in A5. rewrite B1 in B5. clear -A5 B5. destruct (ninexact qa), (ninexact qb); auto; exfalso; assert (false = true) by tauto; discriminate.
  - exfalso. apply cr_overflow in B. destruct A as [A _], B as [_ B]. discriminate (A B).
  - exfalso. apply cr_overflow in A. destruct B as [B _], A as [_ A]. discriminate (B A).
  - apply cr_overflow in A, B. destruct A, B. congruence.
Qed.

Lemma has_sign_unique s s' r : has_sign s r -> has_sign s' r -> s = s'.
Proof. unfold has_sign. destruct s, s'; cbn [sgnZ]; auto; intros; exfalso; lra. Qed.

Theorem add_comm x y p rm : wf x -> wf y -> nonzero x -> nonzero y -> 0 < p -> prec_up p < P_LIM -> n_add x y p rm = n_add y x p rm.
Proof.
  intros Wx Wy Nx Ny Hp HP.
  destruct (add_sub_nonzero x y p 1 rm Wx Wy Nx Ny ltac:(auto) Hp HP) as [A B].
  destruct (add_sub_nonzero y x p 1 rm Wy Wx Ny Nx ltac:(auto) Hp HP) as [C D]. unfold n_add.
  rewrite Rmult_1_l in *. rewrite (Rplus_comm (value y)), (orb_comm (ninexact y)) in *.
  destruct (Req_dec (value x + value y) 0) as [E|E].
  - rewrite (B E), (D E). reflexivity.
  - destruct (A E) as (s & S1 & S2), (C E) as (s' & S3 & S4). rewrite (has_sign_unique _ _ _ S3 S1) in S4. eapply cr_unique; eauto.
Qed.

Theorem mul_comm x y p rm : wf x -> wf y -> 0 < p -> prec_up p < P_LIM -> n_mul x y p rm = n_mul y x p rm.
Proof.
  intros Wx Wy Hp HP.
  assert (Hs : sign_mul (ns x) (ns y) = sign_mul (ns y) (ns x)) by (destruct (ns x), (ns y); reflexivity).
  destruct (nonzero_dec x) as [Zx|Nx]; [rewrite !mul_zero by (auto; lia); now rewrite Hs|].
  destruct (nonzero_dec y) as [Zy|Ny]; [rewrite !mul_zero by (auto; lia); now rewrite Hs|].
  pose proof (mul_nonzero x y p rm Wx Wy Nx Ny Hp HP) as A. pose proof (mul_nonzero y x p rm Wy Wx Ny Nx Hp HP) as B.
  rewrite <- Hs, Rmult_comm, orb_comm in B. eapply cr_unique; eauto.
Qed.

Lemma add_sub_value x y p op rm q : wf x -> wf y -> nonzero x -> nonzero y -> op = 1 \/ op = -1 -> 0 < p -> prec_up p < P_LIM ->
  add_sub x y p op rm false = Ok q -> value q = op_value (prec_up p) rm (value x + IZR op * value y).
Proof.
  intros Wx Wy Nx Ny Hop Hp HP H. destruct (add_sub_nonzero x y p op rm Wx Wy Nx Ny Hop Hp HP) as [A B].
  destruct (Req_dec (value x + IZR op * value y) 0) as [E|E].
  - rewrite E, op_value_0 by now apply prec_up_pos. destruct (zero_new p Pos (ninexact x || ninexact y) _ Hp HP (B E)) as (q' & Q1 & _ & _ & Q2). congruence.
  - destruct (A E) as (s & _ & C). rewrite H in C. apply cr_op_value in C. tauto.
Qed.

Theorem add_mono x x' y p rm q q' : wf x -> wf x' -> wf y -> nonzero x -> nonzero x' -> nonzero y -> 0 < p -> prec_up p < P_LIM ->
  (value x <= value x')%R -> n_add x y p rm = Ok q -> n_add x' y p rm = Ok q' -> (value q <= value q')%R.
Proof.
  intros. rewrite (add_sub_value x y p 1 rm q), (add_sub_value x' y p 1 rm q') by auto. apply op_value_le; [now apply prec_up_pos|]. lra.
Qed.

Theorem sub_mono x x' y p rm q q' : wf x -> wf x' -> wf y -> nonzero x -> nonzero x' -> nonzero y -> 0 < p -> prec_up p < P_LIM ->
  (value x <= value x')%R -> n_sub x y p rm = Ok q -> n_sub x' y p rm = Ok q' -> (value q <= value q')%R.
Proof.
  intros. rewrite (add_sub_value x y p (-1) rm q), (add_sub_value x' y p (-1) rm q') by auto. apply op_value_le; [now apply prec_up_pos|]. lra.
Qed.

Lemma mul_value x y p rm q : wf x -> wf y -> 0 < p -> prec_up p < P_LIM ->
  n_mul x y p rm = Ok q -> value q = op_value (prec_up p) rm (value x * value y).
Proof.
  intros Wx Wy Hp HP H.
  destruct (Req_dec (value x * value y) 0) as [E|E].
  - rewrite E, op_value_0 by now apply prec_up_pos. destruct (mul_top x y p rm Wx Wy Hp HP) as [_ B]. destruct (B E) as (q' & Q1 & _ & _ & Q2). congruence.
  - assert (nonzero x /\ nonzero y) as [Nx Ny]. { unfold nonzero. rewrite <- !value_zero_iff. split; intros K; apply E; rewrite K; lra. }
    pose proof (mul_nonzero x y p rm Wx Wy Nx Ny Hp HP) as C. rewrite H in C. apply cr_op_value in C. tauto.
Qed.

Theorem mul_mono x x' y p rm q q' : wf x -> wf x' -> wf y -> (0 <= value y)%R -> 0 < p -> prec_up p < P_LIM ->
  (value x <= value x')%R -> n_mul x y p rm = Ok q -> n_mul x' y p rm = Ok q' -> (value q <= value q')%R.
Proof.
  intros. rewrite (mul_value x y p rm q), (mul_value x' y p rm q') by auto. apply op_value_le; [now apply prec_up_pos|]. now apply Rmult_le_compat_r.
Qed.

(** set_precision in mode None on a subnormal number: the value is the
    truncation; the result is well-formed unless everything is cut off. *)
Lemma sp_none_sub x P : wf x -> 0 < P < wlen x -> 0 < mn (nm x) < 64 * wlen x -> 64 * P < P_LIM ->
  exists q, set_precision x (64 * P) RNone = Ok q /\ wlen q = P /\ ns q = ns x /\ value q = rnd_grad (64 * P) RNone (value x) /\
    (ninexact q = true <-> ninexact x = true \/ value q <> value x) /\ ne q = EMIN /\ (nonzero q -> wf q).
Proof.
  intros W HP Hsub Hlim. pose proof (wf_words x W) as Hok. pose proof (wf_bits x W) as Hbits.
  assert (Nx : nonzero x). { intros Z0. rewrite Z0 in Hbits. change (bitlen 0) with 0 in Hbits. lia. }
  destruct (nonzero_bits x W Nx) as (HM & _ & _). pose proof (wf_sub x W Hsub) as He.
  set (d := 64 * wlen x - 64 * P).
  unfold set_precision, set_precision_internal, p_assertion. rewrite (proj2 (Z.leb_gt _ _) Hlim). cbn [bind].
  unfold mantissa_max_bit_len, max_bit_len, mlen. fold (wlen x). cbv zeta. rewrite (proj2 (Z.ltb_lt (64 * P) (64 * wlen x))), (proj2 (Z.ltb_lt 0 (64 * P))) by lia. cbn [andb].
  fold d.
  pose proof (round_mantissa_none (mm (nm x)) d (is_positive x) false (64 * wlen x) (ninexact x) Hok ltac:(unfold d; fold (wlen x); lia)) as (R1 & R2 & R3 & R4).
  set (r := round_mantissa _ _ _ _ _ _ _) in *. rewrite R1, R2, R3. cbn [andb]. unfold m_is_all_zero. cbn [mm mn]. rewrite all_zero_spec by auto.
  fold (magnitude x). rewrite (proj2 (Z.eqb_neq _ _) Nx). unfold m_is_subnormal, max_bit_len, mlen. cbn [mm mn]. fold (wlen x).
  rewrite (proj2 (Z.ltb_lt (mn (nm x)) _)) by lia. cbn [bind nm ns ne ninexact].
  unfold m_update_bit_len. cbn [mm mn]. rewrite (find_bit_len_spec _ Hok). fold (magnitude x). rewrite <- Hbits.
  unfold m_set_length, mlen. cbn [mm mn]. rewrite wlen_of_bits_64 by lia. fold (wlen x). rewrite (proj2 (Z.ltb_lt P (wlen x))) by lia.
  assert (EP : (64 * P + 63) / 64 = P) by (clear; dlia).
  destruct (trunc_to_spec (mm (nm x)) (64 * P) Hok ltac:(lia) ltac:(rewrite EP; fold (wlen x); lia)) as (T1 & T2 & T3). rewrite EP in T1, T3.
  fold (magnitude x) in T1. fold (wlen x) in T1. replace (64 * (wlen x - P)) with d in T1 by (unfold d; lia). replace ((wlen x - P) * 64) with d by (unfold d; lia).
  eexists. split; [reflexivity|].
  set (q := mk_num _ _ _ _).
  assert (Q1 : wlen q = P) by exact T3. assert (Q2 : magnitude q = magnitude x / 2 ^ d) by exact T1.
  assert (Hd0 : 0 <= d) by (unfold d; lia). pose proof (pow2_gt0 d Hd0) as Hpd.
  assert (Hmn : mn (nm q) = bitlen (magnitude q)).
  { rewrite Q2. unfold q. cbn [nm mn]. rewrite Hbits. destruct (Z.leb_spec d (bitlen (magnitude x))) as [Hb|Hb].
    - rewrite bitlen_div by lia. lia.
    - rewrite Z.div_small; [reflexivity|]. pose proof (bitlen_spec (magnitude x) HM) as [_ B]. split; [lia|]. eapply Z.lt_le_trans; [exact B|]. apply Z.pow_le_mono_r; lia. }
  assert (Q3 : value q = rnd_grad (64 * P) RNone (value x)).
  { rewrite rnd_grad_short by (auto; lia). unfold value. rewrite Q1, Q2. unfold rndN, rup. cbn [Z.b2z]. fold d. rewrite Z.add_0_r. reflexivity. }
  split; [exact Q1|]. split; [reflexivity|]. split; [exact Q3|]. split; [|split; [exact He|]].
  - unfold q at 1. cbn [ninexact]. rewrite R4. unfold rres_inexact. fold (magnitude x).
    assert (E : value q = value x <-> magnitude x mod 2 ^ d = 0).
    { unfold value. rewrite Q1, Q2. change (ns q) with (ns x). change (ne q) with (ne x). replace (ne x - 64 * P) with (ne x - 64 * wlen x + d) by (unfold d; lia).
      rewrite <- F2R_shift by auto. rewrite F2R_inj_num. pose proof (Z.div_mod (magnitude x) (2 ^ d) ltac:(lia)) as DM. split.
      - intros K. apply sgnZ_inj in K. lia.
      - intros K. f_equal. lia. }
    rewrite !orb_true_iff, negb_true_iff, Z.eqb_neq. tauto.
  - intros Nq. constructor; auto.
    + rewrite Q1. exact Hlim.
    + change (ne q) with (ne x). rewrite He. lia.
    + intros Z0. contradiction.
Qed.

(** set_precision to whole words, any mode, any well-formed number. *)
Lemma sp_words x P rm : wf x -> 0 < P -> 64 * P < P_LIM ->
  let z := rnd_grad (64 * P) rm (value x) in
  ((bpow radix2 EMAX <= Rabs z)%R -> set_precision x (64 * P) rm = Err (ExponentOverflow (ns x))) /\
  ((Rabs z < bpow radix2 EMAX)%R -> exists q, set_precision x (64 * P) rm = Ok q /\ wlen q = P /\ ns q = ns x /\
     value q = z /\ (ninexact q = true <-> ninexact x = true \/ z <> value x)).
Proof.
  intros W HP Hlim z. assert (EP : (64 * P + 63) / 64 = P) by (clear; dlia). assert (Hlim' : prec_up (64 * P) < P_LIM) by (unfold prec_up; rewrite EP; auto).
  assert (Hc : word_prec_ok (64 * P) rm x \/ (rm = RNone /\ P < wlen x /\ mn (nm x) < 64 * wlen x)).
  { unfold word_prec_ok. destruct (Z_lt_le_dec P (wlen x)); [|left; right; right; lia].
    destruct (Z_lt_le_dec (mn (nm x)) (64 * wlen x)) as [L|L]; [destruct rm; auto; left; left; discriminate|].
    left; right; left. split; [clear; dlia|]. pose proof (wf_bits x W) as Hb. pose proof (val_bound _ (wf_words x W)) as B. fold (magnitude x) in B. fold (wlen x) in B.
    assert (Nx : nonzero x). { intros Z0. rewrite Z0 in Hb. change (bitlen 0) with 0 in Hb. lia. }
    split; [|auto]. pose proof (nonzero_bits x W Nx). lia. }
  destruct Hc as [Hc|(-> & H1 & H2)].
  - destruct (set_precision_spec x (64 * P) rm W ltac:(lia) Hlim' Hc) as [A B]. fold z in A, B. rewrite EP in B. split; [exact A|].
    intros H. destruct (B H) as (q & Q1 & Q2 & Q3). exists q. tauto.
  - destruct (nonzero_dec x) as [Zx|Nx].
    + assert (Hz : z = 0%R) by (unfold z; rewrite value_zero by auto; apply rnd_grad_0; lia).
      split; [intros H; exfalso; rewrite Hz, Rabs_R0 in H; pose proof (bpow_gt_0 radix2 EMAX); lra|]. intros _.
      destruct (set_precision_zero x (64 * P) RNone W Zx ltac:(lia) Hlim') as (q & Q1 & Q2 & Q3 & Q4 & Q5 & Q6). exists q. rewrite EP in Q3.
      split; [exact Q1|]. split; [exact Q3|]. split; [exact Q4|]. rewrite Q6, Hz, !value_zero by auto. split; [reflexivity|]. split; [auto|]. intros [|]; congruence.
    + destruct (nonzero_bits x W Nx) as (HM & Hb & _).
      destruct (sp_none_sub x P W ltac:(lia) ltac:(lia) Hlim) as (q & Q1 & Q2 & Q3 & Q4 & Q5 & _). fold z in Q4.
      split.
      * intros H. exfalso. assert ((Rabs z <= Rabs (value x))%R) as K.
        { unfold z, rnd_grad. cbn [rnd]. set (v := value x). pose proof (flt_valid (64 * P) ltac:(lia)) as V. destruct (Rle_lt_dec 0 v).
          - assert (0 <= round radix2 (FLT_exp (EMIN - 64 * P) (64 * P)) Ztrunc v)%R by (apply round_ge_generic; auto; [apply valid_rnd_ZR|apply generic_format_0]).
            rewrite !Rabs_pos_eq by auto. rewrite round_ZR_DN by auto. apply round_DN_pt. exact V.
          - assert (round radix2 (FLT_exp (EMIN - 64 * P) (64 * P)) Ztrunc v <= 0)%R by (apply round_le_generic; auto; [apply valid_rnd_ZR|apply generic_format_0|lra]).
            rewrite !Rabs_left1 by lra. rewrite round_ZR_UP by lra. assert (v <= round radix2 (FLT_exp (EMIN - 64 * P) (64 * P)) Zceil v)%R by (apply round_UP_pt; exact V). lra. }
        pose proof (norm_bounds x W Nx) as [_ B]. pose proof (norm_exp_range x W Nx). assert (bpow radix2 (norm_exp x) <= bpow radix2 EMAX)%R by (apply bpow_le; lia). lra.
      * intros _. exists q. rewrite Q4 in Q5. auto.
Qed.

(** Overflow, inexact flag and directed gradual underflow of the operations. *)
Lemma cr_ov p rm r s ix res : has_sign s r -> correctly_rounded p rm r s ix res -> overflow_exact p rm r res.
Proof.
  intros S C. destruct C as [A B]. split.
  - intros H. exists s. auto.
  - intros H. destruct (B H) as (q & Q & _). eauto.
Qed.

Lemma value_has_sign x : wf x -> nonzero x -> has_sign (ns x) (value x).
Proof. intros W N. destruct (nonzero_bits x W N) as (H & _). unfold value. now apply F2_has_sign. Qed.

Lemma small_not_big p rm : 0 < p -> ~ (bpow radix2 EMAX <= Rabs (rnd_prec p rm 0))%R.
Proof. intros Hp H. rewrite rnd_prec_0, Rabs_R0 in H by auto. pose proof (bpow_gt_0 radix2 EMAX). lra. Qed.

Lemma sp_ov x p rm : wf x -> 0 < p -> prec_up p < P_LIM -> overflow_exact (prec_up p) rm (value x) (set_precision x (prec_up p) rm).
Proof.
  intros W Hp HP. unfold prec_up in *. assert (Hq : 0 < (p + 63) / 64) by (clear -Hp; dlia).
  destruct (sp_words x _ rm W Hq HP) as [A B].
  pose proof (grad_lt_normal (64 * ((p + 63) / 64)) rm (value x) EMAX ltac:(lia) ltac:(lia)) as G. split.
  - intros H. destruct (nonzero_dec x) as [Zx|Nx].
    + exfalso. rewrite value_zero in H by auto. revert H. apply small_not_big. lia.
    + exists (ns x). split; [now apply value_has_sign|]. apply A. tauto.
  - intros H. destruct B as (q & Q & _). { apply Rnot_le_lt. intros K. apply G in K. lra. } eauto.
Qed.

Lemma add_sub_arg x y op : op = 1 \/ op = -1 -> wf y -> magnitude x = 0 ->
  let y' := if op <? 0 then n_neg y else y in
  wf y' /\ (value x + IZR op * value y)%R = value y' /\ ninexact y' = ninexact y.
Proof.
  intros Hop Wy Zx y'. rewrite (value_zero x) by auto. unfold y'. destruct Hop as [-> | ->]; cbn [Z.ltb Z.compare].
  - split; [auto|]. split; [lra|reflexivity].
  - split; [now apply n_neg_wf|]. split; [rewrite n_neg_value; lra|reflexivity].
Qed.

Lemma add_sub_ov x y p op rm : wf x -> wf y -> op = 1 \/ op = -1 -> 0 < p -> prec_up p < P_LIM ->
  overflow_exact (prec_up p) rm (value x + IZR op * value y)%R (add_sub x y p op rm false).
Proof.
  intros Wx Wy Hop Hp HP.
  destruct (nonzero_dec x) as [Zx|Nx].
  { rewrite add_sub_zero_l by auto. destruct (add_sub_arg x y op Hop Wy Zx) as (A & B & _). rewrite B. now apply sp_ov. }
  destruct (nonzero_dec y) as [Zy|Ny].
  { rewrite add_sub_zero_r by auto. rewrite (value_zero y) by auto. rewrite Rmult_0_r, Rplus_0_r. now apply sp_ov. }
  destruct (add_sub_nonzero x y p op rm Wx Wy Nx Ny Hop Hp HP) as [A B].
  destruct (Req_dec (value x + IZR op * value y) 0) as [E|E].
  - rewrite (B E), E. split; [intros H; exfalso; revert H; apply small_not_big; now apply prec_up_pos|eauto].
  - destruct (A E) as (s & S & C). eapply cr_ov; eauto.
Qed.

Theorem add_ov x y p rm : wf x -> wf y -> 0 < p -> prec_up p < P_LIM ->
  overflow_exact (prec_up p) rm (value x + value y)%R (n_add x y p rm).
Proof. intros. replace (value x + value y)%R with (value x + IZR 1 * value y)%R by lra. now apply add_sub_ov; auto. Qed.

Theorem sub_ov x y p rm : wf x -> wf y -> 0 < p -> prec_up p < P_LIM ->
  overflow_exact (prec_up p) rm (value x - value y)%R (n_sub x y p rm).
Proof. intros. replace (value x - value y)%R with (value x + IZR (-1) * value y)%R by lra. now apply add_sub_ov; auto. Qed.

Theorem mul_ov x y p rm : wf x -> wf y -> 0 < p -> prec_up p < P_LIM ->
  overflow_exact (prec_up p) rm (value x * value y)%R (n_mul x y p rm).
Proof.
  intros Wx Wy Hp HP. destruct (Req_dec (value x * value y) 0) as [E|E].
  - rewrite E. split; [intros H; exfalso; revert H; apply small_not_big; now apply prec_up_pos|].
    destruct (mul_top x y p rm Wx Wy Hp HP) as [_ B]. destruct (B E) as (q & Q & _). eauto.
  - assert (nonzero x /\ nonzero y) as [Nx Ny]. { unfold nonzero. rewrite <- !value_zero_iff. split; intros K; apply E; rewrite K; lra. }
    eapply cr_ov; [|apply mul_nonzero; auto]. now apply sign_mul_has.
Qed.

Theorem div_ov x y p rm : wf x -> wf y -> nonzero y -> 0 < p -> prec_up p < P_LIM ->
  overflow_exact (prec_up p) rm (value x / value y)%R (n_div x y p rm).
Proof.
  intros Wx Wy Ny Hp HP. destruct (nonzero_dec x) as [Zx|Nx].
  - replace (value x / value y)%R with 0%R by (rewrite (value_zero x) by auto; unfold Rdiv; lra).
    split; [intros H; exfalso; revert H; apply small_not_big; now apply prec_up_pos|]. rewrite div_zero by (auto; lia). eauto.
  - eapply cr_ov; [|apply div_nonzero; auto]. now apply sign_div_has.
Qed.

(** Inexact flag. *)
Lemma sp_flag x p rm q : wf x -> 0 < p -> prec_up p < P_LIM -> set_precision x (prec_up p) rm = Ok q ->
  value q = rnd_grad (prec_up p) rm (value x) /\ (ninexact q = true <-> ninexact x = true \/ value q <> value x).
Proof.
  intros W Hp HP Hq. unfold prec_up in *. assert (Hp' : 0 < (p + 63) / 64) by (clear -Hp; dlia).
  destruct (sp_words x _ rm W Hp' HP) as [A B].
  destruct (Rlt_le_dec (Rabs (rnd_grad (64 * ((p + 63) / 64)) rm (value x))) (bpow radix2 EMAX)) as [H|H].
  - destruct (B H) as (q' & Q1 & Q2 & Q3 & Q4 & Q5). assert (q' = q) by congruence. subst q'. split; [exact Q4|]. now rewrite Q4.
  - rewrite (A H) in Hq. discriminate.
Qed.

Lemma add_sub_flag x y p op rm q : wf x -> wf y -> nonzero x \/ nonzero y -> op = 1 \/ op = -1 -> 0 < p -> prec_up p < P_LIM ->
  add_sub x y p op rm false = Ok q ->
  (ninexact q = true <-> (nonzero x /\ ninexact x = true) \/ (nonzero y /\ ninexact y = true) \/ value q <> (value x + IZR op * value y)%R).
Proof.
  intros Wx Wy Hnz Hop Hp HP Hq.
  destruct (nonzero_dec x) as [Zx|Nx].
  { rewrite add_sub_zero_l in Hq by auto. destruct (add_sub_arg x y op Hop Wy Zx) as (A & B & C). rewrite B.
    destruct (sp_flag _ p rm q A Hp HP Hq) as [_ F]. rewrite C in F. unfold nonzero in *. tauto. }
  destruct (nonzero_dec y) as [Zy|Ny].
  { rewrite add_sub_zero_r in Hq by auto. rewrite (value_zero y) by auto. rewrite Rmult_0_r, Rplus_0_r.
    destruct (sp_flag _ p rm q Wx Hp HP Hq) as [_ F]. unfold nonzero in *. tauto. }
  destruct (add_sub_nonzero x y p op rm Wx Wy Nx Ny Hop Hp HP) as [A B].
  destruct (Req_dec (value x + IZR op * value y) 0) as [E|E].
  - pose proof (zero_new p _ _ _ Hp HP (B E)) as (q' & Q1 & _ & _ & Q2). assert (q' = q) by congruence. subst q'. rewrite Q2, E.
    rewrite (B E) in Hq. injection Hq as <-. cbn [ninexact]. rewrite orb_true_iff. unfold nonzero in *. tauto.
  - destruct (A E) as (s & S & C). rewrite Hq in C. apply cr_op_value in C. destruct C as (_ & _ & _ & _ & F). rewrite F, orb_true_iff. unfold nonzero in *. tauto.
Qed.

Theorem add_flag x y p rm q : wf x -> wf y -> nonzero x \/ nonzero y -> 0 < p -> prec_up p < P_LIM -> n_add x y p rm = Ok q ->
  (ninexact q = true <-> (nonzero x /\ ninexact x = true) \/ (nonzero y /\ ninexact y = true) \/ value q <> (value x + value y)%R).
Proof. intros. replace (value x + value y)%R with (value x + IZR 1 * value y)%R by lra. eapply add_sub_flag; eauto. Qed.

Theorem sub_flag x y p rm q : wf x -> wf y -> nonzero x \/ nonzero y -> 0 < p -> prec_up p < P_LIM -> n_sub x y p rm = Ok q ->
  (ninexact q = true <-> (nonzero x /\ ninexact x = true) \/ (nonzero y /\ ninexact y = true) \/ value q <> (value x - value y)%R).
Proof. intros. replace (value x - value y)%R with (value x + IZR (-1) * value y)%R by lra. eapply add_sub_flag; eauto. Qed.

Theorem mul_flag x y p rm q : wf x -> wf y -> 0 < p -> prec_up p < P_LIM -> n_mul x y p rm = Ok q ->
  (ninexact q = true <-> nonzero x /\ nonzero y /\ (ninexact x = true \/ ninexact y = true \/ value q <> (value x * value y)%R)).
Proof.
  intros Wx Wy Hp HP Hq.
  assert (Hz : magnitude x = 0 \/ magnitude y = 0 -> ninexact q = false).
  { intros H. rewrite mul_zero in Hq by (auto; lia). now injection Hq as <-. }
  destruct (nonzero_dec x) as [Zx|Nx]; [rewrite Hz by auto; unfold nonzero; split; [discriminate|tauto]|].
  destruct (nonzero_dec y) as [Zy|Ny]; [rewrite Hz by auto; unfold nonzero; split; [discriminate|tauto]|].
  pose proof (mul_nonzero x y p rm Wx Wy Nx Ny Hp HP) as C. rewrite Hq in C. apply cr_op_value in C. destruct C as (_ & _ & _ & _ & F). rewrite F, orb_true_iff. unfold nonzero in *. tauto.
Qed.

Theorem div_flag x y p rm q : wf x -> wf y -> nonzero y -> 0 < p -> prec_up p < P_LIM -> n_div x y p rm = Ok q ->
  (ninexact q = true <-> nonzero x /\ (ninexact x = true \/ ninexact y = true \/ value q <> (value x / value y)%R)).
Proof.
  intros Wx Wy Ny Hp HP Hq.
  destruct (nonzero_dec x) as [Zx|Nx].
  { rewrite div_zero in Hq by (auto; lia). injection Hq as <-. cbn [ninexact]. unfold nonzero; split; [discriminate|tauto]. }
  pose proof (div_nonzero x y p rm Wx Wy Nx Ny Hp HP) as C. rewrite Hq in C. apply cr_op_value in C. destruct C as (_ & _ & _ & _ & F). rewrite F, orb_true_iff. unfold nonzero in *. tauto.
Qed.

(** Directed modes: a single rounding to the grid, normal or subnormal. *)
Lemma op_value_directed p rm r : nearest rm = false -> op_value p rm r = rnd_grad p rm r.
Proof. intros H. unfold op_value. now rewrite H. Qed.

Lemma add_sub_directed x y p op rm q : wf x -> wf y -> op = 1 \/ op = -1 -> 0 < p -> prec_up p < P_LIM -> nearest rm = false ->
  add_sub x y p op rm false = Ok q -> value q = rnd_grad (prec_up p) rm (value x + IZR op * value y).
Proof.
  intros Wx Wy Hop Hp HP Hrm Hq.
  destruct (nonzero_dec x) as [Zx|Nx].
  { rewrite add_sub_zero_l in Hq by auto. destruct (add_sub_arg x y op Hop Wy Zx) as (A & B & C). rewrite B.
    now destruct (sp_flag _ p rm q A Hp HP Hq) as [F _]. }
  destruct (nonzero_dec y) as [Zy|Ny].
  { rewrite add_sub_zero_r in Hq by auto. rewrite (value_zero y) by auto. rewrite Rmult_0_r, Rplus_0_r.
    now destruct (sp_flag _ p rm q Wx Hp HP Hq) as [F _]. }
  rewrite <- op_value_directed by auto. now apply add_sub_value.
Qed.

Theorem add_directed x y p rm q : wf x -> wf y -> 0 < p -> prec_up p < P_LIM -> nearest rm = false ->
  n_add x y p rm = Ok q -> value q = rnd_grad (prec_up p) rm (value x + value y).
Proof. intros. replace (value x + value y)%R with (value x + IZR 1 * value y)%R by lra. apply add_sub_directed; auto. Qed.
Theorem sub_directed x y p rm q : wf x -> wf y -> 0 < p -> prec_up p < P_LIM -> nearest rm = false ->
  n_sub x y p rm = Ok q -> value q = rnd_grad (prec_up p) rm (value x - value y).
Proof. intros. replace (value x - value y)%R with (value x + IZR (-1) * value y)%R by lra. apply add_sub_directed; auto. Qed.
Theorem mul_directed x y p rm q : wf x -> wf y -> 0 < p -> prec_up p < P_LIM -> nearest rm = false ->
  n_mul x y p rm = Ok q -> value q = rnd_grad (prec_up p) rm (value x * value y).
Proof. intros. rewrite <- op_value_directed by auto. now apply mul_value. Qed.

Lemma div_value x y p rm q : wf x -> wf y -> nonzero y -> 0 < p -> prec_up p < P_LIM ->
  n_div x y p rm = Ok q -> value q = op_value (prec_up p) rm (value x / value y).
Proof.
  intros Wx Wy Ny Hp HP H. destruct (nonzero_dec x) as [Zx|Nx].
  - replace (value x / value y)%R with 0%R by (rewrite (value_zero x) by auto; unfold Rdiv; lra). rewrite op_value_0 by now apply prec_up_pos.
    destruct (div_top x y p rm Wx Wy Ny Hp HP) as [_ B]. destruct B as (q' & Q1 & _ & _ & Q2). { now apply value_zero. } congruence.
  - pose proof (div_nonzero x y p rm Wx Wy Nx Ny Hp HP) as C. rewrite H in C. apply cr_op_value in C. tauto.
Qed.
Theorem div_directed x y p rm q : wf x -> wf y -> nonzero y -> 0 < p -> prec_up p < P_LIM -> nearest rm = false ->
  n_div x y p rm = Ok q -> value q = rnd_grad (prec_up p) rm (value x / value y).
Proof. intros. rewrite <- op_value_directed by auto. now apply div_value. Qed.

Lemma rnd_prec_bpow p rm e : 0 < p -> rnd_prec p rm (bpow radix2 e) = bpow radix2 e.
Proof.
  intros Hp. unfold rnd_prec. apply round_generic; [apply rnd_valid|]. apply generic_format_bpow. unfold FLX_exp. lia.
Qed.
