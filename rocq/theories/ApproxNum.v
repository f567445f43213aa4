(** Numbers near a positive real, and the operations on them. *)

From Coq Require Import ZArith List Bool Lia Reals Lra.
From Flocq Require Import Core Relative.
From Verif Require Import Words IntModel Mantissa Num SpecZ WordsP Spec RealP RealP2 NumP CmpP AddP SetP AddNum MulNum DivNum RootNum ArithTop ConvNum ConstNum ApproxR.
Import ListNotations.
Open Scope Z_scope.
Ltac Zify.zify_post_hook ::= idtac.
Arguments Z.mul : simpl never.
Arguments Z.add : simpl never.
Arguments Z.pow : simpl never.
Arguments Z.sub : simpl never.
Arguments Z.of_nat : simpl never.
Ltac dlia := Z.div_mod_to_equations; lia.

(** The unit of error for operations with at least [P] bits. *)
Definition eps (P : Z) : R := bpow radix2 (2 - P).
(** Exponents this large leave room to the ends of the exponent range. *)
Definition HX : Z := 2 ^ 30.
Definition mid (a : R) : Prop := (bpow radix2 (- HX) <= a <= bpow radix2 HX)%R.

(** [v] is a normal number of sign [s] whose magnitude is within [k] units of [a]. *)
Definition apx (P : Z) (s : sign) (k : Z) (a : R) (v : num) : Prop :=
  wf v /\ normal v /\ ns v = s /\ lc (IZR k * eps P) a (Rabs (value v)).

Lemma eps_pos P : (0 < eps P)%R.
Proof. apply bpow_gt_0. Qed.
Lemma eps_le P Q : P <= Q -> (eps Q <= eps P)%R.
Proof. intros H. apply bpow_le. lia. Qed.
Lemma eps_small P k : 128 <= P -> k <= 2 ^ 60 -> (IZR k * eps P <= bpow radix2 (-66))%R.
Proof.
  intros HP Hk. apply Rle_trans with (bpow radix2 60 * bpow radix2 (-126))%R.
  - apply Rle_trans with (bpow radix2 60 * eps P)%R; [apply Rmult_le_compat_r; [left; apply eps_pos|]|apply Rmult_le_compat_l; [apply bpow_ge_0|]].
    + change (bpow radix2 60) with (IZR (2 ^ 60)). now apply IZR_le.
    + apply bpow_le. lia.
  - rewrite <- bpow_plus. apply bpow_le. lia.
Qed.
Lemma eps_one P k : 128 <= P -> k <= 2 ^ 60 -> (IZR k * eps P <= 1)%R.
Proof. intros HP Hk. eapply Rle_trans; [now apply eps_small|]. change 1%R with (bpow radix2 0). apply bpow_le. lia. Qed.

Lemma bpow_m k j : k <= j -> (bpow radix2 k <= bpow radix2 j)%R.
Proof. apply bpow_le. Qed.

Lemma cut_apx P q rm r s ix res : correctly_rounded q rm r s ix res -> 128 <= P <= q -> (bpow radix2 (- HX - 8) <= Rabs r <= bpow radix2 (HX + 8))%R ->
  exists v, res = Ok v /\ wf v /\ normal v /\ ns v = s /\ 64 * wlen v = q /\ lc (eps P) (Rabs r) (Rabs (value v)) /\ (ix = true -> ninexact v = true).
Proof.
  intros C Hp [R1 R2]. unfold correctly_rounded in C. cbv zeta in C. destruct C as [_ C]. assert (Hq : 0 < q) by lia.
  assert (Z1 : (bpow radix2 (- HX - 8) <= Rabs (rnd_prec q rm r))%R). { unfold rnd_prec. apply abs_round_ge_generic; [apply FLX_exp_valid; exact Hq|apply rnd_valid| |exact R1]. apply generic_format_bpow. unfold FLX_exp. lia. }
  assert (Z2 : (Rabs (rnd_prec q rm r) <= bpow radix2 (HX + 8))%R). { unfold rnd_prec. apply abs_round_le_generic; [apply FLX_exp_valid; exact Hq|apply rnd_valid| |exact R2]. apply generic_format_bpow. unfold FLX_exp. lia. }
  assert (L1 : (bpow radix2 (HX + 8) < bpow radix2 EMAX)%R) by (apply bpow_lt; vm_compute; reflexivity). assert (L2 : (bpow radix2 (EMIN - 1) <= bpow radix2 (- HX - 8))%R) by (apply bpow_le; vm_compute; discriminate).
  destruct C as (v & E & W & L & S & N & _ & _ & _ & I); [eapply Rle_lt_trans; [exact Z2|exact L1]|]. destruct N as [V N]; [eapply Rle_trans; [exact L2|exact Z1]|].
  exists v. split; [exact E|]. split; [exact W|]. split; [exact N|]. split; [exact S|]. split; [exact L|]. split; [|intros X; apply I; left; exact X]. 
  pose proof (bpow_gt_0 radix2 (- HX - 8)) as G. assert (NZ : r <> 0%R). { intros ->. rewrite Rabs_R0 in R1. apply (Rlt_irrefl 0). eapply Rlt_le_trans; [exact G|exact R1]. }
  assert (Rp : (0 < Rabs r)%R) by now apply Rabs_pos_lt.
  pose proof (relative_error_FLX radix2 q Hq (rnd rm) r NZ) as RE. fold (rnd_prec q rm r) in RE. rewrite <- V in RE.
  assert (E1 : (bpow radix2 (- q + 1) <= bpow radix2 (1 - P))%R) by (apply bpow_le; lia).
  assert (E2 : (bpow radix2 (1 - P) <= bpow radix2 (-1))%R) by (apply bpow_le; lia). change (bpow radix2 (-1)) with (/ 2)%R in E2.
  pose proof (bpow_ge_0 radix2 (1 - P)) as E0. replace (eps P) with (2 * bpow radix2 (1 - P))%R by (unfold eps; replace (2 - P) with (1 + (1 - P)) by ring; rewrite bpow_plus; reflexivity).
  clear - E0 E1 E2 RE Rp. apply lc_round; [exact Rp|lra|]. eapply Rle_trans; [apply Rabs_triang_inv2|]. eapply Rle_trans; [left; exact RE|]. apply Rmult_le_compat_r; [lra|exact E1].
Qed.

Lemma apx_nonzero P s k a v : apx P s k a v -> nonzero v.
Proof. intros (_ & [_ N] & _). exact N. Qed.
Lemma apx_weak P s k k' a v : k <= k' -> apx P s k a v -> apx P s k' a v.
Proof.
  intros H (W & N & S & L). split; [exact W|]. split; [exact N|]. split; [exact S|]. eapply lc_weak; [|exact L]. apply Rmult_le_compat_r; [left; apply eps_pos|]. now apply IZR_le.
Qed.
Lemma apx_same P s k a b v : a = b -> apx P s k a v -> apx P s k b v.
Proof. intros ->. exact (fun H => H). Qed.
Lemma apx_trans P s j k a b v : lc (IZR j * eps P) a b -> apx P s k b v -> apx P s (j + k) a v.
Proof. intros H (W & N & S & L). split; [exact W|]. split; [exact N|]. split; [exact S|]. rewrite plus_IZR, Rmult_plus_distr_r. eapply lc_trans; eassumption. Qed.
(** A normal number approximates its own magnitude. *)
Lemma apx_self P v : wf v -> normal v -> apx P (ns v) 0 (Rabs (value v)) v.
Proof. intros W N. split; [exact W|]. split; [exact N|]. split; [reflexivity|]. rewrite Rmult_0_l. apply lc_refl. apply Rabs_pos_lt. destruct N as [_ N]. rewrite value_zero_iff. exact N. Qed.
Lemma apx_round P q rm r s ix res k a : correctly_rounded q rm r s ix res -> 128 <= P <= q -> lc (IZR k * eps P) a (Rabs r) -> k <= 2 ^ 60 -> mid a ->
  exists v, res = Ok v /\ apx P s (k + 1) a v /\ 64 * wlen v = q /\ (ix = true -> ninexact v = true).
Proof.
  intros C HP L Hk [M1 M2]. destruct (lc_factor _ _ _ (eps_one P k ltac:(lia) Hk) L) as [F1 F2].
  destruct (cut_apx P q rm r s ix res C HP) as (v & E & W & N & S & Lq & Lv & I).
  { replace (- HX - 8) with (-8 + - HX) by ring. rewrite Z.add_comm, !bpow_plus. change (bpow radix2 (-8)) with (/ 256)%R. change (bpow radix2 8) with 256%R.
    pose proof (bpow_gt_0 radix2 (- HX)) as G1. pose proof (bpow_gt_0 radix2 HX) as G2. clear - F1 F2 M1 M2 G1 G2. set (b1 := bpow radix2 (- HX)) in *. set (b2 := bpow radix2 HX) in *. clearbody b1 b2. split; lra. }
  exists v. split; [exact E|]. split; [|split; [exact Lq|exact I]]. split; [exact W|]. split; [exact N|]. split; [exact S|]. rewrite plus_IZR, Rmult_plus_distr_r, Rmult_1_l. eapply lc_trans; eassumption.
Qed.

Section Ops.
Variables (P : Z) (p : Z) (rm : rmode).
Hypothesis HP : 128 <= P <= prec_up p.
Hypothesis HL : prec_up p < P_LIM.
Lemma p_pos : 0 < p.
Proof. clear HL. unfold prec_up in HP. dlia. Qed.

Lemma apx_mul s t j k a b v w : apx P s j a v -> apx P t k b w -> j + k <= 2 ^ 60 -> mid (a * b) ->
  exists q, n_mul v w p rm = Ok q /\ apx P (sign_mul s t) (j + k + 1) (a * b) q /\ 64 * wlen q = prec_up p /\ (ninexact v || ninexact w = true -> ninexact q = true).
Proof.
  intros Hv Hw Hk M. pose proof (apx_nonzero _ _ _ _ _ Hv) as Nv. pose proof (apx_nonzero _ _ _ _ _ Hw) as Nw. destruct Hv as (Wv & _ & <- & Lv). destruct Hw as (Ww & _ & <- & Lw).
  pose proof (mul_nonzero v w p rm Wv Ww Nv Nw p_pos HL) as C. apply (apx_round P _ rm _ _ _ _ (j + k) (a * b) C HP); [|exact Hk|exact M].
  rewrite Rabs_mult, plus_IZR, Rmult_plus_distr_r. now apply lc_mul.
Qed.
Lemma apx_div s t j k a b v w : apx P s j a v -> apx P t k b w -> j + k <= 2 ^ 60 -> mid (a / b) ->
  exists q, n_div v w p rm = Ok q /\ apx P (sign_mul s t) (j + k + 1) (a / b) q /\ 64 * wlen q = prec_up p /\ (ninexact v || ninexact w = true -> ninexact q = true).
Proof.
  intros Hv Hw Hk M. pose proof (apx_nonzero _ _ _ _ _ Hv) as Nv. pose proof (apx_nonzero _ _ _ _ _ Hw) as Nw. destruct Hv as (Wv & _ & <- & Lv). destruct Hw as (Ww & _ & <- & Lw).
  pose proof (div_nonzero v w p rm Wv Ww Nv Nw p_pos HL) as C. apply (apx_round P _ rm _ _ _ _ (j + k) (a / b) C HP); [|exact Hk|exact M].
  unfold Rdiv. rewrite Rabs_mult, Rabs_inv, plus_IZR, Rmult_plus_distr_r. apply lc_mul; [exact Lv|now apply lc_inv].
Qed.
Lemma apx_sqrt k a v : apx P Pos k a v -> k <= 2 ^ 60 -> 0 <= k -> mid (sqrt a) ->
  exists q, n_sqrt v p rm = Ok q /\ apx P Pos (k + 1) (sqrt a) q /\ 64 * wlen q = prec_up p /\ (ninexact v = true -> ninexact q = true).
Proof.
  intros Hv Hk Hk0 M. pose proof (apx_nonzero _ _ _ _ _ Hv) as Nv. destruct Hv as (Wv & _ & Sv & Lv).
  pose proof (sqrt_nonzero v p rm Wv Nv Sv p_pos HL) as C. apply (apx_round P _ rm _ _ _ _ k (sqrt a) C HP); [|exact Hk|exact M].
  rewrite Rabs_pos_eq by apply sqrt_pos. apply lc_sqrt in Lv. assert (V0 : (0 <= value v)%R). { pose proof (value_has_sign v Wv Nv) as H. rewrite Sv in H. unfold has_sign in H. cbn [sgnZ] in H. lra. }
  rewrite Rabs_pos_eq in Lv by exact V0. eapply lc_weak; [|exact Lv]. pose proof (eps_pos P). assert (0 <= IZR k)%R by (now apply IZR_le). assert (0 <= IZR k * eps P)%R by (apply Rmult_le_pos; lra). lra.
Qed.
(** Adding numbers of the same sign. *)
Lemma apx_add s k a b v w : apx P s k a v -> apx P s k b w -> k <= 2 ^ 60 -> mid (a + b) ->
  exists q, n_add v w p rm = Ok q /\ apx P s (k + 1) (a + b) q /\ 64 * wlen q = prec_up p /\ (ninexact v || ninexact w = true -> ninexact q = true).
Proof.
  intros Hv Hw Hk M. pose proof (apx_nonzero _ _ _ _ _ Hv) as Nv. pose proof (apx_nonzero _ _ _ _ _ Hw) as Nw. destruct Hv as (Wv & _ & Sv & Lv). destruct Hw as (Ww & _ & Sw & Lw).
  pose proof (add_sub_nonzero v w p 1 rm Wv Ww Nv Nw (or_introl eq_refl) p_pos HL) as [C _]. rewrite Rmult_1_l in C.
  pose proof (value_has_sign v Wv Nv) as V. pose proof (value_has_sign w Ww Nw) as W. rewrite Sv in V. rewrite Sw in W.
  assert (A : Rabs (value v + value w) = (Rabs (value v) + Rabs (value w))%R /\ has_sign s (value v + value w)).
  { unfold has_sign in *. destruct s; cbn [sgnZ] in *; (split; [|lra]); [rewrite !Rabs_left by lra; lra|rewrite !Rabs_pos_eq by lra; lra]. }
  destruct A as [A Hs]. destruct C as (t & Ht & C). { intros E. rewrite E in Hs. unfold has_sign in Hs. lra. }
  assert (t = s) as ->. { unfold has_sign in *. destruct s, t; auto; cbn [sgnZ] in *; exfalso; lra. }
  apply (apx_round P _ rm _ _ _ _ k (a + b) C HP); [|exact Hk|exact M]. rewrite A. now apply lc_add.
Qed.
End Ops.

(** Ranges. *)
Lemma mid_between a b c : mid a -> mid c -> (a <= b <= c)%R -> mid b.
Proof. intros [A1 _] [_ C2] [H1 H2]. split; [eapply Rle_trans; [exact A1|exact H1]|eapply Rle_trans; [exact H2|exact C2]]. Qed.
Lemma mid_bpow k : - HX <= k <= HX -> mid (bpow radix2 k).
Proof. intros H. split; apply bpow_le; lia. Qed.
Lemma mid_range k j a : - HX <= k -> j <= HX -> (bpow radix2 k <= a <= bpow radix2 j)%R -> mid a.
Proof. intros K J [A B]. split; [eapply Rle_trans; [|exact A]|eapply Rle_trans; [exact B|]]; apply bpow_le; lia. Qed.
Lemma mid_one : mid 1.
Proof. change 1%R with (bpow radix2 0). apply mid_bpow. vm_compute. split; discriminate. Qed.

(** Lower bounds by powers of two. *)
Lemma low_mul k j a b : (bpow radix2 k <= a)%R -> (bpow radix2 j <= b)%R -> (bpow radix2 (k + j) <= a * b)%R.
Proof. intros A B. rewrite bpow_plus. apply Rmult_le_compat; try apply bpow_ge_0; assumption. Qed.
Lemma low_pow k a n : (bpow radix2 k <= a)%R -> (bpow radix2 (Z.of_nat n * k) <= a ^ n)%R.
Proof.
  intros A. induction n as [|n IH]; [cbn [pow]; rewrite Z.mul_0_l; right; reflexivity|]. cbn [pow]. replace (Z.of_nat (S n) * k) with (k + Z.of_nat n * k) by lia. now apply low_mul.
Qed.
Lemma high_mul k j a b : (0 <= a <= bpow radix2 k)%R -> (0 <= b <= bpow radix2 j)%R -> (0 <= a * b <= bpow radix2 (k + j))%R.
Proof. intros A B. rewrite bpow_plus. split; [apply Rmult_le_pos; lra|]. apply Rmult_le_compat; lra. Qed.

(** The constant one and other exact numbers. *)
Lemma apx_exact P v a : wf v -> normal v -> ns v = Pos -> value v = a -> apx P Pos 0 a v.
Proof.
  intros W N S V. pose proof (apx_self P v W N) as H. rewrite S, V in H. destruct N as [_ N]. pose proof (value_has_sign v W N) as Q. rewrite S, V in Q. unfold has_sign in Q. cbn [sgnZ] in Q.
  rewrite Rabs_pos_eq in H by lra. exact H.
Qed.
Lemma ONE_normal : normal ONE.
Proof. split; [reflexivity|exact ONE_nonzero]. Qed.
Lemma apx_ONE P : apx P Pos 0 1 ONE.
Proof. apply apx_exact; [exact ONE_wf|exact ONE_normal|reflexivity|exact ONE_value]. Qed.
