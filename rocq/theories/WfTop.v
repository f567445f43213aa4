(** Every operation returns a well-formed number of the requested length, or an
    error, and never panics. *)

From Coq Require Import ZArith Reals List Bool Lia Lra.
From Flocq Require Import Core.
From Verif Require Import Words IntModel MulModel DivModel RootModel Mantissa Num SpecZ WordsP WordsP2 RoundP Spec SpecOps RealP RealP2 NumP CmpP AddP SetP AddNum IntP MulP MulP2 MulNum DivP DivP2 DivNum RootP RootP2 RootNum ArithTop RootTop RemNum IntNum ConvNum Conv2Num.
Import ListNotations.
Open Scope Z_scope.
Ltac Zify.zify_post_hook ::= idtac.
Arguments Z.mul : simpl never.
Arguments Z.add : simpl never.
Arguments Z.pow : simpl never.
Arguments Z.sub : simpl never.
Arguments Z.of_nat : simpl never.

Lemma cr_wf p rm r s ix res : correctly_rounded p rm r s ix res -> well_formed_result p res.
Proof.
  intros C. unfold correctly_rounded in C. cbv zeta in C. destruct C as [A B].
  destruct (Rle_or_lt (bpow radix2 EMAX) (Rabs (rnd_prec p rm r))) as [H|H].
  - rewrite (A H). exact I.
  - destruct (B H) as (q & -> & W & L & _). split; auto.
Qed.

Lemma zr_wf p res : zero_result p res -> well_formed_result p res.
Proof. intros (q & -> & W & L & _). split; auto. Qed.

Lemma ep_wf p d res : exact_pos p d res -> well_formed_result (prec_up p) res.
Proof. intros (q & -> & W & L & _). split; auto. Qed.

Lemma ei_wf p d res : exact_int p d res -> well_formed_result (prec_up p) res.
Proof. intros (q & -> & W & L & _). split; auto. Qed.

Lemma wf_np p res : well_formed_result p res -> no_panic res.
Proof. destruct res; auto. intros _. exact I. Qed.

Theorem sp_wf x p rm : wf x -> 0 < p -> prec_up p < P_LIM -> rm <> RNone -> well_formed_result (prec_up p) (set_precision x p rm).
Proof.
  intros W Hp HP Hr. destruct (set_precision_spec x p rm W Hp HP ltac:(now left)) as [A B].
  destruct (Rle_or_lt (bpow radix2 EMAX) (Rabs (rnd_grad p rm (value x)))) as [H|H].
  - rewrite (A H). exact I.
  - destruct (B H) as (q & -> & Q & L & _). split; [auto|]. rewrite L. reflexivity.
Qed.

Lemma prec_up_idem p : 0 < p -> prec_up (prec_up p) = prec_up p.
Proof. intros. unfold prec_up. dlia. Qed.

Lemma sp_up_wf x p rm : wf x -> 0 < p -> prec_up p < P_LIM -> rm <> RNone -> well_formed_result (prec_up p) (set_precision x (prec_up p) rm).
Proof. intros. rewrite <- (prec_up_idem p) at 1 by auto. apply sp_wf; auto; [now apply prec_up_pos|now rewrite prec_up_idem]. Qed.

Lemma sp_up_np x p rm : wf x -> 0 < p -> prec_up p < P_LIM -> no_panic (set_precision x (prec_up p) rm).
Proof.
  intros W Hp HP. pose proof (prec_up_pos p Hp). assert (E : prec_up p = 64 * ((p + 63) / 64)) by reflexivity. rewrite E in *.
  destruct (sp_words x ((p + 63) / 64) rm W ltac:(lia) HP) as [A B].
  destruct (Rle_or_lt (bpow radix2 EMAX) (Rabs (rnd_grad (64 * ((p + 63) / 64)) rm (value x)))) as [H0|H0].
  - rewrite (A H0). exact I.
  - destruct (B H0) as (q & -> & _). exact I.
Qed.

Lemma add_sub_wf x y p op rm : wf x -> wf y -> op = 1 \/ op = -1 -> 0 < p -> prec_up p < P_LIM ->
  no_panic (add_sub x y p op rm false) /\
  (rm <> RNone \/ (nonzero x /\ nonzero y) -> well_formed_result (prec_up p) (add_sub x y p op rm false)).
Proof.
  intros Wx Wy Hop Hp HP. destruct (nonzero_dec x) as [Zx|Nx]; [|destruct (nonzero_dec y) as [Zy|Ny]].
  - rewrite add_sub_zero_l by auto. assert (W' : wf (if op <? 0 then n_neg y else y)) by (destruct (op <? 0); [now apply n_neg_wf|auto]).
    split; [now apply sp_up_np|]. intros [H|[H _]]; [now apply sp_up_wf|contradiction].
  - rewrite add_sub_zero_r by auto. split; [now apply sp_up_np|]. intros [H|[_ H]]; [now apply sp_up_wf|contradiction].
  - destruct (add_sub_nonzero x y p op rm Wx Wy Nx Ny Hop Hp HP) as [A B].
    assert (C : well_formed_result (prec_up p) (add_sub x y p op rm false)).
    { destruct (Req_dec (value x + IZR op * value y) 0) as [E|E].
      - eapply zr_wf, zero_new; eauto.
      - destruct (A E) as (s & _ & C). eapply cr_wf; eauto. }
    split; [eapply wf_np; eauto|auto].
Qed.

Theorem mul_wf x y p rm : wf x -> wf y -> 0 < p -> prec_up p < P_LIM -> well_formed_result (prec_up p) (n_mul x y p rm).
Proof.
  intros Wx Wy Hp HP. destruct (nonzero_dec x) as [Zx|Nx]; [|destruct (nonzero_dec y) as [Zy|Ny]].
  - apply zr_wf, mul_top; auto. rewrite (value_zero x) by auto. ring.
  - apply zr_wf, mul_top; auto. rewrite (value_zero y) by auto. ring.
  - eapply cr_wf, mul_nonzero; auto.
Qed.

Theorem div_wf x y p rm : wf x -> wf y -> 0 < p -> prec_up p < P_LIM -> well_formed_result (prec_up p) (n_div x y p rm).
Proof.
  intros Wx Wy Hp HP. destruct (nonzero_dec y) as [Zy|Ny].
  - unfold n_div. rewrite (is_zero_spec y), Zy by auto. change (0 =? 0) with true. cbv iota. destruct (is_zero x); exact I.
  - destruct (nonzero_dec x) as [Zx|Nx].
    + apply zr_wf, div_top; auto. now apply value_zero.
    + eapply cr_wf, div_nonzero; auto.
Qed.

Theorem recip_wf x p rm : wf x -> 0 < p -> prec_up p < P_LIM -> well_formed_result (prec_up p) (n_reciprocal x p rm).
Proof. intros. unfold n_reciprocal. apply div_wf; auto. apply ONE_wf. Qed.

Theorem sqrt_wf x p rm : wf x -> 0 < p -> prec_up p < P_LIM -> well_formed_result (prec_up p) (n_sqrt x p rm).
Proof.
  intros W Hp HP. destruct (nonzero_dec x) as [Z0|N].
  - apply zr_wf, sqrt_top; auto. now apply value_zero.
  - destruct (ns x) eqn:S.
    + destruct (sqrt_top x p rm W Hp HP) as (_ & _ & E). rewrite E; [exact I|]. pose proof (value_has_sign x W N) as H. unfold has_sign in H. rewrite S in H. cbn [sgnZ] in H. lra.
    + eapply cr_wf, sqrt_nonzero; auto.
Qed.

Theorem cbrt_wf x p rm : wf x -> 0 < p -> prec_up p < P_LIM -> well_formed_result (prec_up p) (n_cbrt x p rm).
Proof.
  intros W Hp HP. destruct (cube_root_exists (value x)) as (c & Hc). destruct (nonzero_dec x) as [Z0|N].
  - eapply zr_wf, cbrt_top; eauto. now apply value_zero.
  - eapply cr_wf, cbrt_nonzero; eauto.
Qed.

Theorem round_wf x n rm : wf x -> 0 <= n -> rm <> RNone -> nearest rm = false \/ normal x \/ n <> 2 ^ 31 ->
  well_formed_result (64 * wlen x) (n_round x n rm).
Proof.
  intros W Hn Hr Hc. destruct (Z.leb_spec 4611686018427387903 n) as [H|H].
  - unfold n_round. replace (4611686018427387903 <=? n) with true by lia. exact I.
  - pose proof (round_spec x n rm W ltac:(lia) Hr) as P. unfold round_post in P. cbv zeta in P. destruct P as [A B].
    { unfold normal in Hc. tauto. }
    destruct (Rle_or_lt (bpow radix2 EMAX) (Rabs (rnd_frac n rm (value x)))) as [G|G].
    + rewrite (A G). exact I.
    + destruct (B G) as (q & -> & Q1 & Q2 & _). split; [auto|lia].
Qed.

(** rem: the length of the result is not fixed. *)
Theorem rem_wf x y : wf x -> wf y -> 64 * Z.max (wlen x + 1) (2 * wlen y) < P_LIM ->
  match n_rem x y with Ok q => wf q | Err _ => True | Panic => False end.
Proof.
  intros Wx Wy H. destruct (nonzero_dec y) as [Zy|Ny].
  - unfold n_rem. rewrite (is_zero_spec y), Zy by auto. exact I.
  - destruct (rem_total x y Wx Wy Ny H) as (q & -> & P & _). exact P.
Qed.

(** Mode None: cutting all bits of a subnormal number leaves a zero with exponent EMIN. *)
Definition ex_low_sub : num := mk_num (mk_m [1; 0] 1) Pos EXPONENT_MIN false.
Theorem none_mode_breaks_wf : wf ex_low_sub /\ exists q, set_precision ex_low_sub 64 RNone = Ok q /\ magnitude q = 0 /\ ne q = EMIN /\ ~ wf q.
Proof.
  split. { constructor; [unfold words_ok; cbn [nm mm ex_low_sub]; repeat constructor; lia|reflexivity|reflexivity|cbn [ne ex_low_sub]; lia|intros H; vm_compute in H; discriminate H|reflexivity]. }
  eexists. split; [vm_compute; reflexivity|]. split; [reflexivity|]. split; [reflexivity|].
  intros W. pose proof (wf_zero _ W ltac:(reflexivity)) as H. vm_compute in H. discriminate H.
Qed.
