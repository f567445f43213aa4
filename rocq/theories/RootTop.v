(** Statements about sqrt and cbrt for all operands. *)

From Coq Require Import ZArith Reals List Bool Lia Lra.
From Flocq Require Import Core.
From Verif Require Import Words Mantissa Num SpecZ WordsP WordsP2 RoundP Spec RealP RealP2 NumP CmpP AddP SetP AddNum DivNum RootP RootP2 RootNum ArithTop.
Open Scope Z_scope.
Ltac Zify.zify_post_hook ::= idtac.
Arguments Z.mul : simpl never.
Arguments Z.add : simpl never.
Arguments Z.pow : simpl never.
Arguments Z.sub : simpl never.
Arguments Z.of_nat : simpl never.

Lemma root_zero_eq x p rm : wf x -> magnitude x = 0 -> 0 < p -> prec_up p < P_LIM ->
  n_sqrt x p rm = Ok (mk_num (m_new (prec_up p)) (ns x) 0 (ninexact x)) /\ n_cbrt x p rm = Ok (mk_num (m_new (prec_up p)) (ns x) 0 (ninexact x)).
Proof.
  intros W Z0 Hp HP. unfold n_sqrt, n_cbrt, n_new2. rewrite is_zero_spec, Z0 by auto. cbn [Z.eqb]. rewrite round_p_eq by lia. unfold prec_up in *. unfold p_assertion.
  replace (P_LIM <=? 64 * ((p + 63) / 64)) with false by lia. cbn [bind]. auto.
Qed.

Lemma zero_not_normal p rm res : 0 < p -> rounds_to_normal p rm 0 res.
Proof.
  intros Hp. unfold rounds_to_normal; cbv zeta; intros [H _]; exfalso. rewrite rnd_prec_0, Rabs_R0 in H by auto. pose proof (bpow_gt_0 radix2 (EMIN - 1)). lra.
Qed.

Theorem sqrt_top x p rm : wf x -> 0 < p -> prec_up p < P_LIM ->
  ((0 <= value x)%R -> rounds_to_normal (prec_up p) rm (sqrt (value x)) (n_sqrt x p rm)) /\
  (value x = 0%R -> zero_result (prec_up p) (n_sqrt x p rm)) /\
  ((value x < 0)%R -> n_sqrt x p rm = Err InvalidArgument).
Proof.
  intros W Hp HP. destruct (nonzero_dec x) as [Zx|Nx].
  - destruct (root_zero_eq x p rm W Zx Hp HP) as [E _]. rewrite value_zero, sqrt_0 by auto. split; [intros _; apply zero_not_normal, prec_up_pos; auto|].
    split; [intros _; eapply zero_new; eauto|lra].
  - pose proof (value_has_sign x W Nx) as HS. unfold has_sign in HS.
    split; [|split].
    + intros H. assert (Es : ns x = Pos) by (destruct (ns x); auto; cbn [sgnZ] in HS; lra). eapply cr_normal, sqrt_nonzero; auto.
    + intros E. rewrite value_zero_iff in E. contradiction.
    + intros H. assert (Es : ns x = Neg) by (destruct (ns x); auto; cbn [sgnZ] in HS; lra).
      unfold n_sqrt. rewrite is_zero_false by auto. rewrite round_p_eq by lia. unfold p_assertion, prec_up in *. replace (P_LIM <=? 64 * ((p + 63) / 64)) with false by lia. cbn [bind].
      unfold is_negative. rewrite Es. reflexivity.
Qed.

Theorem cbrt_top x p rm c : wf x -> 0 < p -> prec_up p < P_LIM -> (c * c * c = value x)%R ->
  rounds_to_normal (prec_up p) rm c (n_cbrt x p rm) /\ (value x = 0%R -> zero_result (prec_up p) (n_cbrt x p rm)).
Proof.
  intros W Hp HP Hc. destruct (nonzero_dec x) as [Zx|Nx].
  - destruct (root_zero_eq x p rm W Zx Hp HP) as [_ E]. rewrite (value_zero x) in * by auto.
    assert (c = 0%R) by (apply Rmult_integral in Hc; destruct Hc as [Hc|]; auto; apply Rmult_integral in Hc; tauto). subst c.
    split; [apply zero_not_normal, prec_up_pos; auto|]. intros _; eapply zero_new; eauto.
  - split; [eapply cr_normal, cbrt_nonzero; auto|]. intros E. rewrite value_zero_iff in E. contradiction.
Qed.

(** Existence of the real cube root, so that the statement above is not vacuous. *)
Theorem cube_root_exists v : exists c, (c * c * c = v)%R.
Proof.
  assert (G : forall v, (0 < v)%R -> exists c, (c * c * c = v)%R).
  { intros u Hu. exists (Rpower u (/ 3)). rewrite <- !Rpower_plus. replace (/ 3 + / 3 + / 3)%R with 1%R by field. now apply Rpower_1. }
  destruct (Rtotal_order v 0) as [L|[E|L]].
  - destruct (G (- v)%R ltac:(lra)) as [c Hc]. exists (- c)%R. lra.
  - exists 0%R. lra.
  - auto.
Qed.

Theorem sqrt_flag x p rm q : wf x -> 0 < p -> prec_up p < P_LIM -> n_sqrt x p rm = Ok q ->
  (ninexact q = true <-> ninexact x = true \/ value q <> sqrt (value x)).
Proof.
  intros W Hp HP E. destruct (nonzero_dec x) as [Zx|Nx].
  - destruct (root_zero_eq x p rm W Zx Hp HP) as [E2 _]. rewrite E2 in E. injection E as <-. cbn [ninexact]. rewrite (value_zero x), sqrt_0 by auto.
    assert (V : value (mk_num (m_new (prec_up p)) (ns x) 0 (ninexact x)) = 0%R).
    { unfold prec_up in *. assert (0 <= (p + 63) / 64) by (clear - Hp; dlia). destruct (zero_m_new ((p + 63) / 64) (ns x) (ninexact x) H HP) as (_ & _ & C). now apply value_zero. }
    rewrite V. tauto.
  - destruct (ns x) eqn:Es.
    + pose proof (proj2 (proj2 (sqrt_top x p rm W Hp HP))) as H. rewrite E in H. pose proof (value_has_sign x W Nx) as HS. unfold has_sign in HS. rewrite Es in HS. cbn [sgnZ] in HS.
      discriminate H. lra.
    + pose proof (sqrt_nonzero x p rm W Nx Es Hp HP) as C. rewrite E in C. apply cr_op_value in C. apply C.
Qed.

Theorem cbrt_flag x p rm q c : wf x -> 0 < p -> prec_up p < P_LIM -> (c * c * c = value x)%R -> n_cbrt x p rm = Ok q ->
  (ninexact q = true <-> ninexact x = true \/ value q <> c).
Proof.
  intros W Hp HP Hc E. destruct (nonzero_dec x) as [Zx|Nx].
  - destruct (root_zero_eq x p rm W Zx Hp HP) as [_ E2]. rewrite E2 in E. injection E as <-. cbn [ninexact]. rewrite (value_zero x) in Hc by auto.
    assert (c = 0%R) by (apply Rmult_integral in Hc; destruct Hc as [Hc|]; auto; apply Rmult_integral in Hc; tauto). subst c.
    assert (V : value (mk_num (m_new (prec_up p)) (ns x) 0 (ninexact x)) = 0%R).
    { unfold prec_up in *. assert (0 <= (p + 63) / 64) by (clear - Hp; dlia). destruct (zero_m_new ((p + 63) / 64) (ns x) (ninexact x) H HP) as (_ & _ & C). now apply value_zero. }
    rewrite V. tauto.
  - pose proof (cbrt_nonzero x p rm c W Nx Hc Hp HP) as C. rewrite E in C. apply cr_op_value in C. apply C.
Qed.

(** With mantissas of at most 2^31 bits the roots never leave the normal range. *)
Lemma norm_exp_min x : wf x -> nonzero x -> EMIN - 64 * wlen x + 1 <= norm_exp x.
Proof. intros W N. destruct (nonzero_bits x W N) as (_ & B & _). pose proof (wf_exp x W). unfold norm_exp. lia. Qed.

Lemma rnd_between p rm r a b : 0 < p -> (bpow radix2 a <= Rabs r <= bpow radix2 b)%R -> (bpow radix2 a <= Rabs (rnd_prec p rm r) <= bpow radix2 b)%R.
Proof.
  intros Hp [H1 H2]. 
  assert (O : forall e, rnd_prec p rm (- bpow radix2 e) = (- bpow radix2 e)%R).
  { intros e. unfold rnd_prec. apply round_generic; [apply rnd_valid|]. apply generic_format_opp, generic_format_bpow. unfold FLX_exp. lia. }
  destruct (Rle_lt_dec 0 r) as [P|P].
  - rewrite Rabs_pos_eq in H1, H2 by auto.
    pose proof (rnd_prec_le p rm _ _ Hp H1) as A. pose proof (rnd_prec_le p rm _ _ Hp H2) as B. rewrite rnd_prec_bpow in A, B by auto.
    pose proof (bpow_gt_0 radix2 a). rewrite Rabs_pos_eq; lra.
  - rewrite Rabs_left in H1, H2 by auto.
    assert (H1' : (r <= - bpow radix2 a)%R) by lra. assert (H2' : (- bpow radix2 b <= r)%R) by lra.
    pose proof (rnd_prec_le p rm _ _ Hp H1') as A. pose proof (rnd_prec_le p rm _ _ Hp H2') as B. rewrite O in A, B.
    pose proof (bpow_gt_0 radix2 a). rewrite Rabs_left; lra.
Qed.

Lemma small_root_range p rm r : 0 < p -> (bpow radix2 (EMIN - 1) <= Rabs r <= bpow radix2 (2 ^ 30))%R ->
  (bpow radix2 (EMIN - 1) <= Rabs (rnd_prec p rm r) < bpow radix2 EMAX)%R.
Proof.
  intros Hp H. destruct (rnd_between p rm r _ _ Hp H) as [A B]. split; auto. eapply Rle_lt_trans; [exact B|]. apply bpow_lt. reflexivity.
Qed.

Theorem sqrt_total x p rm : wf x -> nonzero x -> (0 <= value x)%R -> 64 * wlen x <= 2 ^ 31 -> 0 < p -> prec_up p < P_LIM ->
  exists q, n_sqrt x p rm = Ok q /\ wf q /\ 64 * wlen q = prec_up p /\ value q = rnd_prec (prec_up p) rm (sqrt (value x)) /\ normal q.
Proof.
  intros W N H0 Hl Hp HP. apply (proj1 (sqrt_top x p rm W Hp HP)); auto. apply small_root_range; [now apply prec_up_pos|].
  destruct (norm_bounds x W N) as [B1 B2]. rewrite Rabs_pos_eq in B1, B2 by auto. pose proof (norm_exp_min x W N) as M. pose proof (norm_exp_max x W) as M2.
  rewrite Rabs_pos_eq by apply sqrt_pos.
  assert (G : forall j, sqrt (bpow radix2 (2 * j)) = bpow radix2 j). { intros j. replace (2 * j) with (j + j) by lia. rewrite bpow_plus. apply sqrt_square, bpow_ge_0. }
  assert (E1 : EMIN = - 2147483648) by reflexivity. assert (E2 : EMAX = 2147483647) by reflexivity. assert (E3 : 2 ^ 31 = 2147483648) by reflexivity.
  assert (E4 : 2 ^ 30 = 1073741824) by reflexivity.
  rewrite <- (G (EMIN - 1)), <- (G (2 ^ 30)). split.
  - apply sqrt_le_1; [apply bpow_ge_0|exact H0|]. eapply Rle_trans; [|exact B1]. apply bpow_le. lia.
  - apply sqrt_le_1; [exact H0|apply bpow_ge_0|]. left. eapply Rlt_le_trans; [exact B2|]. apply bpow_le. lia.
Qed.

Theorem cbrt_total x p rm c : wf x -> nonzero x -> (c * c * c = value x)%R -> 64 * wlen x <= 2 ^ 31 -> 0 < p -> prec_up p < P_LIM ->
  exists q, n_cbrt x p rm = Ok q /\ wf q /\ 64 * wlen q = prec_up p /\ value q = rnd_prec (prec_up p) rm c /\ normal q.
Proof.
  intros W N Hc Hl Hp HP. apply (proj1 (cbrt_top x p rm c W Hp HP Hc)). apply small_root_range; [now apply prec_up_pos|].
  destruct (norm_bounds x W N) as [B1 B2]. pose proof (norm_exp_min x W N) as M. pose proof (norm_exp_max x W) as M2.
  assert (Ea : (Rabs c * Rabs c * Rabs c = Rabs (value x))%R) by (rewrite <- Hc, !Rabs_mult; reflexivity).
  assert (G : forall j, (bpow radix2 j * bpow radix2 j * bpow radix2 j = bpow radix2 (3 * j))%R). { intros j. rewrite <- !bpow_plus. f_equal. lia. }
  assert (E1 : EMIN = - 2147483648) by reflexivity. assert (E2 : EMAX = 2147483647) by reflexivity. assert (E3 : 2 ^ 31 = 2147483648) by reflexivity.
  assert (E4 : 2 ^ 30 = 1073741824) by reflexivity. pose proof (Rabs_pos c) as C0. split.
  - destruct (Rle_lt_dec (bpow radix2 (EMIN - 1)) (Rabs c)) as [|L]; auto. exfalso.
    pose proof (cube_le_R _ _ (conj C0 (Rlt_le _ _ L))) as K. rewrite G, Ea in K. 
    assert (bpow radix2 (3 * (EMIN - 1)) < bpow radix2 (norm_exp x - 1))%R by (apply bpow_lt; lia). lra.
  - left. apply cube_lt_R; [apply bpow_ge_0|]. rewrite G, Ea. eapply Rlt_le_trans; [exact B2|]. apply bpow_le. lia.
Qed.
