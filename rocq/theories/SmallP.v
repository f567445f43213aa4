(** The shortcut for arguments with a small exponent: adding a correction below the
    last place and rounding gives the rounding of every number that close. *)

From Coq Require Import ZArith List Bool Lia Reals Lra.
From Flocq Require Import Core.
From Verif Require Import Words IntModel Mantissa Num Elem SpecZ WordsP WordsP2 Spec RoundP RealP RealP2 NumP CmpP AddP SetP AddNum ArithTop IntNum ConvNum Conv2Num RoundableNum PowNum PowTop ConstNum.
Import ListNotations.
Open Scope Z_scope.
Ltac Zify.zify_post_hook ::= idtac.
Arguments Z.mul : simpl never.
Arguments Z.add : simpl never.
Arguments Z.pow : simpl never.
Arguments Z.sub : simpl never.
Arguments Z.of_nat : simpl never.
Ltac dlia := Z.div_mod_to_equations; lia.

(** ** Two numbers in the same cell *)
Definition in_cell (c k : Z) (a : R) : Prop := (IZR k * bpow radix2 c < a < IZR (k + 1) * bpow radix2 c)%R.

Lemma half_cell c k f a : c + 1 <= f -> in_cell c k a ->
  let k' := k / 2 ^ (f - 1 - c) in (IZR k' < a * bpow radix2 (- f) * 2 < IZR (k' + 1))%R.
Proof.
  intros Hf [A B]. cbv zeta. set (j := f - 1 - c). assert (J : 0 <= j) by (unfold j; lia). pose proof (pow2_gt0 j J) as PJ.
  pose proof (Z.div_mod k (2 ^ j) ltac:(lia)) as D. pose proof (Z.mod_pos_bound k (2 ^ j) PJ) as M. set (q := k / 2 ^ j) in *.
  assert (E : (a * bpow radix2 (- f) * 2 = a * bpow radix2 (- c) * bpow radix2 (- j))%R).
  { change 2%R with (bpow radix2 1). rewrite !Rmult_assoc, <- !bpow_plus. do 2 f_equal. unfold j. lia. }
  rewrite E. pose proof (bpow_gt_0 radix2 (- c)) as G1. pose proof (bpow_gt_0 radix2 (- j)) as G2.
  assert (S1 : (IZR k < a * bpow radix2 (- c) < IZR (k + 1))%R).
  { assert (U : (bpow radix2 c * bpow radix2 (- c) = 1)%R) by (rewrite <- bpow_plus; replace (c + - c) with 0 by lia; reflexivity).
    split.
    - replace (IZR k) with (IZR k * bpow radix2 c * bpow radix2 (- c))%R by (rewrite Rmult_assoc, U; ring). apply Rmult_lt_compat_r; auto.
    - replace (IZR (k + 1)) with (IZR (k + 1) * bpow radix2 c * bpow radix2 (- c))%R by (rewrite Rmult_assoc, U; ring). apply Rmult_lt_compat_r; auto. }
  assert (U : (IZR (2 ^ j) * bpow radix2 (- j) = 1)%R) by (rewrite <- bpow_IZR, <- bpow_plus by lia; replace (j + - j) with 0 by lia; reflexivity).
  split.
  - apply Rle_lt_trans with (IZR k * bpow radix2 (- j))%R; [|apply Rmult_lt_compat_r; [exact G2|apply S1]].
    replace (IZR q) with (IZR (2 ^ j * q) * bpow radix2 (- j))%R by (rewrite mult_IZR; replace (IZR (2 ^ j) * IZR q * bpow radix2 (- j))%R with (IZR (2 ^ j) * bpow radix2 (- j) * IZR q)%R by ring; rewrite U; ring).
    apply Rmult_le_compat_r; [lra|]. apply IZR_le. lia.
  - apply Rlt_le_trans with (IZR (k + 1) * bpow radix2 (- j))%R; [apply Rmult_lt_compat_r; [exact G2|apply S1]|].
    replace (IZR (q + 1)) with (IZR (2 ^ j * (q + 1)) * bpow radix2 (- j))%R by (rewrite mult_IZR; replace (IZR (2 ^ j) * IZR (q + 1) * bpow radix2 (- j))%R with (IZR (2 ^ j) * bpow radix2 (- j) * IZR (q + 1))%R by ring; rewrite U; ring).
    apply Rmult_le_compat_r; [lra|]. apply IZR_le. lia.
Qed.

Lemma cell_round fexp rm e c k a b : (bpow radix2 (e - 1) <= Rabs a < bpow radix2 e)%R -> (bpow radix2 (e - 1) <= Rabs b < bpow radix2 e)%R ->
  c + 1 <= fexp e -> in_cell c k a -> in_cell c k b ->
  round radix2 fexp (rnd rm) a = round radix2 fexp (rnd rm) b /\ round radix2 fexp (rnd rm) a <> a.
Proof.
  intros Ea Eb Hf Ca Cb. pose proof (half_cell c k (fexp e) a Hf Ca) as HA. pose proof (half_cell c k (fexp e) b Hf Cb) as HB. cbv zeta in HA, HB.
  set (k' := k / 2 ^ (fexp e - 1 - c)) in *. clearbody k'.
  rewrite (round_cell fexp rm e a (e - fexp e) Ea) by lia. rewrite (round_cell fexp rm e b (e - fexp e) Eb) by lia.
  replace (e - fexp e - e) with (- fexp e) by lia. replace (e - (e - fexp e)) with (fexp e) by lia. split.
  - do 2 f_equal. destruct (nearest rm) eqn:N; [now apply (near_rnd_same rm k')|].
    assert (D : k' = 2 * (k' / 2) + k' mod 2) by (apply Z.div_mod; lia). pose proof (Z.mod_pos_bound k' 2 ltac:(lia)) as M.
    apply (dir_rnd_same rm (k' / 2)); auto.
    + rewrite plus_IZR in *. rewrite D, plus_IZR, mult_IZR in HA. assert (0 <= IZR (k' mod 2) <= 1)%R by (split; apply IZR_le; lia). lra.
    + rewrite plus_IZR in *. rewrite D, plus_IZR, mult_IZR in HB. assert (0 <= IZR (k' mod 2) <= 1)%R by (split; apply IZR_le; lia). lra.
  - intros E. set (n := rnd rm (a * bpow radix2 (- fexp e))) in *. rewrite <- E in HA. unfold F2R in HA. cbn [Fnum Fexp] in HA.
    assert (U : (bpow radix2 (fexp e) * bpow radix2 (- fexp e) = 1)%R) by (rewrite <- bpow_plus; replace (fexp e + - fexp e) with 0 by lia; reflexivity).
    rewrite (Rmult_assoc (IZR n)), U, Rmult_1_r, <- mult_IZR in HA.
    destruct HA as [H1 H2]. apply lt_IZR in H1, H2. lia.
Qed.

(** A cell above zero lies in one binade. *)
Lemma cell_binade c k a b e : 0 < k -> in_cell c k a -> in_cell c k b -> (bpow radix2 (e - 1) <= a < bpow radix2 e)%R -> (bpow radix2 (e - 1) <= b < bpow radix2 e)%R.
Proof.
  intros K Ca Cb [E1 E2]. destruct Ca as [A1 A2], Cb as [B1 B2]. pose proof (bpow_gt_0 radix2 c) as G.
  assert (K1 : (1 <= IZR k)%R) by (apply IZR_le; lia).
  assert (EC : c < e). { apply (lt_bpow radix2). apply Rlt_trans with a; [|exact E2]. nra. }
  assert (X : forall j, c <= j -> bpow radix2 j = (IZR (2 ^ (j - c)) * bpow radix2 c)%R).
  { intros j Hj. rewrite <- bpow_IZR, <- bpow_plus by lia. f_equal. lia. }
  split.
  - rewrite (X (e - 1)) in E1 |- * by lia. assert (IZR (2 ^ (e - 1 - c)) < IZR (k + 1))%R.
    { apply Rmult_lt_reg_r with (bpow radix2 c); [exact G|]. exact (Rle_lt_trans _ _ _ E1 A2). }
    apply lt_IZR in H. apply Rlt_le. eapply Rle_lt_trans; [|exact B1]. apply Rmult_le_compat_r; [lra|]. apply IZR_le. lia.
  - rewrite (X e) in E2 |- * by lia. assert (IZR k < IZR (2 ^ (e - c)))%R.
    { apply Rmult_lt_reg_r with (bpow radix2 c); [exact G|]. exact (Rlt_trans _ _ _ A1 E2). }
    apply lt_IZR in H. eapply Rlt_le_trans; [exact B2|]. apply Rmult_le_compat_r; [lra|]. apply IZR_le. lia.
Qed.

Lemma in_cell_opp c k a : in_cell c k a -> in_cell c (- (k + 1)) (- a).
Proof. intros [A B]. unfold in_cell. replace (- (k + 1) + 1) with (- k) by lia. rewrite !opp_IZR, <- !Ropp_mult_distr_l. lra. Qed.

(** Both signs. *)
Lemma cell_same fexp rm c k a b : k <> 0 -> k <> -1 -> in_cell c k a -> in_cell c k b ->
  (forall e, (bpow radix2 (e - 1) <= Rabs a < bpow radix2 e)%R -> c + 1 <= fexp e) ->
  round radix2 fexp (rnd rm) a = round radix2 fexp (rnd rm) b /\ round radix2 fexp (rnd rm) a <> a.
Proof.
  intros K0 K1 Ca Cb Hf. pose proof (bpow_gt_0 radix2 c) as G.
  assert (NZ : a <> 0%R). { destruct Ca as [A B]. intros ->. destruct (Z.lt_ge_cases k 0).
    - assert (IZR (k + 1) <= 0)%R by (apply IZR_le; lia). nra.
    - assert (0 <= IZR k)%R by (apply IZR_le; lia). nra. }
  destruct (mag radix2 a) as [e He]. cbn in He. specialize (He NZ). apply (cell_round fexp rm e c k a b He); auto.
  destruct (Z.lt_ge_cases k 0) as [N|P].
  - apply in_cell_opp in Ca, Cb. assert (PA : (0 < - a)%R) by (destruct Ca as [A _]; assert (0 < IZR (- (k + 1)))%R by (apply IZR_lt; lia); nra).
    assert (PB : (0 < - b)%R) by (destruct Cb as [A _]; assert (0 < IZR (- (k + 1)))%R by (apply IZR_lt; lia); nra).
    rewrite <- Rabs_Ropp, Rabs_pos_eq in He |- * by lra. apply (cell_binade c (- (k + 1)) (- a)); auto. lia.
  - assert (PA : (0 < a)%R) by (destruct Ca as [A _]; assert (0 < IZR k)%R by (apply IZR_lt; lia); nra).
    assert (PB : (0 < b)%R) by (destruct Cb as [A _]; assert (0 < IZR k)%R by (apply IZR_lt; lia); nra).
    rewrite Rabs_pos_eq in He |- * by lra. apply (cell_binade c k a); auto. lia.
Qed.

(** [up] tells on which side of [x] both numbers lie. *)
Definition beside (up : bool) (x d a : R) : Prop := (0 < (if up then a - x else x - a) < d)%R.

Lemma beside_round p rm w e m up a b : 0 < p <= w -> m <> 0 -> let x := (IZR m * bpow radix2 (e - w))%R in
  (bpow radix2 (e - 1) <= Rabs x)%R \/ e = EMIN ->
  beside up x (bpow radix2 (e - w - 2)) a -> beside up x (bpow radix2 (e - w - 2)) b ->
  rnd_grad p rm a = rnd_grad p rm b /\ rnd_grad p rm a <> a.
Proof.
  intros Hp Hm x Hx Ha Hb. set (c := e - w - 2) in *. pose proof (bpow_gt_0 radix2 c) as G.
  assert (Ex : x = (IZR (4 * m) * bpow radix2 c)%R).
  { unfold x. replace (e - w) with (c + 2) by (unfold c; lia). rewrite bpow_plus, mult_IZR. change (bpow radix2 2) with 4%R. ring. }
  set (k := if up then 4 * m else 4 * m - 1).
  assert (C : forall t, beside up x (bpow radix2 c) t -> in_cell c k t).
  { intros t Ht. unfold beside in Ht. unfold in_cell, k. rewrite Ex in Ht. destruct up.
    - rewrite plus_IZR. lra.
    - replace (4 * m - 1 + 1) with (4 * m) by lia. rewrite minus_IZR. lra. }
  unfold rnd_grad. apply (cell_same _ rm c k); auto; [unfold k; destruct up; lia|unfold k; destruct up; lia|].
  intros e' [E1 E2]. unfold FLT_exp. destruct Hx as [Hx| ->]; [|unfold c; lia].
  assert (A : (bpow radix2 (e - 2) < Rabs a)%R).
  { assert (D : (Rabs (a - x) < bpow radix2 c)%R) by (unfold beside in Ha; destruct up; apply Rabs_def1; lra).
    pose proof (Rabs_triang_inv x (x - a)) as T. replace (x - (x - a))%R with a in T by ring. rewrite (Rabs_minus_sym x a) in T.
    assert (bpow radix2 c <= bpow radix2 (e - 3))%R by (apply bpow_le; unfold c; lia).
    replace (e - 1) with (e - 3 + 2) in Hx by lia. replace (e - 2) with (e - 3 + 1) by lia. rewrite bpow_plus in Hx |- *. change (bpow radix2 2) with 4%R in Hx. change (bpow radix2 1) with 2%R.
    pose proof (bpow_gt_0 radix2 (e - 3)). lra. }
  assert (e - 2 < e') by (apply (lt_bpow radix2); eapply Rlt_trans; eassumption). unfold c. lia.
Qed.

(** ** The model *)
Lemma normal_or x : wf x -> nonzero x -> normal x \/ (~ normal x /\ ne x = EMIN).
Proof.
  intros Wz Nz. destruct (nonzero_bits x Wz Nz) as (M0 & N0 & L0). destruct (Z.eq_dec (mn (nm x)) (64 * wlen x)) as [H|H]; [left; split; auto|].
  right. split; [intros [H' _]; auto|]. apply (wf_sub x Wz). lia.
Qed.

Lemma same_exp x y : wf x -> wf y -> nonzero x -> value x = value y -> ne x = ne y.
Proof.
  intros Wx Wy Nx E. assert (Ny : nonzero y). { intros Z. apply Nx. apply value_zero_iff. rewrite E. now apply value_zero. }
  destruct (normal_or x Wx Nx) as [H|[H H1]], (normal_or y Wy Ny) as [K|[K K1]].
  - symmetry. apply exp_of_range; auto. rewrite <- E. now apply normal_range.
  - exfalso. apply K. apply normal_iff; auto. rewrite <- E. apply normal_iff; auto.
  - exfalso. apply H. apply normal_iff; auto. rewrite E. apply normal_iff; auto.
  - congruence.
Qed.


Lemma min_positive_exp L q : 1 < L -> wf q -> value q = bpow radix2 (EMIN - L) -> ne q = EMIN /\ nonzero q.
Proof.
  intros HL W V. assert (N : nonzero q). { intros Z. apply value_zero_iff in Z. rewrite Z in V. pose proof (bpow_gt_0 radix2 (EMIN - L)). lra. }
  split; [|exact N]. destruct (normal_or q W N) as [H|[_ H]]; [|exact H]. exfalso. apply normal_iff in H; [|exact W]. rewrite V, Rabs_pos_eq in H by apply bpow_ge_0.
  apply le_bpow in H. lia.
Qed.

Lemma min_positive_ix p q : min_positive p = Ok q -> ninexact q = false.
Proof. unfold min_positive. destruct (p_assertion p), (m_min p); cbn [bind]; intros H; inversion H; reflexivity. Qed.

(** The correction is one unit in a word below the last one, and the sum is exact. *)
Lemma add_correction_spec x inv : wf x -> nonzero x -> 64 * wlen x + 64 < P_LIM -> exists q,
  add_correction x inv = Ok q /\ wf q /\ wlen q = wlen x + 1 /\ ns q = ns x /\ ninexact q = ninexact x /\
  value q = (value x + (if inv then - sgnR (ns x) else sgnR (ns x)) * bpow radix2 (ne x - 64 * wlen x - 64))%R.
Proof.
  intros W N HP. destruct (nonzero_bits x W N) as (M0 & _ & L0). pose proof (wf_exp x W) as He.
  set (L := 64 * wlen x + 64). assert (PU : prec_up (64 * wlen x + 1) = L) by (unfold prec_up, L; dlia).
  unfold add_correction, mantissa_max_bit_len, max_bit_len, mlen. fold (wlen x). 
  destruct (min_positive_spec (64 * wlen x + 1) ltac:(lia) ltac:(lia)) as (c0 & Em & W0 & L1 & S0 & V0 & _). rewrite Em. cbn [bind]. rewrite PU in *. pose proof (min_positive_ix _ _ Em) as I0.
  destruct (min_positive_exp L c0 ltac:(unfold L; lia) W0 V0) as [E0 N0].
  destruct (set_exponent_spec c0 (ne x) W0 He) as (W1 & L2 & S1 & I1 & V1). set (c1 := set_exponent c0 (ne x)) in *.
  set (s := if inv then sign_invert (ns x) else ns x). pose proof (wf_set_sign c1 s W1) as W2.
  set (t := bpow radix2 (ne x - L)).
  assert (V2 : value (set_sign c1 s) = (sgnR s * t)%R).
  { rewrite value_set_sign, V1, V0, E0, S1, S0. cbn [sgnZ]. rewrite <- bpow_plus. replace (EMIN - L + (ne x - EMIN)) with (ne x - L) by lia. unfold sgnR, t. ring. }
  pose proof (bpow_gt_0 radix2 (ne x - L)) as G. fold t in G.
  assert (N2 : nonzero (set_sign c1 s)). { intros Z. apply value_zero_iff in Z. rewrite V2 in Z. destruct (sgnR_cases s) as [E|E]; rewrite E in Z; lra. }
  assert (Es : sgnR s = (if inv then - sgnR (ns x) else sgnR (ns x))%R) by (unfold s, sgnR; destruct inv, (ns x); cbn; ring).
  unfold n_add. destruct (add_sub_nonzero x (set_sign c1 s) (64 * wlen x + 1) 1 RNone W W2 N N2 (or_introl eq_refl) ltac:(lia) ltac:(lia)) as [A _].
  cbv zeta in A. rewrite PU in A. set (r := (value x + IZR 1 * value (set_sign c1 s))%R) in *.
  assert (Er : r = (IZR (sgnZ (ns x) * magnitude x * 2 ^ 64 + sgnZ s) * bpow radix2 (ne x - L))%R).
  { unfold r. rewrite V2. unfold value, F2R. cbn [Fnum Fexp]. rewrite plus_IZR, !mult_IZR. replace (ne x - 64 * wlen x) with (ne x - L + 64) by (unfold L; lia).
    rewrite bpow_plus. change (bpow radix2 64) with (IZR (2 ^ 64)). unfold t, sgnR. ring. }
  pose proof (val_bound _ (wf_words x W)) as B. fold (magnitude x) (wlen x) in B.
  set (K := sgnZ (ns x) * magnitude x * 2 ^ 64 + sgnZ s) in *.
  assert (HK : 0 < sgnZ (ns x) * K /\ Z.abs K < 2 ^ L).
  { replace (2 ^ L) with (2 ^ (64 * wlen x) * 2 ^ 64) by (rewrite <- Z.pow_add_r by lia; reflexivity). unfold K. clear -M0 B. generalize dependent (2 ^ (64 * wlen x)). intros X HX.
    assert (Z.abs (sgnZ s) = 1) by (destruct s; reflexivity). change (2 ^ 64) with 18446744073709551616. destruct (ns x); cbn [sgnZ]; lia. }
  assert (FG : rnd_grad L RNone r = r).
  { unfold rnd_grad. apply round_generic; [apply rnd_valid|]. rewrite Er. change (IZR K * bpow radix2 (ne x - L))%R with (F2R (Float radix2 K (ne x - L))).
    apply generic_format_FLT. exists (Float radix2 K (ne x - L)); [reflexivity|cbn [Fnum]; exact (proj2 HK)|cbn [Fexp]; lia]. }
  assert (FX : rnd_prec L RNone r = r).
  { unfold rnd_prec. apply round_generic; [apply rnd_valid|]. rewrite Er. change (IZR K * bpow radix2 (ne x - L))%R with (F2R (Float radix2 K (ne x - L))).
    apply generic_format_FLX. exists (Float radix2 K (ne x - L)); [reflexivity|cbn [Fnum]; exact (proj2 HK)]. }
  assert (Bd : (Rabs r < bpow radix2 (ne x))%R).
  { rewrite Er, Rabs_mult, <- abs_IZR, (Rabs_pos_eq (bpow _ _)) by apply bpow_ge_0. replace (ne x) with (L + (ne x - L)) at 2 by lia. rewrite bpow_plus.
    apply Rmult_lt_compat_r; [exact G|]. rewrite bpow_IZR by (unfold L; lia). apply IZR_lt. exact (proj2 HK). }
  assert (Rnz : r <> 0%R). { rewrite Er. intros Z. apply Rmult_integral in Z as [Z|Z]; [|unfold t in G; lra]. apply eq_IZR in Z. lia. }
  destruct (A Rnz) as (s1 & Hs & CR). unfold correctly_rounded in CR. rewrite FX, FG in CR. destruct CR as [_ CR].
  destruct CR as (q & -> & Wq & Lq & Sq & _ & Vq & _ & _ & Iq).
  { eapply Rlt_le_trans; [exact Bd|]. apply bpow_le. lia. }
  specialize (Vq eq_refl). exists q. split; [reflexivity|]. split; [exact Wq|]. split; [unfold L in Lq; lia|]. split.
  { rewrite Sq. unfold has_sign in Hs. rewrite Er, <- Rmult_assoc, <- mult_IZR in Hs. assert (0 < IZR (sgnZ s1 * K))%R by (apply Rmult_lt_reg_r with (bpow radix2 (ne x - L)); [exact G|lra]).
    apply lt_IZR in H. destruct s1, (ns x); cbn [sgnZ] in *; auto; lia. }
  split.
  { change (ninexact (set_sign c1 s)) with (ninexact c1) in Iq. rewrite I1, I0, orb_false_r in Iq. destruct (ninexact x); [apply Iq; auto|].
    destruct (ninexact q); [|reflexivity]. destruct (proj1 Iq eq_refl) as [Q|Q]; [auto|contradiction]. }
  rewrite Vq. unfold r. rewrite V2, Es. unfold t. replace (ne x - L) with (ne x - 64 * wlen x - 64) by (unfold L; lia). ring.
Qed.

Definition max64 (p : Z) (x : num) : Z := Z.max p (64 * wlen x).

Theorem small_value_spec x inv p rm w m r : wf x -> nonzero x -> 0 < p -> p mod 64 = 0 -> max64 p x + 64 < P_LIM -> ne x + 1 < EMAX -> (rm <> RNone \/ EMIN < ne x) ->
  p <= w <= max64 p x -> value x = (IZR m * bpow radix2 (ne x - w))%R ->
  beside (xorb inv (is_pos (ns x))) (value x) (bpow radix2 (ne x - w - 2)) r ->
  exists q, small_value x inv p rm = Ok q /\ wf q /\ 64 * wlen q = p /\ ns q = ns x /\ value q = rnd_grad p rm r /\ ninexact q = true.
Proof.
  intros W N Hp Pm HP HE Hrm Hw Hm Hr. unfold small_value, mantissa_max_bit_len, max_bit_len, mlen. fold (wlen x).
  assert (Y : exists y, (if 64 * wlen x <? p then set_precision x p RNone else Ok x) = Ok y /\ wf y /\ 64 * wlen y = max64 p x /\ ns y = ns x /\ value y = value x).
  { destruct (Z.ltb_spec (64 * wlen x) p) as [H|H].
    - unfold max64 in *. assert (PU : prec_up p = p) by (unfold prec_up; dlia). destruct (set_precision_spec x p RNone W Hp ltac:(lia)) as [_ S]. { right. right. lia. }
      rewrite rnd_grad_long in S by (auto; lia). destruct S as (y & E & Wy & Ly & Sy & Vy & _). { eapply Rlt_trans; [apply value_lt_bpow; auto|]. apply bpow_lt. lia. }
      exists y. split; [exact E|]. split; [exact Wy|]. split; [rewrite Ly; clear -Pm H; dlia|]. auto.
    - exists x. unfold max64. split; [reflexivity|]. split; [auto|]. split; [lia|]. auto. }
  destruct Y as (y & -> & Wy & Ly & Sy & Vy). cbn [bind].
  assert (Ny : nonzero y). { intros Z. apply N. apply value_zero_iff. rewrite <- Vy. now apply value_zero. }
  pose proof (same_exp x y W Wy N (eq_sym Vy)) as Ey.
  destruct (add_correction_spec y inv Wy Ny ltac:(lia)) as (z & -> & Wz & Lz & Sz & Iz & Vz). cbn [bind]. rewrite Sy, Vy, <- Ey in *.
  assert (Bz : beside (xorb inv (is_pos (ns x))) (value x) (bpow radix2 (ne x - w - 2)) (value z)).
  { rewrite Vz, Ly. assert (bpow radix2 (ne x - max64 p x - 64) < bpow radix2 (ne x - w - 2))%R by (apply bpow_lt; lia). pose proof (bpow_gt_0 radix2 (ne x - max64 p x - 64)).
    unfold beside, sgnR. destruct inv, (ns x); cbn [xorb is_pos sgnZ]; lra. }
  assert (NR : (bpow radix2 (ne x - 1) <= Rabs (value x))%R \/ ne x = EMIN). { destruct (normal_or x W N) as [H|[_ H]]; [left; now apply normal_range|now right]. }
  assert (Mz : (bpow radix2 (ne x - 1) <= Rabs (value x) -> bpow radix2 (ne x - 2) < Rabs (value z))%R /\ (Rabs (value z) < bpow radix2 (ne x + 1))%R).
  { assert (D : (Rabs (value z - value x) < bpow radix2 (ne x - w - 2))%R) by (unfold beside in Bz; destruct (xorb _ _); apply Rabs_def1; lra).
    pose proof (value_lt_bpow x W) as U. assert (D2 : (bpow radix2 (ne x - w - 2) <= bpow radix2 (ne x - 3))%R) by (apply bpow_le; lia).
    pose proof (Rabs_triang_inv (value x) (value x - value z)) as T. replace (value x - (value x - value z))%R with (value z) in T by ring. rewrite (Rabs_minus_sym (value x) (value z)) in T.
    pose proof (Rabs_triang (value x) (value z - value x)) as T2. replace (value x + (value z - value x))%R with (value z) in T2 by ring.
    replace (ne x) with (ne x - 3 + 3) in U by lia. replace (ne x + 1) with (ne x - 3 + 4) by lia. replace (ne x - 2) with (ne x - 3 + 1) by lia. replace (ne x - 1) with (ne x - 3 + 2) by lia.
    rewrite bpow_plus in U. rewrite (bpow_plus radix2 (ne x - 3) 1), (bpow_plus radix2 (ne x - 3) 2), (bpow_plus radix2 (ne x - 3) 4).
    change (bpow radix2 1) with 2%R. change (bpow radix2 2) with 4%R. change (bpow radix2 4) with 16%R. change (bpow radix2 3) with 8%R in U.
    pose proof (bpow_gt_0 radix2 (ne x - 3)). split; [intros|]; lra. }
  rewrite Hm in Hr, Bz. assert (M0 : m <> 0). { intros ->. apply N. apply value_zero_iff. rewrite Hm. ring. }
  destruct (beside_round p rm w (ne x) m (xorb inv (is_pos (ns x))) r (value z) ltac:(lia) M0) as [R1 _]; cbv zeta; [rewrite <- Hm; exact NR|exact Hr|exact Bz|].
  destruct (beside_round p rm w (ne x) m (xorb inv (is_pos (ns x))) (value z) r ltac:(lia) M0) as [_ R2]; cbv zeta; [rewrite <- Hm; exact NR|exact Bz|exact Hr|].
  assert (PU : prec_up p = p) by (unfold prec_up; dlia). unfold max64 in *.
  destruct (set_precision_spec z p rm Wz Hp ltac:(lia)) as [_ Sp].
  { destruct Hrm as [H|H]; [left; exact H|]. right. left. split; [exact Pm|]. apply normal_iff; [exact Wz|]. destruct NR as [NR|NR]; [|lia].
    eapply Rle_trans; [|apply Rlt_le; exact (proj1 Mz NR)]. apply bpow_le. lia. }
  rewrite <- R1 in Sp. destruct Sp as (q & -> & Wq & Lq & Sq & Vq & Iq).
  { rewrite R1. apply Rle_lt_trans with (bpow radix2 (ne x + 1)); [|apply bpow_lt; lia]. unfold rnd_grad.
    assert (PV : Prec_gt_0 p) by exact Hp. apply abs_round_le_generic; [apply FLT_exp_valid; exact PV|apply rnd_valid| |apply Rlt_le, Mz].
    apply generic_format_bpow. unfold FLT_exp. pose proof (wf_exp x W). lia. }
  exists q. split; [reflexivity|]. split; [exact Wq|]. split; [rewrite Lq; clear -Pm Hp; dlia|]. split; [congruence|]. split; [exact Vq|]. apply Iq. right. congruence.
Qed.
