(** The cosine for arguments below one in magnitude. *)

From Coq Require Import ZArith List Bool Lia Reals Lra.
From Flocq Require Import Core.
From Verif Require Import Words IntModel Mantissa Num Pow Consts Elem Series Exp Sin Ln Cos SpecZ SpecOps SpecConst SpecPow SpecElem WordsP Spec RealP RealP2 NumP CmpP AddP SetP AddNum MulNum DivNum ArithTop ConvNum Conv2Num RootP ConstP ConstNum ExtP PowExt Refute1 ElemR ElemDom SmallP ElemNum ApproxR ApproxNum SeriesNum SinhR SinhNum SinhTop ExpNum RetryNum ConstReach SpecReach ExpTop HypNum HypTop TanhNum AltNum SinTop.
Import ListNotations.
Open Scope Z_scope.
Ltac Zify.zify_post_hook ::= idtac.
Arguments Z.mul : simpl never.
Arguments Z.add : simpl never.
Arguments Z.pow : simpl never.
Arguments Z.sub : simpl never.
Arguments Z.of_nat : simpl never.
Ltac dlia := Z.div_mod_to_equations; lia.

(** ** Facts about the cosine *)
Definition cC (j : nat) : R := (/ INR (fact (2 * j + 2)))%R.
Lemma cC_range j : (0 < cC j <= 1)%R.
Proof. unfold cC. pose proof (INR_fact_pos (2 * j + 2)). split; [now apply Rinv_0_lt_compat|]. rewrite <- Rinv_1. apply Rinv_le; [lra|]. change 1%R with (INR 1). apply le_INR. pose proof (lt_O_fact (2 * j + 2)). lia. Qed.
Lemma cC_low4 j : (j <= JMAX)%nat -> (bpow radix2 (- (2 ^ 29 - 4)) <= cC j)%R.
Proof.
  intros H. assert (HJ : Z.of_nat j <= 2 ^ 23) by (rewrite <- JMAX_Z; lia). unfold cC. rewrite bpow_opp. apply Rinv_le; [apply INR_fact_pos|]. eapply Rle_trans; [apply (fact_pow 25)|]; [lia|lia|]. apply bpow_le. lia.
Qed.
Lemma cC_ratio j : (8 * cC (S j) <= cC j)%R.
Proof.
  unfold cC. replace (2 * S j + 2)%nat with (S (S (2 * j + 2))) by lia. pose proof (INR_fact_pos (2 * j + 2)) as F. assert (Hn : (2 <= 2 * j + 2)%nat) by lia. set (n := (2 * j + 2)%nat) in *. replace (fact (S (S n))) with (S (S n) * (S n * fact n))%nat by reflexivity. rewrite !mult_INR.
  assert (N1 : (3 <= INR (S n))%R) by (replace 3%R with (INR 3) by (cbn; lra); apply le_INR; lia). assert (N2 : (4 <= INR (S (S n)))%R) by (replace 4%R with (INR 4) by (cbn; lra); apply le_INR; lia). set (a := INR (S n)) in *. set (b := INR (S (S n))) in *. set (q := INR (fact n)) in *. clearbody a b q.
  apply Rmult_le_reg_r with (b * (a * q))%R; [apply Rmult_lt_0_compat; [lra|apply Rmult_lt_0_compat; lra]|]. replace (8 * / (b * (a * q)) * (b * (a * q)))%R with 8%R by (field; lra). replace (/ q * (b * (a * q)))%R with (b * a)%R by (field; lra). nra.
Qed.
Lemma cos_taylor b M : (0 <= b <= 2)%R -> (1 <= M)%nat -> (Rabs (cos b - (1 - b * b * psum cC (- (b * b)) 0 M)) <= b * b * (b * b) ^ M * cC M)%R.
Proof.
  intros Hb HM.
  assert (E : forall n, (1 - b * b * psum cC (- (b * b)) 0 n = cos_approx b n)%R).
  { intros n. unfold cos_approx. induction n as [|n IH]; [cbn [psum sum_f_R0]; unfold cos_term; cbn; lra|]. cbn [sum_f_R0]. rewrite <- IH. cbn [psum]. rewrite Nat.add_0_l. unfold cos_term, cC. replace (2 * S n)%nat with (2 * n + 2)%nat by lia.
    replace (b ^ (2 * n + 2))%R with (b * b * (b * b) ^ n)%R by (rewrite pow_add, pow_mult; replace (b ^ 2)%R with (b * b)%R by ring; ring). rewrite neg_pow. cbn [pow]. unfold Rdiv. ring. }
  assert (D : forall n, (Rabs (cos_approx b (S n) - cos_approx b n) = b * b * (b * b) ^ n * cC n)%R).
  { intros n. rewrite <- !E. cbn [psum]. rewrite Nat.add_0_l, neg_pow. replace (1 - b * b * (psum cC (- (b * b)) 0 n + cC n * ((-1) ^ n * (b * b) ^ n)) - (1 - b * b * psum cC (- (b * b)) 0 n))%R with (- ((-1) ^ n * (b * b * (b * b) ^ n * cC n)))%R by ring.
    rewrite Rabs_Ropp, Rabs_mult, pow_1_abs, Rmult_1_l. apply Rabs_pos_eq. pose proof (cC_range n). apply Rmult_le_pos; [|lra]. apply Rmult_le_pos; [apply Rmult_le_pos; lra|apply pow_le; apply Rmult_le_pos; lra]. }
  rewrite E, <- D. assert (B : (cos_approx b M <= cos b <= cos_approx b (S M) \/ cos_approx b (S M) <= cos b <= cos_approx b M)%R).
  { destruct (Nat.Even_or_Odd M) as [[n ->]|[n ->]].
    - right. destruct n as [|n]; [lia|]. pose proof (pre_cos_bound b n ltac:(lra) ltac:(lra)) as [_ U]. pose proof (pre_cos_bound b (S n) ltac:(lra) ltac:(lra)) as [L _]. replace (S (2 * S n)) with (2 * S n + 1)%nat by lia. replace (2 * S n)%nat with (2 * (n + 1))%nat at 2 by lia. split; assumption.
    - left. pose proof (pre_cos_bound b n ltac:(lra) ltac:(lra)) as [L U]. replace (S (2 * n + 1)) with (2 * (n + 1))%nat by lia. split; assumption. }
  unfold Rabs. destruct (Rcase_abs (cos b - cos_approx b M)), (Rcase_abs (cos_approx b (S M) - cos_approx b M)); lra.
Qed.
Lemma cos_half y : (0 <= y <= 1)%R -> (/ 2 <= cos y <= 1)%R.
Proof.
  intros H. split; [|apply COS_bound]. pose proof (pre_cos_bound y 0 ltac:(lra) ltac:(lra)) as [T _]. unfold cos_approx, cos_term in T. cbn in T. nra.
Qed.
Lemma sin_abs_le x : (Rabs (sin x) <= Rabs x)%R.
Proof.
  assert (P : forall y, (0 <= y)%R -> (Rabs (sin y) <= y)%R).
  { intros y Hy. destruct (Rle_lt_dec y 1) as [A|A].
    - destruct Hy as [Hy| <-]; [|rewrite sin_0, Rabs_R0; lra]. pose proof (sin_pos1 y ltac:(lra)). rewrite Rabs_pos_eq by lra. left. now apply sin_lt_x.
    - pose proof (SIN_bound y). apply Rabs_le. lra. }
  unfold Rabs at 2. destruct (Rcase_abs x) as [A|A]; [|apply P; lra]. rewrite <- Rabs_Ropp, <- sin_neg. apply P. lra.
Qed.
Lemma cos_sq_near b t : (Rabs (cos b - cos t) <= Rabs (b * b - t * t))%R.
Proof.
  rewrite form2. replace (-2 * sin ((b - t) / 2) * sin ((b + t) / 2))%R with (- (2 * (sin ((b - t) / 2) * sin ((b + t) / 2))))%R by ring. rewrite Rabs_Ropp, Rabs_mult, (Rabs_pos_eq 2), Rabs_mult by lra.
  pose proof (sin_abs_le ((b - t) / 2)) as A. pose proof (sin_abs_le ((b + t) / 2)) as B. apply Rle_trans with (2 * (Rabs ((b - t) / 2) * Rabs ((b + t) / 2)))%R; [apply Rmult_le_compat_l; [lra|]; apply Rmult_le_compat; auto using Rabs_pos|].
  rewrite <- Rabs_mult. replace ((b - t) / 2 * ((b + t) / 2))%R with ((b * b - t * t) * / 4)%R by field. rewrite Rabs_mult, (Rabs_pos_eq (/ 4)) by lra. pose proof (Rabs_pos (b * b - t * t)). lra.
Qed.

(** ** The generator *)
Section Gen.
Variable P : Z.
Hypothesis HP : 128 <= P <= 2 ^ 22.
Hypothesis HP64 : prec_up P = P.
Let HPP : 128 <= P <= prec_up P.
Proof. clear - HP HP64. lia. Qed.
Let HL : prec_up P < P_LIM.
Proof. rewrite HP64. eapply Z.le_lt_trans; [apply HP|]. vm_compute. reflexivity. Qed.
Lemma normal_one v : wf v -> value v = IZR 1 -> normal v.
Proof. intros W V. apply normal_iff; [exact W|]. rewrite V, Rabs_pos_eq by lra. change (IZR 1) with (bpow radix2 0). apply bpow_le. vm_compute. discriminate. Qed.
Definition inc_zero : num := mk_num (mk_m [0] 0) Pos 0 false.
Lemma inc_first : exists q, n_add inc_zero ONE 64 RNone = Ok q /\ counts 1 q.
Proof.
  destruct (from_word_spec 1 1 ltac:(lia) ltac:(lia) ltac:(vm_compute; reflexivity)) as (i & Ei & Wi & Li & Si & _ & Vi). exists i. split.
  - rewrite <- Ei. vm_compute. reflexivity.
  - unfold counts. split; [exact Wi|]. split; [now apply normal_one|]. split; [exact Si|]. split; [exact Li|exact Vi].
Qed.
Lemma half_first s k c g : sg_inc g = inc_zero /\ apx P Pos 0 1 (sg_one g) /\ 64 * wlen (sg_one g) = P /\ apx P s k c (sg_fct g) /\ 64 * wlen (sg_fct g) = P -> 0 <= k <= 2 ^ 50 -> mid c ->
  exists g', sinh_half g = Ok g' /\ counts 1 (sg_inc g') /\ apx P Pos 0 1 (sg_one g') /\ 64 * wlen (sg_one g') = P /\ apx P s (k + 2) c (sg_fct g') /\ 64 * wlen (sg_fct g') = P.
Proof.
  intros (Ei & H1 & L1 & Hf & Lf) Hk M. unfold sinh_half. rewrite Ei, !max_len, L1. change (64 * wlen inc_zero) with 64. destruct inc_first as (inc & -> & Hi). cbn [bind].
  assert (Hinc : apx P Pos 0 (IZR 1) inc) by (destruct Hi as (W & N & S & _ & V); now apply apx_exact).
  destruct (apx_div P P RNone HPP HL _ _ _ _ _ _ _ _ H1 Hinc ltac:(lia) ltac:(apply mid_inv_int; lia)) as (inv & -> & Hinv & Linv & _). cbn [bind sign_mul] in *.
  assert (E1 : (c * (1 / IZR 1) = c)%R) by field.
  destruct (apx_mul P P RNone HPP HL _ _ _ _ _ _ _ _ Hf Hinv ltac:(lia) ltac:(rewrite E1; exact M)) as (f & -> & Hfct & Lfct & _). cbn [bind] in *. replace (sign_mul s (sign_mul Pos Pos)) with s in Hfct by (destruct s; reflexivity). rewrite E1 in Hfct.
  eexists. split; [reflexivity|]. cbn [sg_inc sg_one sg_fct]. split; [exact Hi|]. split; [exact H1|]. split; [exact L1|]. split; [|lia]. eapply apx_weak; [|exact Hfct]. lia.
Qed.

(** Before coefficient [j]. *)
Definition cos_at (j : nat) (g : sin_gen) : Prop :=
  n_sign g = sgnZ (before j) /\ (if Nat.eqb j 0 then sg_inc (n_core g) = inc_zero else counts (2 * Z.of_nat j) (sg_inc (n_core g))) /\ apx P Pos 0 1 (sg_one (n_core g)) /\ 64 * wlen (sg_one (n_core g)) = P /\ apx P (before j) (4 * Z.of_nat j) (/ INR (fact (2 * j))) (sg_fct (n_core g)) /\ 64 * wlen (sg_fct (n_core g)) = P.
Lemma cos_next_ok j g : cos_at j g -> (j <= JMAX)%nat -> exists c g', cos_next g = Ok (c, g') /\ cos_at (S j) g' /\ apx P (sg j) (2 ^ 26) (cC j) c /\ 64 * wlen c <= P.
Proof.
  intros (Hs & H) Hj. assert (HJ : Z.of_nat j <= 2 ^ 23) by (rewrite <- JMAX_Z; lia). unfold cos_next.
  assert (HH : exists g1, sinh_half (n_core g) = Ok g1 /\ counts (2 * Z.of_nat j + 1) (sg_inc g1) /\ apx P Pos 0 1 (sg_one g1) /\ 64 * wlen (sg_one g1) = P /\ apx P (before j) (4 * Z.of_nat j + 2) (/ INR (fact (2 * j + 1))) (sg_fct g1) /\ 64 * wlen (sg_fct g1) = P).
  { destruct (Nat.eqb_spec j 0) as [->|J0].
    - destruct (half_first _ _ _ _ H ltac:(lia)) as (g1 & E1 & H1); [apply mid_fact; lia|]. exists g1. split; [exact E1|]. destruct H1 as (Q1 & Q2 & Q3 & Q4 & Q5). split; [exact Q1|]. split; [exact Q2|]. split; [exact Q3|]. split; [exact Q4|exact Q5].
    - assert (E1 : 2 * Z.of_nat j = Z.of_nat (2 * j)) by lia. destruct (half_ok_s P HP HP64 _ _ _ _ _ H ltac:(lia) ltac:(lia)) as (g1 & Eg & H1); [rewrite E1, fact_next; apply mid_fact; lia|]. exists g1. split; [exact Eg|]. rewrite E1, fact_next in H1. replace (S (2 * j)) with (2 * j + 1)%nat in H1 by lia. rewrite <- E1 in H1. exact H1. }
  destruct HH as (g1 & -> & H1). cbn [bind]. assert (E1 : 2 * Z.of_nat j + 1 = Z.of_nat (2 * j + 1)) by lia.
  destruct (half_ok_s P HP HP64 _ _ _ _ _ H1 ltac:(lia) ltac:(lia)) as (g2 & -> & H2).
  { rewrite E1, fact_next. apply mid_fact. lia. }
  cbn [bind]. rewrite E1, fact_next in H2. replace (S (2 * j + 1)) with (2 * j + 2)%nat in H2 by lia. destruct H2 as (H2 & H3 & H4 & H5 & H6). rewrite Hs.
  assert (B1 : before (S j) = sg j) by (unfold before, sg; rewrite Nat.even_succ, <- Nat.negb_even; destruct (Nat.even j); reflexivity).
  assert (B2 : (if 0 <? sgnZ (before j) * -1 then Pos else Neg) = sg j) by (unfold before, sg; destruct (Nat.even j); reflexivity). assert (B3 : sgnZ (before j) * -1 = sgnZ (sg j)) by (unfold before, sg; destruct (Nat.even j); reflexivity). rewrite B2, B3.
  eexists. eexists. split; [reflexivity|]. split; [|split].
  - unfold cos_at. cbn [n_sign n_core sg_inc sg_one sg_fct Nat.eqb]. rewrite B1. split; [reflexivity|]. replace (2 * S j)%nat with (2 * j + 2)%nat by lia. replace (2 * Z.of_nat (S j)) with (Z.of_nat (2 * j + 1) + 1) by lia. replace (4 * Z.of_nat (S j)) with (4 * Z.of_nat j + 2 + 2) by lia. split; [exact H2|]. split; [exact H3|]. split; [exact H4|]. split; [|exact H6]. eapply apx_sign; exact H5.
  - unfold cC. eapply apx_weak; [|eapply apx_sign; exact H5]. lia.
  - change (wlen (set_sign (sg_fct g2) (sg j))) with (wlen (sg_fct g2)). lia.
Qed.
Lemma cos_new_ok : exists g, cos_new P = Ok g /\ cos_at 0 g.
Proof.
  unfold cos_new. change (n_new 1) with (Ok inc_zero). cbn [bind].
  destruct (from_word_spec 1 P ltac:(lia) ltac:(lia) HL) as (o & -> & Wo & Lo & So & _ & Vo). cbn [bind].
  eexists. split; [reflexivity|]. unfold cos_at. cbn [n_sign n_core sg_inc sg_one sg_fct Nat.eqb]. assert (A1 : apx P Pos 0 1 o) by (apply apx_exact; auto using normal_one).
  split; [reflexivity|]. split; [reflexivity|]. split; [exact A1|]. split; [lia|]. split; [|lia]. eapply apx_same; [|exact A1]. cbn. lra.
Qed.
End Gen.

(** ** The number of reductions *)
Definition cos_unit (p : Z) : Z := calc_mul_cost p + calc_add_cost p.
Definition cos_cost (p m t : Z) : Z := series_cost (series_niter p (cos_red_effect t m) / 2) p (sinh_iter_cost p) + cos_red_cost t p.
Lemma cos_loop_opt f p m step r0 : 1 <= step -> forall times c1,
  match c1 with None => times = r0 | Some c => r0 + step <= times /\ c = cos_cost p m (times - step) /\ c <= cos_cost p m r0 end ->
  forall n niter e, optimize_loop cos_red_cost cos_red_effect f p (sinh_iter_cost p) m 2 step times c1 = Some (n, niter, e) ->
  r0 <= n /\ cos_cost p m n <= cos_cost p m r0 /\ e = n + step + m /\ niter = series_niter p e / 2.
Proof.
  intros Hs. induction f as [|f IH]; intros times c1 Hc1 n niter e E; [discriminate E|]. cbn [optimize_loop] in E. cbv zeta in E. fold (cos_cost p m times) in E.
  destruct (match c1 with None => true | Some c => cos_cost p m times <? c end) eqn:T.
  - apply IH in E; [exact E|]. replace (times + step - step) with times by ring. destruct c1 as [c|].
    + apply Z.ltb_lt in T. split; [lia|]. split; [reflexivity|lia].
    + subst times. split; [lia|]. split; [reflexivity|lia].
  - destruct c1 as [c|]; [|discriminate T]. destruct Hc1 as (Q1 & Q2 & Q3). injection E as <- <- <-. split; [lia|]. split; [lia|]. unfold cos_red_effect. split; [lia|reflexivity].
Qed.
Lemma cos_series_cost niter p : 0 <= niter < 2 ^ 32 -> 128 <= p -> 128 <= cos_unit p /\ 0 <= series_cost niter p (sinh_iter_cost p) <= 6 * niter * cos_unit p.
Proof.
  intros Hn Hp. pose proof (mul_cost_nonneg p ltac:(lia)) as M. pose proof (sqrt_int_le niter Hn) as S. unfold cos_unit, series_cost, sinh_iter_cost, calc_add_cost.
  set (m := calc_mul_cost p) in *. clearbody m. split; [lia|]. set (sq := sqrt_int niter) in *. clearbody sq.
  assert (A : 0 <= niter * (m + p + (m + p + 64) * 2) <= niter * (4 * (m + p))) by nia.
  destruct (RECT_ITER_THRESHOLD <=? niter); [|nia].
  assert (B : 0 <= sq * m <= niter * (m + p)) by nia.
  assert (Q : 0 <= 10 * (niter / 10) <= niter) by (clear - Hn; dlia). set (q := niter / 10) in *. clearbody q.
  assert (E : 0 <= q * (2 * m + p + (m + p + 64) * 2) <= q * (5 * (m + p))) by nia. assert (10 * (q * (5 * (m + p))) <= niter * (5 * (m + p))) by nia. lia.
Qed.
Lemma cos_niter p : 128 <= p < 2 ^ 63 -> exists D, 2 <= D /\ forall t m, series_niter p (cos_red_effect t m) = p / (D + t + m).
Proof.
  intros Hp. unfold series_niter, cos_red_effect. rewrite (log2_floor_spec p) by lia. assert (L7 : 7 <= Z.log2 p) by (apply Z.log2_le_pow2; lia). assert (L63 : Z.log2 p < 63) by (apply Z.log2_lt_pow2; lia).
  rewrite log2_floor_spec by lia. set (l := Z.log2 p) in *. assert (L2 : 2 ^ Z.log2 l <= l) by (apply Z.log2_spec; lia). assert (0 <= Z.log2 l) by apply Z.log2_nonneg.
  assert (HH : 2 * Z.log2 l <= 2 ^ Z.log2 l). { assert (2 <= Z.log2 l) by (apply Z.log2_le_pow2; lia). assert (Q : forall k, 0 <= k -> 2 * (2 + k) <= 2 ^ (2 + k)). { intros k K. pattern k. apply natlike_ind; [lia| |exact K]. intros x Hx IH. replace (2 + Z.succ x) with (Z.succ (2 + x)) by lia. rewrite Z.pow_succ_r by lia. lia. } specialize (Q (Z.log2 l - 2) ltac:(lia)). replace (2 + (Z.log2 l - 2)) with (Z.log2 l) in Q by ring. exact Q. }
  exists (l - Z.log2 l - 2). split; [lia|]. intros t m. f_equal. ring.
Qed.
(** The argument is never reduced so often, without additional precision, that restoring it
    would use up the guard bits. *)
Lemma cos_shallow p m n D it0 itn u : 128 <= p <= 2 ^ 15 -> 2 <= D -> 0 <= m -> 128 <= u -> it0 = p / (D + 0 + m) / 2 -> itn = p / (D + n + m) / 2 -> 56 <= n -> 3 * n + 110 <= m ->
  (it0 < 108 -> itn < 108 -> itn * (3 * u + 128) + n * u <= it0 * (3 * u + 128)) -> False.
Proof.
  intros Hp HD Hm Hu E0 En Hn Hnm HC.
  assert (A0 : 0 <= it0 /\ 2 * it0 * (D + m) <= p). { subst it0. replace (D + 0 + m) with (D + m) by ring. set (d := D + m) in *. assert (0 < d) by lia. assert (p / d * d <= p) by (rewrite Z.mul_comm; apply Z.mul_div_le; lia). assert (0 <= p / d) by (apply Z.div_pos; lia). set (q := p / d) in *. clearbody q d. assert (0 <= 2 * (q / 2) <= q) by dlia. nia. }
  assert (An : 0 <= itn /\ 2 * itn * (D + n + m) <= p /\ p < (2 * itn + 2) * (D + n + m)). { subst itn. set (d := D + n + m) in *. assert (0 < d) by lia. assert (p / d * d <= p) by (rewrite Z.mul_comm; apply Z.mul_div_le; lia). assert (p < d * Z.succ (p / d)) by (apply Z.mul_succ_div_gt; lia). assert (0 <= p / d) by (apply Z.div_pos; lia). set (q := p / d) in *. clearbody q d. assert (0 <= 2 * (q / 2) <= q /\ q < 2 * (q / 2) + 2) by dlia. set (h := q / 2) in *. clearbody h. nia. }
  clear E0 En. set (d := D + m) in *. assert (Hd : 3 * n + 112 <= d) by lia. replace (D + n + m) with (d + n) in An by (unfold d; ring). clearbody d. destruct A0 as [A0 A1]. destruct An as (B0 & B1 & B2). change (2 ^ 15) with 32768 in Hp.
  assert (I0 : it0 < 108) by nia. assert (In : itn <= 48) by (clear - B1 B0 Hd Hn Hp; nia). specialize (HC I0 ltac:(lia)).
  assert (Q : n <= 4 * (it0 - itn)). { assert (it0 - itn < 0 \/ 0 <= it0 - itn) as [X|X] by lia; [nia|]. set (z := it0 - itn) in *. assert (n * u <= z * (3 * u + 128)) by (unfold z; nia). assert (z * (3 * u + 128) <= z * (4 * u)) by nia. clear - H H0 Hu. nia. }
  assert (R : (it0 - itn) * d < itn * n + d + n) by nia. assert (n * d <= 4 * ((it0 - itn) * d)) by nia. assert (itn * n <= 48 * n) by (apply Z.mul_le_mono_nonneg_r; lia). clear - R H H0 Hd Hn. assert ((n - 4) * (3 * n + 112) <= (n - 4) * d) by (apply Z.mul_le_mono_nonneg_l; lia). assert (56 * (n - 4) <= n * (n - 4)) by (apply Z.mul_le_mono_nonneg_r; lia). lia.
Qed.
Lemma cos_optimize_spec f p m n niter e : 128 <= p <= 2 ^ 15 -> 0 <= m -> series_cost_optimize cos_red_cost cos_red_effect f p (sinh_iter_cost p) m 2 = Some (n, niter, e) ->
  exists step, 3 <= step <= 7 /\ 0 <= n /\ step <= m + n /\ 10 * n <= 6 * p + 110 /\ e = n + step + m /\ 0 <= niter /\ 2 * niter * (e + 2) <= p /\ 2 * n - Z.max 0 (n * 6 + 6 - e) <= 110.
Proof.
  intros Hp Hm E. unfold series_cost_optimize in E. rewrite log2_floor_spec in E by lia. assert (L7 : 7 <= Z.log2 p) by (apply Z.log2_le_pow2; lia). assert (L15 : Z.log2 p <= 15). { change 15 with (Z.log2 (2 ^ 15)). apply Z.log2_le_mono. lia. }
  set (step := Z.log2 p / 2) in *. assert (HS : 3 <= step <= 7) by (unfold step; clear - L7 L15; dlia). clearbody step.
  set (r0 := if m <? step then step - m else 0) in *. assert (R0 : 0 <= r0 <= 7 /\ step <= m + r0 /\ (step <= m -> r0 = 0)) by (unfold r0; destruct (Z.ltb_spec m step); lia). clearbody r0. destruct R0 as (R0 & R1 & R2).
  destruct (cos_niter p ltac:(lia)) as (D & HD & ND).
  assert (NI : forall t, 0 <= t -> 0 <= series_niter p (cos_red_effect t m) / 2 < 2 ^ 32 /\ 2 * (series_niter p (cos_red_effect t m) / 2) * (t + m + 2) <= p).
  { intros t Ht. rewrite ND. set (d := D + t + m) in *. assert (0 < t + m + 2 <= d) by lia. assert (p / d * d <= p) by (rewrite Z.mul_comm; apply Z.mul_div_le; lia). assert (0 <= p / d) by (apply Z.div_pos; lia). set (q := p / d) in *. clearbody q d. assert (0 <= 2 * (q / 2) <= q) by dlia. set (h := q / 2) in *. clearbody h. split; nia. }
  destruct (cos_loop_opt f p m step r0 ltac:(lia) r0 None eq_refl n niter e E) as (O1 & O2 & O3 & O4). clear E.
  pose proof (NI r0 ltac:(lia)) as [N0 N1]. pose proof (NI n ltac:(lia)) as [N2 N3]. pose proof (cos_series_cost _ p N0 ltac:(lia)) as [U0 [_ U1]]. pose proof (cos_series_cost _ p N2 ltac:(lia)) as [_ [U2 _]].
  assert (NB : n <= 6 * (series_niter p (cos_red_effect r0 m) / 2) + r0). { unfold cos_cost, cos_red_cost in O2. fold (cos_unit p) in O2. set (i0 := series_niter p (cos_red_effect r0 m) / 2) in *. apply Zmult_le_reg_r with (cos_unit p); lia. }
  exists step. split; [exact HS|]. split; [lia|]. split; [lia|]. split; [|split; [exact O3|split; [|split]]].
  - set (i0 := series_niter p (cos_red_effect r0 m) / 2) in *. clearbody i0. clear - NB N1 R1 R0 HS N0. nia.
  - rewrite O4, O3. replace (n + step + m) with (cos_red_effect (n + step) m) by reflexivity. destruct (NI (n + step) ltac:(lia)). lia.
  - rewrite O4, O3. destruct (NI (n + step) ltac:(lia)) as [_ Q]. exact Q.
  - destruct (Z_le_gt_dec (2 * n - Z.max 0 (n * 6 + 6 - e)) 110) as [G|G]; [exact G|exfalso]. assert (N56 : 56 <= n) by lia. assert (M3 : 3 * n + 110 <= m) by lia. specialize (R2 ltac:(lia)). subst r0.
    apply (cos_shallow p m n D (p / (D + 0 + m) / 2) (p / (D + n + m) / 2) (cos_unit p) Hp HD Hm U0 eq_refl eq_refl N56 M3). intros I0 In.
    assert (IC : calc_mul_cost p + calc_add_cost p + sinh_iter_cost p = 3 * cos_unit p + 128) by (unfold sinh_iter_cost, cos_unit; change (calc_add_cost 64) with 64; ring).
    unfold cos_cost, cos_red_cost, series_cost in O2. rewrite !ND, IC in O2. fold (cos_unit p) in O2. change RECT_ITER_THRESHOLD with 108 in O2. rewrite !(proj2 (Z.leb_gt _ _)) in O2 by assumption. lia.
Qed.

(** ** Restoration *)
Lemma double_sab E a v : sab E a v -> (/ 64 <= a <= 64)%R -> (E <= / 128)%R -> sab (2 * E) (2 * a) (set_exponent v (ne v + 1)) /\ ninexact (set_exponent v (ne v + 1)) = ninexact v.
Proof.
  intros (W & N & D) A HE. apply Rabs_le_inv in D. destruct (normal_range v W N) as [V1 V2]. pose proof (wf_exp v W) as [X1 X2]. assert (VA : Rabs (value v) = value v) by (apply Rabs_pos_eq; lra). rewrite VA in *.
  assert (E2 : ne v <= 20). { assert (ne v - 1 < 19); [|lia]. apply (lt_bpow radix2). eapply Rle_lt_trans; [exact V1|]. change (bpow radix2 19) with 524288%R. lra. }
  pose proof (set_exponent_spec v (ne v + 1) W ltac:(split; [lia|eapply Z.le_trans with 21; [lia|vm_compute; discriminate]])) as SE. cbv zeta in SE. destruct SE as (W1 & L1 & S1 & I1 & Q1). set (q := set_exponent v (ne v + 1)) in *. clearbody q.
  replace (ne v + 1 - ne v) with 1 in Q1 by ring. change (bpow radix2 1) with 2%R in Q1. split; [|exact I1]. split; [exact W1|]. split.
  - apply normal_iff; [exact W1|]. rewrite Q1, Rabs_pos_eq by lra. eapply Rle_trans with (/ 128)%R; [change (/ 128)%R with (bpow radix2 (-7)); apply bpow_le; vm_compute; discriminate|lra].
  - rewrite Q1. apply Rabs_le. lra.
Qed.
Lemma grow e E u : (0 < E)%R -> (0 <= e)%R -> (0 <= u <= / 32)%R -> (e + 3 * E <= u / (1 - u))%R -> (4 * e + 2 * (e * e) + 8 * E + 3 * E <= 4 * u / (1 - 4 * u))%R.
Proof.
  intros HE He Hu H. set (G := (e + 3 * E)%R) in *. assert (U1 : (u / (1 - u) <= / 31)%R). { apply Rmult_le_reg_r with (1 - u)%R; [lra|]. unfold Rdiv. rewrite Rmult_assoc, Rinv_l by lra. lra. }
  apply Rle_trans with (4 * G + 2 * (G * G))%R; [unfold G; nra|]. apply Rle_trans with (4 * (u / (1 - u)) + 2 * (u / (1 - u) * (u / (1 - u))))%R; [assert (0 <= G)%R by (unfold G; lra); nra|].
  assert (I1 : (0 < 1 - u)%R) by lra. assert (I2 : (0 < 1 - 4 * u)%R) by lra. apply Rmult_le_reg_r with ((1 - u) * (1 - u) * (1 - 4 * u))%R; [apply Rmult_lt_0_compat; [apply Rmult_lt_0_compat|]; lra|].
  replace ((4 * (u / (1 - u)) + 2 * (u / (1 - u) * (u / (1 - u)))) * ((1 - u) * (1 - u) * (1 - 4 * u)))%R with ((4 * u * (1 - u) + 2 * (u * u)) * (1 - 4 * u))%R by (field; lra). replace (4 * u / (1 - 4 * u) * ((1 - u) * (1 - u) * (1 - 4 * u)))%R with (4 * u * ((1 - u) * (1 - u)))%R by (field; lra).
  assert (0 <= u * u)%R by nra. assert (0 <= u * (u * u) <= / 32 * (u * u))%R by nra. nra.
Qed.
Section Restore.
Variable PO : Z.
Hypothesis HPO : 128 <= PO <= 2 ^ 22.
Hypothesis HP64 : prec_up PO = PO.
Let HPP : 128 <= PO <= prec_up PO.
Proof. clear - HPO HP64. lia. Qed.
Let HL : prec_up PO < P_LIM.
Proof. rewrite HP64. eapply Z.le_lt_trans; [apply HPO|]. vm_compute. reflexivity. Qed.
Lemma cos_restore_ok n : forall e u y v, sab e (cos y) v -> (0 <= u)%R -> (e + 3 * eps PO <= u / (1 - u))%R -> (4 ^ n * u <= / 8)%R -> (0 <= y)%R -> (2 ^ n * y <= 1)%R -> 64 * wlen v = PO -> ninexact v = true ->
  exists q, cos_restore_loop n PO v = Ok q /\ sab (2 * (4 ^ n * u)) (cos (2 ^ n * y)) q /\ 64 * wlen q = PO /\ ninexact q = true.
Proof.
  pose proof (eps_pos PO) as Ep. assert (Es : (eps PO <= / 1048576)%R) by (change (/ 1048576)%R with (bpow radix2 (-20)); apply bpow_le; lia).
  induction n as [|n IH]; intros e u y v Hv Hu Hg H4 Y1 Y2 Lv Iv.
  - exists v. cbn [cos_restore_loop pow] in *. rewrite !Rmult_1_l in *. split; [reflexivity|]. split; [|auto]. eapply sab_weak; [|exact Hv]. assert (u / (1 - u) <= 2 * u)%R; [|lra]. apply Rmult_le_reg_r with (1 - u)%R; [lra|]. unfold Rdiv. rewrite Rmult_assoc, Rinv_l by lra. nra.
  - cbn [cos_restore_loop pow] in *. assert (F1 : (1 <= 4 ^ n)%R) by (apply pow_R1_Rle; lra). assert (F2 : (1 <= 2 ^ n)%R) by (apply pow_R1_Rle; lra). assert (U32 : (u <= / 32)%R) by nra. assert (YY : (2 * y <= 1)%R) by nra.
    pose proof (cos_half y ltac:(lra)) as C1. pose proof (cos_half (2 * y) ltac:(lra)) as C2. assert (CD : (cos (2 * y) = 2 * (cos y * cos y) - 1)%R) by (rewrite cos_2a_cos; ring).
    assert (Ue : (u / (1 - u) <= / 31)%R). { apply Rmult_le_reg_r with (1 - u)%R; [lra|]. unfold Rdiv. rewrite Rmult_assoc, Rinv_l by lra. lra. }
    assert (e0 : (0 <= e)%R) by (destruct Hv as (_ & _ & D); pose proof (Rabs_pos (value v - cos y)); lra). assert (e1 : (e <= / 31)%R) by lra.
    pose proof Hv as (W & N & D). apply Rabs_le_inv in D. assert (VA : Rabs (value v) = value v) by (apply Rabs_pos_eq; lra). pose proof (apx_self PO v W N) as Av. rewrite VA in Av. set (c := cos y) in *. set (w := value v) in *.
    assert (Sv : ns v = Pos). { pose proof (value_has_sign v W (proj2 N)) as Q. unfold has_sign in Q. fold w in Q. destruct (ns v); cbn [sgnZ] in Q; [exfalso; lra|reflexivity]. } rewrite Sv in Av.
    assert (WW : (/ 8 <= w * w <= 2)%R) by nra. assert (DD : (Rabs (2 * (w * w) - 2 * (c * c)) <= 4 * e + 2 * (e * e))%R). { apply Rabs_le. replace (2 * (w * w) - 2 * (c * c))%R with (2 * ((w - c) * (w - c)) + 4 * c * (w - c))%R by ring. set (z := (w - c)%R) in *. assert (Z1 : (- e <= z <= e)%R) by exact D. clearbody z. assert (Q1 : (0 <= (e - z) * (e + z))%R) by (apply Rmult_le_pos; lra). assert (Q2 : (0 <= (1 - c) * e)%R) by (apply Rmult_le_pos; lra). assert (Q3 : (0 <= c * (e - z))%R) by (apply Rmult_le_pos; lra). assert (Q4 : (0 <= c * (e + z))%R) by (apply Rmult_le_pos; lra). pose proof (Rle_0_sqr z) as Q5. unfold Rsqr in Q5. lra. }
    assert (EE : (0 <= e * e <= / 31 * e)%R) by nra. apply Rabs_le_inv in DD.
    destruct (apx_mul PO PO RNone HPP HL _ _ _ _ _ _ _ _ Av Av ltac:(lia)) as (c2 & -> & A1 & _ & I1); [apply (mid_range (-3) 1); [vm_compute; discriminate|vm_compute; discriminate|exact WW]|]. cbn [bind sign_mul] in *.
    apply apx_sab in A1; [|lia|lia]. change (IZR (0 + 0 + 1)) with 1%R in A1. change (sr (sign_mul Pos Pos)) with 1%R in A1. rewrite Rmult_1_l in A1. specialize (I1 ltac:(rewrite Iv; reflexivity)).
    assert (EW : (0 < eps PO * (w * w) <= / 500000)%R) by nra. destruct (double_sab _ _ _ A1 ltac:(lra) ltac:(lra)) as [A2 I2]. set (d2 := set_exponent c2 (ne c2 + 1)) in *. clearbody d2.
    assert (O1 : sab 0 1 ONE) by (split; [exact ONE_wf|]; split; [exact ONE_normal|]; rewrite ONE_value, Rminus_diag_eq, Rabs_R0 by reflexivity; lra).
    assert (PA : Rabs (2 * (w * w) - 1) = (2 * (w * w) - 1)%R) by (apply Rabs_pos_eq; lra).
    destruct (sab_sub PO PO RNone HPP HL _ _ _ _ _ _ A2 O1) as (q & -> & A3 & L3 & I3).
    { rewrite PA. lra. } { rewrite PA. apply (mid_range (-3) 2); [vm_compute; discriminate|vm_compute; discriminate|]. change (bpow radix2 (-3)) with (/ 8)%R. change (bpow radix2 2) with 4%R. lra. }
    cbn [bind]. rewrite PA in A3. destruct (IH (4 * e + 2 * (e * e) + 8 * eps PO)%R (4 * u)%R (2 * y)%R q) as (r & -> & R1 & R2 & R3).
    + destruct A3 as (W3 & N3 & D3). split; [exact W3|]. split; [exact N3|]. apply Rabs_le_inv in D3. apply Rabs_le.
      assert (WE : (w <= 1 + e)%R) by lra. assert (W2 : (w * w <= 1 + 3 * e)%R) by nra. assert (eps PO * (w * w) <= eps PO * (1 + / 10))%R by (apply Rmult_le_compat_l; lra). lra.
    + lra. + apply grow; lra. + rewrite <- Rmult_assoc, (Rmult_comm _ 4). lra. + lra. + replace (2 ^ n * (2 * y))%R with (2 * 2 ^ n * y)%R by ring. lra. + rewrite L3. exact HP64.
    + apply I3. rewrite I2, I1. reflexivity.
    + exists r. split; [reflexivity|]. split; [|auto]. replace (2 * 2 ^ n * y)%R with (2 ^ n * (2 * y))%R by ring. replace (4 * 4 ^ n * u)%R with (4 ^ n * (4 * u))%R by ring. exact R1.
Qed.
End Restore.

(** ** The series *)
Lemma halved_ok x n : wf x -> normal x -> 0 <= n <= 2 ^ 20 -> - 2 ^ 22 <= ne x <= 2 ^ 20 ->
  exists q, (if 0 <? n then cos_arg_reduce x n else Ok x) = Ok q /\ wf q /\ normal q /\ ns q = ns x /\ wlen q = wlen x /\ value q = (value x * bpow radix2 (- n))%R.
Proof.
  intros W N Hn He. destruct (Z.ltb_spec 0 n) as [Z0|Z0].
  - unfold cos_arg_reduce. change EXPONENT_MIN with (-2147483648). rewrite (proj2 (Z.ltb_ge _ _)) by (clear - Hn He; lia).
    pose proof (set_exponent_spec x (ne x - n) W ltac:(change EMIN with (-2147483648); change EMAX with 2147483647; clear - Hn He; lia)) as SE. cbv zeta in SE. destruct SE as (W1 & L1 & S1 & _ & V1). eexists. split; [reflexivity|]. set (q := set_exponent x (ne x - n)) in *. clearbody q. replace (ne x - n - ne x) with (- n) in V1 by ring. split; [exact W1|]. split; [|auto].
    apply normal_iff; [exact W1|]. rewrite V1, Rabs_mult, (Rabs_pos_eq (bpow _ _)) by apply bpow_ge_0. destruct (normal_range x W N) as [A _]. eapply Rle_trans with (bpow radix2 (ne x - 1) * bpow radix2 (- n))%R; [|apply Rmult_le_compat_r; [apply bpow_ge_0|exact A]]. rewrite <- bpow_plus. apply bpow_le. change EMIN with (-2147483648). clear - Hn He. lia.
  - exists x. assert (n = 0) by lia. subst n. split; [reflexivity|]. split; [exact W|]. split; [exact N|]. split; [reflexivity|]. split; [reflexivity|]. cbn [bpow Z.opp]. ring.
Qed.
Lemma pow4 n : 0 <= n -> (4 ^ Z.to_nat n = bpow radix2 (2 * n))%R.
Proof. intros H. rewrite <- (Z2Nat.id n H) at 2. induction (Z.to_nat n) as [|k IH]; [reflexivity|]. cbn [pow]. rewrite IH. replace (2 * Z.of_nat (S k)) with (2 + 2 * Z.of_nat k) by lia. rewrite bpow_plus. reflexivity. Qed.
Lemma pow2 n : 0 <= n -> (2 ^ Z.to_nat n = bpow radix2 n)%R.
Proof. intros H. rewrite <- (Z2Nat.id n H) at 2. induction (Z.to_nat n) as [|k IH]; [reflexivity|]. cbn [pow]. rewrite IH. replace (Z.of_nat (S k)) with (1 + Z.of_nat k) by lia. rewrite bpow_plus. reflexivity. Qed.

Theorem cos_series_ok g x P : 192 <= P <= 2 ^ 15 -> wf x -> normal x -> 64 * wlen x = P -> - 2 ^ 21 <= ne x <= 0 ->
  ends (cos_series g x RNone) (fun q => sab (bpow radix2 120 * eps P) (cos (Rabs (value x))) q /\ P <= 64 * wlen q /\ ninexact q = true).
Proof.
  intros HP W N L He. unfold cos_series. cbv zeta. rewrite max_len, L. assert (HP64 : prec_up P = P) by (unfold prec_up; clear - L; dlia). assert (HP22 : 128 <= P <= 2 ^ 22) by (clear - HP; lia).
  destruct (cos_new_ok P HP22 HP64) as (gen & -> & Hgen). cbn [done rbind].
  destruct (series_cost_optimize cos_red_cost cos_red_effect g P (sinh_iter_cost P) (- ne x) 2) as [[[n niter] e]|] eqn:EO; [|left; reflexivity].
  destruct (cos_optimize_spec g P (- ne x) n niter e ltac:(clear - HP; lia) ltac:(clear - He; lia) EO) as (step & Hst & Hn0 & Hsn & Hn & Ee & Hni & Hnt & Hdeep). clear EO.
  set (m := - ne x) in *. assert (Hm : 0 <= m <= 2 ^ 21) by (unfold m; clear - He; lia).
  assert (Hadd : P + Z.max 0 (n * 6 + 6 - e) <= P + (if 0 <? n * 6 + 6 - e then n * 6 + 6 - e else 0)) by (destruct (Z.ltb_spec 0 (n * 6 + 6 - e)); lia).
  set (p_arg := P + (if 0 <? n * 6 + 6 - e then n * 6 + 6 - e else 0)) in *. assert (Hpa : P <= p_arg <= 5 * P + 127). { unfold p_arg. clear - Hn Ee Hst Hn0 Hm HP. destruct (Z.ltb_spec 0 (n * 6 + 6 - e)); lia. }
  clearbody p_arg. set (PO := prec_up p_arg). assert (HPO : P <= PO <= 2 ^ 22 /\ p_arg <= PO) by (unfold PO; clear - Hpa HP HP64; rewrite <- HP64 at 1; unfold prec_up; dlia). destruct HPO as [HPO HPA]. assert (HPO64 : prec_up PO = PO) by (unfold PO, prec_up; clear; dlia).
  assert (HL : prec_up PO < P_LIM) by (rewrite HPO64; eapply Z.le_lt_trans; [apply HPO|]; vm_compute; reflexivity).
  assert (EPM : prec_up p_arg = prec_up PO) by (fold PO; congruence). assert (HPP : 128 <= PO <= prec_up p_arg) by (fold PO; clear - HPO HP; lia).
  assert (EP : 0 < P /\ 0 < p_arg) by (clear - HP Hpa; lia).
  pose proof (apx_self P x W N) as Ax. destruct (normal_range x W N) as [X1 X2].
  destruct (apx_len_up P _ 0 _ x p_arg Ax ltac:(fold PO; clear - L HPO; lia) ltac:(apply EP) ltac:(fold PO; rewrite <- HPO64; exact HL)) as (x1 & -> & (W1 & N1 & S1 & _) & L1 & V1). fold PO in L1. cbn [done rbind].
  assert (Hn20 : 0 <= n <= 2 ^ 20) by (clear - Hn Hn0 HP; lia).
  set (ax := Rabs (value x)) in *. assert (AX1 : (bpow radix2 (- m - 1) <= ax)%R) by (unfold m; rewrite Z.opp_involutive; exact X1). assert (AX2 : (ax <= bpow radix2 (- m))%R) by (unfold m; rewrite Z.opp_involutive; left; exact X2).
  assert (AX3 : (ax <= 1)%R). { eapply Rle_trans; [exact AX2|]. change 1%R with (bpow radix2 0). apply bpow_le. clear - Hm. lia. }
  destruct (normal_range x1 W1 N1) as [Y1 Y2]. rewrite V1 in Y1, Y2. fold ax in Y1, Y2.
  assert (NE : - 2 ^ 22 <= ne x1 <= 2 ^ 20). { split; [assert (- m - 1 < ne x1); [|clear - H Hm; lia]; apply (lt_bpow radix2); eapply Rle_lt_trans; [exact AX1|exact Y2]|]. assert (ne x1 - 1 <= 0); [|clear - H; lia]. apply (le_bpow radix2). eapply Rle_trans; [exact Y1|exact AX3]. }
  destruct (halved_ok x1 n W1 N1 Hn20 NE) as (arg & -> & Wa & Na & Sa & La & Va). cbn [done rbind].
  destruct (from_word_spec 1 p_arg ltac:(clear; lia) ltac:(apply EP) ltac:(rewrite EPM; exact HL)) as (acc & -> & Wc & Lc & Sc & _ & Vc). fold PO in Lc. cbn [done rbind].
  assert (Ac : apx P Pos 0 1 acc) by (apply apx_exact; auto using normal_one). assert (Bc : sab 0 (sr Pos * 1) acc). { split; [exact Wc|]. split; [now apply normal_one|]. rewrite Vc. change (sr Pos) with 1%R. replace (1 - 1 * 1)%R with 0%R by ring. rewrite Rabs_R0. lra. }
  (* the reduced argument *)
  set (t := (ax * bpow radix2 (- n))%R). assert (AV : Rabs (value arg) = t). { rewrite Va, V1, Rabs_mult, (Rabs_pos_eq (bpow _ _)) by apply bpow_ge_0. reflexivity. }
  pose proof (bpow_gt_0 radix2 (- n)) as Bn. assert (A0 : (0 < ax)%R) by (eapply Rlt_le_trans; [apply bpow_gt_0|exact AX1]).
  assert (TL : (bpow radix2 (- m - 1 + - n) <= t)%R) by (apply low_mul; [exact AX1|right; reflexivity]).
  assert (TU : (t <= / 8)%R). { change (/ 8)%R with (bpow radix2 (-3)). apply Rle_trans with (bpow radix2 (- m) * bpow radix2 (- n))%R; [apply Rmult_le_compat_r; lra|]. rewrite <- bpow_plus. apply bpow_le. clear - Hsn Hst. lia. }
  assert (T0 : (0 < t)%R) by (eapply Rlt_le_trans; [apply bpow_gt_0|exact TL]).
  pose proof (apx_self PO arg Wa Na) as AA. rewrite AV in AA.
  assert (TTL : (bpow radix2 (- m - 1 + - n + (- m - 1 + - n)) <= t * t)%R) by now apply low_mul.
  destruct (apx_mul PO p_arg RNone HPP ltac:(rewrite EPM; exact HL) _ _ _ _ _ _ _ _ AA AA ltac:(clear; lia)) as (xs & -> & Hxs & Lxs & _).
  { apply (mid_range (- m - 1 + - n + (- m - 1 + - n)) 0); [unfold HX; clear - Hm Hn20; lia|vm_compute; discriminate|]. split; [exact TTL|]. change (bpow radix2 0) with 1%R. clear - T0 TU. nra. }
  cbn [done rbind]. replace (sign_mul (ns arg) (ns arg)) with Pos in Hxs by (destruct (ns arg); reflexivity). fold PO in Lxs. pose proof Hxs as (Ws & Ns & Ss & Ls). set (X := Rabs (value xs)) in *. change (IZR (0 + 0 + 1)) with 1%R in Ls.
  pose proof (eps_pos PO) as EpO. pose proof (eps_pos P) as Ep. assert (EOs : (eps PO <= / 4)%R) by (change (/ 4)%R with (bpow radix2 (-2)); apply bpow_le; clear - HPO HP; lia).
  assert (XD : (Rabs (X - t * t) <= 2 * eps PO * (t * t))%R) by (apply lc_abs in Ls; lra). pose proof (Rabs_le_inv _ _ XD) as XD'. assert (TT : (0 < t * t <= / 64)%R) by (clear - T0 TU; nra).
  assert (XU : (t * t / 2 <= X <= 3 / 2 * (t * t))%R). { assert (eps PO * (t * t) <= / 4 * (t * t))%R by (apply Rmult_le_compat_r; lra). lra. }
  assert (AX : apx P Pos 0 X xs) by (rewrite <- Ss; now apply apx_self).
  destruct (normal_range xs Ws Ns) as [R1 R2]. fold X in R1, R2.
  assert (E1 : ne xs <= -1). { assert (ne xs - 1 <= -2); [|lia]. apply (le_bpow radix2). eapply Rle_trans; [exact R1|]. change (bpow radix2 (-2)) with (/ 4)%R. lra. }
  assert (XL : (bpow radix2 (- m - 1 + - n + (- m - 1 + - n) + -1) <= X)%R) by (rewrite bpow_plus; change (bpow radix2 (-1)) with (/ 2)%R; lra).
  assert (E2 : 1 - ne xs <= 2 * m + 2 * n + 3). { assert (EX : - m - 1 + - n + (- m - 1 + - n) + -1 < ne xs); [|clear - EX; lia]. apply (lt_bpow radix2). eapply Rle_lt_trans; [exact XL|exact R2]. }
  assert (X0 : (0 < X)%R) by lra.
  (* the sum *)
  eapply ends_bind.
  { apply (alt_run_abs P PO sin_gen cos_next (cos_at P) cC JMAX (2 ^ 26) (2 ^ 29 - 4) ltac:(clear - HP HPO; lia) ltac:(apply HPO) HPO64 ltac:(clear; lia) ltac:(clear; lia) cC_range cC_ratio) with (s := Pos) (k := 0) (A := 1%R) (F := X).
    - exact cC_low4.
    - intros j g0 Hj HJ. destruct (cos_next_ok P HP22 HP64 j g0 Hj HJ) as (c & g' & Q1 & Q2 & Q3 & Q4). exists c, g'. split; [exact Q1|]. split; [exact Q2|]. split; [exact Q3|]. clear - Q4 HPO. lia.
    - exact Ws. - exact Ns. - exact Ss. - exact Lxs. - exact E1.
    - exact Ac. - exact AX. - exact Lc. - exact Lxs. - exact Hgen.
    - clear. lia.
    - split; [eapply low_weak; [|exact XL]; clear - Hm Hn20; lia|lra].
    - lra.
    - clear - Hni Hnt HP Ee Hn0 Hst Hm. nia.
    - assert (Q1 : 1 - ne xs <= 2 * (e + 2)) by (clear - E2 Ee Hst; lia). assert (Q2 : 2 * niter * (1 - ne xs) <= 2 * P) by (clear - Q1 Hnt Hni; nia). clear - Q2 E2 Hn20 Hm HP. lia.
    - rewrite JMAX_Z. unfold J22. clear - Hni Hnt HP Ee Hn0 Hst Hm. nia. }
  intros ret [(M & HM & _ & Lret & Tail & Hret) Iret]. fold X in Hret, Tail. specialize (Hret 0%R ltac:(lra) Bc). change (sr Pos) with 1%R in Hret.
  (* back to the cosine *)
  set (b := sqrt X). assert (Bb : (b * b = X)%R) by (apply sqrt_sqrt; lra). assert (b0 : (0 < b)%R) by now apply sqrt_lt_R0. assert (b1 : (b <= / 2)%R) by (clear - Bb b0 XU TT; nra).
  pose proof (cos_taylor b M ltac:(lra) HM) as TS. rewrite Bb in TS. pose proof (cos_sq_near b t) as NT. rewrite Bb in NT. set (ps := psum cC (- X) 0 M) in *.
  set (c0 := IZR (2 ^ 46 + 64 * 0)) in *. assert (C0 : c0 = bpow radix2 46) by reflexivity.
  set (u := (c0 * eps P * X + 150 * eps PO)%R). assert (CP : (0 < c0 * eps P * X)%R) by (rewrite C0; apply Rmult_lt_0_compat; [apply Rmult_lt_0_compat; [apply bpow_gt_0|exact Ep]|exact X0]).
  assert (Hu : sab (u - 3 * eps PO) (cos t) ret).
  { destruct Hret as (Wr & Nr & Dr). split; [exact Wr|]. split; [exact Nr|]. assert (Tl : (2 * eps PO * (t * t) <= eps PO)%R) by (assert (eps PO * (t * t) <= eps PO * / 64)%R by (apply Rmult_le_compat_l; lra); lra).
    replace (value ret - cos t)%R with ((value ret - 1 * (1 - X * ps)) + (- (cos b - (1 - X * ps)) + (cos b - cos t)))%R by ring. eapply Rle_trans; [apply Rabs_triang|]. eapply Rle_trans; [apply Rplus_le_compat_l; apply Rabs_triang|]. rewrite Rabs_Ropp. unfold u. fold c0 in Dr. lra. }
  assert (U4 : (4 ^ Z.to_nat n * u <= bpow radix2 119 * eps P)%R).
  { rewrite pow4 by exact Hn0. unfold u. rewrite Rmult_plus_distr_l. pose proof (bpow_gt_0 radix2 (2 * n)) as B2.
    assert (Q1 : (bpow radix2 (2 * n) * (c0 * eps P * X) <= bpow radix2 47 * eps P)%R).
    { assert (TX : (bpow radix2 (2 * n) * (t * t) <= 1)%R). { unfold t. replace (bpow radix2 (2 * n) * (ax * bpow radix2 (- n) * (ax * bpow radix2 (- n))))%R with (ax * ax * (bpow radix2 (2 * n) * bpow radix2 (- n) * bpow radix2 (- n)))%R by ring. rewrite <- !bpow_plus. replace (2 * n + - n + - n) with 0 by ring. change (bpow radix2 0) with 1%R. clear - A0 AX3. nra. }
      assert (TX2 : (bpow radix2 (2 * n) * X <= 2)%R). { apply Rle_trans with (bpow radix2 (2 * n) * (3 / 2 * (t * t)))%R; [apply Rmult_le_compat_l; lra|lra]. }
      replace (bpow radix2 (2 * n) * (c0 * eps P * X))%R with (c0 * eps P * (bpow radix2 (2 * n) * X))%R by ring. rewrite C0. change 47 with (46 + 1). rewrite bpow_plus. change (bpow radix2 1) with 2%R. replace (bpow radix2 46 * 2 * eps P)%R with (bpow radix2 46 * eps P * 2)%R by ring. apply Rmult_le_compat_l; [apply Rmult_le_pos; [apply bpow_ge_0|lra]|exact TX2]. }
    assert (Q2 : (bpow radix2 (2 * n) * (150 * eps PO) <= bpow radix2 118 * eps P)%R).
    { apply Rle_trans with (bpow radix2 (2 * n) * (bpow radix2 8 * eps PO))%R; [apply Rmult_le_compat_l; [lra|]; apply Rmult_le_compat_r; [lra|]; change (bpow radix2 8) with 256%R; lra|]. unfold eps. rewrite <- !bpow_plus. apply bpow_le. clear - Hdeep Hadd HPA. lia. }
    assert (Q3 : (bpow radix2 47 * eps P <= bpow radix2 118 * eps P)%R) by (apply Rmult_le_compat_r; [lra|apply bpow_le; lia]).
    change (bpow radix2 119) with (2 * bpow radix2 118)%R. lra. }
  assert (U8 : (bpow radix2 119 * eps P <= / 8)%R). { change (/ 8)%R with (bpow radix2 (-3)). unfold eps. rewrite <- bpow_plus. apply bpow_le. clear - HP. lia. }
  assert (FP : (1 <= 4 ^ Z.to_nat n)%R) by (apply pow_R1_Rle; lra). assert (u0 : (0 <= u)%R) by (unfold u; lra). assert (u1 : (u <= / 8)%R) by (clear - FP u0 U4 U8; nra).
  assert (Ug : (u - 3 * eps PO + 3 * eps PO <= u / (1 - u))%R). { apply Rmult_le_reg_r with (1 - u)%R; [lra|]. unfold Rdiv. rewrite (Rmult_assoc u), Rinv_l by lra. clear - u0 u1. nra. }
  assert (TN : (2 ^ Z.to_nat n * t = ax)%R). { rewrite pow2 by exact Hn0. unfold t. replace (bpow radix2 n * (ax * bpow radix2 (- n)))%R with (ax * (bpow radix2 n * bpow radix2 (- n)))%R by ring. rewrite <- bpow_plus. replace (n + - n) with 0 by ring. change (bpow radix2 0) with 1%R. ring. }
  destruct (cos_restore_ok PO ltac:(clear - HP HPO; lia) HPO64 (Z.to_nat n) _ u t ret Hu u0 Ug ltac:(lra) ltac:(lra) ltac:(rewrite TN; exact AX3) Lret Iret) as (q & Eq & Rq & Lq & Iq). rewrite TN in Rq.
  assert (FIN : sab (bpow radix2 120 * eps P) (cos ax) q). { eapply sab_weak; [|exact Rq]. change (bpow radix2 120) with (2 * bpow radix2 119)%R. lra. }
  destruct (Z.ltb_spec 0 n) as [Z0|Z0].
  - unfold cos_arg_restore. rewrite max_len, Lret, Eq. apply ends_ok. split; [exact FIN|]. split; [clear - Lq HPO; lia|exact Iq].
  - assert (n = 0) by (clear - Z0 Hn0; lia). subst n. change (Z.to_nat 0) with 0%nat in Eq. cbn [cos_restore_loop] in Eq. injection Eq as <-. apply ends_ok. split; [exact FIN|]. split; [clear - Lq HPO; lia|exact Iq].
Qed.

(** ** The loop *)
Lemma cos_abs r : cos (Rabs r) = cos r.
Proof. unfold Rabs. destruct (Rcase_abs r); [apply cos_neg|reflexivity]. Qed.
Section Loop.
Context (x0 : num) (p : Z) (rm : rmode) (h g : nat) (c : pi_cache).
Hypotheses (W0 : wf x0) (N0 : nonzero x0) (Hp : 0 < p) (Hp64 : p mod 64 = 0) (He : - 2 ^ 21 <= ne x0 <= 0).

Definition cos_post (o : prun num) : Prop :=
  match o with
  | None => True
  | Some (c', res) => c' = c /\ exists q, res = Ok q /\ elem_result (cos (value x0)) p rm q
  end.
Theorem cos_loop_ok : forall f w i, p + 64 <= w -> w mod 64 = 0 -> 64 <= i -> i mod 64 = 0 -> 128 <= w -> 64 * wlen x0 <= w -> i <= 64 * (((w + i) / 5 + 63) / 64) ->
  work f w i + 128 <= 2 ^ 15 -> cos_post (cos_loop f g h c x0 p rm w i 65).
Proof.
  induction f as [|f IH]; intros w i Hpw Hw64 Hi Hi64 Hw HLx Hii HB; [exact I|].
  pose proof (work_ge (Datatypes.S f) w i ltac:(lia) ltac:(lia)) as HG.
  change (work (Datatypes.S f) w i) with (work f (w + i) (64 * (((w + i) / 5 + 63) / 64))) in HB, HG.
  pose proof (work_ge f (w + i) (64 * (((w + i) / 5 + 63) / 64)) ltac:(lia) ltac:(clear - Hw Hi; dlia)) as HG2.
  assert (PW : prec_up (w + 65) = w + 128) by (unfold prec_up; clear - Hw64; dlia). assert (HPX : 192 <= w + 128 <= 2 ^ 15) by (clear - HB HG HG2 Hw Hi; lia). assert (PL : prec_up (w + 65) < P_LIM) by (rewrite PW; apply Z.le_lt_trans with (2 ^ 15); [apply HPX|vm_compute; reflexivity]).
  assert (HX : argument x0 w x0). { pose proof (argument_start x0 W0 N0 ltac:(apply Z.lt_le_trans with (- 2 ^ 21); [vm_compute; reflexivity|apply He])) as (_ & H2 & _). split; [exact W0|]. split; [exact H2|]. split; [reflexivity|]. split; [reflexivity|exact HLx]. }
  cbn [cos_loop]. destruct (argument_len x0 w x0 (w + 65) ltac:(lia) PL ltac:(lia) HX) as (y & -> & HY & Sy & Ly). rewrite PW in HY, Ly. cbn [ppure pbind]. pose proof HY as (Wy & Ny & Vy & Ey & _).
  unfold reduce_trig_arg, trig_arg_pi_proximity. rewrite !Ey. replace (2 <? ne x0) with false by (symmetry; apply Z.ltb_ge; clear - He; lia). cbn [ppure pbind]. rewrite !Ey. replace (0 <? ne x0) with false by (symmetry; apply Z.ltb_ge; clear - He; lia). cbn [ppure pbind]. change (Z.odd 0) with false. cbn [andb].
  destruct (normal_range y Wy Ny) as [_ Y2]. rewrite Ey, Vy in Y2. assert (V1 : (Rabs (value x0) <= 1)%R) by (left; eapply Rlt_le_trans; [exact Y2|]; change 1%R with (bpow radix2 0); apply bpow_le; apply He).
  pose proof (Rabs_pos (value x0)) as V0. pose proof (cos_half (Rabs (value x0)) ltac:(lra)) as C1. pose proof (cos_series_ok g y (w + 128) HPX Wy Ny Ly ltac:(rewrite Ey; exact He)) as EV. destruct EV as [->|(ret & -> & A & L & Ir)]; [exact I|]. rewrite Vy in A. rewrite cos_abs in A, C1. set (r := cos (value x0)) in *. cbn [ppure pbind].
  assert (AP : apx (w + 64) Pos (2 ^ 58) r ret).
  { apply (sab_apx (w + 64) Pos (2 ^ 58) r (bpow radix2 120 * eps (w + 128)) ret ltac:(clear - Hw; lia) ltac:(lra) ltac:(clear; lia)); [change (sr Pos) with 1%R; rewrite Rmult_1_l; exact A|].
    replace (bpow radix2 120 * eps (w + 128))%R with (bpow radix2 56 * eps (w + 64))%R by (unfold eps; rewrite <- !bpow_plus; f_equal; ring). replace (IZR (2 ^ 58)) with (4 * bpow radix2 56)%R by (change 4%R with (bpow radix2 2); rewrite <- bpow_plus; reflexivity). pose proof (eps_pos (w + 64)) as Ep. pose proof (bpow_gt_0 radix2 56) as B6. set (z := (bpow radix2 56 * eps (w + 64))%R). assert (Z0 : (0 < z)%R) by (apply Rmult_lt_0_compat; lra). replace (4 * bpow radix2 56 * eps (w + 64) * r)%R with (4 * (z * r))%R by (unfold z; ring). clearbody z. assert (z * / 2 <= z * r)%R by (apply Rmult_le_compat_l; lra). lra. }
  destruct AP as (Wr & Nr & Sr & LCr). rewrite <- (Rabs_pos_eq r) in LCr by lra.
  pose proof (accept_elem r ret p rm w (2 ^ 58) Wr Nr Ir ltac:(clear - L; lia) ltac:(rewrite Sr; unfold has_sign; cbn [sgnZ]; lra) LCr ltac:(clear; lia) Hp Hp64 Hw64 Hpw) as AE.
  destruct (try_set_precision ret p rm w) as [[q [|]]|[t| | |]|]; try contradiction; cbn [ppure pbind].
  - split; [reflexivity|]. eexists. split; [reflexivity|]. now apply elem_mark.
  - rewrite round_step by (clear - HG HG2 HB Hw Hi; lia). apply IH; [lia| |clear - Hw Hi; dlia|rewrite Z.mul_comm; apply Z.mod_mul; lia|lia|lia| |exact HB].
    + clear - Hw64 Hi64. dlia.
    + assert (D : (w + i) / 5 <= (w + i + 64 * (((w + i) / 5 + 63) / 64)) / 5) by (apply Z.div_le_mono; [lia|]; clear - Hw Hi; dlia). assert ((((w + i) / 5 + 63) / 64) <= (((w + i + 64 * (((w + i) / 5 + 63) / 64)) / 5 + 63) / 64)) by (apply Z.div_le_mono; lia). lia.
  - exfalso. revert AE. apply no_overflow; [exact Hp|]. rewrite Rabs_pos_eq by lra. lra.
Qed.
End Loop.

Theorem cos_ok f g h c x p rm : wf x -> nonzero x -> 0 < p -> ne x <= 0 ->
  work f (Z.max (prec_up p) (64 * wlen x) + 64) 64 + 128 <= 2 ^ 15 ->
  match f_cos f g h c x p rm with
  | None => True
  | Some (c', res) => c' = c /\ exists q, res = Ok q /\ elem_result (cos (value x)) (prec_up p) rm q
  end.
Proof.
  intros W N Hp He HB. change (Z.max (prec_up p) (64 * wlen x)) with (max64 (prec_up p) x) in HB. assert (P64 : 64 <= prec_up p) by (unfold prec_up; clear - Hp; dlia). assert (M1 : prec_up p <= max64 (prec_up p) x) by (unfold max64; lia). assert (M2 : 64 * wlen x <= max64 (prec_up p) x) by (unfold max64; lia).
  pose proof (work_ge f (max64 (prec_up p) x + 64) 64 ltac:(lia) ltac:(lia)) as HG. assert (PL : Z.max (prec_up p) 128 + 64 < P_LIM) by (eapply Z.le_lt_trans with (2 ^ 20); [lia|vm_compute; reflexivity]).
  unfold f_cos. destruct (Z_lt_le_dec (max64 (prec_up p) x + 1) (- (ne x * 2 - 1))) as [S|S].
  - match goal with |- context [@even_in ?A ?ok ?rest true x p rm] => rewrite (@even_in_small A ok rest (fun _ _ _ => Panic) true x p rm W N Hp ltac:(lia) S) end. cbv beta. split; [reflexivity|]. destruct (cos_small (fun _ _ _ => Panic) x p rm W N Hp PL S) as (q & E & Q). unfold n_cos in E. exists q. split; [exact E|].
    assert (V1 : (Rabs (value x) <= 1)%R). { left. change 1%R with (bpow radix2 0). exact (tiny_le x 0 W He). }
    pose proof (Rabs_pos (value x)) as V0. pose proof (cos_half (Rabs (value x)) ltac:(lra)) as C1. rewrite cos_abs in C1.
    apply (rounded_elem _ _ Pos); [lia|unfold has_sign; cbn [sgnZ]; lra| |exact Q]. rewrite Rabs_pos_eq by lra. apply Rle_trans with (/ 2)%R; [change (/ 2)%R with (bpow radix2 (-1)); apply bpow_le; vm_compute; discriminate|lra].
  - match goal with |- context [@even_in ?A ?ok ?rest true x p rm] => rewrite (@even_in_rest A ok rest true x p rm W N Hp ltac:(lia) S) end. cbv beta. change (mantissa_max_bit_len x) with (64 * wlen x). change (Z.max (prec_up p) (64 * wlen x)) with (max64 (prec_up p) x).
    pose proof (cos_loop_ok x (prec_up p) rm h g c W N ltac:(lia) (prec_up_mod p) ltac:(lia) f (max64 (prec_up p) x + 64) 64 ltac:(lia) (max_mod p x) ltac:(lia) eq_refl ltac:(lia) ltac:(lia) ltac:(clear - M1 P64; dlia) HB) as O. exact O.
Qed.
