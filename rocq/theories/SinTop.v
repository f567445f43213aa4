(** The sine for arguments below one in magnitude. *)

From Coq Require Import ZArith List Bool Lia Reals Lra.
From Flocq Require Import Core.
From Verif Require Import Words IntModel Mantissa Num Pow Consts Elem Series Exp Sin SpecZ SpecOps SpecConst SpecPow SpecElem WordsP Spec RealP RealP2 NumP CmpP AddP SetP AddNum MulNum DivNum ArithTop ConvNum Conv2Num RootP ConstP ConstNum ExtP PowExt Refute1 ElemR ElemDom SmallP ElemNum ApproxR ApproxNum SeriesNum SinhR SinhNum SinhTop ExpNum RetryNum ConstReach SpecReach ExpTop HypNum HypTop TanhNum AltNum.
Import ListNotations.
Open Scope Z_scope.
Ltac Zify.zify_post_hook ::= idtac.
Arguments Z.mul : simpl never.
Arguments Z.add : simpl never.
Arguments Z.pow : simpl never.
Arguments Z.sub : simpl never.
Arguments Z.of_nat : simpl never.
Ltac dlia := Z.div_mod_to_equations; lia.

(** ** Facts about the sine *)
Lemma sin_taylor b M : (0 <= b <= 4)%R -> (1 <= M)%nat -> (Rabs (sin b - (b - b * (b * b) * psum sC (- (b * b)) 0 M)) <= b * (b * b) * (b * b) ^ M * sC M)%R.
Proof.
  intros Hb HM.
  assert (E : forall n, (b - b * (b * b) * psum sC (- (b * b)) 0 n = sin_approx b n)%R).
  { intros n. unfold sin_approx. induction n as [|n IH]; [cbn [psum sum_f_R0]; unfold sin_term; cbn; lra|]. cbn [sum_f_R0]. rewrite <- IH. cbn [psum]. rewrite Nat.add_0_l. unfold sin_term, sC. replace (2 * S n + 1)%nat with (2 * n + 3)%nat by lia.
    replace (b ^ (2 * n + 3))%R with (b * (b * b) * (b * b) ^ n)%R by (rewrite pow_add, pow_mult; replace (b ^ 2)%R with (b * b)%R by ring; cbn [pow]; ring). rewrite neg_pow. cbn [pow]. unfold Rdiv. ring. }
  assert (D : forall n, (Rabs (sin_approx b (S n) - sin_approx b n) = b * (b * b) * (b * b) ^ n * sC n)%R).
  { intros n. rewrite <- !E. cbn [psum]. rewrite Nat.add_0_l, neg_pow. replace (b - b * (b * b) * (psum sC (- (b * b)) 0 n + sC n * ((-1) ^ n * (b * b) ^ n)) - (b - b * (b * b) * psum sC (- (b * b)) 0 n))%R with (- ((-1) ^ n * (b * (b * b) * (b * b) ^ n * sC n)))%R by ring.
    rewrite Rabs_Ropp, Rabs_mult, pow_1_abs, Rmult_1_l. apply Rabs_pos_eq. pose proof (sC_range n). apply Rmult_le_pos; [|lra]. apply Rmult_le_pos; [apply Rmult_le_pos; [lra|apply Rmult_le_pos; lra]|apply pow_le; apply Rmult_le_pos; lra]. }
  rewrite E, <- D. assert (B : (sin_approx b M <= sin b <= sin_approx b (S M) \/ sin_approx b (S M) <= sin b <= sin_approx b M)%R).
  { destruct (Nat.Even_or_Odd M) as [[n ->]|[n ->]].
    - right. destruct n as [|n]; [lia|]. pose proof (pre_sin_bound b n ltac:(lra) ltac:(lra)) as [_ U]. pose proof (pre_sin_bound b (S n) ltac:(lra) ltac:(lra)) as [L _]. replace (S (2 * S n)) with (2 * S n + 1)%nat by lia. replace (2 * S n)%nat with (2 * (n + 1))%nat at 2 by lia. split; assumption.
    - left. pose proof (pre_sin_bound b n ltac:(lra) ltac:(lra)) as [L U]. replace (S (2 * n + 1)) with (2 * (n + 1))%nat by lia. split; assumption. }
  unfold Rabs. destruct (Rcase_abs (sin b - sin_approx b M)), (Rcase_abs (sin_approx b (S M) - sin_approx b M)); lra.
Qed.
Lemma one_lt_pi2 : (1 < PI / 2)%R.
Proof. pose proof PI2_3_2. lra. Qed.
Lemma sin_mono a b : (0 <= a <= b)%R -> (b <= 1)%R -> (sin a <= sin b)%R.
Proof. intros H1 H2. pose proof one_lt_pi2. apply sin_incr_1; lra. Qed.
Lemma sin_pos1 a : (0 < a <= 1)%R -> (0 < sin a)%R.
Proof. intros H. pose proof one_lt_pi2. apply sin_gt_0; lra. Qed.
Lemma sin_scale c y : (1 <= c)%R -> (0 <= y)%R -> (c * y <= 1)%R -> (sin (c * y) <= c * sin y)%R.
Proof.
  intros Hc Hy H1. assert (0 <= c * sin y - sin (c * y))%R; [|lra].
  apply (nonneg (fun u => c * sin u - sin (c * u))%R (fun u => c * cos u - c * cos (c * u))%R y); [exact Hy|rewrite Rmult_0_r, sin_0; ring| |].
  - intros t _. apply d_minus; [eapply d_eq; [apply (derivable_pt_lim_scal sin c); apply derivable_pt_lim_sin|reflexivity]|]. eapply d_eq; [apply (derivable_pt_lim_comp (fun u => c * u)%R sin t c (cos (c * t))); [apply d_lin|apply derivable_pt_lim_sin]|]. ring.
  - intros t Ht. pose proof one_lt_pi2. assert (C1 : (t <= c * t <= 1)%R) by nra. assert (cos (c * t) <= cos t)%R by (apply cos_decr_1; lra). assert (c * cos (c * t) <= c * cos t)%R by (apply Rmult_le_compat_l; lra). lra.
Qed.
Lemma lc_sin d x y : (0 <= d)%R -> (0 < x)%R -> (x * exp d <= 1)%R -> lc d x y -> lc d (sin x) (sin y).
Proof.
  intros Hd Hx HB (_ & L & U). pose proof (exp_ge1 d Hd) as E1. pose proof (exp_pos (- d)) as E0. assert (X1 : (x <= 1)%R) by nra. assert (Y0 : (0 < x * exp (- d))%R) by (apply Rmult_lt_0_compat; lra). split; [apply sin_pos1; lra|]. split.
  - assert (EE : (exp d * exp (- d) = 1)%R) by (rewrite <- exp_plus, Rplus_opp_r; apply exp_0). assert (X2 : (x <= exp d * y)%R). { apply (Rmult_le_compat_r (exp d)) in L; [|lra]. replace (x * exp (- d) * exp d)%R with (x * (exp d * exp (- d)))%R in L by ring. rewrite EE in L. lra. }
    assert (Y1 : (y <= 1)%R) by lra. set (c := (x / y)%R). assert (Hc : (c * y = x)%R) by (unfold c; field; lra).
    destruct (Rle_lt_dec x y) as [XY|XY].
    + pose proof (sin_mono x y ltac:(lra) Y1). pose proof (sin_pos1 x ltac:(lra)). apply Rle_trans with (sin x * 1)%R; [apply Rmult_le_compat_l; [lra|]|lra]. rewrite <- exp_0. destruct Hd as [Hd| <-]; [left; apply exp_increasing; lra|rewrite Ropp_0; lra].
    + assert (C1 : (1 <= c)%R) by (unfold c; apply Rmult_le_reg_r with y; [lra|]; unfold Rdiv; rewrite Rmult_assoc, Rinv_l by lra; lra). pose proof (sin_scale c y C1 ltac:(lra) ltac:(lra)) as S. rewrite Hc in S. pose proof (sin_pos1 y ltac:(lra)) as P.
      assert (Cd : (c <= exp d)%R) by (unfold c; apply Rmult_le_reg_r with y; [lra|]; unfold Rdiv; rewrite Rmult_assoc, Rinv_l by lra; lra).
      assert (S2 : (sin x <= exp d * sin y)%R) by (eapply Rle_trans; [exact S|]; apply Rmult_le_compat_r; lra). apply (Rmult_le_compat_r (exp (- d))) in S2; [|lra]. replace (exp d * sin y * exp (- d))%R with (sin y * (exp d * exp (- d)))%R in S2 by ring. rewrite EE in S2. lra.
  - eapply Rle_trans; [apply (sin_mono y (x * exp d)); lra|]. rewrite (Rmult_comm x), (Rmult_comm (sin x)). apply sin_scale; lra.
Qed.
Lemma sin_triple y : (sin (3 * y) = 3 * sin y - 4 * (sin y * sin y * sin y))%R.
Proof.
  replace (3 * y)%R with (2 * y + y)%R by ring. rewrite sin_plus, sin_2a, cos_2a. pose proof (sin2_cos2 y) as S. unfold Rsqr in S. set (s := sin y) in *. set (c := cos y) in *. clearbody s c. assert (C2 : (c * c = 1 - s * s)%R) by lra.
  replace (2 * s * c * c + (c * c - s * s) * s)%R with (2 * s * (c * c) + (c * c - s * s) * s)%R by ring. rewrite C2. ring.
Qed.
Lemma lc_triple d a v : (0 <= d)%R -> (a * exp d <= / 2)%R -> lc d a v -> lc d (3 * a - 4 * (a * a * a)) (3 * v - 4 * (v * v * v)).
Proof.
  intros Hd HB (A & L & U). pose proof (exp_ge1 d Hd) as E1. pose proof (exp_pos (- d)) as E0. assert (EE : (exp d * exp (- d) = 1)%R) by (rewrite <- exp_plus, Rplus_opp_r; apply exp_0).
  assert (M : forall u w, (0 <= u <= w)%R -> (w <= / 2)%R -> (3 * u - 4 * (u * u * u) <= 3 * w - 4 * (w * w * w))%R).
  { intros u w H1 H2. assert (0 <= (w - u) * (3 - 4 * (w * w + w * u + u * u)))%R by (apply Rmult_le_pos; nra). nra. }
  unfold lc. set (x := exp d) in *. set (z := exp (- d)) in *. clearbody x z. assert (AX : (a * 1 <= a * x)%R) by (apply Rmult_le_compat_l; lra). assert (Z1 : (0 < z <= 1)%R) by (clear - EE E0 E1; nra). assert (AZ : (0 < a * z)%R) by (apply Rmult_lt_0_compat; lra). assert (AZ1 : (a * z <= a * 1)%R) by (apply Rmult_le_compat_l; lra).
  assert (A1 : (a <= / 2)%R) by lra. assert (A2 : (0 < a * a <= / 4)%R) by (clear - A A1; nra). assert (A3 : (0 < a * a * a)%R) by (apply Rmult_lt_0_compat; lra). split; [assert (a * a * a <= / 4 * a)%R by (apply Rmult_le_compat_r; lra); lra|]. split.
  - apply Rle_trans with (3 * (a * z) - 4 * (a * z * (a * z) * (a * z)))%R; [|apply M; lra]. assert (Q : (0 <= z * (4 * (a * a * a)) * (1 - z * z))%R) by (apply Rmult_le_pos; [apply Rmult_le_pos; lra|clear - Z1; nra]). apply Rminus_le. replace ((3 * a - 4 * (a * a * a)) * z - (3 * (a * z) - 4 * (a * z * (a * z) * (a * z))))%R with (- (z * (4 * (a * a * a)) * (1 - z * z)))%R by ring. rewrite <- Ropp_0. apply Ropp_le_contravar. exact Q.
  - apply Rle_trans with (3 * (a * x) - 4 * (a * x * (a * x) * (a * x)))%R; [apply M; lra|]. assert (Q : (0 <= x * (4 * (a * a * a)) * (x * x - 1))%R) by (apply Rmult_le_pos; [apply Rmult_le_pos; lra|clear - E1; nra]). apply Rminus_le. replace (3 * (a * x) - 4 * (a * x * (a * x) * (a * x)) - (3 * a - 4 * (a * a * a)) * x)%R with (- (x * (4 * (a * a * a)) * (x * x - 1)))%R by ring. rewrite <- Ropp_0. apply Ropp_le_contravar. exact Q.
Qed.

(** ** The generator *)
Section Gen.
Variable P : Z.
Hypothesis HP : 128 <= P <= 2 ^ 22.
Hypothesis HP64 : prec_up P = P.
Lemma half_ok_s s m k c g : counts m (sg_inc g) /\ apx P Pos 0 1 (sg_one g) /\ 64 * wlen (sg_one g) = P /\ apx P s k c (sg_fct g) /\ 64 * wlen (sg_fct g) = P -> 1 <= m < 2 ^ 40 -> 0 <= k <= 2 ^ 50 -> mid (c * (1 / IZR (m + 1))) ->
  exists g', sinh_half g = Ok g' /\ counts (m + 1) (sg_inc g') /\ apx P Pos 0 1 (sg_one g') /\ 64 * wlen (sg_one g') = P /\ apx P s (k + 2) (c * (1 / IZR (m + 1))) (sg_fct g') /\ 64 * wlen (sg_fct g') = P.
Proof.
  intros ((Wi & Ni & Si & Li & Vi) & H1 & L1 & Hf & Lf) Hm Hk M. assert (HPP : 128 <= P <= prec_up P) by (clear - HP HP64; lia). assert (HL : prec_up P < P_LIM) by (rewrite HP64; eapply Z.le_lt_trans; [apply HP|]; vm_compute; reflexivity).
  unfold sinh_half. rewrite !max_len, Li, L1.
  assert (Hadd : exists q, n_add (sg_inc g) ONE 64 RNone = Ok q /\ counts (m + 1) q).
  { pose proof (add_sub_nonzero (sg_inc g) ONE 64 1 RNone Wi ONE_wf ltac:(destruct Ni; assumption) ONE_nonzero (or_introl eq_refl) ltac:(lia) ltac:(vm_compute; reflexivity)) as [C _].
    rewrite Rmult_1_l, Vi, ONE_value in C. replace (IZR m + 1)%R with (IZR (m + 1)) in C by (rewrite plus_IZR; ring). change (prec_up 64) with 64 in C. assert (V0 : (0 < IZR (m + 1))%R) by (apply IZR_lt; lia).
    destruct C as (sg & HS & C); [lra|]. assert (sg = Pos) by (destruct sg; [|reflexivity]; unfold has_sign in HS; cbn [sgnZ] in HS; exfalso; lra). subst sg.
    apply cut_exact in C; [|lia|apply int_format; lia|rewrite Rabs_pos_eq by lra; apply mid_int; lia]. destruct C as (q & E & W & N & S & L & V). exists q. split; [exact E|]. unfold counts. auto. }
  destruct Hadd as (inc & -> & Hi). cbn [bind]. assert (Hinc : apx P Pos 0 (IZR (m + 1)) inc) by (destruct Hi as (W & N & S & _ & V); now apply apx_exact).
  destruct (apx_div P P RNone HPP HL _ _ _ _ _ _ _ _ H1 Hinc ltac:(lia) ltac:(apply mid_inv_int; lia)) as (inv & -> & Hinv & Linv & _). cbn [bind sign_mul] in *.
  destruct (apx_mul P P RNone HPP HL _ _ _ _ _ _ _ _ Hf Hinv ltac:(lia) M) as (f & -> & Hfct & Lfct & _). cbn [bind] in *. replace (sign_mul s (sign_mul Pos Pos)) with s in Hfct by (destruct s; reflexivity).
  eexists. split; [reflexivity|]. cbn [sg_inc sg_one sg_fct]. split; [exact Hi|]. split; [exact H1|]. split; [exact L1|]. split; [|lia]. eapply apx_weak; [|exact Hfct]. lia.
Qed.

(** Before coefficient [j]. *)
Definition before (j : nat) : sign := if Nat.even j then Pos else Neg.
Definition sin_at (j : nat) (g : sin_gen) : Prop :=
  n_sign g = sgnZ (before j) /\ counts (2 * Z.of_nat j + 1) (sg_inc (n_core g)) /\ apx P Pos 0 1 (sg_one (n_core g)) /\ 64 * wlen (sg_one (n_core g)) = P /\ apx P (before j) (4 * Z.of_nat j) (/ INR (fact (2 * j + 1))) (sg_fct (n_core g)) /\ 64 * wlen (sg_fct (n_core g)) = P.
Lemma apx_sign s t k a v : apx P s k a v -> apx P t k a (set_sign v t).
Proof. intros (W & N & S & L). split; [now apply wf_set_sign|]. split; [exact N|]. split; [reflexivity|]. now rewrite abs_set_sign. Qed.
Lemma sin_next_ok j g : sin_at j g -> (j <= JMAX)%nat -> exists c g', sin_next g = Ok (c, g') /\ sin_at (S j) g' /\ apx P (sg j) (2 ^ 26) (sC j) c /\ 64 * wlen c <= P.
Proof.
  intros (Hs & H) Hj. assert (HJ : Z.of_nat j <= 2 ^ 23) by (rewrite <- JMAX_Z; lia). unfold sin_next.
  assert (E1 : 2 * Z.of_nat j + 1 = Z.of_nat (2 * j + 1)) by lia.
  destruct (half_ok_s _ _ _ _ _ H ltac:(lia) ltac:(lia)) as (g1 & -> & H1).
  { rewrite E1, fact_next. apply mid_fact. lia. }
  cbn [bind]. rewrite E1, fact_next in H1. replace (Z.of_nat (2 * j + 1) + 1) with (Z.of_nat (S (2 * j + 1))) in H1 by lia.
  destruct (half_ok_s _ _ _ _ _ H1 ltac:(lia) ltac:(lia)) as (g2 & -> & H2).
  { rewrite fact_next. apply mid_fact. lia. }
  cbn [bind]. rewrite fact_next in H2. replace (S (S (2 * j + 1))) with (2 * j + 3)%nat in H2 by lia. destruct H2 as (H2 & H3 & H4 & H5 & H6). rewrite Hs.
  assert (B1 : before (S j) = sg j) by (unfold before, sg; rewrite Nat.even_succ, <- Nat.negb_even; destruct (Nat.even j); reflexivity).
  assert (B2 : (if 0 <? sgnZ (before j) * -1 then Pos else Neg) = sg j) by (unfold before, sg; destruct (Nat.even j); reflexivity). assert (B3 : sgnZ (before j) * -1 = sgnZ (sg j)) by (unfold before, sg; destruct (Nat.even j); reflexivity). rewrite B2, B3.
  eexists. eexists. split; [reflexivity|]. split; [|split].
  - unfold sin_at. cbn [n_sign n_core sg_inc sg_one sg_fct]. rewrite B1. split; [reflexivity|]. replace (2 * S j + 1)%nat with (2 * j + 3)%nat by lia. replace (2 * Z.of_nat (S j) + 1) with (Z.of_nat (S (2 * j + 1)) + 1) by lia. replace (4 * Z.of_nat (S j)) with (4 * Z.of_nat j + 2 + 2) by lia. split; [exact H2|]. split; [exact H3|]. split; [exact H4|]. split; [|exact H6]. eapply apx_sign; exact H5.
  - unfold sC. eapply apx_weak; [|eapply apx_sign; exact H5]. lia.
  - change (wlen (set_sign (sg_fct g2) (sg j))) with (wlen (sg_fct g2)). lia.
Qed.
Lemma sin_new_ok : exists g, sin_new P = Ok g /\ sin_at 0 g.
Proof.
  unfold sin_new. destruct (new_ok P HP HP64) as (g & -> & (H1 & H2 & H3 & H4 & H5)). cbn [bind]. eexists. split; [reflexivity|]. unfold sin_at. cbn [n_sign n_core]. split; [reflexivity|]. auto 6.
Qed.
End Gen.
Lemma sC_low4 j : (j <= JMAX)%nat -> (bpow radix2 (- (2 ^ 29 - 4)) <= sC j)%R.
Proof.
  intros H. assert (HJ : Z.of_nat j <= 2 ^ 23) by (rewrite <- JMAX_Z; lia). unfold sC. rewrite bpow_opp. apply Rinv_le; [apply INR_fact_pos|]. eapply Rle_trans; [apply (fact_pow 25)|]; [lia|lia|]. apply bpow_le. lia.
Qed.
Lemma sC_ratio j : (8 * sC (S j) <= sC j)%R.
Proof.
  unfold sC. replace (2 * S j + 3)%nat with (S (S (2 * j + 3))) by lia. pose proof (INR_fact_pos (2 * j + 3)) as F. set (n := (2 * j + 3)%nat) in *. replace (fact (S (S n))) with (S (S n) * (S n * fact n))%nat by reflexivity. rewrite !mult_INR.
  assert (N1 : (4 <= INR (S n))%R) by (replace 4%R with (INR 4) by (cbn; lra); apply le_INR; lia). assert (N2 : (4 <= INR (S (S n)))%R) by (replace 4%R with (INR 4) by (cbn; lra); apply le_INR; lia). set (a := INR (S n)) in *. set (b := INR (S (S n))) in *. set (q := INR (fact n)) in *. clearbody a b q.
  apply Rmult_le_reg_r with (b * (a * q))%R; [apply Rmult_lt_0_compat; [lra|apply Rmult_lt_0_compat; lra]|]. replace (8 * / (b * (a * q)) * (b * (a * q)))%R with 8%R by (field; lra). replace (/ q * (b * (a * q)))%R with (b * a)%R by (field; lra). nra.
Qed.

(** ** Restoration *)
Section Restore.
Variables (P PO : Z).
Hypothesis HP : 128 <= P <= PO.
Hypothesis HPO : PO <= 2 ^ 22.
Hypothesis HP64 : prec_up PO = PO.
Let HPP : 128 <= P <= prec_up PO.
Proof. clear - HP HP64. lia. Qed.
Let HL : prec_up PO < P_LIM.
Proof. rewrite HP64. eapply Z.le_lt_trans; [exact HPO|]. vm_compute. reflexivity. Qed.

Lemma sin_restore_ok s n : forall k y v, apx P s k (sin y) v -> 0 <= k -> k + 64 * Z.of_nat n <= 2 ^ 59 -> (bpow radix2 (- 2 ^ 27) <= y)%R -> (IZR (3 ^ Z.of_nat n) * y <= 1)%R -> 64 * wlen v = PO -> ninexact v = true ->
  exists q, sin_restore_loop n PO RNone v = Ok q /\ apx P s (k + 64 * Z.of_nat n) (sin (IZR (3 ^ Z.of_nat n) * y)) q /\ 64 * wlen q = PO /\ ninexact q = true.
Proof.
  induction n as [|n IH]; intros k y v Hv Hk HK Y1 Y2 Lv Iv.
  - exists v. cbn [sin_restore_loop]. split; [reflexivity|]. split; [|auto]. change (3 ^ Z.of_nat 0) with 1. rewrite Rmult_1_l. replace (k + 64 * Z.of_nat 0) with k by lia. exact Hv.
  - cbn [sin_restore_loop]. replace (3 ^ Z.of_nat (S n)) with (3 * 3 ^ Z.of_nat n) in * by (rewrite Nat2Z.inj_succ, Z.pow_succ_r by lia; reflexivity). rewrite mult_IZR in *.
    assert (T1 : (1 <= IZR (3 ^ Z.of_nat n))%R) by (apply (IZR_le 1); pose proof (Z.pow_pos_nonneg 3 (Z.of_nat n)); lia). assert (Y0 : (0 < y)%R) by (eapply Rlt_le_trans; [apply bpow_gt_0|exact Y1]).
    assert (Y3 : (3 * y <= 1)%R) by nra.
    destruct Hv as (W & N & S & L). set (u := Rabs (value v)) in *.
    pose proof (eps_small P k ltac:(lia) ltac:(lia)) as KE. assert (KE2 : (bpow radix2 (-66) <= / 1024)%R) by (change (/ 1024)%R with (bpow radix2 (-10)); apply bpow_le; lia). pose proof (eps_pos P) as Ep. assert (D0 : (0 <= IZR k * eps P)%R) by (apply Rmult_le_pos; [apply IZR_le; lia|lra]).
    set (d := (IZR k * eps P)%R) in *. assert (D1 : (d <= / 1024)%R) by lra.
    assert (SY : (y / 2 <= sin y <= y)%R). { split; [|left; apply sin_lt_x; lra]. pose proof (pre_sin_bound y 0 ltac:(lra) ltac:(lra)) as [B _]. unfold sin_approx, sin_term in B. cbn in B. nra. }
    assert (ED : (sin y * exp d <= / 2)%R). { pose proof (exp_upper d ltac:(lra)) as EU. pose proof (exp_pos d). apply Rle_trans with (/ 3 * (1 + / 8))%R; [apply Rmult_le_compat; lra|lra]. }
    pose proof (lc_two d (sin y) u ltac:(lra) L) as [U1 U2]. assert (U3 : (u <= / 2)%R) by (destruct L as (_ & _ & U); lra).
    assert (UL : (bpow radix2 (- 2 ^ 27 - 2) <= u)%R). { replace (- 2 ^ 27 - 2) with (- 2 ^ 27 + -2) by ring. rewrite bpow_plus. change (bpow radix2 (-2)) with (/ 4)%R. lra. }
    assert (U0 : (0 < u)%R) by (eapply Rlt_le_trans; [apply bpow_gt_0|exact UL]).
    assert (Av : apx P s 0 u v) by (rewrite <- S; now apply apx_self).
    assert (UU : (bpow radix2 ((- 2 ^ 27 - 2) + (- 2 ^ 27 - 2)) <= u * u)%R) by now apply low_mul. assert (UUU : (bpow radix2 ((- 2 ^ 27 - 2) + (- 2 ^ 27 - 2) + (- 2 ^ 27 - 2)) <= u * u * u)%R) by now apply low_mul.
    assert (V2 : (0 < u * u <= / 4)%R) by nra. assert (V3 : (0 < u * u * u <= / 4 * u)%R) by nra.
    assert (MH : forall j a, (bpow radix2 j <= a)%R -> (a <= 1024)%R -> - HX <= j -> mid a) by (intros j a J1 J2 J; apply (mid_range j 10); [exact J|vm_compute; discriminate|split; assumption]).
    destruct (apx_mul P PO RNone HPP HL _ _ _ _ _ _ _ _ Av Av ltac:(lia)) as (c1 & -> & A1 & _ & I1); [apply (MH _ _ UU); [lra|vm_compute; discriminate]|]. cbn [bind].
    replace (sign_mul s s) with Pos in A1 by (destruct s; reflexivity).
    destruct (apx_mul P PO RNone HPP HL _ _ _ _ _ _ _ _ A1 Av ltac:(lia)) as (c2 & -> & A2 & _ & I2); [apply (MH _ _ UUU); [lra|vm_compute; discriminate]|]. cbn [bind]. rewrite sign_mul_pos in A2.
    destruct (apx_mul P PO RNone HPP HL _ _ _ _ _ _ _ _ Av (apx_THREE P) ltac:(lia)) as (p1 & -> & A3 & _ & I3); [apply (MH (- 2 ^ 27 - 2)); [lra|lra|vm_compute; discriminate]|]. cbn [bind]. rewrite sign_mul_pos_r in A3.
    destruct (apx_mul P PO RNone HPP HL _ _ _ _ _ _ _ _ A2 (apx_FOUR P) ltac:(lia)) as (p2 & -> & A4 & _ & I4); [apply (MH ((- 2 ^ 27 - 2) + (- 2 ^ 27 - 2) + (- 2 ^ 27 - 2))); [lra|lra|vm_compute; discriminate]|]. cbn [bind]. rewrite sign_mul_pos_r in A4.
    apply apx_sab in A3; [|lia|lia]. apply apx_sab in A4; [|lia|lia]. set (w := (u * 3 - u * u * u * 4)%R). assert (W1 : (2 * u <= w <= 3 * u)%R) by (unfold w; lra).
    assert (EW : (sr s * (u * 3) - sr s * (u * u * u * 4) = sr s * w)%R) by (unfold w; ring). assert (EA : Rabs (sr s * (u * 3) - sr s * (u * u * u * 4)) = w) by (rewrite EW; apply sr_abs; lra).
    assert (EU : (eps P * u <= / 1024 * u)%R). { apply Rmult_le_compat_r; [lra|]. change (/ 1024)%R with (bpow radix2 (-10)). unfold eps. apply bpow_le. lia. }
    assert (E3 : (2 * IZR (0 + 0 + 1 + 0 + 1 + 0 + 1) * eps P * (u * u * u * 4) <= 6 * (eps P * u))%R). { change (IZR (0 + 0 + 1 + 0 + 1 + 0 + 1)) with 3%R. assert (eps P * (u * u * u) <= eps P * (/ 4 * u))%R by (apply Rmult_le_compat_l; lra). lra. }
    change (IZR (0 + 0 + 1)) with 1%R in A3. destruct (sab_sub P PO RNone HPP HL _ _ _ _ _ _ A3 A4) as (q & -> & A5 & L5 & I5).
    { rewrite EA. lra. } { rewrite EA. apply (MH (- 2 ^ 27 - 2)); [lra|lra|vm_compute; discriminate]. }
    rewrite EA, EW in A5. cbn [bind]. assert (EPU : (0 < eps P * u)%R) by (apply Rmult_lt_0_compat; lra).
    assert (A6 : apx P s 32 w q). { apply (sab_apx P s 32 w _ q ltac:(lia) ltac:(lra) ltac:(lia) A5). assert (3 * eps P * w <= 3 * eps P * (3 * u))%R by (apply Rmult_le_compat_l; lra). assert (32 * eps P * (2 * u) <= 32 * eps P * w)%R by (apply Rmult_le_compat_l; lra). lra. }
    destruct (IH (k + 64) (3 * y)%R q) as (r & -> & R1 & R2 & R3).
    + eapply apx_weak with (k + 32); [lia|]. destruct A6 as (W6 & N6 & S6 & L6). split; [exact W6|]. split; [exact N6|]. split; [exact S6|]. rewrite plus_IZR, Rmult_plus_distr_r. eapply lc_trans; [|exact L6]. fold d. pose proof (lc_triple d (sin y) u D0 ED L) as LT. rewrite <- sin_triple in LT. replace w with (3 * u - 4 * (u * u * u))%R by (unfold w; ring). exact LT.
    + lia. + lia. + lra. + nra. + rewrite L5. exact HP64.
    + apply I5. apply orb_true_iff. left. apply I3. apply orb_true_iff. left. exact Iv.
    + exists r. split; [reflexivity|]. split; [|auto]. replace (3 * IZR (3 ^ Z.of_nat n) * y)%R with (IZR (3 ^ Z.of_nat n) * (3 * y))%R by ring. replace (k + 64 * Z.of_nat (Datatypes.S n)) with (k + 64 + 64 * Z.of_nat n) by lia. exact R1.
Qed.
End Restore.

(** ** The series *)
Definition KN : Z := 2 ^ 50.
Theorem sin_series_ok g x P s : 128 <= P <= 2 ^ 20 -> wf x -> normal x -> ns x = s -> 64 * wlen x = P -> - 2 ^ 21 <= ne x <= 0 ->
  ends (sin_series g x RNone) (fun q => apx P s KN (sin (Rabs (value x))) q /\ P <= 64 * wlen q /\ ninexact q = true).
Proof.
  intros HP W N S L He. unfold sin_series. cbv zeta. rewrite max_len, L. assert (HP64 : prec_up P = P) by (unfold prec_up; clear - L; dlia). assert (HP22 : 128 <= P <= 2 ^ 22) by (clear - HP; lia).
  destruct (sin_new_ok P HP22 HP64) as (gen & -> & Hgen). cbn [done rbind].
  destruct (series_cost_optimize sinh_red_cost sinh_red_effect g P (sinh_iter_cost P) (- ne x) 2) as [[[n niter] e]|] eqn:EO; [|left; reflexivity].
  destruct (optimize_spec g P (- ne x) n niter e ltac:(clear - HP22; lia) ltac:(clear - He; lia) EO) as (step & Hst & Hn0 & Hsn & Hn & Ee & Hni & Hnt). clear EO.
  assert (He1 : n + step - ne x <= e). { rewrite Ee. unfold sinh_red_effect. clear - Hn0 Hst. assert (n + step <= (n + step) * 1000 / 631) by dlia. lia. } clear Ee.
  set (m := - ne x) in *. assert (Hm : 0 <= m <= 2 ^ 21) by (unfold m; clear - He; lia).
  set (p_arg := P + (if 0 <? n * 6 + 9 - e then n * 6 + 9 - e else 0)). assert (Hpa : P <= p_arg <= 3 * P + 127). { unfold p_arg. clear - Hn He1 Hst Hn0 Hm m HP. destruct (Z.ltb_spec 0 (n * 6 + 9 - e)); unfold m in *; lia. }
  clearbody p_arg. set (PO := prec_up p_arg). assert (HPO : P <= PO <= 2 ^ 22) by (unfold PO; clear - Hpa HP HP64; rewrite <- HP64 at 1; unfold prec_up; dlia). assert (HPO64 : prec_up PO = PO) by (unfold PO, prec_up; clear; dlia).
  assert (HL : prec_up PO < P_LIM) by (rewrite HPO64; eapply Z.le_lt_trans; [apply HPO|]; vm_compute; reflexivity).
  assert (HPP : 128 <= P <= prec_up PO) by (clear - HPO64 HPO HP; lia).
  assert (EP : 0 < P /\ 0 < p_arg) by (clear - HP Hpa; lia).
  pose proof (apx_self P x W N) as Ax. rewrite S in Ax. destruct (normal_range x W N) as [X1 X2].
  destruct (apx_len_up P s 0 _ x p_arg Ax ltac:(fold PO; clear - L HPO; lia) ltac:(apply EP) ltac:(fold PO; rewrite <- HPO64; exact HL)) as (x1 & -> & Ax1 & L1 & _). fold PO in L1. cbn [done rbind].
  assert (Hn26 : 0 <= n <= 2 ^ 26) by (clear - Hn Hn0 HP; lia).
  set (ax := Rabs (value x)) in *. assert (AX1 : (bpow radix2 (- m - 1) <= ax)%R) by (unfold m; rewrite Z.opp_involutive; exact X1). assert (AX2 : (ax <= bpow radix2 (- m))%R) by (unfold m; rewrite Z.opp_involutive; left; exact X2).
  assert (AX3 : (ax <= 1)%R). { eapply Rle_trans; [exact AX2|]. change 1%R with (bpow radix2 0). apply bpow_le. clear - Hm. lia. }
  destruct (arg_ok P PO ltac:(clear - HP HPO; lia) ltac:(apply HPO) HPO64 s x1 n ax Ax1 L1 Hn26) as (arg & -> & Harg & Larg).
  { split; [|exact AX3]. eapply Rle_trans; [|exact AX1]. apply bpow_le. clear - Hm. lia. }
  cbn [done rbind]. set (t := (ax / IZR (3 ^ n))%R) in *.
  (* the reduced argument *)
  pose proof (three_bounds n Hn0) as [T1 T2]. apply IZR_le in T1, T2. rewrite <- bpow_IZR in T1, T2 by (clear - Hn0; lia).
  assert (D0 : (0 < IZR (3 ^ n))%R) by (eapply Rlt_le_trans; [apply bpow_gt_0|exact T1]). pose proof (bpow_gt_0 radix2 (- m - 1)) as B0.
  assert (TL : (bpow radix2 (- m - 1 + - (2 * n)) <= t)%R). { unfold t. apply low_mul; [exact AX1|]. rewrite bpow_opp. apply Rinv_le; [exact D0|exact T2]. }
  assert (TU : (t <= / 8)%R).
  { unfold t. assert (I1 : (/ IZR (3 ^ n) <= bpow radix2 (- n))%R) by (rewrite bpow_opp; apply Rinv_le; [apply bpow_gt_0|exact T1]). assert (I0 : (0 < / IZR (3 ^ n))%R) by now apply Rinv_0_lt_compat.
    change (/ 8)%R with (bpow radix2 (-3)). apply Rle_trans with (bpow radix2 (- m) * bpow radix2 (- n))%R; [apply Rmult_le_compat; [lra|lra|exact AX2|exact I1]|]. rewrite <- bpow_plus. apply bpow_le. unfold m in *. clear - Hsn Hst. lia. }
  assert (T0 : (0 < t)%R) by (eapply Rlt_le_trans; [apply bpow_gt_0|exact TL]).
  pose proof Harg as (Wa & Na & Sa & La). set (A := Rabs (value arg)) in *. pose proof (lc_two _ _ _ (eps_quarter P 1 ltac:(apply HP) ltac:(clear; lia)) La) as [A1 A2].
  assert (AA : apx P s 0 A arg) by (rewrite <- Sa; now apply apx_self).
  assert (AL : (bpow radix2 (- m - 2 - 2 * n) <= A)%R). { replace (- m - 2 - 2 * n) with (- m - 1 + - (2 * n) + -1) by ring. rewrite bpow_plus. change (bpow radix2 (-1)) with (/ 2)%R. lra. }
  assert (A0 : (0 < A)%R) by lra. assert (AM : - HX <= - m - 2 - 2 * n + (- m - 2 - 2 * n)) by (unfold HX; clear - Hm Hn26; lia).
  assert (AAL : (bpow radix2 (- m - 2 - 2 * n + (- m - 2 - 2 * n)) <= A * A)%R) by now apply low_mul.
  assert (EPM : prec_up p_arg = prec_up PO) by (fold PO; congruence).
  destruct (apx_mul P p_arg RNone ltac:(rewrite EPM; exact HPP) ltac:(rewrite EPM; exact HL) _ _ _ _ _ _ _ _ AA AA ltac:(clear; lia)) as (xs & -> & Hxs & Lxs & _).
  { apply (mid_range (- m - 2 - 2 * n + (- m - 2 - 2 * n)) 0); [exact AM|vm_compute; discriminate|]. split; [exact AAL|]. change (bpow radix2 0) with 1%R. clear - A0 A2 TU. nra. }
  cbn [done rbind]. replace (sign_mul s s) with Pos in Hxs by (destruct s; reflexivity). fold PO in Lxs. pose proof Hxs as (Ws & Ns & Ss & Ls). set (X := Rabs (value xs)) in *.
  pose proof (lc_two _ _ _ (eps_quarter P (0 + 0 + 1) ltac:(apply HP) ltac:(clear; lia)) Ls) as [XA XB].
  assert (XU : (X <= / 8)%R) by (clear - XB A0 A2 TU; nra).
  assert (AX : apx P Pos 0 X xs) by (rewrite <- Ss; now apply apx_self).
  destruct (normal_range xs Ws Ns) as [R1 R2]. fold X in R1, R2.
  assert (E1 : ne xs <= -2). { assert (ne xs - 1 <= -3); [|lia]. apply (le_bpow radix2). eapply Rle_trans; [exact R1|exact XU]. }
  assert (E2 : 1 - ne xs <= 2 * m + 4 * n + 5). { assert (EX : - m - 2 - 2 * n + (- m - 2 - 2 * n) + -1 < ne xs); [|clear - EX; lia]. apply (lt_bpow radix2). eapply Rle_lt_trans; [|exact R2]. rewrite bpow_plus. change (bpow radix2 (-1)) with (/ 2)%R. lra. }
  assert (X0 : (0 < X)%R) by (eapply Rlt_le_trans; [apply bpow_gt_0|exact R1]).
  assert (FL : (bpow radix2 (- m - 2 - 2 * n + (ne xs - 1)) <= A * X)%R) by now apply low_mul.
  assert (FU : (A * X <= A / 2)%R) by (clear - A0 X0 XU; nra).
  destruct (apx_mul P p_arg RNone ltac:(rewrite EPM; exact HPP) ltac:(rewrite EPM; exact HL) _ _ _ _ _ _ _ _ AA AX ltac:(clear; lia)) as (xf & -> & Hxf & Lxf & _).
  { apply (mid_range (- m - 2 - 2 * n + (ne xs - 1)) 0); [unfold HX; clear - Hm Hn26 E2; lia|vm_compute; discriminate|]. split; [exact FL|]. change (bpow radix2 0) with 1%R. lra. }
  cbn [done rbind]. rewrite sign_mul_pos_r in Hxf. fold PO in Lxf.
  (* the sum *)
  eapply ends_bind.
  { apply (alt_run_ok P PO sin_gen sin_next (sin_at P) sC JMAX (2 ^ 26) (2 ^ 29 - 4) ltac:(clear - HP HPO; lia) ltac:(apply HPO) HPO64 ltac:(clear; lia) ltac:(clear; lia) sC_range sC_ratio) with (s := s) (k := 1) (A := A) (F := (A * X)%R).
    - exact sC_low4.
    - intros j g0 Hj HJ. destruct (sin_next_ok P HP22 HP64 j g0 Hj HJ) as (c & g' & Q1 & Q2 & Q3 & Q4). exists c, g'. split; [exact Q1|]. split; [exact Q2|]. split; [exact Q3|]. clear - Q4 HPO. lia.
    - exact Ws. - exact Ns. - exact Ss. - exact Lxs. - clear - E1. lia.
    - eapply apx_weak; [|exact AA]. clear. lia.
    - eapply apx_weak; [|exact Hxf]. clear. lia.
    - exact Larg. - exact Lxf. - exact Hgen.
    - clear. lia.
    - split; [eapply low_weak; [|exact FL]; clear - Hm Hn HP E2; lia|exact FU].
    - lra.
    - clear - Hni Hnt HP He1 Hn0 Hst He m. nia.
    - assert (Q1 : 1 - ne xs <= 4 * (e + 2)) by (unfold m in *; clear - E2 He1 Hst He Hn0; lia). assert (Q2 : 2 * niter * (1 - ne xs) <= 4 * P) by (clear - Q1 Hnt Hni; nia). clear - Q2 E2 Hn Hm HP. lia.
    - rewrite JMAX_Z. unfold J22. unfold m in *. clear - Hni Hnt HP He1 Hn0 Hst He. nia. }
  intros ret [(M & HM & Hret & Lret & Tail) Iret]. fold X in Hret, Tail.
  (* back to the sine *)
  set (b := sqrt X). assert (Bb : (b * b = X)%R) by (apply sqrt_sqrt; lra). assert (b0 : (0 < b)%R) by now apply sqrt_lt_R0. assert (b1 : (b <= / 2)%R) by (clear - Bb b0 XU; nra).
  pose proof (eps_pos P) as Ep.
  assert (LB : lc (IZR 1 * eps P) b A). { apply lc_sym. pose proof (lc_sqrt _ _ _ Ls) as Q. rewrite sqrt_square in Q by lra. fold b in Q. eapply lc_weak; [|exact Q]. change (IZR (0 + 0 + 1)) with 1%R. lra. }
  set (ps := psum sC (- X) 0 M) in *. assert (PS0 : (0 <= ps <= 1)%R). { unfold ps. pose proof (alt_range sC X sC_range sC_ratio ltac:(split; [exact X0|lra]) M 0). pose proof (sC_range 0). lra. }
  pose proof (sin_taylor b M ltac:(lra) HM) as TS. rewrite Bb in TS. fold ps in TS. set (T := (b - b * X * ps)%R) in *.
  assert (XP : (0 <= X * ps <= / 8)%R) by (split; [apply Rmult_le_pos; lra|apply Rle_trans with (/ 8 * 1)%R; [apply Rmult_le_compat; lra|lra]]).
  assert (TB : (b / 2 <= T)%R). { unfold T. rewrite Rmult_assoc. assert (b * (X * ps) <= b * / 8)%R by (apply Rmult_le_compat_l; lra). lra. }
  assert (LT : lc (IZR 512 * eps P) T (sin b)).
  { replace (IZR 512 * eps P)%R with (2 * (256 * eps P))%R by ring. apply lc_round; [lra|split; [lra|]; pose proof (eps_quarter P 512 ltac:(apply HP) ltac:(clear; lia)); lra|]. eapply Rle_trans; [exact TS|].
    assert (Q1 : (X * X ^ M * sC M <= 128 * eps P)%R). { apply Rmult_le_reg_l with A; [exact A0|]. replace (A * (X * X ^ M * sC M))%R with (A * X * X ^ M * sC M)%R by ring. replace (A * (128 * eps P))%R with (128 * eps P * A)%R by ring. exact Tail. }
    replace (b * X * X ^ M * sC M)%R with (b * (X * X ^ M * sC M))%R by ring. apply Rle_trans with (b * (128 * eps P))%R; [apply Rmult_le_compat_l; lra|]. assert (128 * eps P * (b / 2) <= 128 * eps P * T)%R by (apply Rmult_le_compat_l; lra). lra. }
  set (k0 := 2 ^ 8 * 1 + 2 ^ 47) in *. assert (K0 : k0 = 2 ^ 8 + 2 ^ 47) by reflexivity. clearbody k0.
  assert (LR2 : apx P s (2 + (512 + (1 + k0))) (sin t) ret).
  { destruct Hret as (Wr & Nr & Sr & Lr). split; [exact Wr|]. split; [exact Nr|]. split; [exact Sr|]. rewrite (plus_IZR 2), Rmult_plus_distr_r. eapply lc_trans with (sin b).
    - apply lc_sin; [lra|exact T0| |].
      + pose proof (exp_upper (2 * eps P) ltac:(pose proof (eps_quarter P 2 ltac:(apply HP) ltac:(clear; lia)); lra)) as EU. pose proof (exp_pos (2 * eps P)). pose proof (eps_quarter P 2 ltac:(apply HP) ltac:(clear; lia)). apply Rle_trans with (/ 8 * 2)%R; [apply Rmult_le_compat; lra|lra].
      + replace (2 * eps P)%R with (IZR 1 * eps P + IZR 1 * eps P)%R by ring. eapply lc_trans; [exact La|apply lc_sym; exact LB].
    - rewrite (plus_IZR 512), Rmult_plus_distr_r. eapply lc_trans; [apply lc_sym; exact LT|]. rewrite (plus_IZR 1), Rmult_plus_distr_r. eapply lc_trans; [|exact Lr].
      replace T with ((1 - X * ps) * b)%R by (unfold T; ring). replace (A - A * X * ps)%R with ((1 - X * ps) * A)%R by ring. apply lc_scale; [lra|exact LB]. }
  destruct (Z.ltb_spec 0 n) as [Z0|Z0].
  - unfold sin_arg_restore. rewrite max_len, Lret.
    assert (E3 : (IZR (3 ^ n) * t = ax)%R) by (unfold t; field; lra).
    destruct (sin_restore_ok P PO ltac:(clear - HP HPO; lia) ltac:(apply HPO) HPO64 s (Z.to_nat n) _ t ret LR2) as (q & -> & Rq & Lq & Iq).
    + rewrite K0. clear. lia. + rewrite K0. clear - Hn26. lia. + eapply low_weak; [|exact TL]. clear - Hm Hn HP. lia. + rewrite Z2Nat.id by exact Hn0. rewrite E3. exact AX3. + exact Lret. + exact Iret.
    + apply ends_ok. rewrite Z2Nat.id, E3 in Rq by exact Hn0. split; [eapply apx_weak; [|exact Rq]; rewrite K0; unfold KN; clear - Hn26; lia|]. split; [clear - Lq HPO; lia|exact Iq].
  - apply ends_ok. split; [|split; [clear - Lret HPO; lia|exact Iret]]. assert (n = 0) by (clear - Z0 Hn0; lia). subst n. replace t with ax in LR2 by (unfold t; change (IZR (3 ^ 0)) with 1%R; field). eapply apx_weak; [|exact LR2]. rewrite K0. unfold KN. clear. lia.
Qed.

(** ** The loop *)
Lemma sin_sign_abs r : (Rabs r <= 1)%R -> r <> 0%R -> sin (Rabs r) = Rabs (sin r) /\ (forall s, has_sign s r -> has_sign s (sin r)) /\ (Rabs (sin r) <= 1)%R.
Proof.
  intros H N. pose proof (SIN_bound r) as B. split; [|split; [|apply Rabs_le; lra]].
  - unfold Rabs. destruct (Rcase_abs r) as [R|R].
    + rewrite Rabs_left in H by exact R. pose proof (sin_pos1 (- r) ltac:(lra)) as S. rewrite sin_neg in *. destruct (Rcase_abs (sin r)); lra.
    + rewrite Rabs_pos_eq in H by lra. pose proof (sin_pos1 r ltac:(lra)) as S. destruct (Rcase_abs (sin r)); lra.
  - intros s. unfold has_sign. destruct s; cbn [sgnZ]; intros Q.
    + rewrite Rabs_left in H by lra. pose proof (sin_pos1 (- r) ltac:(lra)) as S. rewrite sin_neg in S. lra.
    + rewrite Rabs_pos_eq in H by lra. pose proof (sin_pos1 r ltac:(lra)) as S. lra.
Qed.
Section Loop.
Context (x0 : num) (p : Z) (rm : rmode) (h g : nat) (c : pi_cache).
Hypotheses (W0 : wf x0) (N0 : nonzero x0) (Hp : 0 < p) (Hp64 : p mod 64 = 0) (He : - 2 ^ 21 <= ne x0 <= 0).

Definition sin_post (o : prun num) : Prop :=
  match o with
  | None => True
  | Some (c', res) => c' = c /\ exists q, res = Ok q /\ elem_result (sin (value x0)) p rm q
  end.
Theorem sin_loop_ok B : 67 <= B -> - ne x0 <= B -> forall f w i a, p + 64 <= w -> w mod 64 = 0 -> 64 <= i -> i mod 64 = 0 -> 128 <= w -> 64 * wlen x0 <= w -> i <= 64 * (((w + i) / 5 + 63) / 64) -> 67 <= a <= B ->
  work f w i + B + 64 <= 2 ^ 20 -> sin_post (sin_loop f g h c x0 p rm w i a).
Proof.
  intros HB1 HB2. induction f as [|f IH]; intros w i a Hpw Hw64 Hi Hi64 Hw HLx Hii Ha HB; [exact I|].
  pose proof (work_ge (Datatypes.S f) w i ltac:(lia) ltac:(lia)) as HG.
  change (work (Datatypes.S f) w i) with (work f (w + i) (64 * (((w + i) / 5 + 63) / 64))) in HB, HG.
  pose proof (work_ge f (w + i) (64 * (((w + i) / 5 + 63) / 64)) ltac:(lia) ltac:(clear - Hw Hi; dlia)) as HG2.
  assert (PW : w + 64 <= prec_up (w + a) /\ w + a <= prec_up (w + a) <= w + a + 63) by (unfold prec_up; clear - Ha; dlia). set (PX := prec_up (w + a)) in *.
  assert (HPX : 128 <= PX <= 2 ^ 20) by (clear - PW Ha HB HG HG2 Hw Hi; lia). assert (PL : PX < P_LIM) by (apply Z.le_lt_trans with (2 ^ 20); [apply HPX|vm_compute; reflexivity]).
  assert (HX : argument x0 w x0). { pose proof (argument_start x0 W0 N0 ltac:(apply Z.lt_le_trans with (- 2 ^ 21); [vm_compute; reflexivity|apply He])) as (_ & H2 & _). split; [exact W0|]. split; [exact H2|]. split; [reflexivity|]. split; [reflexivity|exact HLx]. }
  cbn [sin_loop]. destruct (argument_len x0 w x0 (w + a) ltac:(lia) PL ltac:(lia) HX) as (y & -> & HY & Sy & Ly). fold PX in HY, Ly. cbn [ppure pbind]. pose proof HY as (Wy & Ny & Vy & Ey & _).
  unfold reduce_trig_arg, trig_arg_pi_proximity. rewrite !Ey. replace (2 <? ne x0) with false by (symmetry; apply Z.ltb_ge; clear - He; lia). cbn [ppure pbind]. rewrite !Ey. replace (0 <? ne x0) with false by (symmetry; apply Z.ltb_ge; clear - He; lia). cbn [ppure pbind]. change (Z.even 0) with true. cbn [andb].
  destruct (Z.ltb_spec a (Z.abs (ne x0))) as [T|T].
  - apply IH; auto; [clear - T Ha HB2 He; lia|]. eapply Z.le_trans; [|exact HB]. apply Z.add_le_mono_r, Z.add_le_mono_r. apply work_mono; lia.
  - destruct (normal_range y Wy Ny) as [_ Y2]. rewrite Ey, Vy in Y2. assert (V1 : (Rabs (value x0) <= 1)%R) by (left; eapply Rlt_le_trans; [exact Y2|]; change 1%R with (bpow radix2 0); apply bpow_le; apply He).
    pose proof (value_has_sign x0 W0 N0) as VS. assert (V0 : value x0 <> 0%R) by (intros Z; unfold has_sign in VS; rewrite Z in VS; lra).
    destruct (sin_sign_abs (value x0) V1 V0) as (SA & SS & S1). specialize (SS _ VS).
    pose proof (sin_series_ok g y PX (ns x0) HPX Wy Ny Sy Ly ltac:(rewrite Ey; exact He)) as EV. destruct EV as [->|(ret & -> & A & L & Ir)]; [exact I|]. rewrite Vy, SA in A. cbn [ppure pbind].
    destruct A as (Wr & Nr & Sr & LCr).
    assert (KB : 0 <= KN <= 2 ^ 58) by (split; vm_compute; discriminate).
    assert (LC2 : lc (IZR KN * eps (w + 64)) (Rabs (sin (value x0))) (Rabs (value ret))). { eapply lc_weak; [|exact LCr]. apply Rmult_le_compat_l; [apply IZR_le; apply KB|]. unfold eps. apply bpow_le. clear - PW. lia. }
    pose proof (accept_elem (sin (value x0)) ret p rm w KN Wr Nr Ir ltac:(clear - L PW; lia) ltac:(rewrite Sr; exact SS) LC2 KB Hp Hp64 Hw64 Hpw) as AE.
    destruct (try_set_precision ret p rm w) as [[q [|]]|[t| | |]|]; try contradiction; cbn [ppure pbind].
    + split; [reflexivity|]. eexists. split; [reflexivity|]. now apply elem_mark.
    + rewrite round_step by (clear - HG HG2 HB Hw Hi HB1; lia). apply IH; [lia| |clear - Hw Hi; dlia|rewrite Z.mul_comm; apply Z.mod_mul; lia|lia|lia| |exact Ha|exact HB].
      * clear - Hw64 Hi64. dlia.
      * assert (D : (w + i) / 5 <= (w + i + 64 * (((w + i) / 5 + 63) / 64)) / 5) by (apply Z.div_le_mono; [lia|]; clear - Hw Hi; dlia). assert ((((w + i) / 5 + 63) / 64) <= (((w + i + 64 * (((w + i) / 5 + 63) / 64)) / 5 + 63) / 64)) by (apply Z.div_le_mono; lia). lia.
    + exfalso. revert AE. now apply no_overflow.
Qed.
End Loop.

Theorem sin_ok f g h c x p rm : wf x -> nonzero x -> 0 < p -> (rm <> RNone \/ EMIN < ne x) -> ne x <= 0 ->
  work f (Z.max (prec_up p) (64 * wlen x) + 64) 64 + Z.max (prec_up p) (64 * wlen x) + 192 <= 2 ^ 20 ->
  match f_sin f g h c x p rm with
  | None => True
  | Some (c', res) => c' = c /\ exists q, res = Ok q /\ (elem_result (sin (value x)) (prec_up p) rm q \/ rounded_to (prec_up p) rm (ns x) (sin (value x)) q)
  end.
Proof.
  intros W N Hp HN He HB. change (Z.max (prec_up p) (64 * wlen x)) with (max64 (prec_up p) x) in HB. assert (P64 : 64 <= prec_up p) by (unfold prec_up; clear - Hp; dlia). assert (M1 : prec_up p <= max64 (prec_up p) x) by (unfold max64; lia). assert (M2 : 64 * wlen x <= max64 (prec_up p) x) by (unfold max64; lia).
  pose proof (work_ge f (max64 (prec_up p) x + 64) 64 ltac:(lia) ltac:(lia)) as HG. assert (PL : max64 (prec_up p) x + 64 < P_LIM) by (eapply Z.le_lt_trans with (2 ^ 20); [lia|vm_compute; reflexivity]).
  unfold f_sin. destruct (Z_lt_le_dec (max64 (prec_up p) x + 1) (- (ne x * 2 - 2))) as [S|S].
  - match goal with |- context [@odd_in ?A ?ok ?rest 2 true x p rm] => rewrite (@odd_in_small A ok rest (fun _ _ _ => Panic) 2 true x p rm W N Hp ltac:(lia) S) end. cbv beta. split; [reflexivity|]. destruct (sin_small (fun _ _ _ => Panic) x p rm W N Hp PL HN S) as (q & E & Q). unfold n_sin in E. exists q. split; [exact E|now right].
  - match goal with |- context [@odd_in ?A ?ok ?rest 2 true x p rm] => rewrite (@odd_in_rest A ok rest 2 true x p rm W N Hp ltac:(lia) S) end. cbv beta. change (mantissa_max_bit_len x) with (64 * wlen x). change (Z.max (prec_up p) (64 * wlen x)) with (max64 (prec_up p) x).
    pose proof (sin_loop_ok x (prec_up p) rm h g c W N ltac:(lia) (prec_up_mod p) ltac:(lia) (Z.max 67 (max64 (prec_up p) x)) ltac:(lia) ltac:(lia) f (max64 (prec_up p) x + 64) 64 67 ltac:(lia) (max_mod p x) ltac:(lia) eq_refl ltac:(lia) ltac:(lia) ltac:(clear - M1 P64; dlia) ltac:(lia) ltac:(lia)) as O. unfold sin_post in O.
    destruct (sin_loop f g h c x _ _ _ _ _) as [[c' res]|]; [|exact I]. destruct O as (-> & q & -> & Q). split; [reflexivity|]. exists q. split; [reflexivity|now left].
Qed.
