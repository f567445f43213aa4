(** The exponential of a nonnegative number: the fraction by the series, the integer part
    as a power of e, and their product. *)

From Coq Require Import ZArith List Bool Lia Reals Lra.
From Flocq Require Import Core Relative.
From Verif Require Import Words IntModel Mantissa Num Pow Consts Elem Series Exp SpecZ SpecOps SpecConst SpecReach SpecPow WordsP Spec RealP RealP2 NumP CmpP AddP SetP AddNum MulNum DivNum ArithTop IntNum ConvNum RootP RoundableNum PowNum PowTop ConstP SeriesP LoopP ConstNum ConstTop ConstReach ExtP PowExt ElemR ElemDom ApproxR ApproxNum SeriesNum SinhR SinhNum SinhTop.
Import ListNotations.
Open Scope Z_scope.
Ltac Zify.zify_post_hook ::= idtac.
Arguments Z.mul : simpl never.
Arguments Z.add : simpl never.
Arguments Z.pow : simpl never.
Arguments Z.sub : simpl never.
Arguments Z.of_nat : simpl never.
Ltac dlia := Z.div_mod_to_equations; lia.

(** ** Operations that may overflow *)
(** The result is within [k] units of [a], or [a] is that close to being too large; the
    overflow has the sign [t]. *)
Definition apx_or (P : Z) (t : sign) (k : Z) (a : R) (res : result num) : Prop :=
  match res with
  | Ok v => apx P Pos k a v /\ 64 * wlen v = P /\ ninexact v = true
  | Err (ExponentOverflow s) => s = t /\ (bpow radix2 EMAX <= a * exp (IZR k * eps P))%R
  | _ => False
  end.

Lemma rnd_lc P q rm r : 128 <= P <= q -> r <> 0%R -> lc (eps P) (Rabs r) (Rabs (rnd_prec q rm r)).
Proof.
  intros Hp NZ. assert (Hq : 0 < q) by lia. assert (Rp : (0 < Rabs r)%R) by now apply Rabs_pos_lt.
  pose proof (relative_error_FLX radix2 q Hq (rnd rm) r NZ) as RE. fold (rnd_prec q rm r) in RE.
  assert (E1 : (bpow radix2 (- q + 1) <= bpow radix2 (1 - P))%R) by (apply bpow_le; lia).
  assert (E2 : (bpow radix2 (1 - P) <= bpow radix2 (-1))%R) by (apply bpow_le; lia). change (bpow radix2 (-1)) with (/ 2)%R in E2.
  pose proof (bpow_ge_0 radix2 (1 - P)) as E0. replace (eps P) with (2 * bpow radix2 (1 - P))%R by (unfold eps; replace (2 - P) with (1 + (1 - P)) by ring; rewrite bpow_plus; reflexivity).
  clear - E0 E1 E2 RE Rp. apply lc_round; [exact Rp|lra|]. eapply Rle_trans; [apply Rabs_triang_inv2|]. eapply Rle_trans; [left; exact RE|]. apply Rmult_le_compat_r; [lra|exact E1].
Qed.
Lemma close_lc P p r a : 128 <= P <= p -> r <> 0%R -> close p r a -> lc (eps P) (Rabs r) (Rabs a).
Proof.
  intros HP NZ H. assert (Rp : (0 < Rabs r)%R) by now apply Rabs_pos_lt. unfold close in H.
  assert (E1 : (bpow radix2 (- (p + 64)) <= bpow radix2 (1 - P))%R) by (apply bpow_le; lia).
  assert (E2 : (bpow radix2 (1 - P) <= bpow radix2 (-1))%R) by (apply bpow_le; lia). change (bpow radix2 (-1)) with (/ 2)%R in E2.
  pose proof (bpow_ge_0 radix2 (1 - P)) as E0. replace (eps P) with (2 * bpow radix2 (1 - P))%R by (unfold eps; replace (2 - P) with (1 + (1 - P)) by ring; rewrite bpow_plus; reflexivity).
  clear - E0 E1 E2 H Rp. apply lc_round; [exact Rp|lra|]. eapply Rle_trans; [apply Rabs_triang_inv2|]. eapply Rle_trans; [exact H|]. rewrite Rmult_comm. apply Rmult_le_compat_r; [lra|exact E1].
Qed.
Lemma cut_wide P q rm r s ix res : correctly_rounded q rm r s ix res -> 128 <= P <= q -> (bpow radix2 EMIN <= Rabs r)%R ->
  (exists v, res = Ok v /\ wf v /\ normal v /\ ns v = s /\ 64 * wlen v = q /\ lc (eps P) (Rabs r) (Rabs (value v)) /\ (ix = true -> ninexact v = true)) \/
  (res = Err (ExponentOverflow s) /\ (bpow radix2 EMAX <= Rabs r * exp (eps P))%R).
Proof.
  intros C Hp R1. unfold correctly_rounded in C. cbv zeta in C. assert (Hq : 0 < q) by lia.
  pose proof (bpow_gt_0 radix2 EMIN) as G. assert (NZ : r <> 0%R). { intros ->. rewrite Rabs_R0 in R1. apply (Rlt_irrefl 0). eapply Rlt_le_trans; [exact G|exact R1]. }
  assert (Rp : (0 < Rabs r)%R) by now apply Rabs_pos_lt.
  pose proof (rnd_lc P q rm r Hp NZ) as LC.
  destruct C as [C0 C]. destruct (Rle_or_lt (bpow radix2 EMAX) (Rabs (rnd_prec q rm r))) as [O|O].
  - right. split; [exact (C0 O)|]. eapply Rle_trans; [exact O|]. destruct LC as (_ & _ & U). exact U.
  - left. assert (Z1 : (bpow radix2 EMIN <= Rabs (rnd_prec q rm r))%R). { unfold rnd_prec. apply abs_round_ge_generic; [apply FLX_exp_valid; exact Hq|apply rnd_valid| |exact R1]. apply generic_format_bpow. unfold FLX_exp. clear - Hq. lia. }
    destruct (C O) as (v & E & W & L & S & N & _ & _ & _ & I). destruct N as [V N]. { eapply Rle_trans; [|exact Z1]. apply bpow_le. vm_compute. discriminate. }
    exists v. split; [exact E|]. split; [exact W|]. split; [exact N|]. split; [exact S|]. split; [exact L|]. split; [|intros X; apply I; left; exact X]. rewrite V. exact LC.
Qed.

(** ** e^x for a fraction *)
Definition KF : Z := 2 ^ 41.
Theorem expf_ok g x P : 128 <= P <= 2 ^ 20 -> prec_up P = P -> wf x -> normal x -> ns x = Pos -> 64 * wlen x = P -> - 2 ^ 21 <= ne x <= 0 ->
  ends (expf g x) (fun q => apx P Pos KF (exp (value x)) q /\ 64 * wlen q = P /\ ninexact q = true).
Proof.
  intros HP HP64 W N S L He. unfold expf. rewrite max_len, L. pose proof (normal_range x W N) as [X1 X2]. pose proof (apx_self P x W N) as Ax. 
  pose proof (value_has_sign x W ltac:(apply N)) as VS. rewrite S in VS. unfold has_sign in VS. cbn [sgnZ] in VS. rewrite Rmult_1_l in VS. rewrite Rabs_pos_eq in X1, X2 by lra. set (u := value x) in *.
  assert (U1 : (u < 1)%R). { eapply Rlt_le_trans; [exact X2|]. change 1%R with (bpow radix2 0). apply bpow_le. lia. }
  assert (HPP : 128 <= P <= prec_up P) by lia. assert (HL : prec_up P < P_LIM). { rewrite HP64. eapply Z.le_lt_trans; [apply HP|]. vm_compute. reflexivity. }
  eapply ends_bind; [exact (sinh_series_ok g x P Pos HP HP64 W N S L He)|]. cbv beta. intros sh (A & Lsh & Ish). fold u in A. rewrite Rabs_pos_eq in A by lra.
  assert (SH1 : (u < sinh u)%R) by (apply sinh_gt; lra). assert (SH2 : (sinh u <= 4)%R). { pose proof (cosh_32 u ltac:(lra)). unfold sinh, cosh in *. pose proof (exp_pos (- u)). lra. }
  assert (SL : (bpow radix2 (- 2 ^ 21 - 1) <= sinh u)%R). { eapply Rle_trans; [|left; exact SH1]. eapply Rle_trans; [|exact X1]. apply bpow_le. lia. }
  assert (SL2 : (bpow radix2 ((- 2 ^ 21 - 1) + (- 2 ^ 21 - 1)) <= sinh u * sinh u)%R) by now apply low_mul. set (h := sinh u) in *.
  assert (MH : forall j a, (bpow radix2 j <= a)%R -> (a <= 1024)%R -> - HX <= j -> mid a) by (intros j a J1 J2 J; apply (mid_range j 10); [exact J|vm_compute; discriminate|split; assumption]).
  assert (B0 : bpow radix2 0 = 1%R) by reflexivity.
  destruct (apx_mul P P RNone HPP HL _ _ _ _ _ _ _ _ A A ltac:(vm_compute; discriminate)) as (sq & -> & A1 & _ & I1); [apply (MH _ _ SL2); [nra|vm_compute; discriminate]|]. cbn [bind sign_mul] in *.
  destruct (apx_add P P RNone HPP HL Pos (KS + KS + 1) (h * h) 1 sq ONE) as (sq2 & -> & A2 & _ & I2); [exact A1|eapply apx_weak; [|apply apx_ONE]; vm_compute; discriminate|vm_compute; discriminate|apply (MH 0); [rewrite B0|..|vm_compute; discriminate]; nra|]. cbn [bind].
  assert (SQ : (1 <= sqrt (h * h + 1) <= 17)%R). { split; [apply Rle_trans with (sqrt 1); [rewrite sqrt_1; lra|apply sqrt_le_1; nra]|]. rewrite <- (sqrt_square 17) by lra. apply sqrt_le_1; nra. }
  destruct (apx_sqrt P P RNone HPP HL _ _ _ A2 ltac:(vm_compute; discriminate) ltac:(vm_compute; discriminate)) as (sq3 & -> & A3 & _ & I3); [apply (MH 0); [rewrite B0|..|vm_compute; discriminate]; lra|]. cbn [bind].
  destruct (apx_add P P RFromZero HPP HL Pos (KS + KS + 1 + 1 + 1) (sqrt (h * h + 1)) h sq3 sh) as (q & -> & A4 & L4 & I4); [exact A3|eapply apx_weak; [|exact A]; vm_compute; discriminate|vm_compute; discriminate|apply (MH 0); [rewrite B0|..|vm_compute; discriminate]; lra|].
  unfold done. apply ends_ok. split; [|split; [lia|]].
  - eapply apx_weak; [|eapply apx_same; [|exact A4]]; [vm_compute; discriminate|]. unfold h. rewrite (exp_sinh u). ring.
  - apply I4. rewrite Ish. apply orb_true_r.
Qed.

(** ** The integer part: a power of e *)
Lemma exp_IZR n : 0 <= n -> exp (IZR n) = (exp 1 ^ Z.to_nat n)%R.
Proof.
  intros H. rewrite <- (Z2Nat.id n H) at 1. rewrite <- INR_IZR_INZ. generalize (Z.to_nat n). intros k. induction k as [|k IH]; [cbn [INR pow]; apply exp_0|]. rewrite S_INR, exp_plus, IH. cbn [pow]. ring.
Qed.
Lemma e_low : (9 / 4 <= exp 1)%R.
Proof. replace 1%R with (/ 2 + / 2)%R by field. rewrite exp_plus. pose proof (exp_ineq1_le (/ 2)). nra. Qed.
Lemma abs_nz a : (1 <= Rabs a)%R -> a <> 0%R.
Proof. intros H ->. rewrite Rabs_R0 in H. lra. Qed.
Lemma normal_one v : wf v -> (1 <= Rabs (value v))%R -> normal v.
Proof. intros W H. apply normal_iff; [exact W|]. eapply Rle_trans; [|exact H]. change 1%R with (bpow radix2 0). apply bpow_le. vm_compute. discriminate. Qed.

Lemma e_apx P y : 128 <= P -> const_result (exp 1) 2 P RNone y -> apx P Pos 2 (exp 1) y.
Proof.
  intros HP (W & L & S & I & (a & Ha & Va) & _). pose proof e_low as E. pose proof exp_le_3 as E3.
  assert (B : (bpow radix2 (2 - (P + 64)) <= bpow radix2 (1 - P))%R) by (apply bpow_le; lia). assert (B2 : (bpow radix2 (1 - P) <= bpow radix2 (-126))%R) by (apply bpow_le; lia).
  assert (B3 : (bpow radix2 (-126) <= / 1024)%R) by (change (/ 1024)%R with (bpow radix2 (-10)); apply bpow_le; lia). pose proof (bpow_ge_0 radix2 (1 - P)) as B0.
  assert (Q1 : lc (eps P) (exp 1) a).
  { replace (eps P) with (2 * bpow radix2 (1 - P))%R by (unfold eps; replace (2 - P) with (1 + (1 - P)) by ring; rewrite bpow_plus; reflexivity). apply lc_round; [lra|lra|]. rewrite Rabs_minus_sym. eapply Rle_trans; [left; exact Ha|]. nra. }
  assert (A2 : (2 <= a)%R). { apply Rabs_def2 in Ha as [Ha1 Ha2]. lra. }
  assert (Q2 : lc (eps P) a (Rabs (value y))). { rewrite Va. pose proof (rnd_lc P P RNone a ltac:(lia) ltac:(lra)) as Q. rewrite (Rabs_pos_eq a) in Q by lra. exact Q. }
  assert (Q : lc (IZR 2 * eps P) (exp 1) (Rabs (value y))) by (replace (IZR 2 * eps P)%R with (eps P + eps P)%R by ring; eapply lc_trans; eassumption).
  split; [exact W|]. split; [|split; [exact S|exact Q]]. apply normal_one; [exact W|]. pose proof (lc_two _ _ _ (eps_quarter P 2 HP ltac:(lia)) Q). lra.
Qed.

Lemma powi_loop_mono x n bp i p rm upd f : forall f' w d r, powi_loop f x n bp i p rm upd w d = Some r -> (f <= f')%nat -> powi_loop f' x n bp i p rm upd w d = Some r.
Proof.
  induction f as [|f IH]; intros f' w d r H L; [discriminate H|]. destruct f' as [|f']; [lia|]. cbn [powi_loop] in *. destruct (powi_map_err x n (powi_attempt x bp i (w + bp * 2))) as [v|e|]; auto.
  destruct ((ne v =? EXPONENT_MIN) && (precision v =? 1)); auto. destruct (try_set_precision v p rm w) as [[y [|]]|e|]; auto. apply IH; [exact H|lia].
Qed.
Lemma powi_mono x n p rm f f' r : n_powi f x n p rm = Some r -> (f <= f')%nat -> n_powi f' x n p rm = Some r.
Proof.
  unfold n_powi, powi_internal. destruct (n =? 0); auto. destruct (is_zero x || (n =? 1)); auto. destruct (top_bit_loop 64 n) as [bp i]. apply powi_loop_mono.
Qed.

Definition KI : Z := 2 ^ 33.
Lemma pow_low v n : (2 <= v)%R -> 0 <= n -> (bpow radix2 n <= v ^ Z.to_nat n)%R.
Proof. intros V H. pose proof (low_pow 1 v (Z.to_nat n) V) as L. rewrite Z2Nat.id, Z.mul_1_r in L by exact H. exact L. Qed.

Lemma powi_e g y n p P : 128 <= P <= 2 ^ 20 -> 0 < p -> prec_up p = P -> apx P Pos 2 (exp 1) y -> 64 * wlen y = P -> ninexact y = true -> 1 <= n < 2 ^ 64 ->
  n_powi g y n p RNone = None \/ exists res, n_powi g y n p RNone = Some res /\ apx_or P Pos KI (exp (IZR n)) res.
Proof.
  intros HP Hp HPp A L I Hn. assert (HL : P + 1024 < P_LIM) by (eapply Z.le_lt_trans; [apply Z.add_le_mono_r, HP|vm_compute; reflexivity]).
  assert (V2 : (2 <= value y)%R).
  { destruct A as (W & N & S & Q). pose proof (value_has_sign y W ltac:(apply N)) as VS. rewrite S in VS. unfold has_sign in VS. cbn [sgnZ] in VS. rewrite Rmult_1_l in VS. rewrite Rabs_pos_eq in Q by lra.
    assert (D : (0 <= IZR 2 * eps P <= / 1024)%R). { split; [pose proof (eps_pos P); lra|]. eapply Rle_trans; [apply eps_small; [lia|vm_compute; discriminate]|]. change (/ 1024)%R with (bpow radix2 (-10)). apply bpow_le. lia. }
    apply lc_abs in Q; [|lra]. apply Rabs_le_inv in Q. pose proof e_low. pose proof exp_le_3. nra. }
  destruct (Z.eq_dec n 1) as [->|N1].
  { right. unfold n_powi, powi_internal. change (1 =? 0) with false. change (1 =? 1) with true. rewrite orb_true_r. cbv iota. eexists. split; [reflexivity|]. rewrite round_p_eq by (rewrite ?HPp; lia). fold (prec_up p). rewrite HPp.
    assert (PP : prec_up P = P) by (rewrite <- HPp; unfold prec_up; clear; dlia). destruct (apx_len P Pos 2 (exp 1) y P A ltac:(lia) ltac:(lia) ltac:(rewrite PP; lia)) as (q & -> & A1 & L1 & _ & I1). 
    split; [|split; [lia|congruence]]. eapply apx_weak; [|exact A1]. vm_compute. discriminate. }
  pose proof A as (W & N & S & Q). assert (NZ : nonzero y) by apply N. assert (R1 : (1 <= value y ^ Z.to_nat n)%R) by (apply pow_R1_Rle; lra). set (r := (value y ^ Z.to_nat n)%R) in *.
  assert (RL : (bpow radix2 (EMIN - 1) <= Rabs r)%R). { rewrite Rabs_pos_eq by lra. eapply Rle_trans; [|exact R1]. change 1%R with (bpow radix2 0). apply bpow_le. vm_compute. discriminate. }
  destruct (Z.lt_ge_cases n (2 ^ 31)) as [HB|HB].
  - destruct (powi_spec y n p RNone W NZ ltac:(lia) Hp) as (f0 & res & PP & F); [rewrite HPp; lia|rewrite L; apply Z.le_lt_trans with (2 * 2 ^ 31 * 2 ^ 20 + 384); [nia|vm_compute; reflexivity]|exact RL|]. rewrite HPp in PP.
    destruct (n_powi g y n p RNone) as [r0|] eqn:E; [|now left]. right. exists r0. split; [reflexivity|]. pose proof (powi_mono _ _ _ _ g (Nat.max g f0) _ E ltac:(lia)) as E1. rewrite (F (Nat.max g f0) ltac:(lia)) in E1. injection E1 as <-.
    rewrite Rabs_pos_eq in Q by lra. apply (lc_pow _ _ _ (Z.to_nat n)) in Q. fold r in Q. rewrite <- exp_IZR in Q by lia. rewrite INR_IZR_INZ, Z2Nat.id in Q by lia.
    assert (K : forall a, close P r a -> lc (IZR KI * eps P) (exp (IZR n)) (Rabs (rnd_prec P RNone a)) /\ (1 / 4 <= Rabs a)%R).
    { intros a C. pose proof (close_lc P P r a ltac:(lia) ltac:(lra) C) as C1. rewrite (Rabs_pos_eq r) in C1 by lra. assert (A4 : (1 / 4 <= Rabs a)%R). { assert (U : (eps P <= 1)%R) by (rewrite <- (Rmult_1_l (eps P)); apply (eps_one P 1); [lia|vm_compute; discriminate]). pose proof (lc_factor _ _ _ U C1). lra. }
      split; [|exact A4]. assert (A0 : a <> 0%R) by (intros ->; rewrite Rabs_R0 in A4; lra). pose proof (rnd_lc P P RNone a ltac:(lia) A0) as C2.
      apply (lc_weak (IZR n * (IZR 2 * eps P) + (eps P + eps P))); [|eapply lc_trans; [exact Q|eapply lc_trans; eassumption]]. replace (IZR n * (IZR 2 * eps P) + (eps P + eps P))%R with (IZR (2 * n + 2) * eps P)%R by (rewrite plus_IZR, mult_IZR; ring).
      apply Rmult_le_compat_r; [left; apply eps_pos|]. apply IZR_le. unfold KI. clear - HB. change (2 ^ 33) with (4 * 2 ^ 31). lia. }
    unfold power_post in PP. fold r in PP. destruct res as [q|e|]; [| |contradiction].
    + destruct PP as (Wq & Lq & Sq & (a & Ca & Va) & _ & Iq & _). destruct (K a Ca) as [K1 K2]. rewrite <- Va in K1. split; [|split; [exact Lq|exact (Iq I)]]. split; [exact Wq|].
      assert (Sq' : ns q = Pos). { unfold has_sign in Sq. destruct (ns q); [|reflexivity]. cbn [sgnZ] in Sq. exfalso. lra. }
      split; [|split; [exact Sq'|exact K1]]. assert (E9 : (2 <= exp (IZR n))%R). { pose proof (exp_ineq1_le (IZR n)). assert (1 <= IZR n)%R by (apply IZR_le; lia). lra. }
      apply normal_one; [exact Wq|]. pose proof (lc_two _ _ _ (eps_quarter P KI ltac:(lia) ltac:(vm_compute; discriminate)) K1). lra.
    + destruct PP as ((s & Hs & ->) & a & Ca & Va). destruct (K a Ca) as [(_ & _ & K1) _]. cbn [apx_or]. split; [unfold has_sign in Hs; destruct s; [|reflexivity]; cbn [sgnZ] in Hs; exfalso; lra|]. eapply Rle_trans; [exact Va|exact K1].
  - destruct g as [|g]; [left; unfold n_powi, powi_internal; replace (n =? 0) with false by lia; replace (n =? 1) with false by lia; rewrite is_zero_spec by auto; replace (magnitude y =? 0) with false by (symmetry; apply Z.eqb_neq; exact NZ); cbn [orb]; destruct (top_bit_loop 64 n); reflexivity|].
    right. unfold n_powi, powi_internal. rewrite round_p_eq by (rewrite ?HPp; lia). fold (prec_up p). rewrite HPp. replace (n =? 0) with false by lia. rewrite is_zero_spec by auto. replace (magnitude y =? 0) with false by (symmetry; apply Z.eqb_neq; exact NZ). replace (n =? 1) with false by lia. cbn [orb].
    rewrite (top_bit_spec 64 n n ltac:(lia) ltac:(change (Z.of_nat 64) with 64; lia) ltac:(change (64 - Z.of_nat 64) with 0; rewrite Z.pow_0_r; lia)).
    rewrite max_len, L, Z.max_id. assert (P64 : P mod 64 = 0) by (rewrite <- HPp; unfold prec_up; rewrite Z.mul_comm; apply Z.mod_mul; lia).
    assert (L63 : Z.log2 n < 64) by (apply Z.log2_lt_pow2; lia). pose proof (attempt_spec y n (P + 64) W NZ ltac:(lia) ltac:(lia) ltac:(clear - P64; dlia)) as AS. cbv zeta in AS.
    pose proof (prec_up_ge (P + 64 + Z.log2 n * 2)) as PG. specialize (AS ltac:(lia) RL). cbn [powi_loop].
    destruct (powi_attempt y (Z.log2 n) (n * 2 ^ (64 - Z.log2 n) - 2 ^ 64) (P + 64 + Z.log2 n * 2)) as [q|e|]; [|destruct AS as [(s & ->) _]|contradiction].
    + exfalso. destruct AS as (Wq & _ & Nq & _ & _ & G & _). unfold pow_real in G. fold r in G. pose proof (value_lt_max q Wq) as M. pose proof (pow_low (value y) n V2 ltac:(lia)) as PL. fold r in PL.
      assert (EM : (bpow radix2 EMAX <= bpow radix2 n)%R) by (apply bpow_le; lia). rewrite (Rabs_pos_eq r) in G by lra. apply (Rlt_irrefl (bpow radix2 EMAX)). eapply Rle_lt_trans; [|exact M]. eapply Rle_trans; [exact EM|]. eapply Rle_trans; [exact PL|exact G].
    + cbn [powi_map_err]. unfold is_negative. rewrite S. cbn [is_pos negb andb]. eexists. split; [reflexivity|]. cbn [apx_or]. split; [reflexivity|]. rewrite exp_IZR by lia. pose proof (pow_low (exp 1) n ltac:(pose proof e_low; lra) ltac:(lia)) as PL.
      assert (EM : (bpow radix2 EMAX <= bpow radix2 n)%R) by (apply bpow_le; lia). eapply Rle_trans; [exact EM|]. eapply Rle_trans; [exact PL|]. rewrite <- (Rmult_1_r (exp 1 ^ _)) at 1. apply Rmult_le_compat_l; [apply pow_le; left; apply exp_pos|]. apply exp_ge1. apply Rmult_le_pos; [apply IZR_le; vm_compute; discriminate|left; apply eps_pos].
Qed.

(** ** Integer and fraction *)
Lemma abs_split x : wf x -> Rabs (value x) = (IZR (magnitude x) * bpow radix2 (ne x - 64 * wlen x))%R /\ (0 <= IZR (magnitude x))%R.
Proof.
  intros W. assert (M : (0 <= IZR (magnitude x))%R) by (apply IZR_le; apply val_nonneg; apply (wf_words x W)). split; [|exact M]. pose proof (bpow_ge_0 radix2 (ne x - 64 * wlen x)) as B.
  rewrite value_split, Rabs_mult, (Rabs_pos_eq (_ * _)) by (apply Rmult_le_pos; assumption). replace (Rabs (sgnR (ns x))) with 1%R; [ring|]. destruct (sgnR_cases (ns x)) as [->| ->]; [symmetry; apply Rabs_R1|rewrite Rabs_left; lra].
Qed.
Lemma int_as_usize_ok x : wf x -> nonzero x -> ne x <= 64 -> int_as_usize x = Ok (Zfloor (Rabs (value x))) /\ 0 <= Zfloor (Rabs (value x)) < 2 ^ 64.
Proof.
  intros W N He. destruct (abs_split x W) as [V M]. pose proof (Rabs_pos (value x)) as A0.
  assert (B : 0 <= Zfloor (Rabs (value x)) < 2 ^ 64).
  { split; [apply Zfloor_lub; exact A0|]. apply lt_IZR. eapply Rle_lt_trans; [apply Zfloor_lb|]. eapply Rlt_le_trans; [apply value_lt_bpow; assumption|]. change (IZR (2 ^ 64)) with (bpow radix2 64). apply bpow_le. exact He. }
  split; [|exact B]. unfold int_as_usize. destruct (Z.ltb_spec 0 (ne x)) as [H|H].
  - replace (ne x <=? 64) with true by lia. f_equal. destruct (pos_exp_normal x W H) as (_ & _ & L & _). unfold wlen in L. rewrite znth_top by (auto; apply (wf_words x W)). fold (magnitude x) (wlen x). fold (wlen x) in L.
    rewrite V. replace (ne x - 64 * wlen x) with (- (64 * wlen x - ne x)) by ring. rewrite Zfloor_scaled by lia. rewrite Z.div_div by (try apply Z.pow_nonzero; try apply Z.pow_pos_nonneg; lia). rewrite <- Z.pow_add_r by lia. f_equal. f_equal. lia.
  - f_equal. symmetry. apply Zfloor_imp. cbn [IZR]. split; [exact A0|]. eapply Rlt_le_trans; [apply value_lt_bpow; assumption|]. change (IZR (0 + 1)) with (bpow radix2 0). apply bpow_le. exact H.
Qed.
Lemma fract_ok x : wf x -> 64 * wlen x <= 2 ^ 31 -> wf (n_fract x) /\ wlen (n_fract x) = wlen x /\ Rabs (value (n_fract x)) = (Rabs (value x) - IZR (Zfloor (Rabs (value x))))%R.
Proof.
  intros W HL. pose proof (fract_spec x W HL) as F. cbv zeta in F. destruct F as (Wq & Lq & _ & _ & Vq). split; [exact Wq|]. split; [exact Lq|]. rewrite Vq. rewrite (PowNum.value_sgn x W) at 1 2. rewrite frac_sgn by apply Rabs_pos. rewrite Rabs_mult.
  replace (Rabs (sgnR (ns x))) with 1%R by (destruct (sgnR_cases (ns x)) as [->| ->]; [symmetry; apply Rabs_R1|rewrite Rabs_left; lra]). rewrite Rmult_1_l. apply Rabs_pos_eq. pose proof (Zfloor_lb (Rabs (value x))). lra.
Qed.
(** A fraction that is not zero is at least one unit in the last place. *)
Lemma fract_low x : wf x -> (0 < Rabs (value x) - IZR (Zfloor (Rabs (value x))))%R -> (bpow radix2 (ne x - 64 * wlen x) <= Rabs (value x) - IZR (Zfloor (Rabs (value x))))%R.
Proof.
  intros W F. destruct (abs_split x W) as [V M]. set (e := ne x - 64 * wlen x) in *. set (u := Rabs (value x)) in *. destruct (Z.le_gt_cases 0 e) as [E|E].
  - exfalso. rewrite V in F. rewrite bpow_IZR, <- mult_IZR, Zfloor_IZR in F by exact E. lra.
  - assert (X : (u - IZR (Zfloor u) = IZR (magnitude x - Zfloor u * 2 ^ (- e)) * bpow radix2 e)%R).
    { rewrite minus_IZR, mult_IZR, <- bpow_IZR by lia. rewrite Rmult_minus_distr_r, <- V, Rmult_assoc, <- bpow_plus. replace (- e + e) with 0 by ring. change (bpow radix2 0) with 1%R. ring. }
    rewrite X in *. pose proof (bpow_gt_0 radix2 e) as B. assert (K : 0 < magnitude x - Zfloor u * 2 ^ (- e)). { apply lt_IZR. apply Rmult_lt_reg_r with (bpow radix2 e); [exact B|]. rewrite Rmult_0_l. exact F. }
    rewrite <- (Rmult_1_l (bpow radix2 e)) at 1. apply Rmult_le_compat_r; [left; exact B|]. apply IZR_le. lia.
Qed.

(** ** The product *)
Definition KE : Z := 2 ^ 42.
Lemma mul_wide P p v w a b j k : 128 <= P -> 0 < p -> prec_up p = P -> P < P_LIM -> apx P Pos j a v -> apx P Pos k b w -> 0 <= j -> 0 <= k -> j + k + 1 <= KE -> (1 <= a)%R -> (1 <= b)%R -> ninexact v || ninexact w = true ->
  apx_or P Pos KE (a * b) (n_mul v w p RFromZero).
Proof.
  intros HP Hp HPp HL Av Aw Hj Hk HK A1 B1 I. pose proof (apx_nonzero _ _ _ _ _ Av) as Nv. pose proof (apx_nonzero _ _ _ _ _ Aw) as Nw. destruct Av as (Wv & _ & Sv & Lv). destruct Aw as (Ww & _ & Sw & Lw).
  pose proof (mul_nonzero v w p RFromZero Wv Ww Nv Nw Hp ltac:(lia)) as C. rewrite HPp, Sv, Sw in C. cbn [sign_mul] in C. pose proof (lc_mul _ _ _ _ _ _ Lv Lw) as LM. rewrite <- Rabs_mult in LM.
  assert (E60 : KE <= 2 ^ 60) by (vm_compute; discriminate). replace (IZR j * eps P + IZR k * eps P)%R with (IZR (j + k) * eps P)%R in LM by (rewrite plus_IZR; ring).
  pose proof (lc_factor _ _ _ (eps_one P (j + k) HP ltac:(lia)) LM) as [F _]. set (r := (value v * value w)%R) in *. assert (R4 : (1 / 4 <= Rabs r)%R) by nra.
  assert (RL : (bpow radix2 EMIN <= Rabs r)%R). { eapply Rle_trans; [|exact R4]. replace (1 / 4)%R with (bpow radix2 (-2)) by (change (bpow radix2 (-2)) with (/ 4)%R; field). apply bpow_le. vm_compute. discriminate. }
  assert (EK : (IZR (j + k) * eps P + eps P <= IZR KE * eps P)%R). { replace (IZR (j + k) * eps P + eps P)%R with (IZR (j + k + 1) * eps P)%R by (rewrite (plus_IZR (j + k)); ring). apply Rmult_le_compat_r; [left; apply eps_pos|]. apply IZR_le. exact HK. }
  destruct (cut_wide P P _ _ _ _ _ C ltac:(lia) RL) as [(q & -> & Wq & Nq & Sq & Lq & Cq & Iq)|(-> & O)]; cbn [apx_or].
  - split; [|split; [exact Lq|exact (Iq I)]]. split; [exact Wq|]. split; [exact Nq|]. split; [exact Sq|]. eapply lc_weak; [exact EK|]. eapply lc_trans; [exact LM|exact Cq].
  - split; [reflexivity|]. eapply Rle_trans; [exact O|]. destruct LM as (A0 & _ & U). apply Rle_trans with (a * b * exp (IZR (j + k) * eps P) * exp (eps P))%R; [apply Rmult_le_compat_r; [left; apply exp_pos|exact U]|].
    rewrite Rmult_assoc, <- exp_plus. apply Rmult_le_compat_l; [lra|]. apply exp_mono. exact EK.
Qed.

Theorem exp_positive_ok g c x w : 64 <= w -> w mod 64 = 0 -> w + 64 <= 2 ^ 20 -> wf x -> nonzero x -> 64 * wlen x + 64 <= w -> - w <= ne x -> reachable e_new e_for_prec c ->
  exp_positive_arg g c x (w + 2) = None \/
  exists c' res t, exp_positive_arg g c x (w + 2) = Some (c', res) /\ reachable e_new e_for_prec c' /\ (t = Pos \/ t = ns x) /\ apx_or (w + 64) t KE (exp (Rabs (value x))) res.
Proof.
  intros Hw Hw64 HwB W N HL He Hc. set (P := w + 64) in *. assert (HP : 128 <= P <= 2 ^ 20) by lia. assert (PP : prec_up P = P) by (unfold prec_up, P; clear - Hw64; dlia).
  assert (P2 : prec_up (w + 2) = P) by (unfold prec_up, P; clear - Hw64; dlia). assert (P6 : prec_up (w + 2 + 4) = P) by (unfold prec_up, P; clear - Hw64; dlia). assert (HPL : P + 1024 < P_LIM) by (eapply Z.le_lt_trans; [apply Z.add_le_mono_r, HP|vm_compute; reflexivity]).
  unfold exp_positive_arg. destruct (Z.ltb_spec 64 (ne x)) as [B|B].
  { right. exists c, (Err (ExponentOverflow (ns x))), (ns x). split; [reflexivity|]. split; [exact Hc|]. split; [right; reflexivity|]. cbn [apx_or]. split; [reflexivity|].
    destruct (pos_exp_normal x W ltac:(lia)) as (NN & _). pose proof (normal_range x W NN) as [X1 _]. assert (X2 : (IZR (2 ^ 64) <= Rabs (value x))%R). { eapply Rle_trans; [|exact X1]. change (IZR (2 ^ 64)) with (bpow radix2 64). apply bpow_le. lia. }
    apply exp_mono in X2. rewrite exp_IZR in X2 by (vm_compute; discriminate). pose proof (pow_low (exp 1) (2 ^ 64) ltac:(pose proof e_low; lra) ltac:(vm_compute; discriminate)) as PL.
    assert (EM : (bpow radix2 EMAX <= bpow radix2 (2 ^ 64))%R) by (apply bpow_le; vm_compute; discriminate). eapply Rle_trans; [exact EM|]. eapply Rle_trans; [exact PL|]. eapply Rle_trans; [exact X2|]. rewrite <- (Rmult_1_r (exp (Rabs _))) at 1.
    apply Rmult_le_compat_l; [left; apply exp_pos|]. apply exp_ge1. apply Rmult_le_pos; [apply IZR_le; vm_compute; discriminate|left; apply eps_pos]. }
  destruct (int_as_usize_ok x W N B) as [Ei Bi]. rewrite Ei. set (u := Rabs (value x)) in *. set (i := Zfloor u) in *. assert (U0 : (0 < u)%R) by (apply value_pos; assumption).
  destruct (fract_ok x W ltac:(lia)) as (Wf & Lf & Vf). fold u i in Vf. pose proof (Zfloor_lb u) as F1. pose proof (Zfloor_ub u) as F2. fold i in F1, F2. set (fr := n_fract x) in *.
  assert (FR : ends (if is_zero fr then Some (Ok ONE) else rbind (done (set_precision (set_inexact fr false) (w + 2 + 4) RNone)) (fun y => expf g (set_sign y Pos)))
    (fun q => apx P Pos KF (exp (u - IZR i)) q /\ (ninexact q = true \/ (u = IZR i /\ ninexact q = false)))).
  { rewrite is_zero_spec by exact Wf. destruct (Z.eqb_spec (magnitude fr) 0) as [Z0|Z0].
    - apply ends_ok. rewrite (value_zero fr Z0), Rabs_R0 in Vf. assert (E : u = IZR i) by lra. split; [|right; split; [exact E|reflexivity]]. rewrite E, Rminus_diag_eq, exp_0 by reflexivity. eapply apx_weak; [|apply apx_ONE]. vm_compute. discriminate.
    - assert (V0 : (0 < Rabs (value fr))%R) by (apply value_pos; assumption). rewrite Vf in V0. pose proof (fract_low x W V0) as V1. fold u i in V1. set (fr0 := set_inexact fr false). assert (W0 : wf fr0) by (apply wf_inexact; exact Wf).
      assert (Vf0 : Rabs (value fr0) = (u - IZR i)%R) by exact Vf. assert (N0 : normal fr0). { apply normal_iff; [exact W0|]. rewrite Vf0. eapply Rle_trans; [|exact V1]. apply bpow_le. lia. }
      destruct (apx_len P (ns fr0) 0 _ fr0 (w + 2 + 4) (apx_self P fr0 W0 N0)) as (y & -> & (Wy & Ny & Sy & _) & Ly & Vy & _); [change (wlen fr0) with (wlen fr); lia|lia|lia|]. cbn [done rbind].
      assert (VY : value (set_sign y Pos) = (u - IZR i)%R). { rewrite value_set_sign, Sy, Vy. rewrite <- Vf0, (PowNum.value_sgn fr0 W0) at 1. unfold sgnR. destruct (ns fr0); cbn [sgnZ]; ring. }
      assert (NY : normal (set_sign y Pos)) by exact Ny. assert (WY : wf (set_sign y Pos)) by now apply wf_set_sign. pose proof (normal_range _ WY NY) as [R1 R2]. rewrite VY, Rabs_pos_eq in R1, R2 by lra.
      assert (E1 : ne x - 64 * wlen x < ne (set_sign y Pos)) by (apply (lt_bpow radix2); eapply Rle_lt_trans; eassumption). assert (E2 : ne (set_sign y Pos) - 1 < 0) by (apply (lt_bpow radix2); change (bpow radix2 0) with 1%R; lra).
      eapply ends_weak; [apply (expf_ok g (set_sign y Pos) P HP PP WY NY eq_refl); [change (wlen (set_sign y Pos)) with (wlen y); lia|lia]|]. cbv beta. rewrite VY. intros q (Q1 & _ & Q2). split; [exact Q1|left; exact Q2]. }
  assert (FIN : forall c' e_int, reachable e_new e_for_prec c' -> apx P Pos KI (exp (IZR i)) e_int -> (ninexact e_int = true \/ i = 0) ->
    let r := with_cache c' (rbind (if is_zero fr then Some (Ok ONE) else rbind (done (set_precision (set_inexact fr false) (w + 2 + 4) RNone)) (fun y => expf g (set_sign y Pos))) (fun e_fract => done (n_mul e_int e_fract (w + 2) RFromZero))) in
    r = None \/ exists c' res t, r = Some (c', res) /\ reachable e_new e_for_prec c' /\ (t = Pos \/ t = ns x) /\ apx_or P t KE (exp u) res).
  { intros c' e_int Hc' Ae Ie r. unfold r. destruct FR as [-> |(q & -> & Q1 & Q2)]; [left; reflexivity|]. cbn [rbind done with_cache]. right. exists c', (n_mul e_int q (w + 2) RFromZero), Pos. split; [reflexivity|]. split; [exact Hc'|]. split; [left; reflexivity|].
    replace (exp u) with (exp (IZR i) * exp (u - IZR i))%R by (rewrite <- exp_plus; f_equal; ring). apply (mul_wide P (w + 2) e_int q _ _ KI KF); try assumption; try lia; try (vm_compute; discriminate).
    - apply exp_ge1. apply IZR_le. lia.
    - apply exp_ge1. lra.
    - destruct Q2 as [->|[Q2 _]]; [apply orb_true_r|]. destruct Ie as [->|I0]; [reflexivity|]. exfalso. rewrite I0 in Q2. lra. }
  destruct (Z.ltb_spec 0 i) as [Hi|Hi].
  - destruct (e_num_ok c (w + 2 + 4) Hc ltac:(lia) ltac:(lia)) as (c1 & y & -> & Hc1 & Hy). rewrite P6 in Hy. pose proof (e_apx P y ltac:(lia) Hy) as Ay. destruct Hy as (_ & Ly & _ & Iy & _).
    destruct (powi_e g y i (w + 2 + 4) P HP ltac:(lia) P6 Ay Ly Iy ltac:(lia)) as [-> |(res & -> & Hres)]; [left; reflexivity|]. cbn [with_cache].
    destruct res as [e_int|e|]; [| |contradiction].
    + destruct Hres as (R1 & _ & R3). apply FIN; [exact Hc1|exact R1|left; exact R3].
    + right. exists c1, (Err e), Pos. split; [reflexivity|]. split; [exact Hc1|]. split; [left; reflexivity|]. destruct e as [s| | |]; try contradiction. destruct Hres as [-> R1]. split; [reflexivity|]. eapply Rle_trans; [exact R1|]. 
      apply Rmult_le_compat; [left; apply exp_pos|left; apply exp_pos|apply exp_mono; lra|]. apply exp_mono. apply Rmult_le_compat_r; [left; apply eps_pos|]. apply IZR_le. vm_compute. discriminate.
  - apply FIN; [exact Hc| |right; lia]. assert (I0 : i = 0) by lia. rewrite I0, exp_0. eapply apx_weak; [|apply apx_ONE]. vm_compute. discriminate.
Qed.
