(** Pi up to 2048 bits: the Chudnovsky value and pi agree to 2183 bits, and the
    rounding boundaries of the word precisions are far from pi. *)

From Coq Require Import ZArith List Bool Lia Reals Lra Machin.
From Flocq Require Import Core.
From Verif Require Import ApproxR SinhR SeriesNum LnR Words Mantissa Num Consts SpecZ Spec SpecConst SpecReach RealP ConstP LoopP ConstNum ConstTop ConstReach PiP AtanR PiCheck.
Import ListNotations.
Open Scope Z_scope.
Ltac Zify.zify_post_hook ::= idtac.
Arguments Z.mul : simpl never.
Arguments Z.add : simpl never.
Arguments Z.pow : simpl never.
Arguments Z.sub : simpl never.
Arguments Z.of_nat : simpl never.

(** ** The sums in fixed point *)
Lemma div_floor a d : 0 < d -> (Rabs (IZR (a / d) - IZR a / IZR d) <= 1)%R.
Proof.
  intros H. assert (D : (0 < IZR d)%R) by (apply IZR_lt; exact H). pose proof (Z.div_mod a d ltac:(lia)) as E. pose proof (Z.mod_pos_bound a d H) as B. set (q := a / d) in *. set (r := a mod d) in *. clearbody q r. subst a.
  rewrite plus_IZR, mult_IZR. replace (IZR q - (IZR d * IZR q + IZR r) / IZR d)%R with (- (IZR r / IZR d))%R by (field; lra). rewrite Rabs_Ropp. destruct B as [B1 B2]. apply IZR_le in B1. apply IZR_lt in B2.
  rewrite Rabs_pos_eq by (apply Rmult_le_pos; [exact B1|left; now apply Rinv_0_lt_compat]). apply Rmult_le_reg_r with (IZR d); [exact D|]. unfold Rdiv. rewrite Rmult_assoc, Rinv_l by lra. lra.
Qed.
Lemma near_div P X d e : 1 <= d -> (Rabs (IZR P - X) <= e)%R -> (Rabs (IZR (P / d) - X / IZR d) <= 1 + e / IZR d)%R.
Proof.
  intros H E. assert (D : (1 <= IZR d)%R) by (apply IZR_le; exact H). pose proof (div_floor P d ltac:(lia)) as F. replace (IZR (P / d) - X / IZR d)%R with ((IZR (P / d) - IZR P / IZR d) + (IZR P - X) / IZR d)%R by (field; lra).
  eapply Rle_trans; [apply Rabs_triang|]. apply Rplus_le_compat; [exact F|]. unfold Rdiv. rewrite Rabs_mult, (Rabs_pos_eq (/ IZR d)) by (left; apply Rinv_0_lt_compat; lra). apply Rmult_le_compat_r; [left; apply Rinv_0_lt_compat; lra|exact E].
Qed.
Fixpoint at_T (n : nat) (m2 X d : R) : R := match n with O => 0%R | S n => (X / d - at_T n m2 (X / m2) (d + 2))%R end.
Lemma at_sum_near n m2 : 2 <= m2 -> forall P d X, 1 <= d -> (Rabs (IZR P - X) <= 2)%R -> (Rabs (IZR (at_sum n m2 P d) - at_T n (IZR m2) X (IZR d)) <= 3 * INR n)%R.
Proof.
  intros Hm. assert (M : (2 <= IZR m2)%R) by (apply IZR_le; exact Hm). induction n as [|n IH]; intros P d X Hd H.
  - cbn [at_sum at_T INR]. rewrite Rminus_0_r, Rabs_R0. lra.
  - cbn [at_sum at_T]. rewrite S_INR. pose proof (near_div P X d 2 Hd H) as A. pose proof (near_div P X m2 2 ltac:(lia) H) as B. assert (D : (1 <= IZR d)%R) by (apply IZR_le; exact Hd).
    assert (A2 : (2 / IZR d <= 2)%R). { apply Rmult_le_reg_r with (IZR d); [lra|]. unfold Rdiv. rewrite Rmult_assoc, Rinv_l by lra. lra. }
    assert (B2 : (2 / IZR m2 <= 1)%R). { apply Rmult_le_reg_r with (IZR m2); [lra|]. unfold Rdiv. rewrite Rmult_assoc, Rinv_l by lra. lra. }
    pose proof (IH (P / m2) (d + 2) (X / IZR m2)%R ltac:(lia) ltac:(lra)) as C. rewrite plus_IZR in C. rewrite minus_IZR.
    set (t := at_T n (IZR m2) (X / IZR m2) (IZR d + 2)) in *. replace (IZR (P / d) - IZR (at_sum n m2 (P / m2) (d + 2)) - (X / IZR d - t))%R with ((IZR (P / d) - X / IZR d) + - (IZR (at_sum n m2 (P / m2) (d + 2)) - t))%R by ring. eapply Rle_trans; [apply Rabs_triang|]. rewrite Rabs_Ropp. lra.
Qed.
Lemma at_T_last n : forall m2 X d, m2 <> 0%R -> at_T (S n) m2 X d = (at_T n m2 X d + (-1) ^ n * (X / m2 ^ n / (d + 2 * INR n)))%R.
Proof.
  induction n as [|n IH]; intros m2 X d H.
  - cbn [at_T pow INR]. rewrite Rmult_0_r, Rplus_0_r. unfold Rdiv. rewrite Rinv_1. ring.
  - change (at_T (S (S n)) m2 X d) with (X / d - at_T (S n) m2 (X / m2) (d + 2))%R. rewrite IH by exact H. change (at_T (S n) m2 X d) with (X / d - at_T n m2 (X / m2) (d + 2))%R. rewrite S_INR.
    replace (d + 2 * (INR n + 1))%R with (d + 2 + 2 * INR n)%R by ring. cbn [pow]. unfold Rdiv. rewrite Rinv_mult. ring.
Qed.
Lemma at_T_ap M : forall m c, m <> 0%R -> at_T (S M) (m * m) (c * / m) 1 = (c * ap M (/ m))%R.
Proof.
  intros m c H. assert (HM : (m * m <> 0)%R) by (apply Rmult_integral_contrapositive; split; exact H). induction M as [|M IH].
  - cbn [at_T]. unfold ap. cbn [SeriesNum.psum]. unfold Rdiv. rewrite Rinv_1. ring.
  - rewrite at_T_last by exact HM. rewrite IH, ap_S. replace (INR (2 * M + 3)) with (1 + 2 * INR (S M))%R by (rewrite plus_INR, mult_INR, S_INR; cbn [INR]; ring).
    replace ((/ m) ^ (2 * M + 3))%R with (/ m * / (m * m) ^ S M)%R. { cbn [pow]. unfold Rdiv. ring. }
    rewrite pow_inv, Rpow_mult_distr. replace (2 * M + 3)%nat with (1 + (S M + S M))%nat by lia. rewrite !pow_add. rewrite pow_1, !Rinv_mult. reflexivity.
Qed.
Lemma at_fix U m M : 2 <= m -> 0 < U <= m ^ (2 * Z.of_nat M + 3) -> (Rabs (IZR (at_sum (S M) (m * m) (U / m) 1) - IZR U * atan (/ IZR m)) <= 3 * INR (S M) + 1)%R.
Proof.
  intros Hm [HU HP]. assert (M2 : (2 <= IZR m)%R) by (apply IZR_le; exact Hm). apply IZR_lt in HU. assert (I : (0 < / IZR m <= / 2)%R) by (split; [apply Rinv_0_lt_compat; lra|apply Rinv_le_contravar; lra]).
  pose proof (at_sum_near (S M) (m * m) ltac:(nia) (U / m) 1 (IZR U * / IZR m)%R ltac:(lia)) as A. pose proof (div_floor U m ltac:(lia)) as F. specialize (A ltac:(unfold Rdiv in F; lra)). rewrite mult_IZR, at_T_ap in A by lra.
  pose proof (atan_taylor (/ IZR m) M ltac:(lra)) as T. set (b := (/ IZR m)%R) in *. set (q := ap M b) in *.
  assert (TB : (IZR U * (b * (b * b) * (b * b) ^ M * aC M) <= 1)%R).
  { assert (C : (0 < aC M <= 1)%R). { unfold aC. assert (1 <= INR (2 * M + 3))%R by (change 1%R with (INR 1); apply le_INR; lia). split; [apply Rinv_0_lt_compat; lra|]. rewrite <- Rinv_1. apply Rinv_le_contravar; lra. }
    assert (E : (b * (b * b) * (b * b) ^ M = / IZR (m ^ (2 * Z.of_nat M + 3)))%R). { replace (2 * Z.of_nat M + 3) with (Z.of_nat (2 * M + 3)) by lia. rewrite <- pow_IZR. rewrite <- pow_inv. fold b. rewrite pow_add, pow_mult. replace (b ^ 2)%R with (b * b)%R by ring. cbn [pow]. ring. }
    rewrite E. apply IZR_le in HP. set (w := IZR (m ^ (2 * Z.of_nat M + 3))) in *. assert (W : (0 < w)%R) by lra. rewrite <- Rmult_assoc. apply Rle_trans with (1 * 1)%R; [|lra]. apply Rmult_le_compat; [apply Rmult_le_pos; [lra|left; now apply Rinv_0_lt_compat]|lra| |lra].
    apply Rmult_le_reg_r with w; [exact W|]. rewrite Rmult_assoc, Rinv_l by lra. lra. }
  assert (TU : (Rabs (IZR U * atan b - IZR U * q) <= 1)%R). { rewrite <- Rmult_minus_distr_l, Rabs_mult, Rabs_pos_eq by lra. eapply Rle_trans; [apply Rmult_le_compat_l; [lra|exact T]|exact TB]. }
  set (v := IZR (at_sum (S M) (m * m) (U / m) 1)) in *. replace (v - IZR U * atan b)%R with ((v - IZR U * q) + - (IZR U * atan b - IZR U * q))%R by ring. eapply Rle_trans; [apply Rabs_triang|]. rewrite Rabs_Ropp. lra.
Qed.

Lemma ch_lin_mono a b : 0 <= a <= b -> (0 <= IZR (ch_lin a) <= IZR (ch_lin b))%R.
Proof. intros H. unfold ch_lin. split; apply IZR_le; lia. Qed.
Lemma neg1_next k : 0 <= k -> powR (-1) (k + 1) = (- powR (-1) k)%R.
Proof. intros H. unfold powR. replace (Z.to_nat (k + 1)) with (S (Z.to_nat k)) by lia. cbn [pow]. ring. Qed.
Lemma neg1_square k : (powR (-1) k * powR (-1) k = 1)%R.
Proof. unfold powR. apply neg1_sq. Qed.
Lemma ch_sum_near U n : (0 <= U)%R -> forall k w, 0 <= k -> (Rabs (IZR w - U * chud_weight k) <= 2)%R ->
  (Rabs (IZR (ch_sum n (k + 1) w) - U * (powR (-1) (k + 1) * rsum chud_term k (k + Z.of_nat n))) <= 2 * INR n * IZR (ch_lin (k + Z.of_nat n)))%R.
Proof.
  intros HU. induction n as [|n IH]; intros k w Hk H.
  - cbn [ch_sum INR]. change (Z.of_nat 0) with 0. rewrite Z.add_0_r, rsum_nil, !Rmult_0_r, Rminus_0_r, Rabs_R0, Rmult_0_l. lra.
  - cbn [ch_sum]. cbv zeta. set (w' := w * ch_num (k + 1) / ch_den (k + 1)).
    destruct (chud_ratio (k + 1) ltac:(lia)) as [R1 R2]. pose proof (chud_weight_succ (k + 1) ltac:(lia)) as WS. replace (k + 1 - 1) with k in WS by ring. fold (ch_num (k + 1)) in R1, R2, WS. fold (ch_den (k + 1)) in R2, WS.
    assert (W1 : (Rabs (IZR w' - U * chud_weight (k + 1)) <= 2)%R).
    { assert (D0 : 1 <= ch_den (k + 1)) by lia. assert (N0 : ch_num (k + 1) <= ch_den (k + 1) / 2 ^ 47) by (apply Z.div_le_lower_bound; lia).
      set (nu := ch_num (k + 1)) in *. set (de := ch_den (k + 1)) in *. assert (DR : (1 <= IZR de)%R) by (apply IZR_le; exact D0). assert (NR : (0 < IZR nu)%R) by (apply IZR_lt; exact R1).
      assert (RR : (2 * IZR nu <= IZR de)%R) by (rewrite <- mult_IZR; apply IZR_le; lia).
      pose proof (near_div (w * nu) (U * chud_weight k * IZR nu) de (2 * IZR nu) D0) as ND. fold w' in ND. replace (U * chud_weight k * IZR nu / IZR de)%R with (U * chud_weight (k + 1))%R in ND.
      - eapply Rle_trans; [apply ND|].
        + rewrite mult_IZR, <- Rmult_minus_distr_r, Rabs_mult, (Rabs_pos_eq (IZR nu)) by lra. apply Rmult_le_compat_r; lra.
        + assert (2 * IZR nu / IZR de <= 1)%R; [|lra]. apply Rmult_le_reg_r with (IZR de); [lra|]. unfold Rdiv. rewrite Rmult_assoc, Rinv_l by lra. lra.
      - apply Rmult_eq_reg_r with (IZR de); [|lra]. unfold Rdiv. rewrite !Rmult_assoc, Rinv_l, WS by lra. ring. }
    pose proof (IH (k + 1) w' ltac:(lia) W1) as C. replace (k + 1 + Z.of_nat n) with (k + Z.of_nat (S n)) in C by lia. set (b := k + Z.of_nat (S n)) in *.
    rewrite (rsum_first chud_term k b) by (unfold b; lia). pose proof (ch_lin_mono (k + 1) b ltac:(unfold b; lia)) as LM. rewrite (neg1_next (k + 1)) in C by lia. pose proof (neg1_square (k + 1)) as SQ. unfold chud_term at 1. fold (ch_lin (k + 1)).
    set (sg := powR (-1) (k + 1)) in *. set (rest := rsum chud_term (k + 1) b) in *. set (l := IZR (ch_lin (k + 1))) in *. set (W := chud_weight (k + 1)) in *. rewrite minus_IZR, mult_IZR. fold l. set (v := IZR (ch_sum n (k + 1 + 1) w')) in *.
    replace (l * IZR w' - v - U * (sg * (sg * l * W + rest)))%R with (l * (IZR w' - U * W) + - (v - U * (- sg * rest)) + (1 - sg * sg) * (U * l * W))%R by ring. rewrite SQ. replace (1 - 1)%R with 0%R by ring. rewrite Rmult_0_l, Rplus_0_r.
    eapply Rle_trans; [apply Rabs_triang|]. rewrite Rabs_Ropp, Rabs_mult, (Rabs_pos_eq l) by lra. rewrite S_INR. assert (l * Rabs (IZR w' - U * W) <= l * 2)%R by (apply Rmult_le_compat_l; lra). lra.
Qed.

(** ** Pi and the Chudnovsky value *)
Lemma abs_mix a b c e1 e2 : (Rabs (a - b) <= e1)%R -> (Rabs (b - c) <= e2)%R -> (Rabs (a - c) <= e1 + e2)%R.
Proof. intros A B. replace (a - c)%R with ((a - b) + (b - c))%R by ring. eapply Rle_trans; [apply Rabs_triang|lra]. Qed.
Lemma pi_fix_near U a b : (Rabs (IZR a - IZR U * atan (/ 5)) <= 1453)%R -> (Rabs (IZR b - IZR U * atan (/ 239)) <= 430)%R -> (Rabs (IZR (16 * a - 4 * b) - IZR U * PI) <= 24968)%R.
Proof.
  intros A B. rewrite minus_IZR, !mult_IZR. replace PI with (4 * (PI / 4))%R by field. rewrite Machin_4_5_239. set (x := atan (/ 5)) in *. set (y := atan (/ 239)) in *. apply Rabs_le_inv in A, B.
  replace (16 * IZR a - 4 * IZR b - IZR U * (4 * (4 * x - y)))%R with (16 * (IZR a - IZR U * x) - 4 * (IZR b - IZR U * y))%R by ring. apply Rabs_le. lra.
Qed.
Lemma chud_close U p c s S : (IZR (2 ^ 100) <= U)%R -> (Rabs S <= / 1000)%R -> (Rabs (p - U * PI) <= 24968)%R -> (Rabs (c - U * (13591409 + S)) <= IZR (2 ^ 42))%R ->
  (0 <= s)%R -> (Rabs (p * c - 426880 * s * U) <= IZR (2 ^ 20) * U)%R -> (Rabs (s * s - 10005 * (U * U)) <= IZR (2 ^ 60) * U)%R ->
  (Rabs (PI - chud_value S) <= IZR (2 ^ 57) / U)%R.
Proof.
  intros HU HS Hp Hc S0 H1 H2. change (IZR (2 ^ 100)) with 1267650600228229401496703205376%R in HU. change (IZR (2 ^ 42)) with 4398046511104%R in Hc. change (IZR (2 ^ 20)) with 1048576%R in H1. change (IZR (2 ^ 60)) with 1152921504606846976%R in H2. change (IZR (2 ^ 57)) with 144115188075855872%R.
  pose proof sqrt_range as R0. set (r := sqrt 10005) in *. assert (RR : (r * r = 10005)%R) by (apply sqrt_sqrt; lra).
  assert (D : (Rabs (s - U * r) <= 1152921504606846976)%R).
  { apply Rmult_le_reg_r with U; [lra|]. eapply Rle_trans; [|exact H2]. rewrite <- RR. replace (s * s - r * r * (U * U))%R with ((s - U * r) * (s + U * r))%R by ring. rewrite Rabs_mult. apply Rmult_le_compat_l; [apply Rabs_pos|]. assert (U * 1 <= U * r)%R by (apply Rmult_le_compat_l; lra). rewrite Rabs_pos_eq by lra. lra. }
  set (V := (13591409 + S)%R) in *. apply Rabs_le_inv in HS. assert (HV : (13591408 <= V <= 13591410)%R) by (unfold V; lra).
  pose proof PI_4 as P4. pose proof PI_RGT_0 as P0.
  assert (E : (Rabs (U * U * (PI * V) - U * U * (426880 * r)) <= 604462909807314587353088 * U)%R).
  { assert (E1 : (Rabs (U * U * (PI * V) - p * c) <= 35184372088832 * U)%R).
    { replace (U * U * (PI * V) - p * c)%R with (- ((p - U * PI) * c + U * PI * (c - U * V)))%R by ring. rewrite Rabs_Ropp. eapply Rle_trans; [apply Rabs_triang|]. rewrite !Rabs_mult.
      assert (C1 : (Rabs c <= 13591411 * U)%R). { apply Rabs_le_inv in Hc. apply Rabs_le. assert (13591408 * U <= U * V <= 13591410 * U)%R by (split; rewrite (Rmult_comm U); apply Rmult_le_compat_r; lra). lra. }
      assert (C2 : (Rabs (p - U * PI) * Rabs c <= 24968 * (13591411 * U))%R) by (apply Rmult_le_compat; auto using Rabs_pos). rewrite (Rabs_pos_eq U), (Rabs_pos_eq PI) by lra.
      assert (C3 : (U * PI * Rabs (c - U * V) <= U * 4 * 4398046511104)%R) by (apply Rmult_le_compat; auto using Rabs_pos; [apply Rmult_le_pos; lra|apply Rmult_le_compat_l; lra]). lra. }
    assert (E2 : (Rabs (426880 * s * U - U * U * (426880 * r)) <= 492159131886570837114880 * U)%R).
    { replace (426880 * s * U - U * U * (426880 * r))%R with ((s - U * r) * (426880 * U))%R by ring. rewrite Rabs_mult, (Rabs_pos_eq (426880 * U)) by lra. eapply Rle_trans; [apply Rmult_le_compat_r; [lra|exact D]|]. lra. }
    pose proof (abs_mix _ _ _ _ _ E1 (abs_mix _ _ _ _ _ H1 E2)) as E3. eapply Rle_trans; [exact E3|]. lra. }
  rewrite <- Rmult_minus_distr_l, Rabs_mult, (Rabs_pos_eq (U * U)) in E by (apply Rmult_le_pos; lra).
  assert (F : (Rabs (PI * V - 426880 * r) * U <= 604462909807314587353088)%R). { apply Rmult_le_reg_l with U; [lra|]. rewrite (Rmult_comm _ U), <- Rmult_assoc. lra. }
  unfold chud_value. fold r. fold V. replace (PI - 426880 * r / V)%R with ((PI * V - 426880 * r) * / V)%R by (field; lra). rewrite Rabs_mult, (Rabs_pos_eq (/ V)) by (left; apply Rinv_0_lt_compat; lra).
  apply Rmult_le_reg_r with (U * V)%R; [apply Rmult_lt_0_compat; lra|]. replace (Rabs (PI * V - 426880 * r) * / V * (U * V))%R with (Rabs (PI * V - 426880 * r) * U)%R by (field; lra). replace (144115188075855872 / U * (U * V))%R with (144115188075855872 * V)%R by (field; lra). lra.
Qed.

(** ** Rounding in the same half-open cell *)
Lemma rnd_cell rm h z1 z2 : 0 <= h -> (IZR h < 2 * z1 < IZR (h + 1))%R -> (IZR h < 2 * z2 < IZR (h + 1))%R -> rnd rm z1 = rnd rm z2.
Proof.
  intros H0 H1 H2. assert (C : exists n b, 0 <= n /\ h = 2 * n + Z.b2z b). { exists (h / 2), (Z.odd h). split; [apply Z.div_pos; lia|]. rewrite <- Z.div2_div. apply Z.div2_odd. } destruct C as (n & b & Hn & ->).
  assert (F : forall z, (IZR (2 * n + Z.b2z b) < 2 * z < IZR (2 * n + Z.b2z b + 1))%R -> Zfloor z = n /\ Zceil z = n + 1 /\ (0 <= z)%R /\ forall ch, Znearest ch z = if b then n + 1 else n).
  { intros z Hz. apply IZR_le in Hn. assert (Z1 : (IZR n < z < IZR n + 1)%R) by (destruct b; cbn [Z.b2z] in Hz; rewrite !plus_IZR, mult_IZR in Hz; lra). assert (A : Zfloor z = n) by (apply Zfloor_imp; rewrite plus_IZR; lra). assert (B : Zceil z = n + 1) by (apply Zceil_imp; replace (n + 1 - 1) with n by ring; rewrite plus_IZR; lra).
    split; [exact A|]. split; [exact B|]. split; [lra|]. intros ch. unfold Znearest. rewrite A, B. destruct b; cbn [Z.b2z] in Hz; rewrite !plus_IZR, mult_IZR in Hz; [rewrite Rcompare_Gt by lra|rewrite Rcompare_Lt by lra]; reflexivity. }
  destruct (F z1 H1) as (A1 & B1 & C1 & D1). destruct (F z2 H2) as (A2 & B2 & C2 & D2). destruct rm; cbn [rnd].
  all: rewrite ?Ztrunc_floor, ?Zaway_ceil by assumption. all: try congruence. all: rewrite ?D1, ?D2; reflexivity.
Qed.
Lemma rnd_prec_cell k x rm : 0 < k -> (2 <= x < 4)%R -> rnd_prec k rm x = (IZR (rnd rm (x * bpow radix2 (k - 2))) * bpow radix2 (2 - k))%R.
Proof.
  intros Hk Hx. unfold rnd_prec, round, scaled_mantissa, F2R, cexp. rewrite (mag_unique_pos radix2 x 2) by (change (bpow radix2 (2 - 1)) with 2%R; change (bpow radix2 2) with 4%R; exact Hx). unfold FLX_exp. cbn [Fnum Fexp]. replace (- (2 - k)) with (k - 2) by ring. reflexivity.
Qed.
Definition pi_cell (k h : Z) : Prop := 0 <= h /\ (IZR h + 3 * bpow radix2 (-60) <= PI * bpow radix2 (k - 1) <= IZR (h + 1) - 3 * bpow radix2 (-60))%R.
Lemma pi_cell_rnd k h rm a : 64 <= k -> pi_cell k h -> (Rabs (a - PI) < bpow radix2 (- (k + 61)))%R -> rnd_prec k rm a = rnd_prec k rm PI /\ rnd_prec k rm a <> PI.
Proof.
  intros Hk (H0 & H1) Ha. pose proof PI_4 as P4. pose proof PI2_3_2 as P3. unfold PI2 in P3. pose proof (bpow_gt_0 radix2 (-60)) as B60.
  assert (SM : (bpow radix2 (- (k + 61)) <= / 1000)%R). { apply Rle_trans with (bpow radix2 (-10)); [apply bpow_le; lia|]. change (bpow radix2 (-10)) with (/ 1024)%R. lra. }
  pose proof (Rabs_def2 _ _ Ha) as HA. pose proof (bpow_gt_0 radix2 (k - 1)) as BK.
  assert (P4' : (PI < 399 / 100)%R).
  { apply Rnot_le_lt. intros C. assert (PI / 4 = 4 * atan (/ 5) - atan (/ 239))%R by apply Machin_4_5_239. pose proof (atan_le_id (/ 5) ltac:(lra)). pose proof (atan_pos (/ 239) ltac:(lra)). lra. }
  assert (D : (Rabs (a * bpow radix2 (k - 1) - PI * bpow radix2 (k - 1)) < 3 * bpow radix2 (-60))%R).
  { rewrite <- Rmult_minus_distr_r, Rabs_mult, (Rabs_pos_eq (bpow _ _)) by lra. eapply Rlt_le_trans; [apply Rmult_lt_compat_r; [exact BK|exact Ha]|]. rewrite <- bpow_plus. apply Rle_trans with (bpow radix2 (-60)); [apply bpow_le; lia|lra]. }
  apply Rabs_def2 in D. assert (E2 : bpow radix2 (k - 1) = (2 * bpow radix2 (k - 2))%R) by (replace (k - 1) with (1 + (k - 2)) by ring; rewrite bpow_plus; reflexivity). rewrite E2 in *.
  rewrite !rnd_prec_cell by first [clear - Hk; lia|lra]. rewrite (rnd_cell rm h (a * bpow radix2 (k - 2)) (PI * bpow radix2 (k - 2)) H0) by lra. split; [reflexivity|].
  intros E. set (N := rnd rm (PI * bpow radix2 (k - 2))) in *. assert (E3 : (PI * (2 * bpow radix2 (k - 2)) = IZR (2 * N))%R). { rewrite <- E, mult_IZR. replace (IZR N * bpow radix2 (2 - k) * (2 * bpow radix2 (k - 2)))%R with (2 * IZR N * (bpow radix2 (2 - k) * bpow radix2 (k - 2)))%R by ring. rewrite <- bpow_plus. replace (2 - k + (k - 2)) with 0 by ring. change (bpow radix2 0) with 1%R. ring. }
  rewrite E3 in H1. assert (IZR h < IZR (2 * N) < IZR (h + 1))%R as [Q1 Q2] by lra. apply lt_IZR in Q1, Q2. lia.
Qed.

(** ** The numbers *)
Lemma bits_cell p k U h t : (U = bpow radix2 NB) -> 64 <= k <= 2048 -> (Rabs (IZR p - U * PI) <= 24968)%R -> h = Z.shiftr p (NB - k + 1) -> t = Z.shiftr p (NB - k - 59) mod 2 ^ 60 -> 4 <= t <= 2 ^ 60 - 5 -> 0 <= p -> pi_cell k h.
Proof.
  intros EU Hk Hp Eh Et Ht P0. assert (HE : 133 <= NB - k - 59) by (change NB with 2240; lia). set (E := NB - k - 59) in *. assert (EN : NB - k + 1 = 60 + E) by (unfold E; ring).
  rewrite EN, Z.shiftr_div_pow2 in Eh by lia. rewrite Z.shiftr_div_pow2 in Et by lia. set (q := p / 2 ^ E) in *. assert (Eh2 : h = q / 2 ^ 60). { rewrite Eh. unfold q. rewrite Z.div_div by (try apply Z.pow_pos_nonneg; lia). rewrite <- Z.pow_add_r by lia. f_equal. f_equal. ring. }
  pose proof (Z.div_mod q (2 ^ 60) ltac:(lia)) as DQ. rewrite <- Eh2, <- Et in DQ. pose proof (Z.div_mod p (2 ^ E) ltac:(apply Z.pow_nonzero; lia)) as DP. fold q in DP. pose proof (Z.mod_pos_bound p (2 ^ E) ltac:(apply Z.pow_pos_nonneg; lia)) as BP. set (lo := p mod 2 ^ E) in *.
  assert (H0 : 0 <= h) by (rewrite Eh; apply Z.div_pos; [exact P0|apply Z.pow_pos_nonneg; lia]). clearbody lo q. clear Eh Eh2 Et. split; [exact H0|].
  assert (EB : IZR (2 ^ E) = bpow radix2 E) by (symmetry; apply bpow_IZR; lia). assert (PR : IZR p = (bpow radix2 E * (IZR (2 ^ 60) * IZR h + IZR t) + IZR lo)%R) by (rewrite DP, DQ, plus_IZR, mult_IZR, plus_IZR, mult_IZR, EB; reflexivity).
  destruct BP as [L1 L2]. apply IZR_le in L1. apply IZR_lt in L2. rewrite EB in L2. destruct Ht as [T1 T2]. apply IZR_le in T1, T2. rewrite minus_IZR in T2.
  assert (UB : U = (bpow radix2 (k - 1) * (bpow radix2 E * IZR (2 ^ 60)))%R). { rewrite EU. change (IZR (2 ^ 60)) with (bpow radix2 60). rewrite <- !bpow_plus. f_equal. unfold E. ring. }
  assert (BE : (32768 <= bpow radix2 E)%R) by (change 32768%R with (bpow radix2 15); apply bpow_le; lia). assert (I60 : (bpow radix2 (-60) * IZR (2 ^ 60) = 1)%R) by (change (IZR (2 ^ 60)) with (bpow radix2 60); rewrite <- bpow_plus; reflexivity). rewrite plus_IZR.
  set (B := bpow radix2 E) in *. set (y := (PI * bpow radix2 (k - 1))%R). assert (UP : (U * PI = y * (B * IZR (2 ^ 60)))%R) by (rewrite UB; unfold y; ring). rewrite UP in Hp. clear UP UB EU EB. apply Rabs_le_inv in Hp. set (W := IZR (2 ^ 60)) in *. assert (W0 : (0 < W)%R) by (apply IZR_lt; reflexivity).
  set (i := bpow radix2 (-60)) in *. clearbody i y B. assert (BW : (0 < B * W)%R) by (apply Rmult_lt_0_compat; lra). assert (IZR t * B >= 4 * B)%R by (apply Rle_ge, Rmult_le_compat_r; lra). assert (IZR t * B <= (W - 5) * B)%R by (apply Rmult_le_compat_r; lra).
  split; (apply Rmult_le_reg_r with (B * W)%R; [exact BW|]).
  - replace ((IZR h + 3 * i) * (B * W))%R with (B * (W * IZR h) + 3 * B * (i * W))%R by ring. rewrite I60. lra.
  - replace ((IZR h + 1 - 3 * i) * (B * W))%R with (B * (W * IZR h) + B * W - 3 * B * (i * W))%R by ring. rewrite I60. lra.
Qed.
Lemma fix_pos U p : (IZR (2 ^ 100) <= U)%R -> (Rabs (IZR p - U * PI) <= 24968)%R -> 0 <= p.
Proof. intros HU H. apply Rabs_le_inv in H. apply le_IZR. change (IZR (2 ^ 100)) with 1267650600228229401496703205376%R in HU. pose proof PI2_3_2 as P3. unfold PI2 in P3. assert (U * 1 <= U * PI)%R by (apply Rmult_le_compat_l; lra). lra. Qed.
Lemma shiftl_R a n : 0 <= n -> IZR (Z.shiftl a n) = (IZR a * bpow radix2 n)%R.
Proof. intros H. rewrite Z.shiftl_mul_pow2, mult_IZR, bpow_IZR by exact H. reflexivity. Qed.
Lemma abs_R z b : Z.abs z <= b -> (Rabs (IZR z) <= IZR b)%R.
Proof. intros H. rewrite <- abs_IZR. now apply IZR_le. Qed.
Lemma checks p c : chud_ok p c = true -> exists s, 0 <= s /\ (Rabs (IZR p * IZR c - 426880 * IZR s * bpow radix2 NB) <= IZR (2 ^ 20) * bpow radix2 NB)%R /\ (Rabs (IZR s * IZR s - 10005 * (bpow radix2 NB * bpow radix2 NB)) <= IZR (2 ^ 60) * bpow radix2 NB)%R.
Proof.
  unfold chud_ok. cbv zeta. set (s := Z.shiftr (p * c / 426880) NB). clearbody s. intros H. apply andb_prop in H as [H H3]. apply andb_prop in H as [H1 H2]. apply Z.leb_le in H1, H2, H3. exists s. split; [exact H1|]. apply abs_R in H2, H3. assert (N0 : 0 <= NB) by (vm_compute; discriminate).
  rewrite minus_IZR, !mult_IZR, !shiftl_R, mult_IZR, Rmult_1_l, (Z.add_comm NB), bpow_plus in H2 by lia. rewrite minus_IZR, !mult_IZR, !shiftl_R, Rmult_1_l, (Z.add_comm NB), bpow_plus in H3 by lia. replace (2 * NB) with (NB + NB) in H3 by ring. rewrite bpow_plus in H3. split; [exact H2|exact H3].
Qed.
Lemma at_fix2 U m m2 M : m2 = m * m -> 2 <= m -> 0 < U <= m ^ (2 * Z.of_nat M + 3) -> (Rabs (IZR (at_sum (S M) m2 (U / m) 1) - IZR U * atan (/ IZR m)) <= 3 * INR (S M) + 1)%R.
Proof. intros ->. apply at_fix. Qed.
Lemma pi_fix_gen U p : 0 < U -> U <= 5 ^ (2 * Z.of_nat M5 + 3) -> U <= 239 ^ (2 * Z.of_nat M239 + 3) -> p = 16 * at_sum (S M5) 25 (U / 5) 1 - 4 * at_sum (S M239) 57121 (U / 239) 1 -> (Rabs (IZR p - IZR U * PI) <= 24968)%R.
Proof.
  intros U0 H4 H5 ->. apply pi_fix_near.
  - eapply Rle_trans; [apply (at_fix2 U 5 25 M5 eq_refl ltac:(lia) (conj U0 H4))|]. replace (INR (S M5)) with (IZR 484) by (rewrite INR_IZR_INZ; reflexivity). lra.
  - eapply Rle_trans; [apply (at_fix2 U 239 57121 M239 eq_refl ltac:(lia) (conj U0 H5))|]. replace (INR (S M239)) with (IZR 143) by (rewrite INR_IZR_INZ; reflexivity). lra.
Qed.
Lemma ch_fix_gen U c S : 0 < U -> (IZR U <= bpow radix2 2240)%R -> c = 13591409 * U - ch_sum KC 1 U -> chud_limit S -> (Rabs (IZR c - IZR U * (13591409 + S)) <= IZR (2 ^ 42))%R.
Proof.
  intros U0 UB -> HS. rewrite minus_IZR, mult_IZR. apply IZR_lt in U0.
  pose proof (ch_sum_near (IZR U) KC ltac:(lra) 0 U ltac:(lia)) as C. rewrite chud_weight_0 in C. specialize (C ltac:(replace (IZR U - IZR U * 1)%R with 0%R by ring; rewrite Rabs_R0; lra)). set (v := ch_sum KC (0 + 1) U) in *. change (ch_sum KC 1 U) with v. clearbody v. set (U' := IZR U) in *. clearbody U'. change (Z.of_nat KC) with 49 in C. change (0 + 49) with 49 in C. change (0 + 1) with 1 in C. change (powR (-1) 1) with (-1 * 1)%R in C.
  replace (INR KC) with (IZR 49) in C by (rewrite INR_IZR_INZ; reflexivity). change (ch_lin 49) with 26725457975 in C.
  pose proof (chud_tail S 49 HS ltac:(lia)) as T. change (49 + 1) with 50 in T. pose proof (chud_abs_small 50 ltac:(lia)) as A. change (- (47 * 50) + 37) with (- 2313) in A.
  assert (TB : (Rabs (U' * rsum chud_term 0 49 - U' * S) <= 1)%R).
  { rewrite <- Rmult_minus_distr_l, Rabs_mult, (Rabs_pos_eq U'), Rabs_minus_sym by lra. apply Rle_trans with (bpow radix2 2240 * (bpow radix2 24 * bpow radix2 (-2313)))%R.
    - apply Rmult_le_compat; [lra|apply Rabs_pos|exact UB|]. eapply Rle_trans; [exact T|]. eapply Rle_trans; [exact A|]. apply Rmult_le_compat_r; [apply bpow_ge_0|]. change (bpow radix2 24) with 16777216%R. lra.
    - rewrite <- !bpow_plus. change 1%R with (bpow radix2 0). apply bpow_le. lia. }
  set (r := rsum chud_term 0 49) in *. change (IZR (2 ^ 42)) with 4398046511104%R. apply Rabs_le_inv in C, TB. apply Rabs_le. lra.
Qed.
Theorem pi_numbers : exists p c, (Rabs (IZR p - bpow radix2 NB * PI) <= 24968)%R /\ (forall S, chud_limit S -> (Rabs (IZR c - bpow radix2 NB * (13591409 + S)) <= IZR (2 ^ 42))%R) /\ chud_ok p c = true /\ (forall i, 1 <= i <= 32 -> bits_ok p (64 * i) = true).
Proof.
  destruct pi_check_ok as (p & c & Ep & Ec & H). destruct terms_enough as [H4 H5]. apply Z.leb_le in H4, H5. unfold pi_check in H. apply andb_prop in H as [H1 H2].
  assert (N0 : 0 <= NB) by (vm_compute; discriminate). assert (U0 : 0 < 2 ^ NB) by (apply Z.pow_pos_nonneg; lia). assert (EU : bpow radix2 NB = IZR (2 ^ NB)) by (apply bpow_IZR; exact N0).
  assert (EL : (IZR (2 ^ NB) <= bpow radix2 2240)%R) by (rewrite <- EU; right; reflexivity). rewrite EU. set (U := 2 ^ NB) in *. clearbody U. clear EU N0.
  exists p, c. split; [exact (pi_fix_gen U p U0 H4 H5 Ep)|]. split; [intros S; exact (ch_fix_gen U c S U0 EL Ec)|]. split; [exact H1|].
  intros i Hi. rewrite forallb_forall in H2. apply H2. apply in_map_iff. exists (Z.to_nat i). split; [lia|]. apply in_seq. lia.
Qed.

Theorem pi_known : (forall S, chud_limit S -> (Rabs (PI - chud_value S) <= bpow radix2 (-2183))%R) /\ forall k, 64 <= k <= 2048 -> k mod 64 = 0 -> exists h, pi_cell k h.
Proof.
  destruct pi_numbers as (p & c & Hp & Hc & H1 & H2). assert (U1 : (IZR (2 ^ 100) <= bpow radix2 NB)%R) by (change (IZR (2 ^ 100)) with (bpow radix2 100); apply bpow_le; vm_compute; discriminate). split.
  - intros S HS. destruct (checks p c H1) as (s & S0 & C1 & C2). apply IZR_le in S0. pose proof (chud_close (bpow radix2 NB) (IZR p) (IZR c) (IZR s) S U1 (chud_limit_small S HS) Hp (Hc S HS) S0 C1 C2) as C. eapply Rle_trans; [exact C|]. right. change (IZR (2 ^ 57)) with (bpow radix2 57). unfold Rdiv. rewrite <- bpow_opp, <- bpow_plus. reflexivity.
  - intros k Hk Hm. pose proof (Z.div_mod k 64 ltac:(lia)) as D. rewrite Hm, Z.add_0_r in D. specialize (H2 (k / 64) ltac:(lia)). rewrite <- D in H2. unfold bits_ok in H2. cbv zeta in H2. apply andb_prop in H2 as [T1 T2]. apply Z.leb_le in T1, T2.
    exists (Z.shiftr p (NB - k + 1)). eapply (bits_cell p k (bpow radix2 NB)); [reflexivity|exact Hk|exact Hp|reflexivity|reflexivity|split; [exact T1|exact T2]|exact (fix_pos _ _ U1 Hp)].
Qed.

(** [y] is pi correctly rounded to [k] bits. *)
Definition is_pi (k : Z) (rm : rmode) (y : num) : Prop := wf y /\ 64 * wlen y = k /\ ns y = Pos /\ ninexact y = true /\ value y = rnd_prec k rm PI /\ value y <> PI.
Theorem pi_result k rm y : 64 <= k <= 2048 -> k mod 64 = 0 -> (forall S, chud_limit S -> const_result (chud_value S) 2 k rm y) -> is_pi k rm y.
Proof.
  intros Hk Hm H. destruct chud_limit_ex as (S & HS). destruct (H S HS) as (W & L & Sg & I & (a & A & V) & _). destruct pi_known as [K1 K2]. specialize (K1 S HS). destruct (K2 k Hk Hm) as (h & C).
  assert (D : (Rabs (a - PI) < bpow radix2 (- (k + 61)))%R).
  { rewrite Rabs_minus_sym in A. replace (a - PI)%R with ((a - chud_value S) + - (PI - chud_value S))%R by ring. eapply Rle_lt_trans; [apply Rabs_triang|]. rewrite Rabs_Ropp.
    assert (B1 : (bpow radix2 (2 - (k + 64)) <= / 2 * bpow radix2 (- (k + 61)))%R) by (change (/ 2)%R with (bpow radix2 (-1)); rewrite <- bpow_plus; apply bpow_le; lia). assert (B2 : (bpow radix2 (-2183) <= / 2 * bpow radix2 (- (k + 61)))%R) by (change (/ 2)%R with (bpow radix2 (-1)); rewrite <- bpow_plus; apply bpow_le; lia). lra. }
  destruct (pi_cell_rnd k h rm a (proj1 Hk) C D) as [R1 R2]. rewrite <- V in R1, R2. repeat split; auto; apply W.
Qed.
