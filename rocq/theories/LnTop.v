(** The natural logarithm: one round, the retry loop and the whole function. *)

From Coq Require Import ZArith List Bool Lia Reals Lra.
From Flocq Require Import Core.
From Verif Require Import Words IntModel Mantissa Num Pow Consts Elem Ctx Series Ln SpecZ SpecOps SpecConst SpecReach SpecPow SpecElem WordsP Spec RealP RealP2 NumP CmpP AddP SetP AddNum MulNum DivNum ArithTop RoundableNum PowNum PowTop ConstP ConstTop ConstNum ConstReach PowExt IntNum CtxP ElemNum ElemDom ApproxR ApproxNum SeriesP SeriesNum SinhNum SinhTop ExpNum RetryNum ExpTop LnR LnConst LnNum LnSharp LnSharp2 LnSharp3 LnMant.
Import ListNotations.
Open Scope Z_scope.
Ltac Zify.zify_post_hook ::= idtac.
Arguments Z.mul : simpl never.
Arguments Z.add : simpl never.
Arguments Z.pow : simpl never.
Arguments Z.sub : simpl never.
Arguments Z.of_nat : simpl never.
Ltac dlia := Z.div_mod_to_equations; lia.

Definition lreach (c : ln2_cache) : Prop := reachable ln2_new ln2_for_prec c.
Definition lends {A} (r : lrun A) (Q : A -> Prop) : Prop := r = None \/ exists c q, r = Some (c, Ok q) /\ lreach c /\ Q q.
(** What a round must deliver for [try_set_precision] with [w] correct bits. *)
Definition good (w : Z) (r : R) (v : num) : Prop := wf v /\ normal v /\ ninexact v = true /\ w + 64 <= 64 * wlen v /\ has_sign (ns v) r /\
  (Rabs (Rabs (value v) - Rabs r) <= 15 / 16 * bpow radix2 (- w) * Rabs r)%R.

(** ** The exponent as a number *)
Lemma exp_num e : e <> 0 -> Z.abs e < 2 ^ 40 -> near 0 (if e <? 0 then Neg else Pos) (IZR (Z.abs e)) (ln_exp_num e) /\ value (ln_exp_num e) = IZR e.
Proof.
  intros H0 H1. assert (HD : 0 < Z.abs e < 2 ^ 64) by (split; [lia|eapply Z.lt_trans; [exact H1|vm_compute; reflexivity]]). destruct (whole_usize (Z.abs e) HD) as (W & I & V).
  assert (G1 : (1 <= IZR (Z.abs e))%R) by (apply (IZR_le 1); lia). assert (A : Rabs (value (from_usize (Z.abs e))) = IZR (Z.abs e)) by (rewrite V; apply Rabs_pos_eq; lra).
  assert (N : normal (from_usize (Z.abs e))). { apply normal_iff; [exact W|]. rewrite A. eapply Rle_trans; [|exact G1]. change 1%R with (bpow radix2 0). apply bpow_le. vm_compute. discriminate. }
  assert (S : ns (from_usize (Z.abs e)) = Pos). { pose proof (value_has_sign _ W ltac:(apply N)) as X. rewrite V in X. unfold has_sign in X. destruct (ns (from_usize (Z.abs e))); [cbn [sgnZ] in X; lra|reflexivity]. }
  unfold ln_exp_num. cbv zeta. destruct (Z.ltb_spec e 0) as [L|L].
  - assert (VN : value (set_sign (from_usize (Z.abs e)) Neg) = (- value (from_usize (Z.abs e)))%R). { rewrite !value_split. unfold set_sign, magnitude, wlen. cbn [ns nm ne]. rewrite S. unfold sgnR. cbn [sgnZ]. change (magnitude (from_usize (Z.abs e))) with (val (mm (nm (from_usize (Z.abs e))))). ring. }
    split; [|rewrite VN, V, <- opp_IZR; f_equal; lia]. split; [destruct W as [w1 w2 w3 w4 w5 w6]; split; assumption|]. split; [exact N|]. split; [reflexivity|]. rewrite VN, Rabs_Ropp, A. apply lc_refl; lra.
  - split; [|rewrite V; f_equal; lia]. split; [exact W|]. split; [exact N|]. split; [exact S|]. rewrite A. apply lc_refl; lra.
Qed.

(** ** One round *)
Section Round.
Context (g : nat) (m : num) (w W l : Z) (Hw : 128 <= w) (Hw64 : w mod 64 = 0) (HwB : w <= 2 ^ 14) (HW64 : W mod 64 = 0) (HW : w + 64 <= W <= 2 * w) (Hl : 64 * wlen m = l) (Hlw : l + 64 <= w)
  (Wm : wf m) (Nm : normal m) (Sm : ns m = Pos) (Em : ne m = 0) (Vm : (/ 2 <= value m < 1)%R).
Let HPU : prec_up W = W.
Proof. unfold prec_up. clear - HW64. dlia. Qed.
Let HW16 : 128 <= W <= 2 ^ 16.
Proof. change (2 ^ 14) with 16384 in HwB. change (2 ^ 16) with 65536. clear - Hw HW HwB. lia. Qed.
Let HWL : W < P_LIM.
Proof. eapply Z.le_lt_trans; [apply HW16|vm_compute; reflexivity]. Qed.
Let HN : nmax W = 21.
Proof. unfold nmax. replace (W <=? 2 ^ 15) with true; [reflexivity|]. symmetry. apply Z.leb_le. change (2 ^ 14) with 16384 in HwB. change (2 ^ 15) with 32768. clear - HW HwB. lia. Qed.

Lemma widen px : 0 < px -> prec_up px = W -> exists y, set_precision m px RNone = Ok y /\ wf y /\ normal y /\ ns y = Pos /\ 64 * wlen y = W /\ ne y = 0 /\ value y = value m.
Proof.
  intros Hp HPx. pose proof (apx_self 128 m Wm Nm) as A. rewrite Sm in A. destruct (apx_len_up 128 Pos 0 _ m px A ltac:(rewrite HPx, Hl; clear - Hlw HW; lia) Hp ltac:(rewrite HPx; exact HWL)) as (y & E & (Wy & Ny & Sy & _) & Ly & Vy).
  exists y. split; [exact E|]. split; [exact Wy|]. split; [exact Ny|]. split; [exact Sy|]. split; [rewrite Ly; exact HPx|]. split; [|exact Vy].
  destruct (normal_range y Wy Ny) as [A1 A2]. rewrite Vy, Rabs_pos_eq in A1, A2 by lra. assert (ne y - 1 < 0) by (apply (lt_bpow radix2); change (bpow radix2 0) with 1%R; lra). assert (-1 < ne y) by (apply (lt_bpow radix2); change (bpow radix2 (-1)) with (/ 2)%R; lra). lia.
Qed.

(** The part of the mantissa, by its relative error. *)
Lemma part_coarse px P L : 0 < px -> prec_up px = W -> 128 <= P <= W -> 0 <= L <= l -> (bpow radix2 (- (L + 1)) <= 1 - value m)%R -> P + L + 25 <= W + 64 ->
  ends (rbind (done (set_precision m px RNone)) (fun y => ln_series g y RNone)) (fun q => apx P Neg KL (- ln (value m)) q /\ 64 * wlen q = W /\ ninexact q = true).
Proof.
  intros Hp HPx HP HL HG HB. destruct (widen px Hp HPx) as (y & -> & Wy & Ny & Sy & Ly & Ey & Vy). cbn [done rbind]. rewrite <- Vy. apply (ln_series_ok g y W P L); try assumption; try apply HW16; try apply HL.
  - change (2 ^ 14) with 16384 in HwB. change (2 ^ 15) with 32768. clear - HL Hlw HwB. lia.
  - rewrite Vy. exact HG.
  - rewrite HN. clear - HB. lia.
Qed.
Lemma part_sharp px : 0 < px -> prec_up px = W -> (value m <= 3 / 4)%R ->
  ends (rbind (done (set_precision m px RNone)) (fun y => ln_series g y RNone)) (fun q => near (8 * eta W) Neg (- ln (value m)) q /\ 64 * wlen q = W /\ ninexact q = true).
Proof.
  intros Hp HPx HV. destruct (widen px Hp HPx) as (y & -> & Wy & Ny & Sy & Ly & Ey & Vy). cbn [done rbind]. rewrite <- Vy. apply (ln_series_sharp g y W); try assumption. rewrite Vy. exact HV.
Qed.

(** The part of the exponent. *)
Lemma part_exp c e : lreach c -> e <> 0 -> Z.abs e < 2 ^ 40 -> exists c' p2 q, const_num ln2_for_prec 31 c W RNone = Some (c', Ok p2) /\ lreach c' /\ n_mul p2 (ln_exp_num e) W RNone = Ok q /\
  wf q /\ normal q /\ (Rabs (value q - IZR e * ln 2) <= 8 * bpow radix2 (- W) * IZR (Z.abs e))%R.
Proof.
  intros Hc H0 H1. destruct (ln2_num_ok c W Hc ltac:(clear - HW16; lia)) as (c' & p2 & E & Hc' & CR). { rewrite HPU. eapply Z.le_trans; [apply HW16|vm_compute; discriminate]. }
  rewrite HPU in CR. pose proof (near_apx _ _ _ _ _ (ln2_apx W p2 ltac:(apply HW16) CR)) as A. destruct (exp_num e H0 H1) as [B VB]. pose proof ln2_range as LR.
  assert (G1 : (1 <= IZR (Z.abs e))%R) by (apply (IZR_le 1); lia). assert (G2 : (IZR (Z.abs e) <= bpow radix2 40)%R) by (change (bpow radix2 40) with (IZR (2 ^ 40)); apply IZR_le; lia).
  pose proof (eps_eta W) as EE. pose proof (eta_small W ltac:(apply HW16)) as ES. pose proof (eta_pos W) as EP.
  assert (M : mid (ln 2 * IZR (Z.abs e))). { split; [apply Rle_trans with (bpow radix2 (-1)); [apply bpow_le; vm_compute; discriminate|change (bpow radix2 (-1)) with (/ 2)%R; nra]|]. apply Rle_trans with (bpow radix2 40); [nra|apply bpow_le; vm_compute; discriminate]. }
  destruct (near_mul W W RNone ltac:(apply HW16) HPU HWL _ _ _ _ _ _ _ _ A B ltac:(lra) M) as (q & Eq & (Wq & Nq & Sq & Lq) & _ & _).
  exists c', p2, q. split; [exact E|]. split; [exact Hc'|]. split; [exact Eq|]. split; [exact Wq|]. split; [exact Nq|].
  assert (D : (65 / 64 * (IZR 2 * eps W + 0 + eta W) * ln 2 <= 8 * bpow radix2 (- W))%R). { rewrite EE. unfold eta. replace (1 - W) with (1 + - W) by ring. rewrite bpow_plus. change (bpow radix2 1) with 2%R. pose proof (bpow_gt_0 radix2 (- W)). nra. }
  assert (DD : (0 <= IZR 2 * eps W + 0 + eta W <= / 128)%R) by lra. pose proof (lc_abs_near _ _ _ DD Lq) as N1.
  assert (SG : (value q - IZR e * ln 2)%R = (if e <? 0 then - (Rabs (value q) - ln 2 * IZR (Z.abs e)) else Rabs (value q) - ln 2 * IZR (Z.abs e))%R).
  { pose proof (value_has_sign q Wq ltac:(apply Nq)) as HS. rewrite Sq in HS. unfold has_sign in HS. destruct (Z.ltb_spec e 0) as [L|L]; [change (sgnZ (sign_mul Pos Neg)) with (-1) in HS|change (sgnZ (sign_mul Pos Pos)) with 1 in HS].
    - rewrite Rabs_left by lra. rewrite Z.abs_neq, opp_IZR by lia. ring.
    - rewrite Rabs_pos_eq by lra. rewrite Z.abs_eq by lia. ring. }
  rewrite SG. assert (X : (Rabs (Rabs (value q) - ln 2 * IZR (Z.abs e)) <= 8 * bpow radix2 (- W) * IZR (Z.abs e))%R).
  { eapply Rle_trans; [exact N1|]. rewrite <- Rmult_assoc. apply Rmult_le_compat_r; [lra|exact D]. }
  destruct (e <? 0); [rewrite Rabs_Ropp|]; exact X.
Qed.

Lemma neg_err d r q : (0 <= d <= / 128)%R -> near d Neg (- r) q -> (Rabs (value q - r) <= 65 / 64 * d * - r)%R.
Proof.
  intros Hd (Wq & Nq & Sq & Lq). pose proof (value_has_sign q Wq ltac:(apply Nq)) as HS. rewrite Sq in HS. unfold has_sign in HS. cbn [sgnZ] in HS. pose proof (lc_abs_near _ _ _ Hd Lq) as X.
  rewrite (Rabs_left (value q)) in X by lra. replace (value q - r)%R with (- (- value q - - r))%R by ring. rewrite Rabs_Ropp. exact X.
Qed.
Lemma KL_eps P : (IZR KL * eps P = bpow radix2 (39 - P))%R.
Proof. change (IZR KL) with (bpow radix2 37). unfold eps. rewrite <- bpow_plus. f_equal. ring. Qed.
Lemma ln_m_range : (0 < - ln (value m) <= 7 / 10)%R /\ (- ln (value m) <= 2 * (1 - value m))%R.
Proof.
  split; [split|].
  - assert (ln (value m) < ln 1)%R by (apply ln_increasing; lra). rewrite ln_1 in H. lra.
  - pose proof ln2_range. assert (ln (/ 2) <= ln (value m))%R by (destruct (Req_dec (/ 2) (value m)) as [E|E]; [rewrite E; lra|left; apply ln_increasing; lra]). rewrite ln_Rinv in H0 by lra. lra.
  - rewrite <- ln_Rinv by lra. replace (/ value m)%R with (1 + (1 - value m) / value m)%R by (field; lra). assert (Q : (0 <= (1 - value m) / value m <= 2 * (1 - value m))%R). { split; [apply Rmult_le_pos; [lra|left; apply Rinv_0_lt_compat; lra]|]. unfold Rdiv. rewrite Rmult_comm. apply Rmult_le_compat_r; [lra|]. replace 2%R with (/ / 2)%R by field. apply Rinv_le_contravar; lra. }
    eapply Rle_trans; [apply ln_1p; lra|]. apply Q.
Qed.

(** The exponent is 0. *)
Lemma round_zero c px L : lreach c -> 0 < px -> prec_up px = W -> w + L + 5 <= W -> 0 <= L <= l -> (bpow radix2 (- (L + 1)) <= 1 - value m)%R ->
  lends (ln_sum g c m 0 px) (good w (ln (value m))).
Proof.
  intros Hc Hp HPx HWL2 HL HG. unfold ln_sum. destruct (part_coarse px (w + 44) L Hp HPx ltac:(clear - Hw HW; lia) HL HG ltac:(clear - HWL2; lia)) as [-> |(q & -> & Aq & Lq & Iq)]; [left; reflexivity|]. cbn [lwith lbind Z.eqb].
  right. exists c, q. split; [reflexivity|]. split; [exact Hc|]. destruct ln_m_range as [[R0 R1] _]. pose proof (near_apx _ _ _ _ _ Aq) as (Wq & Nq & Sq & LC). rewrite KL_eps in LC. replace (39 - (w + 44)) with (-5 + - w) in LC by ring. rewrite bpow_plus in LC. change (bpow radix2 (-5)) with (/ 32)%R in LC.
  split; [exact Wq|]. split; [exact Nq|]. split; [exact Iq|]. split; [rewrite Lq; apply HW|]. split; [rewrite Sq; unfold has_sign; cbn [sgnZ]; lra|]. pose proof (bpow_gt_0 radix2 (- w)) as B0. assert (B1 : (bpow radix2 (- w) <= / 4)%R) by (change (/ 4)%R with (bpow radix2 (-2)); apply bpow_le; lia).
  assert (DD : (0 <= / 32 * bpow radix2 (- w) <= / 128)%R) by lra. rewrite (Rabs_left (ln (value m))) by lra. eapply Rle_trans; [exact (lc_abs_near _ _ _ DD LC)|]. apply Rmult_le_compat_r; lra.
Qed.

(** No cancellation. *)
Lemma round_far c px e L : lreach c -> 0 < px -> prec_up px = W -> W = w + 64 -> e <> 0 -> Z.abs e < 2 ^ 40 -> 0 <= L <= l -> (bpow radix2 (- (L + 1)) <= 1 - value m <= bpow radix2 (- L))%R ->
  (IZR (Z.abs e) / 4 <= Rabs (IZR e * ln 2 + ln (value m)))%R -> lends (ln_sum g c m e px) (good w (IZR e * ln 2 + ln (value m))).
Proof.
  intros Hc Hp HPx HWE He0 He HL HG HR. unfold ln_sum. set (P := Z.min W (w + 103 - L)). assert (HP : 128 <= P <= W) by (unfold P; clear - HL Hlw HW Hw HWE; lia). assert (HP2 : P <= w + 64 /\ P + L <= w + 103 /\ (w + 64 <= P \/ w + 103 <= P + L)) by (unfold P; clear - HWE HL Hlw Hw; lia).
  destruct (part_coarse px P L Hp HPx HP HL (proj1 HG) ltac:(clear - HP2 HWE; lia)) as [-> |(q & -> & Aq & Lq & Iq)]; [left; reflexivity|]. cbn [lwith lbind].
  replace (e =? 0) with false by (symmetry; apply Z.eqb_neq; exact He0). change (mantissa_max_bit_len q) with (64 * wlen q). rewrite Lq. cbv zeta.
  destruct (part_exp c e Hc He0 He) as (c' & p2 & q2 & -> & Hc' & E2 & W2 & N2 & D2). cbn [lbind]. rewrite E2. cbn [bind]. right.
  destruct ln_m_range as [[R0 R1] R2]. pose proof (near_apx _ _ _ _ _ Aq) as NQ. rewrite KL_eps in NQ. assert (DP : (0 <= bpow radix2 (39 - P) <= / 128)%R) by (split; [apply bpow_ge_0|]; change (/ 128)%R with (bpow radix2 (-7)); apply bpow_le; lia).
  pose proof (neg_err _ _ _ DP NQ) as D1. destruct NQ as (Wq & Nq & Sq & _). set (r := (IZR e * ln 2 + ln (value m))%R) in *. assert (G1 : (1 <= IZR (Z.abs e))%R) by (apply (IZR_le 1); lia).
  assert (T1 : (bpow radix2 (39 - P) * - ln (value m) <= bpow radix2 (- w - 24))%R).
  { apply Rle_trans with (bpow radix2 (39 - P) * (2 * bpow radix2 (- L)))%R; [apply Rmult_le_compat_l; [apply bpow_ge_0|lra]|]. change 2%R with (bpow radix2 1). rewrite <- !bpow_plus. apply bpow_le. clear - HP2 HL. lia. }
  pose proof (bpow_gt_0 radix2 (- w)) as B0. assert (E1 : (bpow radix2 (- w - 24) = / 16777216 * bpow radix2 (- w))%R) by (replace (- w - 24) with (-24 + - w) by ring; rewrite bpow_plus; reflexivity). assert (E3 : (bpow radix2 (- W) = / 18446744073709551616 * bpow radix2 (- w))%R) by (rewrite HWE; replace (- (w + 64)) with (-64 + - w) by ring; rewrite bpow_plus; reflexivity).
  assert (B1 : (bpow radix2 (- w) <= / 4)%R) by (change (/ 4)%R with (bpow radix2 (-2)); apply bpow_le; lia).
  assert (SUM : (Rabs (value q + value q2 - r) <= / 1048576 * bpow radix2 (- w) * Rabs r)%R).
  { replace (value q + value q2 - r)%R with ((value q - ln (value m)) + (value q2 - IZR e * ln 2))%R by (unfold r; ring). eapply Rle_trans; [apply Rabs_triang|].
    assert (X1 : (Rabs (value q - ln (value m)) <= 65 / 64 * (/ 16777216 * bpow radix2 (- w)) * IZR (Z.abs e))%R). { eapply Rle_trans; [exact D1|]. rewrite E1 in T1. assert (65 / 64 * bpow radix2 (39 - P) * - ln (value m) <= 65 / 64 * (/ 16777216 * bpow radix2 (- w)))%R by lra. eapply Rle_trans; [exact H|]. rewrite <- (Rmult_1_r (65 / 64 * _)) at 1. apply Rmult_le_compat_l; lra. }
    rewrite E3 in D2. assert (X2 : (/ 4194304 * bpow radix2 (- w) * IZR (Z.abs e) <= / 1048576 * bpow radix2 (- w) * Rabs r)%R). { replace (/ 4194304 * bpow radix2 (- w) * IZR (Z.abs e))%R with (/ 1048576 * bpow radix2 (- w) * (IZR (Z.abs e) / 4))%R by field. apply Rmult_le_compat_l; lra. }
    assert (X3 : (0 <= bpow radix2 (- w) * IZR (Z.abs e))%R) by (apply Rmult_le_pos; lra). lra. }
  assert (RA : (/ 4 <= Rabs r)%R) by lra. assert (RN : r <> 0%R) by (intros X; rewrite X, Rabs_R0 in RA; lra). pose proof ln2_range as LR.
  assert (M : mid (Rabs r)). { apply (mid_range (-2) 41); [vm_compute; discriminate|vm_compute; discriminate|]. split; [exact RA|]. unfold r. eapply Rle_trans; [apply Rabs_triang|]. rewrite Rabs_mult, (Rabs_pos_eq (ln 2)), <- abs_IZR, (Rabs_left (ln (value m))) by lra. assert (IZR (Z.abs e) <= bpow radix2 40)%R by (change (bpow radix2 40) with (IZR (2 ^ 40)); apply IZR_le; lia). change (bpow radix2 41) with (2 * bpow radix2 40)%R. assert (IZR (Z.abs e) * ln 2 <= IZR (Z.abs e) * 1)%R by (apply Rmult_le_compat_l; lra). change (bpow radix2 40) with 1099511627776%R in *. lra. }
  destruct (sum_round q q2 W W r (/ 1048576 * bpow radix2 (- w)) ltac:(apply HW16) HPU HWL Wq Nq W2 N2 RN M ltac:(lra) SUM) as (v & Ev & Wv & Nv & Lv & Iv & Sv & Dv); [rewrite Iq; reflexivity|].
  exists c', v. rewrite Ev. split; [reflexivity|]. split; [exact Hc'|]. split; [exact Wv|]. split; [exact Nv|]. split; [exact Iv|]. split; [rewrite Lv; apply HW|]. split; [exact Sv|]. eapply Rle_trans; [exact Dv|]. apply Rmult_le_compat_r; [lra|].
  assert (ET : (eta W <= / 2 * bpow radix2 (- w))%R). { unfold eta. replace (1 - W) with (1 + - W) by ring. rewrite bpow_plus, E3. change (bpow radix2 1) with 2%R. lra. } lra.
Qed.

(** A number slightly above 1. *)
Lemma round_one c px n : lreach c -> 0 < px -> prec_up px = W -> w + n + 5 <= W -> 2 <= n <= l -> (bpow radix2 (- n) <= 2 * value m - 1 < bpow radix2 (1 - n))%R ->
  lends (ln_sum g c m 1 px) (good w (ln 2 + ln (value m))).
Proof.
  intros Hc Hp HPx HWn Hn HG. unfold ln_sum. assert (B2 : (bpow radix2 (1 - n) <= / 2)%R) by (change (/ 2)%R with (bpow radix2 (-1)); apply bpow_le; lia). pose proof (bpow_gt_0 radix2 (- n)) as N0.
  destruct (part_sharp px Hp HPx ltac:(lra)) as [-> |(q & -> & NQ & Lq & Iq)]; [left; reflexivity|]. cbn [lwith lbind Z.eqb]. change (mantissa_max_bit_len q) with (64 * wlen q). rewrite Lq. cbv zeta.
  destruct (part_exp c 1 Hc ltac:(lia) ltac:(vm_compute; reflexivity)) as (c' & p2 & q2 & -> & Hc' & E2 & W2 & N2 & D2). cbn [lbind]. rewrite E2. cbn [bind]. right.
  destruct ln_m_range as [[R0 R1] _]. pose proof (eta_small W ltac:(apply HW16)) as ES. pose proof (eta_pos W) as EP. assert (DP : (0 <= 8 * eta W <= / 128)%R) by lra. pose proof (neg_err _ _ _ DP NQ) as D1. destruct NQ as (Wq & Nq & Sq & _). set (r := (ln 2 + ln (value m))%R) in *.
  assert (RL : (4 / 5 * bpow radix2 (- n) <= r)%R).
  { unfold r. rewrite <- ln_mult by lra. set (t := (2 * value m - 1)%R) in *. replace (2 * value m)%R with (1 + t)%R by (unfold t; ring). assert (T0 : (0 < t < / 2)%R) by (split; lra).
    assert (T1 : (0 < t / (2 + t) < 1)%R). { split; [apply Rdiv_lt_0_compat; lra|]. apply (Rmult_lt_reg_r (2 + t)); [lra|]. unfold Rdiv. rewrite Rmult_assoc, Rinv_l by lra. lra. }
    pose proof (dath_ge (t / (2 + t)) T1) as X. unfold dath in X. replace ((1 + t / (2 + t)) / (1 - t / (2 + t)))%R with (1 + t)%R in X by (field; lra). assert (4 / 5 * t <= 2 * (t / (2 + t)))%R. { apply (Rmult_le_reg_r (2 + t)); [lra|]. replace (2 * (t / (2 + t)) * (2 + t))%R with (2 * t)%R by (field; lra). nra. } lra. }
  pose proof ln2_range as LR. assert (RU : (r <= 1)%R) by (unfold r; lra). assert (RP : (0 < r)%R) by lra. rewrite <- (Rabs_pos_eq r) in RL, RU by lra.
  pose proof (bpow_gt_0 radix2 (- W)) as BW0. assert (EW : (eta W = 65 / 32 * bpow radix2 (- W))%R) by (unfold eta; replace (1 - W) with (1 + - W) by ring; rewrite bpow_plus; change (bpow radix2 1) with 2%R; field).
  assert (BW : (bpow radix2 (- W) <= / 32 * (bpow radix2 (- w) * bpow radix2 (- n)))%R). { change (/ 32)%R with (bpow radix2 (-5)). rewrite <- !bpow_plus. apply bpow_le. clear - HWn. lia. }
  pose proof (bpow_gt_0 radix2 (- w)) as B0. assert (B1 : (bpow radix2 (- w) <= / 65536)%R) by (change (/ 65536)%R with (bpow radix2 (-16)); apply bpow_le; lia).
  assert (BR : (bpow radix2 (- w) * bpow radix2 (- n) <= 5 / 4 * (bpow radix2 (- w) * Rabs r))%R). { replace (5 / 4 * (bpow radix2 (- w) * Rabs r))%R with (bpow radix2 (- w) * (5 / 4 * Rabs r))%R by field. apply Rmult_le_compat_l; lra. }
  assert (SUM : (Rabs (value q + value q2 - r) <= 49 / 64 * bpow radix2 (- w) * Rabs r)%R).
  { change (Z.abs 1) with 1 in D2. rewrite Rmult_1_r, Rmult_1_l in D2. replace (value q + value q2 - r)%R with ((value q - ln (value m)) + (value q2 - ln 2))%R by (unfold r; ring). eapply Rle_trans; [apply Rabs_triang|].
    assert (X1 : (Rabs (value q - ln (value m)) <= 1157 / 100 * bpow radix2 (- W))%R). { eapply Rle_trans; [exact D1|]. rewrite EW. apply Rle_trans with (65 / 64 * (8 * (65 / 32 * bpow radix2 (- W))) * (7 / 10))%R; [apply Rmult_le_compat_l; lra|]. lra. }
    lra. }
  assert (RN : r <> 0%R) by lra. assert (M : mid (Rabs r)). { apply (mid_range (- (1) - n) 0); [clear - Hn Hlw HwB; unfold HX; change (2 ^ 14) with 16384 in HwB; change (2 ^ 30) with 1073741824; lia|vm_compute; discriminate|]. split; [|exact RU]. unfold Zminus. rewrite bpow_plus. change (bpow radix2 (- (1))) with (/ 2)%R. lra. }
  destruct (sum_round q q2 W W r (49 / 64 * bpow radix2 (- w)) ltac:(apply HW16) HPU HWL Wq Nq W2 N2 RN M ltac:(lra) SUM) as (v & Ev & Wv & Nv & Lv & Iv & Sv & Dv); [rewrite Iq; reflexivity|].
  exists c', v. rewrite Ev. split; [reflexivity|]. split; [exact Hc'|]. split; [exact Wv|]. split; [exact Nv|]. split; [exact Iv|]. split; [rewrite Lv; apply HW|]. split; [exact Sv|]. eapply Rle_trans; [exact Dv|]. apply Rmult_le_compat_r; [apply Rabs_pos|].
  assert (ET : (eta W <= / 32 * bpow radix2 (- w))%R). { rewrite EW. assert (bpow radix2 (- W) <= bpow radix2 (-7 + - w))%R by (apply bpow_le; clear - HW; lia). rewrite bpow_plus in H. change (bpow radix2 (-7)) with (/ 128)%R in H. lra. } lra.
Qed.
End Round.

(** ** The retry loop *)
Definition ln_post (r : R) (p : Z) (rm : rmode) (c : ln2_cache) (res : result num) : Prop := lreach c /\ exists q, res = Ok q /\ elem_result r p rm q.

Lemma finish_ok c x ret p rm w r (again : lrun num) : lreach c -> good w r ret -> (Rabs r <= bpow radix2 100)%R -> 0 < p -> p mod 64 = 0 -> w mod 64 = 0 -> p + 64 <= w ->
  match again with None => True | Some (c', res) => ln_post r p rm c' res end ->
  match ln_finish c x ret p rm w again with None => True | Some (c', res) => ln_post r p rm c' res end.
Proof.
  intros Hc (Wr & Nr & Ir & Lr & Sr & Dr) HR Hp Hp64 Hw64 Hpw HA. pose proof (accept_rel r ret p rm w Wr Nr Ir Lr Sr Dr Hp Hp64 Hw64 Hpw) as A. unfold ln_finish.
  destruct (try_set_precision ret p rm w) as [[y [|]]|[s| | |]|]; try contradiction.
  - split; [exact Hc|]. eexists. split; [reflexivity|]. now apply elem_mark.
  - exact HA.
  - exfalso. exact (no_overflow r p rm s Hp HR A).
Qed.

(** The rounds of a loop. *)
Lemma loop_ok (loop : nat -> ln2_cache -> Z -> Z -> lrun num) (sum : ln2_cache -> Z -> lrun num) x p rm r w0 :
  (forall f c w i, loop (S f) c w i = lbind (sum c w) (fun c ret => ln_finish c x ret p rm w (loop f c (w + i) (round_p ((w + i) / 5))))) -> (forall c w i, loop O c w i = None) ->
  (forall c w, lreach c -> w0 <= w <= 2 ^ 14 -> w mod 64 = 0 -> lends (sum c w) (good w r)) -> (Rabs r <= bpow radix2 100)%R -> 0 < p -> p mod 64 = 0 -> p + 64 <= w0 ->
  forall f c w i, lreach c -> w0 <= w -> w mod 64 = 0 -> 0 <= i -> i mod 64 = 0 -> work f w i <= 2 ^ 14 ->
  match loop f c w i with None => True | Some (c', res) => ln_post r p rm c' res end.
Proof.
  intros LS LO HS HR Hp Hp64 Hw0. induction f as [|f IH]; intros c w i Hc Hw Hw64 Hi Hi64 HB; [rewrite LO; exact I|].
  pose proof (work_ge (S f) w i ltac:(lia) Hi) as HG. change (work (S f) w i) with (work f (w + i) (64 * (((w + i) / 5 + 63) / 64))) in HB, HG.
  pose proof (work_ge f (w + i) (64 * (((w + i) / 5 + 63) / 64)) ltac:(lia) ltac:(clear - Hw Hi Hw0 Hp; dlia)) as HG2.
  assert (RI : round_p ((w + i) / 5) = 64 * (((w + i) / 5 + 63) / 64)). { assert (H : w + i <= 2 ^ 14) by lia. apply round_p_eq. { clear - Hw Hw0 Hp Hi; dlia. } apply Z.lt_trans with (2 ^ 21); [|vm_compute; reflexivity]. unfold prec_up. clear - H Hw Hw0 Hp Hi. change (2 ^ 14) with 16384 in *. change (2 ^ 21) with 2097152. dlia. }
  rewrite LS. destruct (HS c w Hc ltac:(lia) Hw64) as [-> |(c' & ret & -> & Hc' & G)]; [exact I|]. cbn [lbind]. apply (finish_ok c' x ret p rm w r); try assumption; [lia|].
  rewrite RI. apply IH; [exact Hc'|lia| |clear - Hw Hi Hw0 Hp; dlia|rewrite Z.mul_comm; apply Z.mod_mul; lia|exact HB]. clear - Hw64 Hi64. dlia.
Qed.

(** ** The whole function *)
Lemma ln_x e m x : (0 < value m)%R -> value x = (bpow radix2 e * value m)%R -> ln (value x) = (IZR e * ln 2 + ln (value m))%R.
Proof.
  intros Hm ->. rewrite ln_mult by (try apply bpow_gt_0; exact Hm). f_equal. rewrite bpow_powerRZ. change (IZR radix2) with 2%R. destruct e as [|q|q].
  - cbn [powerRZ]. rewrite ln_1. ring.
  - cbn [powerRZ]. rewrite ln_pow by lra. rewrite INR_IZR_INZ, positive_nat_Z. reflexivity.
  - cbn [powerRZ]. rewrite ln_Rinv by (apply pow_lt; lra). rewrite ln_pow by lra. rewrite INR_IZR_INZ, positive_nat_Z. change (Z.neg q) with (- Z.pos q). rewrite opp_IZR. ring.
Qed.
Lemma ln_far e m : (/ 2 <= value m < 1)%R -> e <> 0 -> (e = 1 -> (3 / 4 <= value m)%R) -> (IZR (Z.abs e) / 4 <= Rabs (IZR e * ln 2 + ln (value m)))%R.
Proof.
  intros Vm E0 E1. pose proof (ln_m_range m Vm) as [[R0 R1] R2]. pose proof ln2_range as LR.
  assert (R3 : (- ln (value m) <= ln 2)%R). { assert (ln (/ 2) <= ln (value m))%R by (destruct (Req_dec (/ 2) (value m)) as [E|E]; [rewrite E; lra|left; apply ln_increasing; lra]). rewrite ln_Rinv in H by lra. lra. }
  destruct (Z_lt_le_dec e 0) as [L|L].
  - assert (G : (IZR e <= -1)%R) by (apply (IZR_le e (-1)); lia). rewrite Z.abs_neq, opp_IZR by lia. rewrite Rabs_left by nra. nra.
  - destruct (Z.eq_dec e 1) as [-> |N1].
    + specialize (E1 eq_refl). assert (G : (/ 3 <= ln 2 + ln (value m))%R). { rewrite <- ln_mult by lra. pose proof (ln_1p (/ (2 * value m) - 1)) as X. assert (Q : (0 < / (2 * value m) <= / (3 / 2))%R) by (split; [apply Rinv_0_lt_compat; lra|apply Rinv_le_contravar; lra]). specialize (X ltac:(lra)). replace (1 + (/ (2 * value m) - 1))%R with (/ (2 * value m))%R in X by ring. rewrite ln_Rinv in X by lra. lra. }
      change (Z.abs 1) with 1. rewrite Rmult_1_l, Rabs_pos_eq by lra. lra.
    + assert (G : (2 <= IZR e)%R) by (apply (IZR_le 2); lia). rewrite Z.abs_eq by lia. rewrite Rabs_pos_eq by nra. nra.
Qed.
Lemma ln_size e m : (/ 2 <= value m < 1)%R -> Z.abs e < 2 ^ 40 -> (Rabs (IZR e * ln 2 + ln (value m)) <= bpow radix2 100)%R.
Proof.
  intros Vm He. pose proof (ln_m_range m Vm) as [[R0 R1] R2]. pose proof ln2_range as LR. eapply Rle_trans; [apply Rabs_triang|]. rewrite Rabs_mult, (Rabs_pos_eq (ln 2)), <- abs_IZR, (Rabs_left (ln (value m))) by lra.
  assert (A : (0 <= IZR (Z.abs e) <= IZR (2 ^ 40))%R) by (split; apply IZR_le; lia). apply Rle_trans with (IZR (2 ^ 40) + 1)%R; [nra|]. rewrite <- plus_IZR. change (bpow radix2 100) with (IZR (2 ^ 100)). apply IZR_le. vm_compute. discriminate.
Qed.

Theorem ln_ok f g c x p rm : lreach c -> wf x -> (0 < value x)%R -> value x <> 1%R -> 0 < p -> work f (Z.max (prec_up p) (64 * wlen x) + 64) 64 <= 2 ^ 14 ->
  match ln_num f g c x p rm with None => True | Some (c', res) => ln_post (ln (value x)) (prec_up p) rm c' res end.
Proof.
  intros Hc W H0 H1 Hp HB. destruct (ln_mant x W H0) as (e & m & EM & Wm & Nm & Sm & Em & Im & Lm & VX & Vm & _ & He & (CL1 & CL2) & (ZC1 & ZC2 & ZC3)).
  assert (P64 : 64 <= prec_up p) by (unfold prec_up; clear - Hp; dlia). set (M := Z.max (prec_up p) (64 * wlen x)) in *. pose proof (work_ge f (M + 64) 64 ltac:(lia) ltac:(lia)) as HG. assert (MB : M + 64 <= 2 ^ 14) by lia.
  assert (HE : Z.abs e < 2 ^ 40). { change EMIN with (-2147483648) in He. change EMAX with 2147483647 in He. change (2 ^ 14) with 16384 in MB. change (2 ^ 40) with 1099511627776. clear - He MB. lia. }
  assert (NZ : is_zero x || is_negative x = false). { destruct (yes_pos x W H0) as [N _]. rewrite (is_zero_false x W N), negative_sign. pose proof (value_has_sign x W N) as V. unfold has_sign in V. destruct (ns x); [cbn [sgnZ] in V; lra|reflexivity]. }
  assert (RP : round_p p = prec_up p). { apply round_p_eq; [lia|]. eapply Z.le_lt_trans with (2 ^ 14); [lia|vm_compute; reflexivity]. }
  unfold ln_num. rewrite NZ, EM, RP. cbv zeta. change (mantissa_max_bit_len m) with (64 * wlen m). change (mantissa_max_bit_len x) with (64 * wlen x). rewrite Lm. fold M. set (l := 64 * wlen x) in *.
  assert (HM2 : e = 1 -> value m <> (/ 2)%R). { intros -> E. apply H1. rewrite VX, E. change (bpow radix2 1) with 2%R. field. }
  set (ap := (if e =? 0 then count_leading_ones (mm (nm m)) else if e =? 1 then count_leading_zeroes_skip_first (mm (nm m)) else 0) + 5).
  assert (NE : (e =? 1) && (ap =? l + 5) = false). { destruct (Z.eqb_spec e 1) as [-> |]; [|reflexivity]. cbn [andb]. apply Z.eqb_neq. unfold ap. change (1 =? 0) with false. change (1 =? 1) with true. cbv iota. intros Q. apply (HM2 eq_refl), ZC2. clear - Q. lia. }
  rewrite NE. assert (HM64 : M mod 64 = 0) by (unfold M, l; destruct (Z.max_spec (prec_up p) (64 * wlen x)) as [[_ ->]|[_ ->]]; [rewrite Z.mul_comm; apply Z.mod_mul; lia|apply prec_up_mod]).
  apply (loop_ok (fun f c w i => ln_loop f g c x m e ap (prec_up p) rm w i) (fun c w => ln_sum g c m e (w + ap)) x (prec_up p) rm (ln (value x)) (M + 64)); try reflexivity; try assumption; try lia; try apply prec_up_mod.
  - clear NE. intros c0 w Hc0 Hw Hw64. rewrite (ln_x e m x ltac:(lra) VX). assert (LM : 64 * wlen m = l) by (rewrite Lm; reflexivity). assert (Hlw : l + 64 <= w) by lia. assert (Hw1 : 128 <= w) by lia.
    assert (HAP : 5 <= ap <= l + 5). { unfold ap. destruct (e =? 0); [clear - CL1; lia|]. destruct (e =? 1); [clear - ZC1; lia|]. clear - ZC1. lia. }
    assert (PX : prec_up (w + ap) mod 64 = 0) by apply prec_up_mod. assert (PX2 : w + 64 <= prec_up (w + ap) <= 2 * w). { assert (l mod 64 = 0) by (unfold l; rewrite Z.mul_comm; apply Z.mod_mul; lia). unfold prec_up. clear - HAP Hw64 Hlw H. dlia. }
    assert (PX3 : w + ap <= prec_up (w + ap)) by (unfold prec_up; clear; dlia).
    destruct (Z.eq_dec e 0) as [E0|E0].
    { assert (AE : ap = count_leading_ones (mm (nm m)) + 5) by (unfold ap; rewrite E0; reflexivity). rewrite E0, Rmult_0_l, Rplus_0_l. apply (round_zero g m w (prec_up (w + ap)) l) with (L := count_leading_ones (mm (nm m))); try assumption; try reflexivity; try lia. apply CL2. }
    assert (FAR : (e = 1 -> (3 / 4 <= value m)%R) -> ap <= 64 -> lends (ln_sum g c0 m e (w + ap)) (good w (IZR e * ln 2 + ln (value m)))).
    { intros C A6. apply (round_far g m w (prec_up (w + ap)) l) with (L := count_leading_ones (mm (nm m))); try assumption; try reflexivity; try lia; [unfold prec_up in *; clear - A6 HAP Hw64 PX2; dlia|]. now apply ln_far. }
    destruct (Z.eq_dec e 1) as [E1|E1]; [|apply FAR; [intros; contradiction|]; unfold ap; replace (e =? 0) with false by lia; replace (e =? 1) with false by lia; lia].
    pose proof (ZC3 (HM2 E1)) as ZC4. destruct (Z.eq_dec (count_leading_zeroes_skip_first (mm (nm m))) 1) as [ZE|ZE].
    { apply FAR; [|unfold ap; rewrite E1, ZE; cbn; lia]. intros _. rewrite ZE in ZC4. change (bpow radix2 (- (1))) with (/ 2)%R in ZC4. lra. }
    rewrite E1, Rmult_1_l. assert (AE : ap = count_leading_zeroes_skip_first (mm (nm m)) + 5) by (unfold ap; rewrite E1; reflexivity). apply (round_one g m w (prec_up (w + ap)) l) with (n := count_leading_zeroes_skip_first (mm (nm m))); try assumption; try reflexivity; lia.
  - rewrite (ln_x e m x ltac:(lra) VX). now apply ln_size.
  - clear - HM64. dlia.
Qed.
