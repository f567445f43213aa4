(** The logarithm as a step of other functions: the error of its argument becomes an
    absolute error of the result. *)

From Coq Require Import ZArith List Bool Lia Reals Lra.
From Flocq Require Import Core Relative.
From Verif Require Import Words IntModel Mantissa Num Pow Consts Elem Ctx Series Ln SpecZ SpecOps SpecConst SpecReach SpecPow SpecElem WordsP Spec RealP RealP2 NumP CmpP AddP SetP AddNum MulNum DivNum RootNum ArithTop RoundableNum PowNum PowTop ConstP ConstTop ConstNum ConstReach PowExt IntNum CtxP ElemNum ElemDom ApproxR ApproxNum SeriesP SeriesNum SinhNum SinhTop ExpNum RetryNum ExpTop LnR LnConst LnNum LnSharp LnSharp2 LnSharp3 LnMant LnTop.
Import ListNotations.
Open Scope Z_scope.
Ltac Zify.zify_post_hook ::= idtac.
Arguments Z.mul : simpl never.
Arguments Z.add : simpl never.
Arguments Z.pow : simpl never.
Arguments Z.sub : simpl never.
Arguments Z.of_nat : simpl never.
Ltac dlia := Z.div_mod_to_equations; lia.

Lemma lc_ln d a v : lc d a v -> (Rabs (ln v - ln a) <= d)%R.
Proof.
  intros (A & L & U). pose proof (exp_pos d) as E. pose proof (exp_pos (- d)) as E'. assert (V : (0 < v)%R) by (eapply Rlt_le_trans; [|exact L]; apply Rmult_lt_0_compat; lra).
  assert (M : forall x y, (0 < x <= y)%R -> (ln x <= ln y)%R). { intros x y [X [Y|Y]]; [left; apply ln_increasing; lra|rewrite Y; lra]. }
  assert (L1 : (0 < a * exp (- d))%R) by (apply Rmult_lt_0_compat; lra). pose proof (M _ _ (conj L1 L)) as P. pose proof (M _ _ (conj V U)) as Q. rewrite ln_mult, ln_exp in P, Q by lra. apply Rabs_le. lra.
Qed.

(** The logarithm of a number is not tiny. *)
Lemma ln_size2 d : wf d -> (0 < value d)%R -> value d <> 1%R -> 64 * wlen d <= 2 ^ 20 -> (bpow radix2 (- (64 * wlen d + 1)) <= Rabs (ln (value d)) <= bpow radix2 100)%R.
Proof.
  intros W H0 H1 HB. destruct (ln_mant d W H0) as (e & m & EM & Wm & Nm & Sm & Em & Im & Lm & VX & Vm & Gm & He & _ & (ZC1 & ZC2 & ZC3)). cbv zeta in ZC2, ZC3.
  assert (HE : Z.abs e < 2 ^ 40). { change EMIN with (-2147483648) in He. change EMAX with 2147483647 in He. change (2 ^ 20) with 1048576 in HB. change (2 ^ 40) with 1099511627776. clear - He HB. lia. }
  rewrite (ln_x e m d ltac:(lra) VX). split; [|now apply ln_size]. pose proof (ln_m_range m Vm) as [[R0 R1] R2]. set (l := 64 * wlen d) in *. assert (L1 : 1 <= l) by (clear - ZC1; lia).
  assert (BQ : (bpow radix2 (- (l + 1)) <= / 4)%R) by (change (/ 4)%R with (bpow radix2 (-2)); apply bpow_le; lia).
  assert (FAR : e <> 0 -> (e = 1 -> (3 / 4 <= value m)%R) -> (bpow radix2 (- (l + 1)) <= Rabs (IZR e * ln 2 + ln (value m)))%R).
  { intros E0 E1. eapply Rle_trans; [|apply ln_far; assumption]. assert (1 <= IZR (Z.abs e))%R by (apply (IZR_le 1); lia). lra. }
  destruct (Z.eq_dec e 0) as [-> |E0].
  { rewrite Rmult_0_l, Rplus_0_l, Rabs_left by lra. pose proof (ln_1p (value m - 1) ltac:(lra)) as X. replace (1 + (value m - 1))%R with (value m) in X by ring. assert (bpow radix2 (- (l + 1)) <= bpow radix2 (- l))%R by (apply bpow_le; lia). lra. }
  destruct (Z.eq_dec e 1) as [E1|E1]; [|apply FAR; [exact E0|intros; contradiction]]. destruct (Rle_or_lt (3 / 4) (value m)) as [V|V]; [apply FAR; auto|].
  assert (HM2 : value m <> (/ 2)%R). { intros E. apply H1. rewrite VX, E, E1. change (bpow radix2 1) with 2%R. field. }
  specialize (ZC3 HM2). set (n := count_leading_zeroes_skip_first (mm (nm m))) in *. rewrite E1, Rmult_1_l. rewrite <- ln_mult by lra.
  pose proof (ln_1p (/ (2 * value m) - 1)) as X. assert (Q : (0 < / (2 * value m))%R) by (apply Rinv_0_lt_compat; lra). specialize (X ltac:(lra)). replace (1 + (/ (2 * value m) - 1))%R with (/ (2 * value m))%R in X by ring. rewrite ln_Rinv in X by lra.
  assert (Y : ((2 * value m - 1) / 2 <= 1 - / (2 * value m))%R). { assert (E : (1 - / (2 * value m) = (2 * value m - 1) * / (2 * value m))%R) by (field; lra). rewrite E. apply Rmult_le_compat_l; [lra|]. apply Rinv_le; lra. }
  assert (Z : (bpow radix2 (- (l + 1)) <= bpow radix2 (- n) / 2)%R). { replace (- (l + 1)) with (- l + -1) by ring. rewrite bpow_plus. change (bpow radix2 (-1)) with (/ 2)%R. apply Rmult_le_compat_r; [lra|]. apply bpow_le. clear - ZC1. lia. }
  rewrite Rabs_pos_eq by lra. lra.
Qed.

(** ln without rounding mode. *)
Definition ln_near (W : Z) (y : R) (q : num) : Prop := 64 * wlen q = W /\ ninexact q = true /\ has_sign (ns q) (ln y) /\ near (2 * eta W) (ns q) (Rabs (ln y)) q /\
  exists a, close W (ln y) a /\ value q = rnd_prec W RNone a.
Lemma ln_close h g c d px : lreach c -> wf d -> (0 < value d)%R -> value d <> 1%R -> 128 <= prec_up px -> 64 * wlen d <= prec_up px -> work h (prec_up px + 64) 64 <= 2 ^ 14 ->
  lends (ln_num h g c d px RNone) (ln_near (prec_up px) (value d)).
Proof.
  intros Hc W V0 V1 HP HLen HB. assert (Hp : 0 < px) by (clear - HP; unfold prec_up in HP; dlia). pose proof (work_ge h (prec_up px + 64) 64 ltac:(lia) ltac:(lia)) as HG.
  pose proof (ln_ok h g c d px RNone Hc W V0 V1 Hp ltac:(rewrite Z.max_l by exact HLen; exact HB)) as L. destruct (ln_num h g c d px RNone) as [[c' res]|]; [|left; reflexivity]. destruct L as (Hc' & q & -> & Wq & Lq & Sq & Iq & (a & Ca & Va) & _).
  right. exists c', q. split; [reflexivity|]. split; [exact Hc'|]. set (P := prec_up px) in *. assert (HLB : 64 * wlen d <= 2 ^ 20) by (change (2 ^ 20) with 1048576; change (2 ^ 14) with 16384 in HB; clear - HB HG HLen; lia).
  destruct (ln_size2 d W V0 V1 HLB) as [B1 B2]. set (r := ln (value d)) in *. pose proof (bpow_gt_0 radix2 (- (64 * wlen d + 1))) as B0. assert (R0 : (0 < Rabs r)%R) by lra.
  assert (CE : (bpow radix2 (- (P + 64)) <= / 1048576 * bpow radix2 (1 - P))%R). { change (/ 1048576)%R with (bpow radix2 (-20)). rewrite <- bpow_plus. apply bpow_le. lia. }
  assert (E1 : (bpow radix2 (1 - P) <= / 256)%R) by (change (/ 256)%R with (bpow radix2 (-8)); apply bpow_le; lia). pose proof (bpow_gt_0 radix2 (1 - P)) as E0. set (u := bpow radix2 (1 - P)) in *.
  assert (CA : (Rabs (a - r) <= / 1048576 * u * Rabs r)%R). { unfold close in Ca. eapply Rle_trans; [exact Ca|]. rewrite Rmult_comm. apply Rmult_le_compat_r; lra. }
  assert (A1 : (Rabs r / 2 <= Rabs a <= 2 * Rabs r)%R). { pose proof (Rabs_triang_inv a r). pose proof (Rabs_triang_inv r a). rewrite (Rabs_minus_sym r a) in H0. assert (/ 1048576 * u * Rabs r <= / 4 * Rabs r)%R by (apply Rmult_le_compat_r; lra). lra. }
  assert (A0 : a <> 0%R) by (intros E; rewrite E, Rabs_R0 in A1; lra).
  pose proof (relative_error_FLX radix2 P ltac:(lia) (rnd RNone) a A0) as RE. fold (rnd_prec P RNone a) in RE. rewrite <- Va in RE. replace (- P + 1) with (1 - P) in RE by ring. fold u in RE.
  assert (D : (Rabs (Rabs (value q) - Rabs r) <= 65 / 64 * u * Rabs r)%R).
  { eapply Rle_trans; [apply Rabs_triang_inv2|]. replace (value q - r)%R with ((value q - a) + (a - r))%R by ring. eapply Rle_trans; [apply Rabs_triang|].
    assert (u * Rabs a <= u * (1025 / 1024 * Rabs r))%R. { apply Rmult_le_compat_l; [lra|]. pose proof (Rabs_triang_inv a r). assert (/ 1048576 * u * Rabs r <= / 1024 * Rabs r)%R by (apply Rmult_le_compat_r; lra). lra. }
    assert (0 <= u * Rabs r)%R by (apply Rmult_le_pos; lra). lra. }
  assert (NQ : normal q). { apply normal_iff; [exact Wq|]. apply Rle_trans with (bpow radix2 (- (64 * wlen d + 1) + -1)). { apply bpow_le. apply Z.le_trans with (- (2 ^ 20 + 2)); [vm_compute; discriminate|lia]. } rewrite bpow_plus. change (bpow radix2 (-1)) with (/ 2)%R. apply Rabs_le_inv in D. assert (65 / 64 * u * Rabs r <= / 2 * Rabs r)%R by (apply Rmult_le_compat_r; lra). lra. }
  split; [exact Lq|]. split; [exact Iq|]. split; [exact Sq|]. split; [|exists a; split; assumption]. split; [exact Wq|]. split; [exact NQ|]. split; [reflexivity|].
  apply lc_weak with (65 / 64 * (65 / 64 * u))%R; [unfold eta; fold u; lra|]. apply lc_near; [exact R0|lra|exact D].
Qed.

(** A round that ends with the logarithm of [d], which is near [y]. *)
Lemma ln_good h g c d px w y e : lreach c -> wf d -> (0 < value d)%R -> 64 * wlen d <= prec_up px -> work h (prec_up px + 64) 64 <= 2 ^ 14 -> 128 <= w -> w + 64 <= prec_up px ->
  lc e y (value d) -> (0 <= e)%R -> ln y <> 0%R -> (e <= 13 / 16 * bpow radix2 (- w) * Rabs (ln y))%R -> lends (ln_num h g c d px RNone) (good w (ln y)).
Proof.
  intros Hc W V0 HLen HB Hw HW LC E0 R0 HE. set (r := ln y) in *. pose proof (lc_ln _ _ _ LC) as D. fold r in D. assert (Rp : (0 < Rabs r)%R) by now apply Rabs_pos_lt.
  assert (B1 : (bpow radix2 (- w) <= / 128)%R) by (change (/ 128)%R with (bpow radix2 (-7)); apply bpow_le; lia). pose proof (bpow_gt_0 radix2 (- w)) as B0. set (b := bpow radix2 (- w)) in *.
  assert (D2 : (Rabs (ln (value d) - r) <= 13 / 16 * b * Rabs r)%R) by lra. assert (D3 : (13 / 16 * b * Rabs r <= / 128 * Rabs r)%R) by (apply Rmult_le_compat_r; lra).
  assert (V1 : value d <> 1%R). { intros E. rewrite E, ln_1 in D2. replace (0 - r)%R with (- r)%R in D2 by ring. rewrite Rabs_Ropp in D2. lra. }
  destruct (ln_close h g c d px Hc W V0 V1 ltac:(lia) HLen HB) as [-> |(c' & q & -> & Hc' & Lq & Iq & Sq & (Wq & Nq & _ & LQ) & _)]; [left; reflexivity|]. right. exists c', q. split; [reflexivity|]. split; [exact Hc'|].
  set (s := ln (value d)) in *. split; [exact Wq|]. split; [exact Nq|]. split; [exact Iq|]. split; [lia|]. split.
  - unfold has_sign in *. destruct (ns q); cbn [sgnZ] in *; revert D2 D3; unfold Rabs; destruct (Rcase_abs (s - r)), (Rcase_abs r); intros; lra.
  - assert (EB : (eta (prec_up px) <= / 128 * b)%R). { unfold eta. assert (bpow radix2 (1 - prec_up px) <= bpow radix2 (-10 + - w))%R by (apply bpow_le; lia). rewrite bpow_plus in H. change (bpow radix2 (-10)) with (/ 1024)%R in H. fold b in H. lra. }
    pose proof (eta_pos (prec_up px)) as EP. pose proof (lc_abs_near (2 * eta (prec_up px)) (Rabs s) (Rabs (value q)) ltac:(lra) LQ) as X.
    assert (SR : (Rabs s <= 2 * Rabs r)%R). { pose proof (Rabs_triang_inv s r). lra. }
    assert (X2 : (65 / 64 * (2 * eta (prec_up px)) * Rabs s <= / 16 * b * Rabs r)%R). { apply Rle_trans with (65 / 64 * (2 * (/ 128 * b)) * (2 * Rabs r))%R; [|assert (0 <= b * Rabs r)%R by (apply Rmult_le_pos; lra); lra]. apply Rmult_le_compat; [lra|apply Rabs_pos|lra|exact SR]. }
    replace (Rabs (value q) - Rabs r)%R with ((Rabs (value q) - Rabs s) + (Rabs s - Rabs r))%R by ring. eapply Rle_trans; [apply Rabs_triang|]. pose proof (Rabs_triang_inv2 s r). assert (0 <= b * Rabs r)%R by (apply Rmult_le_pos; lra). fold b. lra.
Qed.

(** ** Sums and differences of numbers *)
Lemma near_sum W p op v w r d : 128 <= W -> prec_up p = W -> W < P_LIM -> wf v -> nonzero v -> wf w -> nonzero w -> op = 1 \/ op = -1 -> mid (Rabs r) -> (0 <= d <= / 256)%R ->
  (Rabs (value v + IZR op * value w - r) <= d * Rabs r)%R -> forall rm,
  exists q s, add_sub v w p op rm false = Ok q /\ has_sign s r /\ near (65 / 64 * d + eta W) s (Rabs r) q /\ 64 * wlen q = W.
Proof.
  intros HW HP HL Wv Nv Ww Nw Hop M Hd HE rm. assert (Rp : (0 < Rabs r)%R) by exact (Rlt_le_trans _ _ _ (bpow_gt_0 radix2 (- HX)) (proj1 M)). set (y := (value v + IZR op * value w)%R) in *.
  assert (HE2 : (Rabs (y - r) < Rabs r)%R) by (eapply Rle_lt_trans; [exact HE|]; assert (d * Rabs r <= / 256 * Rabs r)%R by (apply Rmult_le_compat_r; lra); lra).
  assert (SY : forall s, has_sign s y -> has_sign s r). { intros s. unfold has_sign. destruct s; cbn [sgnZ]; revert HE2; unfold Rabs; destruct (Rcase_abs (y - r)), (Rcase_abs r); intros; lra. }
  assert (Y0 : y <> 0%R). { intros E. rewrite E in HE2. replace (0 - r)%R with (- r)%R in HE2 by ring. rewrite Rabs_Ropp in HE2. lra. }
  assert (Pp : 0 < p) by (clear - HP HW; unfold prec_up in HP; dlia).
  destruct (add_sub_nonzero v w p op rm Wv Ww Nv Nw Hop Pp ltac:(rewrite HP; exact HL)) as [C _]. destruct (C Y0) as (t & Ht & CR). rewrite HP in CR. fold y in Ht, CR.
  assert (LC : lc (65 / 64 * d) (Rabs r) (Rabs y)). { apply lc_near; [exact Rp|lra|]. eapply Rle_trans; [apply Rabs_triang_inv2|exact HE]. }
  destruct (near_round W rm y t _ _ (65 / 64 * d) (Rabs r) CR HW LC ltac:(lra) M) as (q & E & NQ & Lenq & _).
  exists q, t. split; [exact E|]. split; [now apply SY|]. split; [exact NQ|exact Lenq].
Qed.
Lemma near_sqrt W p rm d a v : 128 <= W -> prec_up p = W -> W < P_LIM -> near d Pos a v -> (d <= 1)%R -> mid (sqrt a) ->
  exists q, n_sqrt v p rm = Ok q /\ near (d / 2 + eta W) Pos (sqrt a) q /\ 64 * wlen q = W.
Proof.
  intros HW HP HL (Wv & [_ Nv] & Sv & Lv) Hd M. assert (Pp : 0 < p) by (clear - HP HW; unfold prec_up in HP; dlia).
  pose proof (sqrt_nonzero v p rm Wv Nv Sv Pp ltac:(rewrite HP; exact HL)) as C. rewrite HP in C. pose proof (value_has_sign v Wv Nv) as HV. rewrite Sv in HV. unfold has_sign in HV. cbn [sgnZ] in HV. rewrite Rabs_pos_eq in Lv by lra. apply lc_sqrt in Lv.
  assert (D2 : (d / 2 <= 1)%R) by lra. assert (LV : lc (d / 2) (sqrt a) (Rabs (sqrt (value v)))) by (rewrite Rabs_pos_eq by apply sqrt_pos; exact Lv).
  destruct (near_round W rm _ _ _ _ _ _ C HW LV D2 M) as (q & E & NQ & Lq & _). exists q. auto.
Qed.

(** ** Retry loops *)
Definition accepts (r : R) (p : Z) (rm : rmode) (w : Z) (v : num) : Prop :=
  match try_set_precision v p rm w with Ok (y, true) => elem_result r p rm y | Ok (_, false) => True | _ => False end.
Lemma good_accepts r p rm w v : good w r v -> (Rabs r <= bpow radix2 100)%R -> 0 < p -> p mod 64 = 0 -> w mod 64 = 0 -> p + 64 <= w -> accepts r p rm w v.
Proof.
  intros (Wr & Nr & Ir & Lr & Sr & Dr) HR Hp Hp64 Hw64 Hpw. pose proof (accept_rel r v p rm w Wr Nr Ir Lr Sr Dr Hp Hp64 Hw64 Hpw) as A. unfold accepts.
  destruct (try_set_precision v p rm w) as [[y [|]]|[s| | |]|]; try contradiction; try exact A. exact (no_overflow r p rm s Hp HR A).
Qed.
Theorem loop_acc (loop : nat -> ln2_cache -> num -> Z -> Z -> lrun num) (Inv : num -> Z -> Prop) x0 p rm r w0 B :
  (forall c x w i, loop O c x w i = None) ->
  (forall f c x w i, lreach c -> Inv x w -> w0 <= w <= B -> w mod 64 = 0 ->
     loop (S f) c x w i = None \/
     exists c' x' ret, loop (S f) c x w i = ln_finish c' x0 ret p rm w (loop f c' x' (w + i) (round_p ((w + i) / 5))) /\ lreach c' /\ (forall w', w <= w' -> Inv x' w') /\ accepts r p rm w ret) ->
  0 < w0 -> B <= 2 ^ 14 ->
  forall f c x w i, lreach c -> Inv x w -> w0 <= w -> w mod 64 = 0 -> 0 <= i -> i mod 64 = 0 -> work f w i <= B ->
  match loop f c x w i with None => True | Some (c', res) => ln_post r p rm c' res end.
Proof.
  intros LO LS Hw0 HB14. induction f as [|f IH]; intros c x w i Hc HI Hw Hw64 Hi Hi64 HB; [rewrite LO; exact I|].
  pose proof (work_ge (S f) w i ltac:(lia) Hi) as HG. change (work (S f) w i) with (work f (w + i) (64 * (((w + i) / 5 + 63) / 64))) in HB, HG.
  pose proof (work_ge f (w + i) (64 * (((w + i) / 5 + 63) / 64)) ltac:(lia) ltac:(clear - Hw Hi Hw0; dlia)) as HG2.
  assert (RI : round_p ((w + i) / 5) = 64 * (((w + i) / 5 + 63) / 64)). { assert (H : w + i <= 2 ^ 14) by lia. apply round_p_eq. { clear - Hw Hw0 Hi; dlia. } apply Z.lt_trans with (2 ^ 21); [|vm_compute; reflexivity]. unfold prec_up. clear - H Hw Hw0 Hi. change (2 ^ 14) with 16384 in *. change (2 ^ 21) with 2097152. dlia. }
  destruct (LS f c x w i Hc HI ltac:(lia) Hw64) as [-> |(c' & x' & ret & -> & Hc' & HI' & A)]; [exact I|]. unfold ln_finish. unfold accepts in A.
  destruct (try_set_precision ret p rm w) as [[y [|]]|[s| | |]|]; try contradiction.
  - split; [exact Hc'|]. eexists. split; [reflexivity|]. now apply elem_mark.
  - rewrite RI. apply IH; [exact Hc'|apply HI'; lia|lia| |clear - Hw Hi Hw0; dlia|rewrite Z.mul_comm; apply Z.mod_mul; lia|exact HB]. clear - Hw64 Hi64. dlia.
Qed.
