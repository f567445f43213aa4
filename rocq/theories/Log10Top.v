(** The decimal logarithm: the retry loop and the whole function. *)

From Coq Require Import ZArith List Bool Lia Reals Lra.
From Flocq Require Import Core Relative.
From Verif Require Import Words IntModel Mantissa Num Pow Consts Elem Ctx Series Ln Exp DecConv Log10 SpecZ SpecOps SpecConst SpecReach SpecPow SpecElem WordsP Spec RealP RealP2 NumP CmpP AddP SetP AddNum MulNum DivNum ArithTop RoundableNum PowNum PowTop ConstP ConstTop ConstNum ConstReach LoopP SmallP PowExt IntNum ElemNum ElemDom ApproxR CtxP ApproxNum SeriesP SinhNum SinhTop ExpNum RetryNum ExpTop HypNum HypTop LnR LnConst Log10Const LnMant LnNum LnSharp LnSharp2 LnSharp3 LnTop LnUse Log2Top ConvNum DecRead RealPow RealPowTop SpecLog10.
Import ListNotations.
Open Scope Z_scope.
Ltac Zify.zify_post_hook ::= idtac.
Arguments Z.mul : simpl never.
Arguments Z.add : simpl never.
Arguments Z.pow : simpl never.
Arguments Z.sub : simpl never.
Arguments Z.of_nat : simpl never.
Ltac dlia := Z.div_mod_to_equations; lia.

Definition treach (c : tcache) : Prop := lreach (fst c) /\ reachable ln10_new ln10_for_prec (snd c).
(** ** Bounds of ln 10 *)
Lemma ln10_range : (2 < ln 10 < 5 / 2)%R.
Proof.
  pose proof ln2_range as L. assert (A : (ln 8 = 3 * ln 2)%R). { replace 8%R with (2 ^ 3)%R by ring. rewrite ln_pow by lra. cbn. ring. }
  assert (B : (ln 8 < ln 10)%R) by (apply ln_increasing; lra). assert (C : (3 * ln 10 < 10 * ln 2)%R).
  { assert (E : (ln 1000 = 3 * ln 10)%R) by (replace 1000%R with (10 ^ 3)%R by ring; rewrite ln_pow by lra; cbn; ring). assert (F : (ln 1024 = 10 * ln 2)%R) by (replace 1024%R with (2 ^ 10)%R by ring; rewrite ln_pow by lra; replace (INR 10) with 10%R by (cbn; ring); reflexivity).
    rewrite <- E, <- F. apply ln_increasing; lra. }
  lra.
Qed.
Lemma ln10_apx P y : 128 <= P -> const_near (ln 10) 2 9 P RNone y -> apx P Pos 2 (ln 10) y.
Proof.
  intros HP (W & L & S & (a & Ha & Va)). pose proof ln10_range as E.
  assert (B : (bpow radix2 (2 - (P + 9)) <= / 4 * bpow radix2 (1 - P))%R) by (change (/ 4)%R with (bpow radix2 (-2)); rewrite <- bpow_plus; apply bpow_le; lia). assert (B2 : (bpow radix2 (1 - P) <= bpow radix2 (-126))%R) by (apply bpow_le; lia).
  assert (B3 : (bpow radix2 (-126) <= / 1024)%R) by (change (/ 1024)%R with (bpow radix2 (-10)); apply bpow_le; lia). pose proof (bpow_ge_0 radix2 (1 - P)) as B0.
  assert (Q1 : lc (eps P) (ln 10) a).
  { replace (eps P) with (2 * bpow radix2 (1 - P))%R by (unfold eps; replace (2 - P) with (1 + (1 - P)) by ring; rewrite bpow_plus; reflexivity). apply lc_round; [lra|lra|]. rewrite Rabs_minus_sym. eapply Rle_trans; [left; exact Ha|]. nra. }
  assert (A2 : (/ 2 <= a)%R). { apply Rabs_def2 in Ha as [Ha1 Ha2]. lra. }
  assert (Q2 : lc (eps P) a (Rabs (value y))). { rewrite Va. pose proof (rnd_lc P P RNone a ltac:(lia) ltac:(lra)) as Q. rewrite (Rabs_pos_eq a) in Q by lra. exact Q. }
  assert (Q : lc (IZR 2 * eps P) (ln 10) (Rabs (value y))) by (replace (IZR 2 * eps P)%R with (eps P + eps P)%R by ring; eapply lc_trans; eassumption).
  split; [exact W|]. split; [|split; [exact S|exact Q]]. apply normal_iff; [exact W|]. pose proof (lc_two _ _ _ (eps_quarter P 2 HP ltac:(lia)) Q). apply Rle_trans with (bpow radix2 (-2)); [apply bpow_le; vm_compute; discriminate|]. change (bpow radix2 (-2)) with (/ 4)%R. lra.
Qed.

(** ** Powers of ten *)
Lemma powerRZ_ten n : 0 <= n -> powerRZ 10 n = IZR (10 ^ n).
Proof.
  intros H. rewrite <- (Z2Nat.id n) by exact H. rewrite <- pow_powerRZ, <- pow_IZR. reflexivity.
Qed.
Lemma ln_ten n : ln (powerRZ 10 n) = (IZR n * ln 10)%R.
Proof. rewrite powerRZ_Rpower by lra. unfold Rpower. apply ln_exp. Qed.
Lemma ten_powi g n p : 1 <= n < 2 ^ 41 -> 128 <= p -> prec_up p <= 2 ^ 20 ->
  n_powi g TEN n p RNone = None \/ exists res, n_powi g TEN n p RNone = Some res /\
    match res with
    | Ok t => wf t /\ nonzero t /\ (Rabs (value t - IZR (10 ^ n)) <= IZR (10 ^ n) * bpow radix2 (2 - prec_up p))%R
    | Err e => e = ExponentOverflow Pos /\ (bpow radix2 (EMAX - 1) <= IZR (10 ^ n))%R
    | Panic => False
    end.
Proof.
  intros Hn Hp HP. destruct TEN_wf as (W & N & V & L & Sg & I). pose proof (PowNum.prec_up_ge p) as PU. assert (T1 : (10 <= IZR (10 ^ n))%R). { apply IZR_le. replace (10 ^ n) with (10 * 10 ^ (n - 1)) by (rewrite <- Z.pow_succ_r by lia; f_equal; lia). assert (0 < 10 ^ (n - 1)) by (apply Z.pow_pos_nonneg; lia). lia. }
  assert (HPL : prec_up p + 384 < P_LIM) by (eapply Z.le_lt_trans; [apply Z.add_le_mono_r; exact HP|vm_compute; reflexivity]).
  destruct (n_powi g TEN n p RNone) as [r0|] eqn:E; [|now left]. right. exists r0. split; [reflexivity|].
  destruct (Z.eq_dec n 1) as [->|N1].
  { destruct (ten_power 1 p ltac:(vm_compute; split; discriminate) Hp HPL) as (f0 & t & F & Wt & Nt & Lt & St & D & _). pose proof (powi_mono _ _ _ _ g (Nat.max g f0) _ E ltac:(lia)) as E1. rewrite (F (Nat.max g f0) ltac:(lia)) in E1. injection E1 as <-. split; [exact Wt|]. split; [apply Nt|exact D]. }
  assert (Hr : (bpow radix2 (EMIN - 1) <= Rabs (value TEN ^ Z.to_nat n))%R).
  { rewrite TEN_pow, Rabs_pos_eq by (lia || lra). apply Rle_trans with 1%R; [|lra]. change 1%R with (bpow radix2 0). apply bpow_le. vm_compute. discriminate. }
  assert (K2 : 2 <= n < 2 ^ 64) by (split; [lia|]; eapply Z.lt_trans; [apply Hn|vm_compute; reflexivity]).
  assert (Kb : 2 * n * (64 * wlen TEN) + 384 < P_LIM). { rewrite L. apply Z.lt_le_trans with (2 * 2 ^ 41 * (64 * 2) + 384); [lia|vm_compute; discriminate]. }
  destruct (powi_spec TEN n p RNone W (proj2 N) K2 ltac:(lia) HPL Kb Hr) as (f0 & res & Post & F). pose proof (powi_mono _ _ _ _ g (Nat.max g f0) _ E ltac:(lia)) as E1. rewrite (F (Nat.max g f0) ltac:(lia)) in E1. injection E1 as ->.
  set (P := prec_up p) in *. unfold power_post in Post. cbv zeta in Post. rewrite TEN_pow in Post by lia. set (T := IZR (10 ^ n)) in *.
  assert (CL : forall a, close P T a -> (Rabs (a - T) <= T * (/ 1024 * bpow radix2 (- P)))%R).
  { intros a C. unfold close in C. rewrite (Rabs_pos_eq T) in C by lra. eapply Rle_trans; [exact C|]. apply Rmult_le_compat_l; [lra|]. change (/ 1024)%R with (bpow radix2 (-10)). rewrite <- bpow_plus. apply bpow_le. lia. }
  assert (E2 : bpow radix2 (2 - P) = (4 * bpow radix2 (- P))%R) by (change 4%R with (bpow radix2 2); rewrite <- bpow_plus; f_equal; lia).
  assert (E1 : bpow radix2 (1 - P) = (2 * bpow radix2 (- P))%R) by (change 2%R with (bpow radix2 1); rewrite <- bpow_plus; f_equal; lia).
  assert (E0 : (0 < bpow radix2 (- P) <= / 4)%R). { split; [apply bpow_gt_0|]. change (/ 4)%R with (/ bpow radix2 2)%R. rewrite <- bpow_opp. apply bpow_le. lia. }
  assert (Ra : forall a, close P T a -> (T / 2 <= a /\ Rabs a <= 2 * T)%R).
  { intros a C. apply CL in C. assert (T * (/ 1024 * bpow radix2 (- P)) <= T * / 4)%R by (apply Rmult_le_compat_l; lra). apply Rabs_le_inv in C. split; [lra|]. rewrite Rabs_pos_eq by lra. lra. }
  destruct r0 as [q|e|]; [| |contradiction].
  - destruct Post as (Wq & Lq & Sq & (a & Ca & Va) & _ & _ & Xq). destruct (Ra a Ca) as [R1 R2]. specialize (CL a Ca).
    pose proof (cut_rel P a ltac:(lia)) as CR. rewrite <- Va, E1 in CR. set (d := bpow radix2 (- P)) in *.
    assert (Ra2 : (Rabs a <= 5 / 4 * T)%R) by (rewrite Rabs_pos_eq by lra; apply Rabs_le_inv in CL; assert (T * (/ 1024 * d) <= T * / 4)%R by (apply Rmult_le_compat_l; lra); lra).
    assert (ER : (Rabs (value q - T) <= T * bpow radix2 (2 - P))%R).
    { replace (value q - T)%R with ((value q - a) + (a - T))%R by ring. eapply Rle_trans; [apply Rabs_triang|]. rewrite E2. assert (2 * d * Rabs a <= 2 * d * (5 / 4 * T))%R by (apply Rmult_le_compat_l; lra). assert (0 < T * d)%R by (apply Rmult_lt_0_compat; lra). lra. }
    split; [exact Wq|]. split; [|exact ER]. intros ZM. assert (Z : value q = 0%R) by (apply value_zero_iff; exact ZM). unfold has_sign in Sq. rewrite Z in ER. replace (0 - T)%R with (- T)%R in ER by ring. rewrite Rabs_Ropp, Rabs_pos_eq, E2 in ER by lra.
    assert (bpow radix2 (2 - P) <= / 4)%R by (change (/ 4)%R with (bpow radix2 (-2)); apply bpow_le; lia). rewrite E2 in H. assert (T * (4 * d) <= T * / 4)%R by (apply Rmult_le_compat_l; lra). lra.
  - destruct Post as ((s & Hs & ->) & a & Ca & Va). split; [unfold has_sign in Hs; destruct s; [|reflexivity]; cbn [sgnZ] in Hs; exfalso; lra|].
    destruct (Ra a Ca) as [R1 R2]. pose proof (cut_le P a ltac:(lia)) as CL2. pose proof (Rle_trans _ _ _ Va CL2) as X. pose proof (Rle_trans _ _ _ X R2) as Y. clearbody T. clear - Y. revert Y. generalize EMAX. intros e Y. unfold Zminus. rewrite bpow_plus. change (bpow radix2 (- (1))) with (/ 2)%R. lra.
Qed.

(** ** One round *)
Lemma ln_size3 d : wf d -> (0 < value d)%R -> 64 * wlen d <= 2 ^ 20 -> (Rabs (ln (value d)) <= bpow radix2 40)%R.
Proof.
  intros W H0 HB. destruct (ln_mant d W H0) as (e & m & EM & Wm & Nm & Sm & Em & Im & Lm & VX & Vm & Gm & He & _). pose proof ln2_range as LR.
  assert (HE : Z.abs e <= 2 ^ 39). { change EMIN with (-2147483648) in He. change EMAX with 2147483647 in He. change (2 ^ 20) with 1048576 in HB. change (2 ^ 39) with 549755813888. clear - He HB. lia. }
  rewrite (ln_x e m d ltac:(lra) VX). pose proof (ln_m_range m Vm) as [[R0 R1] R2]. eapply Rle_trans; [apply Rabs_triang|]. rewrite Rabs_mult, (Rabs_pos_eq (ln 2)), <- abs_IZR, (Rabs_left (ln (value m))) by lra.
  assert (A : (0 <= IZR (Z.abs e) <= IZR (2 ^ 39))%R) by (split; apply IZR_le; lia). apply Rle_trans with (IZR (2 ^ 39) + 1)%R; [nra|]. rewrite <- plus_IZR. change (bpow radix2 40) with (IZR (2 ^ 40)). apply IZR_le. vm_compute. discriminate.
Qed.

Section Round.
Context (w p : Z) (rm : rmode) (v : R) (h g : nat).
Hypotheses (Hp : 0 < p) (Hp64 : p mod 64 = 0) (Hpw : p + 64 <= w) (Hw64 : w mod 64 = 0) (HB : work h (w + 128) 64 <= 2 ^ 14).
Hypotheses (V0 : (0 < v)%R) (V1 : v <> 1%R).
Notation r := (real_log10 v).

Lemma lim10 : 128 <= w /\ w + 128 <= 2 ^ 14 /\ w + 64 < P_LIM /\ prec_up (w + 5) = w + 64.
Proof.
  destruct (w_lim w p h Hp Hp64 Hpw Hw64 HB) as (A & B & C & _). split; [exact A|]. split; [exact B|]. split; [exact C|]. unfold prec_up. clear - Hw64. dlia.
Qed.
Definition round_ok (ret : num) : Prop := near (IZR 4 * eps (w + 64)) (ns ret) (Rabs r) ret /\ has_sign (ns ret) r /\ ninexact ret = true /\ 64 * wlen ret = w + 64.
Lemma quotient c x : treach c -> wf x -> value x = v -> 64 * wlen x <= w + 64 -> t_ln h g c x (w + 5) RNone = None \/
  exists c1 p1 c2 p2 ret, t_ln h g c x (w + 5) RNone = Some (c1, Ok p1) /\ t_ln10 c1 (w + 5) RNone = Some (c2, Ok p2) /\ treach c2 /\ n_div p1 p2 (w + 5) RNone = Ok ret /\ round_ok ret.
Proof.
  intros [Hl Ht] W V L. destruct lim10 as (H1 & H2 & PL & PU). unfold t_ln.
  destruct (ln_close h g (fst c) x (w + 5) Hl W ltac:(rewrite V; exact V0) ltac:(rewrite V; exact V1) ltac:(rewrite PU; lia) ltac:(rewrite PU; lia) ltac:(rewrite PU; replace (w + 64 + 64) with (w + 128) by ring; exact HB)) as [->|(l' & q & -> & Hl' & NQ)]; [left; reflexivity|].
  right. rewrite PU, V in NQ. destruct NQ as (Lq & Iq & Sq & NQ & _). unfold t_ln10. cbn [fst snd].
  destruct (ln10_num_ok (snd c) (w + 5) Ht ltac:(lia) ltac:(rewrite PU; change (2 ^ 20) with 1048576; change (2 ^ 14) with 16384 in H2; lia)) as (t' & p2 & E2 & Ht' & CN). rewrite PU in CN. pose proof (near_apx _ _ _ _ _ (ln10_apx (w + 64) p2 ltac:(lia) CN)) as N2.
  pose proof ln10_range as TR. set (W0 := w + 64) in *. pose proof (eps_eta W0) as EE. pose proof (eta_pos W0) as EP. pose proof (eta_small W0 ltac:(unfold W0; lia)) as ES.
  destruct (ln_size2 x W ltac:(rewrite V; exact V0) ltac:(rewrite V; exact V1) ltac:(change (2 ^ 20) with 1048576; change (2 ^ 14) with 16384 in H2; lia)) as [B1 B2]. rewrite V in B1, B2. set (a := Rabs (ln v)) in *.
  assert (AP : (0 < a)%R) by (eapply Rlt_le_trans; [apply bpow_gt_0|exact B1]).
  assert (M : mid (a / ln 10)).
  { apply (mid_range (- (64 * wlen x + 1) + -2) 100); [change HX with 1073741824; change (2 ^ 14) with 16384 in H2; clear - L H2; unfold W0 in *; lia|vm_compute; discriminate|]. split; [|eapply Rle_trans; [|exact B2]].
    - rewrite bpow_plus. change (bpow radix2 (-2)) with (/ 4)%R. apply Rmult_le_compat; [apply bpow_ge_0|lra|exact B1|apply Rinv_le; lra].
    - apply (Rmult_le_reg_r (ln 10)); [lra|]. unfold Rdiv. rewrite Rmult_assoc, Rinv_l, Rmult_1_r by lra. nra. }
  assert (DD : (2 * eta W0 + IZR 2 * eps W0 <= 1)%R) by lra.
  destruct (near_div W0 (w + 5) RNone ltac:(unfold W0; lia) PU PL _ _ _ _ _ _ _ _ NQ N2 DD M) as (ret & Er & NR & LR & IR).
  exists (l', snd c), q, (l', t'), p2, ret. split; [reflexivity|]. cbn [fst snd]. rewrite E2. split; [reflexivity|]. split; [split; [exact Hl'|exact Ht']|]. split; [exact Er|].
  assert (RA : Rabs r = (a / ln 10)%R). { unfold real_log10, Rdiv. rewrite Rabs_mult, Rabs_inv, (Rabs_pos_eq (ln 10)) by lra. reflexivity. }
  assert (SR : ns ret = ns q). { destruct NR as (_ & _ & S & _). rewrite S. destruct (ns q); reflexivity. }
  unfold round_ok. fold W0. split; [rewrite RA; apply near_weak with (2 * eta W0 + IZR 2 * eps W0 + eta W0)%R; [lra|]; destruct NR as (N1 & N3 & _ & N4); exact (conj N1 (conj N3 (conj eq_refl N4)))|].
  split; [|split; [apply IR; rewrite Iq; reflexivity|exact LR]]. rewrite SR. unfold has_sign in *. unfold real_log10, Rdiv. rewrite <- Rmult_assoc. apply Rmult_lt_0_compat; [exact Sq|]. apply Rinv_0_lt_compat. lra.
Qed.

(** The test for a power of ten. *)
Lemma ten_int ret x : round_ok ret -> wf x -> value x = v -> 64 * wlen x <= w + 64 -> n_is_int ret = true ->
  exists m, value ret = IZR m /\ m <> 0 /\ Z.abs m < 2 ^ 41 /\ int_as_usize ret = Ok (Z.abs m) /\ (Rabs (r - IZR m) <= IZR 8 * eps (w + 64) * Rabs (IZR m))%R.
Proof.
  intros ((Wr & Nr & _ & LC) & SR & IR & LR) W V L HI. destruct lim10 as (H1 & H2 & PL & PU). apply (is_int_spec ret Wr) in HI. destruct HI as (m & HM). exists m. split; [exact HM|].
  pose proof (value_has_sign ret Wr ltac:(apply Nr)) as SV. rewrite HM in SV.
  assert (M0 : m <> 0). { intros ->. unfold has_sign in SV. rewrite Rmult_0_r in SV. lra. } split; [exact M0|].
  pose proof (ln_size3 x W ltac:(rewrite V; exact V0) ltac:(change (2 ^ 20) with 1048576; change (2 ^ 14) with 16384 in H2; lia)) as B. rewrite V in B.
  pose proof ln10_range as TR. assert (RB : (Rabs r <= bpow radix2 39)%R).
  { unfold real_log10, Rdiv. rewrite Rabs_mult, Rabs_inv, (Rabs_pos_eq (ln 10)) by lra. replace 39 with (40 + -1) by reflexivity. rewrite bpow_plus. change (bpow radix2 (-1)) with (/ 2)%R. apply Rmult_le_compat; [apply Rabs_pos|left; apply Rinv_0_lt_compat; lra|exact B|apply Rinv_le; lra]. }
  pose proof (eps_quarter (w + 64) 4 ltac:(lia) ltac:(vm_compute; discriminate)) as EQ. pose proof (lc_two _ _ _ EQ LC) as T2. assert (RM : (Rabs (value ret) <= bpow radix2 40)%R) by (change 40 with (1 + 39); rewrite bpow_plus; change (bpow radix2 1) with 2%R; lra).
  rewrite HM, <- abs_IZR in RM. assert (MB : Z.abs m <= 2 ^ 40) by (apply le_IZR; change (IZR (2 ^ 40)) with (bpow radix2 40); exact RM). split; [change (2 ^ 41) with (2 * 2 ^ 40); lia|]. split.
  - destruct (int_as_usize_ok ret Wr ltac:(apply Nr)) as [E _].
    { pose proof (proj1 (normal_range ret Wr Nr)) as G. rewrite HM, <- abs_IZR in G. pose proof (Rle_trans _ _ _ G RM) as G2. apply le_bpow in G2. lia. }
    rewrite E. f_equal. rewrite HM, <- abs_IZR. apply Zfloor_IZR.
  - rewrite <- HM. rewrite Rabs_minus_sym. rewrite Rabs_minus_sym, (signs_apart (ns ret)); [|exact SR|rewrite HM; exact SV].
    assert (D : (0 <= IZR 4 * eps (w + 64) <= / 128)%R). { split; [pose proof (eps_pos (w + 64)); lra|]. eapply Rle_trans; [apply eps_small; [lia|vm_compute; discriminate]|]. change (/ 128)%R with (bpow radix2 (-7)). apply bpow_le. lia. }
    pose proof (lc_abs_near _ _ _ D LC) as X. eapply Rle_trans; [exact X|]. pose proof (eps_pos (w + 64)) as EP.
    apply Rle_trans with (65 / 64 * (IZR 4 * eps (w + 64)) * (3 / 2 * Rabs (value ret)))%R; [|assert (0 <= eps (w + 64) * Rabs (value ret))%R by (apply Rmult_le_pos; [lra|apply Rabs_pos]); lra].
    apply Rmult_le_compat_l; [lra|]. apply Rabs_le_inv in X. assert (65 / 64 * (IZR 4 * eps (w + 64)) * Rabs r <= 65 / 64 * / 128 * Rabs r)%R by (apply Rmult_le_compat_r; [apply Rabs_pos|lra]). pose proof (Rabs_pos r). lra.
Qed.

Lemma ten_test ret x : round_ok ret -> wf x -> value x = v -> 64 * wlen x <= w + 64 ->
  match is_ten_power g ret x (w + 5) with
  | None | Some (Ok false) => True
  | Some (Ok true) => exists m, value ret = IZR m /\ 0 < m < 2 ^ 41 /\ near_ten v m p
  | Some res => exists e, res = Err e /\ log10_post v p rm (Err e)
  end.
Proof.
  intros RO W V L. destruct lim10 as (H1 & H2 & PL & PU). unfold is_ten_power. destruct (n_is_int ret) eqn:HI; [|exact I].
  destruct (ten_int ret x RO W V L HI) as (m & HM & M0 & MB & EI & D). unfold done. rewrite EI. cbn [rbind].
  assert (ND : forall k, k = m -> (Rabs (ln v - IZR k * ln 10) <= bpow radix2 (- (p + 65)))%R).
  { intros k ->. pose proof ln10_range as TR. replace (ln v - IZR m * ln 10)%R with ((r - IZR m) * ln 10)%R by (unfold real_log10; field; lra). rewrite Rabs_mult, (Rabs_pos_eq (ln 10)) by lra.
    assert (MR : (Rabs (IZR m) <= bpow radix2 41)%R) by (rewrite <- abs_IZR; change (bpow radix2 41) with (IZR (2 ^ 41)); apply IZR_le; lia).
    apply Rle_trans with (IZR 8 * eps (w + 64) * bpow radix2 41 * 4)%R.
    - apply Rmult_le_compat; [apply Rabs_pos|lra| |lra]. eapply Rle_trans; [exact D|]. apply Rmult_le_compat_l; [pose proof (eps_pos (w + 64)); lra|exact MR].
    - unfold eps. change (IZR 8) with (bpow radix2 3). change 4%R with (bpow radix2 2). rewrite <- !bpow_plus. apply bpow_le. clear - Hpw. lia. }
  pose proof (ten_powi g (Z.abs m) (w + 5) ltac:(lia) ltac:(lia) ltac:(rewrite PU; change (2 ^ 20) with 1048576; change (2 ^ 14) with 16384 in H2; lia)) as TP.
  destruct TP as [-> |(res & -> & TP)]; [exact I|]. rewrite PU in TP. destruct res as [t|e|]; cbn [rbind]; [| |contradiction].
  - destruct TP as (Wt & Nt & DT). destruct (Z.eqb_spec (n_cmp t x) 0) as [C|C]; [|exact I].
    assert (NX : nonzero x) by (destruct (yes_pos x W ltac:(rewrite V; exact V0)) as [N _]; exact N).
    pose proof (n_cmp_spec t x Wt W Nt NX) as CS. rewrite C in CS. assert (TV : value t = v). { rewrite <- V. destruct (Rcompare_spec (value t) (value x)); cbn in CS; [discriminate CS|assumption|discriminate CS]. }
    rewrite TV in DT. assert (MP : 0 < m).
    { destruct (Z.lt_ge_cases 0 m) as [X|X]; [exact X|]. exfalso. pose proof (ND m eq_refl) as Y. assert (T10 : (10 <= IZR (10 ^ Z.abs m))%R). { apply IZR_le. replace (10 ^ Z.abs m) with (10 * 10 ^ (Z.abs m - 1)) by (rewrite <- Z.pow_succ_r by lia; f_equal; lia). assert (0 < 10 ^ (Z.abs m - 1)) by (apply Z.pow_pos_nonneg; lia). lia. }
      assert (B4 : (bpow radix2 (2 - (w + 64)) <= / 4)%R) by (change (/ 4)%R with (bpow radix2 (-2)); apply bpow_le; lia). set (T := IZR (10 ^ Z.abs m)) in *. assert (VT : (1 < v)%R). { assert (T * bpow radix2 (2 - (w + 64)) <= T * / 4)%R by (apply Rmult_le_compat_l; lra). apply Rabs_le_inv in DT. lra. }
      pose proof (ln_increasing 1 v ltac:(lra) VT) as LV. rewrite ln_1 in LV. pose proof ln10_range as TR. assert (IZR m <= -1)%R by (apply (IZR_le m (-1)); lia).
      assert (bpow radix2 (- (p + 65)) <= / 4)%R by (change (/ 4)%R with (bpow radix2 (-2)); apply bpow_le; lia). apply Rabs_le_inv in Y. assert (2 <= - IZR m * ln 10)%R by nra. lra. }
    exists m. split; [exact HM|]. split; [lia|]. unfold near_ten. rewrite powerRZ_ten by lia. rewrite Z.abs_eq in DT by lia. eapply Rle_trans; [exact DT|]. apply Rmult_le_compat_l; [apply IZR_le, Z.pow_nonneg; lia|]. apply bpow_le. lia.
  - destruct TP as [-> TP]. exists (ExponentOverflow Pos). split; [reflexivity|]. right. exists m. split; [|split; [exact M0|]].
    + pose proof (ND m eq_refl) as Y. rewrite <- ln_ten in Y. set (T := powerRZ 10 m) in *. assert (T0 : (0 < T)%R) by (apply powerRZ_lt; lra). unfold near_ten. fold T. set (d := (ln v - ln T)%R) in *.
      assert (VE : v = (T * exp d)%R). { unfold d, Rminus. rewrite exp_plus, exp_Ropp, !exp_ln by assumption. field. lra. }
      replace (v - T)%R with (T * (exp d - 1))%R by (rewrite VE; ring). rewrite Rabs_mult, (Rabs_pos_eq T) by lra. apply Rmult_le_compat_l; [lra|].
      replace (- (p + 64)) with (1 + - (p + 65)) by ring. rewrite bpow_plus. change (bpow radix2 1) with 2%R. assert (B8 : (bpow radix2 (- (p + 65)) <= / 128)%R) by (change (/ 128)%R with (bpow radix2 (-7)); apply bpow_le; lia).
      pose proof (bpow_gt_0 radix2 (- (p + 65))) as B0. set (b := bpow radix2 (- (p + 65))) in *. clearbody b. apply Rabs_le_inv in Y. pose proof (exp_near b ltac:(lra)) as EN. pose proof (exp_ineq1_le d) as EL.
      assert (EU : (exp d <= exp b)%R) by (destruct (Req_dec d b) as [->|X]; [lra|left; apply exp_increasing; lra]). apply Rabs_le. lra.
    + split; [reflexivity|]. rewrite powerRZ_ten by lia. exact TP.
Qed.

(** The answer in that case. *)
Lemma ten_answer ret m : round_ok ret -> value ret = IZR m -> 0 < m < 2 ^ 41 -> near_ten v m p -> log10_post v p rm (set_precision ret p rm).
Proof.
  intros ((Wr & Nr & _ & LC) & SR & IR & LR) HM HB2 NT. destruct lim10 as (H1 & H2 & PL & PU). assert (P64 : 64 <= p) by (clear - Hp Hp64; dlia). assert (PP : prec_up p = p) by (unfold prec_up; clear - Hp64; dlia).
  destruct (set_precision_spec ret p rm Wr Hp ltac:(rewrite PP; lia) ltac:(right; left; split; [exact Hp64|exact Nr])) as [_ SO].
  assert (M1 : (1 <= IZR m <= bpow radix2 41)%R) by (change (bpow radix2 41) with (IZR (2 ^ 41)); split; apply IZR_le; lia).
  assert (NL : (bpow radix2 (EMIN - 1) <= bpow radix2 0)%R) by (apply bpow_le; vm_compute; discriminate).
  assert (RG : rnd_prec p rm (IZR m) = IZR m). { unfold rnd_prec. apply round_generic; [apply rnd_valid|]. apply int_format; [lia|]. rewrite Z.abs_eq by lia. apply Z.le_trans with (2 ^ 41); [lia|]. apply Z.pow_le_mono_r; lia. }
  assert (GR : rnd_grad p rm (value ret) = IZR m). { rewrite HM, grad_normal; [exact RG|]. rewrite Rabs_pos_eq by lra. eapply Rle_trans; [exact NL|]. change (bpow radix2 0) with 1%R. lra. }
  rewrite GR in SO. destruct SO as (q & E & Wq & Lq & Sq & Vq & Iq). { rewrite Rabs_pos_eq by lra. eapply Rle_lt_trans; [apply M1|]. apply bpow_lt. vm_compute. reflexivity. }
  assert (LQ : 64 * wlen q = p) by (rewrite Lq; unfold prec_up in PP; exact PP). assert (IQ : ninexact q = true) by (apply Iq; left; exact IR). rewrite E.
  destruct (Req_dec v (powerRZ 10 m)) as [X|X].
  - left. exists q. split; [reflexivity|]. assert (RE : r = IZR m). { unfold real_log10. rewrite X, ln_ten. pose proof ln10_range. field. lra. }
    split; [exact Wq|]. split; [exact LQ|]. split; [rewrite Sq; exact SR|]. split; [exact IQ|]. rewrite RE. split; [exists (IZR m); split; [|rewrite RG; exact Vq]|intros _ _; rewrite RG; exact Vq].
    unfold close. rewrite Rminus_diag_eq, Rabs_R0 by reflexivity. apply Rmult_le_pos; [apply Rabs_pos|apply bpow_ge_0].
  - right. exists m. split; [exact NT|]. split; [lia|]. split; [exact X|]. auto.
Qed.
End Round.

(** ** The loop *)
Theorem log10_loop_ok x0 p rm h g v B : (0 < v)%R -> v <> 1%R -> 0 < p -> p mod 64 = 0 -> work h (B + 128) 64 <= 2 ^ 14 ->
  forall f c x w i, treach c -> wf x -> value x = v -> 64 * wlen x <= w -> p + 64 <= w -> w mod 64 = 0 -> 64 <= i -> i mod 64 = 0 -> work f w i <= B ->
  match log10_loop f h g c x0 x p rm w i with
  | None => True
  | Some (c', res) => treach c' /\ log10_post v p rm res
  end.
Proof.
  intros V0 V1 Hp Hp64 HB0. induction f as [|f IH]; intros c x w i Hc W V L Hpw Hw64 Hi Hi64 HF; [exact I|].
  pose proof (work_ge (S f) w i ltac:(lia) ltac:(lia)) as HG. change (work (S f) w i) with (work f (w + i) (64 * (((w + i) / 5 + 63) / 64))) in HF, HG.
  pose proof (work_ge f (w + i) (64 * (((w + i) / 5 + 63) / 64)) ltac:(lia) ltac:(clear - Hp Hpw Hi; dlia)) as HG2.
  assert (HB : work h (w + 128) 64 <= 2 ^ 14) by (eapply Z.le_trans; [|exact HB0]; apply work_mono; lia).
  destruct (lim10 w p h Hp Hp64 Hpw Hw64 HB) as (H1 & H2 & PL & PU). pose proof (work_ge h (B + 128) 64 ltac:(lia) ltac:(lia)) as HH.
  assert (RI : round_p ((w + i) / 5) = 64 * (((w + i) / 5 + 63) / 64)) by (apply round_step; [lia|lia|change (2 ^ 20) with 1048576; change (2 ^ 14) with 16384 in HH; change (2 ^ 14) with 16384 in HB0; lia]).
  cbn [log10_loop]. cbv zeta. destruct (widen x (w + 5) W ltac:(lia) ltac:(lia) ltac:(rewrite PU; exact PL)) as (z & -> & Wz & Lz & Sz & Vz). rewrite PU in Lz. unfold done at 1. cbn [twith tbind]. rewrite V in Vz.
  destruct (quotient w p v h g Hp Hp64 Hpw Hw64 HB V0 V1 c z Hc Wz Vz ltac:(lia)) as [->|(c1 & p1 & c2 & p2 & ret & -> & E2 & Hc2 & E3 & RO)]; [exact I|]. cbn [tbind]. rewrite E2. cbn [tbind]. unfold done. rewrite E3. cbn [twith tbind].
  pose proof (ten_test w p rm v h g Hp Hp64 Hpw Hw64 HB V0 V1 ret z RO Wz Vz ltac:(lia)) as TT.
  destruct (is_ten_power g ret z (w + 5)) as [[[|]|e|]|]; cbn [twith tbind]; [| | | |exact I].
  - destruct TT as (m & HM & HB2 & NT). split; [exact Hc2|]. apply (ten_answer w p rm v h) with (m := m); assumption.
  - destruct RO as ((Wr & Nr & _ & LC) & SR & IR & LR). pose proof (accept_elem (real_log10 v) ret p rm w 4 Wr Nr IR ltac:(lia) SR LC ltac:(vm_compute; split; discriminate) Hp Hp64 Hw64 Hpw) as A.
    destruct (try_set_precision ret p rm w) as [[y0 [|]]|[s| | |]|]; try contradiction.
    + split; [exact Hc2|]. left. eexists. split; [reflexivity|]. now apply elem_mark.
    + rewrite RI. apply IH; [exact Hc2|exact Wz|exact Vz|lia|lia| |clear - Hp Hpw Hi; dlia|rewrite Z.mul_comm; apply Z.mod_mul; lia|exact HF]. clear - Hw64 Hi64. dlia.
    + exfalso. refine (no_overflow (real_log10 v) p rm s Hp _ A). pose proof (ln_size3 z Wz ltac:(rewrite Vz; exact V0) ltac:(change (2 ^ 20) with 1048576; change (2 ^ 14) with 16384 in H2; lia)) as S3. rewrite Vz in S3. pose proof ln10_range as TR.
      unfold real_log10, Rdiv. rewrite Rabs_mult, Rabs_inv, (Rabs_pos_eq (ln 10)) by lra. apply Rle_trans with (bpow radix2 40 * 1)%R; [apply Rmult_le_compat; [apply Rabs_pos|left; apply Rinv_0_lt_compat; lra|exact S3|rewrite <- Rinv_1; apply Rinv_le; lra]|]. rewrite Rmult_1_r. apply bpow_le. lia.
  - destruct TT as (e' & Q & PQ). injection Q as <-. split; [exact Hc2|exact PQ].
  - destruct TT as (e' & Q & _). discriminate Q.
Qed.

(** ** The whole function *)
Theorem log10_ok f h g c x p rm : treach c -> wf x -> (0 < value x)%R -> value x <> 1%R -> 0 < p -> work h (work f (Z.max (prec_up p) (64 * wlen x) + 64) 64 + 128) 64 <= 2 ^ 14 ->
  match log10_num f h g c x p rm with
  | None => True
  | Some (c', res) => treach c' /\ log10_post (value x) (prec_up p) rm res
  end.
Proof.
  intros Hc W V0 V1 Hp HB. set (M := Z.max (prec_up p) (64 * wlen x)) in *. assert (P64 : 64 <= prec_up p) by (unfold prec_up; clear - Hp; dlia). pose proof (work_ge f (M + 64) 64 ltac:(lia) ltac:(lia)) as HG. pose proof (work_ge h (work f (M + 64) 64 + 128) 64 ltac:(lia) ltac:(lia)) as HH.
  assert (RP : round_p p = prec_up p). { apply round_p_eq; [lia|]. eapply Z.le_lt_trans with (2 ^ 14); [lia|vm_compute; reflexivity]. }
  unfold log10_num. rewrite RP. cbv zeta. change (mantissa_max_bit_len x) with (64 * wlen x). fold M.
  assert (HM64 : M mod 64 = 0) by (unfold M; destruct (Z.max_spec (prec_up p) (64 * wlen x)) as [[_ ->]|[_ ->]]; [rewrite Z.mul_comm; apply Z.mod_mul; lia|apply prec_up_mod]).
  apply (log10_loop_ok x (prec_up p) rm h g (value x) (work f (M + 64) 64)); auto; try lia; try apply prec_up_mod; [now apply wf_inexact|change (64 * wlen x <= M + 64); lia|clear - HM64; dlia].
Qed.

(** ** One, and the numbers without logarithm *)
Lemma n_cmp_same t x : wf t -> wf x -> nonzero t -> nonzero x -> value t = value x -> n_cmp t x =? 0 = true.
Proof. intros Wt W Nt N E. pose proof (n_cmp_spec t x Wt W Nt N) as C. rewrite E, Rcompare_Eq in C by reflexivity. cbn in C. apply Z.eqb_eq. lia. Qed.
Theorem log10_one f h g c x p rm : treach c -> wf x -> value x = 1%R -> 0 < p -> Z.max (prec_up p) (64 * wlen x) + 128 <= 2 ^ 14 ->
  exists c' res, log10_num (S f) h g c x p rm = Some (c', res) /\ treach c' /\ exactly (prec_up p) 0 Pos false res.
Proof.
  intros [Hl Ht] W V Hp HB. set (M := Z.max (prec_up p) (64 * wlen x)) in *. assert (P64 : 64 <= prec_up p) by (unfold prec_up; clear - Hp; dlia).
  assert (RP : round_p p = prec_up p). { apply round_p_eq; [lia|]. eapply Z.le_lt_trans with (2 ^ 14); [lia|vm_compute; reflexivity]. }
  unfold log10_num. rewrite RP. cbv zeta. change (mantissa_max_bit_len x) with (64 * wlen x). fold M.
  assert (HM64 : M mod 64 = 0) by (unfold M; destruct (Z.max_spec (prec_up p) (64 * wlen x)) as [[_ ->]|[_ ->]]; [rewrite Z.mul_comm; apply Z.mod_mul; lia|apply prec_up_mod]).
  assert (HM1 : prec_up p <= M /\ 64 * wlen x <= M) by (unfold M; lia). clearbody M.
  assert (PU : prec_up (M + 64 + 5) = M + 128) by (unfold prec_up; clear - HM64; dlia). assert (PQ : 0 < M + 64 + 5) by lia. assert (PL : M + 128 < P_LIM) by (eapply Z.le_lt_trans; [exact HB|vm_compute; reflexivity]).
  set (y := set_inexact x false). assert (Wy : wf y) by now apply wf_inexact. cbn [log10_loop]. cbv zeta. assert (LY : 64 * wlen y = 64 * wlen x) by reflexivity.
  destruct (widen y (M + 64 + 5) Wy ltac:(lia) ltac:(lia) ltac:(rewrite PU; exact PL)) as (z & -> & Wz & Lz & Sz & Vz). change (value y) with (value x) in Vz. rewrite V in Vz. unfold done at 1. cbn [twith tbind].
  unfold t_ln. rewrite (ln_num_special h g (fst c) z (M + 64 + 5) RNone Wz (or_intror (conj Vz (conj PQ (eq_ind_r (fun t => t < P_LIM) PL PU)))) (fun _ _ _ => Panic)).
  destruct (ln_one (fun _ _ _ => Panic) z (M + 64 + 5) RNone Wz Vz ltac:(lia) ltac:(rewrite PU; exact PL)) as (q & -> & Wq & Lq & Sq & Vq & Iq). cbn [tbind].
  destruct (ln10_num_ok (snd c) (M + 64 + 5) Ht ltac:(lia) ltac:(rewrite PU; change (2 ^ 20) with 1048576; change (2 ^ 14) with 16384 in HB; lia)) as (t' & p2 & E2 & Ht' & CN). unfold t_ln10. cbn [fst snd]. rewrite E2. cbn [tbind]. rewrite PU in CN.
  destruct (ln10_apx (M + 128) p2 ltac:(lia) CN) as (W2 & N2 & S2 & _). assert (MQ : magnitude q = 0) by (apply value_zero_iff; exact Vq).
  unfold done. rewrite (div_zero q p2 (M + 64 + 5) RNone Wq W2 MQ ltac:(apply N2) ltac:(lia) ltac:(rewrite PU; exact PL)). cbn [twith tbind]. rewrite Sq, S2. cbn [sign_mul].
  set (u := mk_num _ _ _ _). assert (UZ : wf u /\ magnitude u = 0 /\ ns u = Pos /\ ninexact u = false /\ ne u = 0).
  { unfold u. rewrite PU. destruct (zero_m_new ((M + 128) / 64) Pos false ltac:(clear - P64 HM1; dlia) ltac:(clear - PL HM64; dlia)) as (A & B & C). replace (64 * ((M + 128) / 64)) with (M + 128) in A, B, C by (clear - HM64; dlia). repeat split; assumption || reflexivity || apply A. }
  destruct UZ as (Wu & Mu & Su & Iu & Eu). clearbody u. unfold is_ten_power. assert (II : n_is_int u = true) by (unfold n_is_int; rewrite Eu; change (0 <? 0) with false; now apply is_zero_true). rewrite II.
  assert (IE : int_as_usize u = Ok 0) by (unfold int_as_usize; rewrite Eu; reflexivity). unfold done. rewrite IE. cbn [rbind]. unfold n_powi, powi_internal. change (0 =? 0) with true. cbv iota zeta.
  rewrite round_p_eq by (rewrite ?PU; try exact PL; lia). change (64 * ((M + 64 + 5 + 63) / 64)) with (prec_up (M + 64 + 5)). rewrite PU.
  destruct (from_word_spec 1 (M + 128) ltac:(lia) ltac:(lia)) as (t & -> & Wt & Lt & St & _ & Vt). { rewrite <- PU, up_idem, PU. exact PL. }
  cbn [rbind]. rewrite (n_cmp_same t z Wt Wz); [| | |rewrite Vt, Vz; reflexivity]; [|intros Z0; apply value_zero_iff in Z0; rewrite Vt in Z0; lra|intros Z0; apply value_zero_iff in Z0; rewrite Vz in Z0; lra].
  cbn [twith tbind]. eexists. eexists. split; [reflexivity|]. split; [split; [exact Hl|exact Ht']|].
  destruct (set_precision_zero u (prec_up p) rm Wu Mu ltac:(lia)) as (a & Ea & Wa & La & Sa & Ma & Ia). { rewrite up_idem. lia. }
  exists a. split; [exact Ea|]. split; [exact Wa|]. split; [rewrite La; exact (up_idem p)|]. split; [congruence|]. split; [apply value_zero_iff; exact Ma|congruence].
Qed.
Theorem log10_outside f h g c x p rm : wf x -> (value x <= 0)%R -> 0 < p -> Z.max (prec_up p) (64 * wlen x) + 128 < P_LIM ->
  log10_num (S f) h g c x p rm = Some (c, Err InvalidArgument).
Proof.
  intros W V Hp HB. set (M := Z.max (prec_up p) (64 * wlen x)) in *. assert (P64 : 64 <= prec_up p) by (unfold prec_up; clear - Hp; dlia).
  assert (RP : round_p p = prec_up p) by (apply round_p_eq; lia).
  unfold log10_num. rewrite RP. cbv zeta. change (mantissa_max_bit_len x) with (64 * wlen x). fold M.
  assert (HM64 : M mod 64 = 0) by (unfold M; destruct (Z.max_spec (prec_up p) (64 * wlen x)) as [[_ ->]|[_ ->]]; [rewrite Z.mul_comm; apply Z.mod_mul; lia|apply prec_up_mod]).
  assert (HM1 : prec_up p <= M /\ 64 * wlen x <= M) by (unfold M; lia). clearbody M.
  assert (PU : prec_up (M + 64 + 5) = M + 128) by (unfold prec_up; clear - HM64; dlia).
  set (y := set_inexact x false). assert (Wy : wf y) by now apply wf_inexact. cbn [log10_loop]. cbv zeta. assert (LY : 64 * wlen y = 64 * wlen x) by reflexivity.
  destruct (widen y (M + 64 + 5) Wy ltac:(lia) ltac:(lia) ltac:(rewrite PU; exact HB)) as (z & -> & Wz & Lz & Sz & Vz). change (value y) with (value x) in Vz. rewrite <- Vz in V. unfold done at 1. cbn [twith tbind].
  unfold t_ln. rewrite (ln_num_special h g (fst c) z (M + 64 + 5) RNone Wz (or_introl V) (fun _ _ _ => Panic)), (ln_outside (fun _ _ _ => Panic) z (M + 64 + 5) RNone Wz V). cbn [tbind]. now destruct c.
Qed.
