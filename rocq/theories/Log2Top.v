(** The binary logarithm: one round and the whole function; special arguments of both. *)

From Coq Require Import ZArith List Bool Lia Reals Lra.
From Flocq Require Import Core.
From Verif Require Import Words IntModel Mantissa Num Pow Consts Elem Ctx Series Ln SpecZ SpecOps SpecConst SpecReach SpecPow SpecElem WordsP Spec RealP RealP2 NumP CmpP AddP SetP AddNum MulNum DivNum ArithTop RoundableNum PowNum PowTop ConstP ConstTop ConstNum ConstReach PowExt IntNum CtxP ElemNum ElemDom ApproxR ApproxNum SeriesP SeriesNum SinhNum SinhTop ExpNum RetryNum ExpTop LnR LnConst LnNum LnSharp LnSharp2 LnSharp3 LnMant LnTop ConvNum.
Import ListNotations.
Open Scope Z_scope.
Ltac Zify.zify_post_hook ::= idtac.
Arguments Z.mul : simpl never.
Arguments Z.add : simpl never.
Arguments Z.pow : simpl never.
Arguments Z.sub : simpl never.
Arguments Z.of_nat : simpl never.
Ltac dlia := Z.div_mod_to_equations; lia.

(** ** Special arguments *)
Lemma ln_num_special f g c x p rm : wf x -> (value x <= 0)%R \/ value x = 1%R /\ 0 < p /\ prec_up p < P_LIM -> forall rest, ln_num f g c x p rm = Some (c, n_ln rest x p rm).
Proof.
  intros W H rest. assert (NP : n_ln (fun _ _ _ => Panic) x p rm <> Panic). { destruct H as [H|(H & Hp & HP)]; [rewrite (ln_outside _ x p rm W H); discriminate|]. destruct (ln_one (fun _ _ _ => Panic) x p rm W H Hp HP) as (q & -> & _). discriminate. }
  revert NP. unfold ln_num, n_ln, ln_mantissa. cbv zeta. destruct (is_zero x || is_negative x); [reflexivity|]. destruct (m_normilize2 (nm x)) as [sh m]. cbv iota beta. cbn [nm]. change (mantissa_max_bit_len (mk_num m (ns x) 0 (ninexact x))) with (max_bit_len m).
  set (e := ne x - sh). set (a := if e =? 0 then _ else _). replace (a + 5 =? max_bit_len m + 5) with (a =? max_bit_len m) by (destruct (Z.eqb_spec a (max_bit_len m)), (Z.eqb_spec (a + 5) (max_bit_len m + 5)); lia).
  destruct ((e =? 1) && (a =? max_bit_len m)); [reflexivity|]. intros NP. now elim NP.
Qed.
Lemma log2_num_special f g c x p rm : wf x -> (value x <= 0)%R \/ (exists k, value x = bpow radix2 k) /\ 0 < p /\ prec_up p < P_LIM -> forall rest, log2_num f g c x p rm = Some (c, n_log2 rest x p rm).
Proof.
  intros W H rest. assert (NP : n_log2 (fun _ _ _ => Panic) x p rm <> Panic). { destruct H as [H|((k & H) & Hp & HP)]; [rewrite (log2_outside _ x p rm W H); discriminate|]. destruct (Z.eq_dec k 0) as [-> |K0]; [destruct (log2_one (fun _ _ _ => Panic) x p rm W H Hp HP) as (q & -> & _); discriminate|]. destruct (log2_power (fun _ _ _ => Panic) x p rm k W H K0 Hp HP) as (q & -> & _). discriminate. }
  revert NP. unfold log2_num, n_log2, ln_mantissa. cbv zeta. destruct (is_zero x || is_negative x); [reflexivity|]. destruct (m_normilize2 (nm x)) as [sh m]. cbv iota beta. cbn [nm ninexact]. change (mantissa_max_bit_len (mk_num m (ns x) 0 (ninexact x))) with (max_bit_len m).
  destruct (count_leading_zeroes_skip_first (mm m) =? max_bit_len m); [reflexivity|]. intros NP. now elim NP.
Qed.

Section Round.
Context (g : nat) (m : num) (w W l : Z) (Hw : 128 <= w) (Hw64 : w mod 64 = 0) (HwB : w <= 2 ^ 14) (HW64 : W mod 64 = 0) (HW : w + 64 <= W <= 2 * w) (Hl : 64 * wlen m = l) (Hlw : l + 64 <= w)
  (Wm : wf m) (Nm : normal m) (Sm : ns m = Pos) (Em : ne m = 0) (Vm : (/ 2 <= value m < 1)%R).
Let HW16 : 128 <= W <= 2 ^ 16.
Proof. change (2 ^ 14) with 16384 in HwB. change (2 ^ 16) with 65536. clear - Hw HW HwB. lia. Qed.
Let HWL : W < P_LIM.
Proof. eapply Z.le_lt_trans; [apply HW16|vm_compute; reflexivity]. Qed.
Let m0 := set_inexact m false.
Let W0 : wf m0. Proof. now apply wf_inexact. Qed.
Let N0 : normal m0. Proof. exact Nm. Qed.

(** The quotient by ln 2. *)
Lemma ratio c px d q : lreach c -> 0 < px -> prec_up px = W -> (0 <= d <= / 512)%R -> near d Neg (- ln (value m)) q -> ninexact q = true -> (bpow radix2 (- (2 * w)) <= - ln (value m))%R ->
  exists c' p2 v, const_num ln2_for_prec 31 c px RNone = Some (c', Ok p2) /\ lreach c' /\ n_div q p2 px RNone = Ok v /\ near (d + 2 * eps W + eta W) Neg (- (ln (value m) / ln 2)) v /\ 64 * wlen v = W /\ ninexact v = true.
Proof.
  intros Hc Hp HPx Hd NQ Iq HS. destruct (ln2_num_ok c px Hc Hp) as (c' & p2 & E & Hc' & CR). { rewrite HPx. eapply Z.le_trans; [apply HW16|vm_compute; discriminate]. }
  rewrite HPx in CR. pose proof (near_apx _ _ _ _ _ (ln2_apx W p2 ltac:(apply HW16) CR)) as A. pose proof ln2_range as LR. destruct (ln_m_range m Vm) as [[R0 R1] _].
  pose proof (eps_eta W) as EE. pose proof (eta_small W ltac:(apply HW16)) as ES. pose proof (eta_pos W) as EP. set (a := (- ln (value m))%R) in *.
  assert (QL : (a <= a / ln 2 <= 3 / 2 * a)%R). { split; apply (Rmult_le_reg_r (ln 2)); try lra; unfold Rdiv; rewrite Rmult_assoc, Rinv_l, Rmult_1_r by lra; nra. }
  assert (M : mid (a / ln 2)). { apply (mid_range (- (2 * w)) 1); [clear - HwB; unfold HX; change (2 ^ 14) with 16384 in HwB; change (2 ^ 30) with 1073741824; lia|vm_compute; discriminate|]. change (bpow radix2 1) with 2%R. lra. }
  assert (DD : (d + IZR 2 * eps W <= 1)%R) by lra.
  destruct (near_div W px RNone ltac:(apply HW16) HPx HWL _ _ _ _ _ _ _ _ NQ A DD M) as (v & Ev & NV & LV & IV).
  exists c', p2, v. split; [exact E|]. split; [exact Hc'|]. split; [exact Ev|]. split; [|split; [exact LV|apply IV; rewrite Iq; reflexivity]]. replace (- (ln (value m) / ln 2))%R with (a / ln 2)%R by (unfold a; field; lra). exact NV.
Qed.
Lemma log_m_range : (0 < - (ln (value m) / ln 2) <= 1)%R /\ (- (ln (value m) / ln 2) <= 3 / 2 * - ln (value m))%R.
Proof.
  pose proof ln2_range as LR. destruct (ln_m_range m Vm) as [[R0 R1] _]. assert (R3 : (- ln (value m) <= ln 2)%R). { assert (ln (/ 2) <= ln (value m))%R by (destruct (Req_dec (/ 2) (value m)) as [E|E]; [rewrite E; lra|left; apply ln_increasing; lra]). rewrite ln_Rinv in H by lra. lra. }
  replace (- (ln (value m) / ln 2))%R with (- ln (value m) / ln 2)%R by (field; lra). set (a := (- ln (value m))%R) in *. split; [split; [apply Rdiv_lt_0_compat; lra|]|]; apply (Rmult_le_reg_r (ln 2)); try lra; unfold Rdiv; rewrite Rmult_assoc, Rinv_l, Rmult_1_r by lra; nra.
Qed.
Lemma m_low : (bpow radix2 (- (2 * w)) <= 1 - value m)%R -> (bpow radix2 (- (2 * w)) <= - ln (value m))%R.
Proof. intros H. pose proof (ln_1p (value m - 1) ltac:(lra)) as X. replace (1 + (value m - 1))%R with (value m) in X by ring. lra. Qed.

Lemma log_zero c px L : lreach c -> 0 < px -> prec_up px = W -> w + L + 5 <= W -> 0 <= L <= l -> (bpow radix2 (- (L + 1)) <= 1 - value m)%R ->
  lends (log2_sum g c m 0 px) (good w (ln (value m) / ln 2)).
Proof.
  intros Hc Hp HPx HWL2 HL HG. unfold log2_sum. fold m0. destruct (part_coarse g m0 w W l Hw HwB HW64 HW Hl Hlw W0 N0 Sm Vm px (w + 44) L Hp HPx ltac:(clear - Hw HW; lia) HL HG ltac:(clear - HWL2; lia)) as [-> |(q & -> & Aq & Lq & Iq)]; [left; reflexivity|]. cbn [lwith lbind].
  change (value m0) with (value m) in Aq. pose proof (near_apx _ _ _ _ _ Aq) as NQ. rewrite KL_eps in NQ. replace (39 - (w + 44)) with (-5 + - w) in NQ by ring. rewrite bpow_plus in NQ. change (bpow radix2 (-5)) with (/ 32)%R in NQ.
  pose proof (bpow_gt_0 radix2 (- w)) as B0. assert (B1 : (bpow radix2 (- w) <= / 65536)%R) by (change (/ 65536)%R with (bpow radix2 (-16)); apply bpow_le; lia).
  assert (LOW : (bpow radix2 (- (2 * w)) <= - ln (value m))%R) by (apply m_low; eapply Rle_trans; [|exact HG]; apply bpow_le; clear - HL Hlw; lia).
  destruct (ratio c px (/ 32 * bpow radix2 (- w)) q Hc Hp HPx ltac:(lra) NQ Iq LOW) as (c' & p2 & v & -> & Hc' & Ev & NV & LV & IV). cbn [lbind]. rewrite Ev. cbn [bind]. destruct log_m_range as [[R0 R1] _].
  assert (AD : exists q, n_add v (ln_exp_num 0) px RNone = Ok q /\ wf q /\ normal q /\ ns q = Neg /\ 64 * wlen q = W /\ value q = value v /\ ninexact q = true).
  { destruct NV as (Wv & Nv & Sv & _). pose proof (apx_self 128 v Wv Nv) as A. rewrite Sv in A. assert (PP : prec_up W = W) by (unfold prec_up; clear - HW64; dlia). destruct (apx_len 128 Neg 0 _ v W A ltac:(rewrite LV; lia) ltac:(clear - HW16; lia) ltac:(rewrite PP; exact HWL)) as (u & Eu & (Wu & Nu & Su & _) & Lu & Vu & Iu).
    exists u. split. { unfold n_add, add_sub. rewrite round_p_eq by (rewrite ?HPx; try exact HWL; clear - Hp; lia). change (64 * ((px + 63) / 64)) with (prec_up px). rewrite HPx, p_assertion_ok by exact HWL. cbn [bind]. rewrite (is_zero_false v Wv) by apply Nv. change (is_zero (ln_exp_num 0)) with true. exact Eu. }
    split; [exact Wu|]. split; [exact Nu|]. split; [exact Su|]. split; [rewrite Lu; exact PP|]. split; [exact Vu|]. rewrite Iu. exact IV. }
  destruct AD as (u & Eu & Wu & Nu & Su & Lu & Vu & Iu). rewrite Eu. right. exists c', u. split; [reflexivity|]. split; [exact Hc'|]. split; [exact Wu|]. split; [exact Nu|]. split; [exact Iu|]. split; [rewrite Lu; apply HW|]. split; [rewrite Su; unfold has_sign; cbn [sgnZ]; lra|].
  destruct NV as (_ & _ & _ & LC). assert (ET : (2 * eps W + eta W <= / 32 * bpow radix2 (- w))%R). { rewrite eps_eta. unfold eta. assert (bpow radix2 (1 - W) <= bpow radix2 (-63 + - w))%R by (apply bpow_le; clear - HW; lia). rewrite bpow_plus in H. change (bpow radix2 (-63)) with (/ 9223372036854775808)%R in H. lra. } pose proof (eta_pos W) as EP. pose proof (eps_eta W) as EE.
  assert (DD : (0 <= / 32 * bpow radix2 (- w) + 2 * eps W + eta W <= / 128)%R) by lra. rewrite Vu, (Rabs_left (ln (value m) / ln 2)) by lra. eapply Rle_trans; [exact (lc_abs_near _ _ _ DD LC)|]. apply Rmult_le_compat_r; lra.
Qed.

Lemma log_far c px e L : lreach c -> 0 < px -> prec_up px = W -> W = w + 64 -> e <> 0 -> Z.abs e < 2 ^ 40 -> 0 <= L <= l -> (bpow radix2 (- (L + 1)) <= 1 - value m <= bpow radix2 (- L))%R ->
  (IZR (Z.abs e) / 4 <= Rabs (IZR e + ln (value m) / ln 2))%R -> lends (log2_sum g c m e px) (good w (IZR e + ln (value m) / ln 2)).
Proof.
  intros Hc Hp HPx HWE He0 He HL HG HR. unfold log2_sum. fold m0. set (P := Z.min W (w + 103 - L)). assert (HP : 128 <= P <= W) by (unfold P; clear - HL Hlw HW Hw HWE; lia). assert (HP2 : P <= w + 64 /\ P + L <= w + 103 /\ (w + 64 <= P \/ w + 103 <= P + L)) by (unfold P; clear - HWE HL Hlw Hw; lia).
  destruct (part_coarse g m0 w W l Hw HwB HW64 HW Hl Hlw W0 N0 Sm Vm px P L Hp HPx HP HL (proj1 HG) ltac:(clear - HP2 HWE; lia)) as [-> |(q & -> & Aq & Lq & Iq)]; [left; reflexivity|]. cbn [lwith lbind].
  change (value m0) with (value m) in Aq. pose proof (near_apx _ _ _ _ _ Aq) as NQ. rewrite KL_eps in NQ. assert (DP : (0 <= bpow radix2 (39 - P) <= / 65536)%R) by (split; [apply bpow_ge_0|]; change (/ 65536)%R with (bpow radix2 (-16)); apply bpow_le; lia).
  assert (LOW : (bpow radix2 (- (2 * w)) <= - ln (value m))%R) by (apply m_low; eapply Rle_trans; [|apply HG]; apply bpow_le; clear - HL Hlw; lia).
  destruct (ratio c px (bpow radix2 (39 - P)) q Hc Hp HPx ltac:(lra) NQ Iq LOW) as (c' & p2 & v & -> & Hc' & Ev & NV & LV & IV). cbn [lbind]. rewrite Ev. cbn [bind]. right.
  destruct (ln_m_range m Vm) as [[S0 S1] S2]. destruct log_m_range as [[R0 R1] R2]. destruct (exp_num e He0 He) as [(W2 & N2 & _) V2]. set (r := (IZR e + ln (value m) / ln 2)%R) in *. assert (G1 : (1 <= IZR (Z.abs e))%R) by (apply (IZR_le 1); lia).
  pose proof (eps_eta W) as EE. pose proof (eta_pos W) as EP. pose proof (bpow_gt_0 radix2 (- w)) as B0. assert (B1 : (bpow radix2 (- w) <= / 65536)%R) by (change (/ 65536)%R with (bpow radix2 (-16)); apply bpow_le; lia).
  assert (E3 : (bpow radix2 (- W) = / 18446744073709551616 * bpow radix2 (- w))%R) by (rewrite HWE; replace (- (w + 64)) with (-64 + - w) by ring; rewrite bpow_plus; reflexivity). assert (EW : (eta W = 65 / 32 * bpow radix2 (- W))%R) by (unfold eta; replace (1 - W) with (1 + - W) by ring; rewrite bpow_plus; change (bpow radix2 1) with 2%R; field).
  assert (DV : (0 <= bpow radix2 (39 - P) + 2 * eps W + eta W <= / 128)%R) by (rewrite EE, EW, E3; lra). pose proof (neg_err _ _ _ DV NV) as D1. destruct NV as (Wv & Nv & Sv & _).
  assert (T1 : (bpow radix2 (39 - P) * - (ln (value m) / ln 2) <= 3 / 2 * (/ 16777216 * bpow radix2 (- w)))%R).
  { assert (Q : (bpow radix2 (39 - P) * - ln (value m) <= bpow radix2 (- w - 24))%R).
    { apply Rle_trans with (bpow radix2 (39 - P) * (2 * bpow radix2 (- L)))%R; [apply Rmult_le_compat_l; [apply bpow_ge_0|lra]|]. change 2%R with (bpow radix2 1). rewrite <- !bpow_plus. apply bpow_le. clear - HP2 HL. lia. }
    replace (- w - 24) with (-24 + - w) in Q by ring. rewrite bpow_plus in Q. change (bpow radix2 (-24)) with (/ 16777216)%R in Q. apply Rle_trans with (bpow radix2 (39 - P) * (3 / 2 * - ln (value m)))%R; [apply Rmult_le_compat_l; [apply bpow_ge_0|exact R2]|]. lra. }
  assert (T2 : ((2 * eps W + eta W) * - (ln (value m) / ln 2) <= / 16777216 * bpow radix2 (- w))%R). { apply Rle_trans with ((2 * eps W + eta W) * 1)%R; [apply Rmult_le_compat_l; lra|]. rewrite EE, EW, E3. lra. }
  assert (SUM : (Rabs (value v + value (ln_exp_num e) - r) <= / 65536 * bpow radix2 (- w) * Rabs r)%R).
  { rewrite V2. replace (value v + IZR e - r)%R with (value v - ln (value m) / ln 2)%R by (unfold r; ring). eapply Rle_trans; [exact D1|]. apply Rle_trans with (/ 65536 * bpow radix2 (- w) * / 4)%R; [|apply Rmult_le_compat_l; lra].
    replace (65 / 64 * (bpow radix2 (39 - P) + 2 * eps W + eta W) * - (ln (value m) / ln 2))%R with (65 / 64 * (bpow radix2 (39 - P) * - (ln (value m) / ln 2) + (2 * eps W + eta W) * - (ln (value m) / ln 2)))%R by ring. lra. }
  assert (RA : (/ 4 <= Rabs r)%R) by lra. assert (RN : r <> 0%R) by (intros X; rewrite X, Rabs_R0 in RA; lra).
  assert (M : mid (Rabs r)). { apply (mid_range (-2) 41); [vm_compute; discriminate|vm_compute; discriminate|]. split; [exact RA|]. unfold r. eapply Rle_trans; [apply Rabs_triang|]. rewrite <- abs_IZR, (Rabs_left (ln (value m) / ln 2)) by lra. assert (IZR (Z.abs e) <= bpow radix2 40)%R by (change (bpow radix2 40) with (IZR (2 ^ 40)); apply IZR_le; lia). change (bpow radix2 41) with (2 * bpow radix2 40)%R. change (bpow radix2 40) with 1099511627776%R in *. lra. }
  destruct (sum_round v (ln_exp_num e) W px r (/ 65536 * bpow radix2 (- w)) ltac:(apply HW16) HPx HWL Wv Nv W2 N2 RN M ltac:(lra) SUM) as (u & Eu & Wu & Nu & Lu & Iu & Su & Du); [rewrite IV; reflexivity|].
  exists c', u. rewrite Eu. split; [reflexivity|]. split; [exact Hc'|]. split; [exact Wu|]. split; [exact Nu|]. split; [exact Iu|]. split; [rewrite Lu; apply HW|]. split; [exact Su|]. eapply Rle_trans; [exact Du|]. apply Rmult_le_compat_r; [lra|]. rewrite EW, E3. lra.
Qed.

Lemma log_one c px n : lreach c -> 0 < px -> prec_up px = W -> w + n + 5 <= W -> 2 <= n <= l -> (bpow radix2 (- n) <= 2 * value m - 1 < bpow radix2 (1 - n))%R ->
  lends (log2_sum g c m 1 px) (good w (1 + ln (value m) / ln 2)).
Proof.
  intros Hc Hp HPx HWn Hn HG. unfold log2_sum. fold m0. assert (B2 : (bpow radix2 (1 - n) <= / 2)%R) by (change (/ 2)%R with (bpow radix2 (-1)); apply bpow_le; lia). pose proof (bpow_gt_0 radix2 (- n)) as PN.
  destruct (part_sharp g m0 w W l Hw HwB HW64 HW Hl Hlw W0 N0 Sm Vm px Hp HPx ltac:(change (value m0) with (value m); lra)) as [-> |(q & -> & NQ & Lq & Iq)]; [left; reflexivity|]. cbn [lwith lbind]. change (value m0) with (value m) in NQ.
  pose proof (eta_small W ltac:(apply HW16)) as ES. pose proof (eta_pos W) as EP. pose proof (eps_eta W) as EE. assert (LOW : (bpow radix2 (- (2 * w)) <= - ln (value m))%R). { apply m_low. apply Rle_trans with (/ 4)%R; [change (/ 4)%R with (bpow radix2 (-2)); apply bpow_le; clear - Hw; lia|lra]. }
  destruct (ratio c px (8 * eta W) q Hc Hp HPx ltac:(lra) NQ Iq LOW) as (c' & p2 & v & -> & Hc' & Ev & NV & LV & IV). cbn [lbind]. rewrite Ev. cbn [bind]. right.
  destruct (ln_m_range m Vm) as [[S0 S1] S2]. destruct log_m_range as [[R0 R1] R2]. destruct (exp_num 1 ltac:(lia) ltac:(vm_compute; reflexivity)) as [(W2 & N2 & _) V2]. assert (DV : (0 <= 8 * eta W + 2 * eps W + eta W <= / 128)%R) by lra. pose proof (neg_err _ _ _ DV NV) as D1. destruct NV as (Wv & Nv & Sv & _). set (r := (1 + ln (value m) / ln 2)%R) in *.
  pose proof ln2_range as LR. assert (RL : (8 / 7 * bpow radix2 (- n) <= r)%R).
  { apply (Rmult_le_reg_r (ln 2)); [lra|]. replace (r * ln 2)%R with (ln 2 + ln (value m))%R by (unfold r; field; lra). rewrite <- ln_mult by lra. set (t := (2 * value m - 1)%R) in *. replace (2 * value m)%R with (1 + t)%R by (unfold t; ring). assert (T0 : (0 < t < / 2)%R) by (split; lra).
    assert (T1 : (0 < t / (2 + t) < 1)%R). { split; [apply Rdiv_lt_0_compat; lra|]. apply (Rmult_lt_reg_r (2 + t)); [lra|]. unfold Rdiv. rewrite Rmult_assoc, Rinv_l by lra. lra. }
    pose proof (dath_ge (t / (2 + t)) T1) as X. unfold dath in X. replace ((1 + t / (2 + t)) / (1 - t / (2 + t)))%R with (1 + t)%R in X by (field; lra). assert (4 / 5 * t <= 2 * (t / (2 + t)))%R. { apply (Rmult_le_reg_r (2 + t)); [lra|]. replace (2 * (t / (2 + t)) * (2 + t))%R with (2 * t)%R by (field; lra). nra. } assert (bpow radix2 (- n) * ln 2 <= bpow radix2 (- n) * (7 / 10))%R by (apply Rmult_le_compat_l; lra). lra. }
  assert (RU : (r <= 1)%R) by (unfold r; lra). assert (RP : (0 < r)%R) by lra. rewrite <- (Rabs_pos_eq r) in RL, RU by lra.
  pose proof (bpow_gt_0 radix2 (- W)) as BW0. assert (EW : (eta W = 65 / 32 * bpow radix2 (- W))%R) by (unfold eta; replace (1 - W) with (1 + - W) by ring; rewrite bpow_plus; change (bpow radix2 1) with 2%R; field).
  assert (BW : (bpow radix2 (- W) <= / 32 * (bpow radix2 (- w) * bpow radix2 (- n)))%R). { change (/ 32)%R with (bpow radix2 (-5)). rewrite <- !bpow_plus. apply bpow_le. clear - HWn. lia. }
  pose proof (bpow_gt_0 radix2 (- w)) as B0. assert (B1 : (bpow radix2 (- w) <= / 65536)%R) by (change (/ 65536)%R with (bpow radix2 (-16)); apply bpow_le; lia).
  assert (BR : (bpow radix2 (- w) * bpow radix2 (- n) <= 7 / 8 * (bpow radix2 (- w) * Rabs r))%R). { replace (7 / 8 * (bpow radix2 (- w) * Rabs r))%R with (bpow radix2 (- w) * (7 / 8 * Rabs r))%R by field. apply Rmult_le_compat_l; lra. }
  assert (SUM : (Rabs (value v + value (ln_exp_num 1) - r) <= 49 / 64 * bpow radix2 (- w) * Rabs r)%R).
  { rewrite V2. replace (value v + 1 - r)%R with (value v - ln (value m) / ln 2)%R by (unfold r; ring). eapply Rle_trans; [exact D1|].
    apply Rle_trans with (65 / 64 * (8 * eta W + 2 * eps W + eta W) * 1)%R; [apply Rmult_le_compat_l; lra|]. rewrite EE, EW. lra. }
  assert (RN : r <> 0%R) by lra. assert (M : mid (Rabs r)). { apply (mid_range (- (1) - n) 0); [clear - Hn Hlw HwB; unfold HX; change (2 ^ 14) with 16384 in HwB; change (2 ^ 30) with 1073741824; lia|vm_compute; discriminate|]. split; [|exact RU]. unfold Zminus. rewrite bpow_plus. change (bpow radix2 (- (1))) with (/ 2)%R. lra. }
  destruct (sum_round v (ln_exp_num 1) W px r (49 / 64 * bpow radix2 (- w)) ltac:(apply HW16) HPx HWL Wv Nv W2 N2 RN M ltac:(lra) SUM) as (u & Eu & Wu & Nu & Lu & Iu & Su & Du); [rewrite IV; reflexivity|].
  exists c', u. rewrite Eu. split; [reflexivity|]. split; [exact Hc'|]. split; [exact Wu|]. split; [exact Nu|]. split; [exact Iu|]. split; [rewrite Lu; apply HW|]. split; [exact Su|]. eapply Rle_trans; [exact Du|]. apply Rmult_le_compat_r; [apply Rabs_pos|].
  assert (ET : (eta W <= / 32 * bpow radix2 (- w))%R). { rewrite EW. assert (bpow radix2 (- W) <= bpow radix2 (-7 + - w))%R by (apply bpow_le; clear - HW; lia). rewrite bpow_plus in H. change (bpow radix2 (-7)) with (/ 128)%R in H. lra. } lra.
Qed.
End Round.

(** ** The whole function *)
Theorem log2_ok f g c x p rm : lreach c -> wf x -> (0 < value x)%R -> (forall k, value x <> bpow radix2 k) -> 0 < p -> work f (Z.max (prec_up p) (64 * wlen x) + 64) 64 <= 2 ^ 14 ->
  match log2_num f g c x p rm with None => True | Some (c', res) => ln_post (ln (value x) / ln 2) (prec_up p) rm c' res end.
Proof.
  intros Hc W H0 H1 Hp HB. destruct (ln_mant x W H0) as (e & m & EM & Wm & Nm & Sm & Em & Im & Lm & VX & Vm & _ & He & (CL1 & CL2) & (ZC1 & ZC2 & ZC3)). pose proof ln2_range as LR.
  assert (P64 : 64 <= prec_up p) by (unfold prec_up; clear - Hp; dlia). set (M := Z.max (prec_up p) (64 * wlen x)) in *. pose proof (work_ge f (M + 64) 64 ltac:(lia) ltac:(lia)) as HG. assert (MB : M + 64 <= 2 ^ 14) by lia.
  assert (HE : Z.abs e < 2 ^ 40). { change EMIN with (-2147483648) in He. change EMAX with 2147483647 in He. change (2 ^ 14) with 16384 in MB. change (2 ^ 40) with 1099511627776. clear - He MB. lia. }
  assert (NZ : is_zero x || is_negative x = false). { destruct (yes_pos x W H0) as [N _]. rewrite (is_zero_false x W N), negative_sign. pose proof (value_has_sign x W N) as V. unfold has_sign in V. destruct (ns x); [cbn [sgnZ] in V; lra|reflexivity]. }
  assert (RP : round_p p = prec_up p). { apply round_p_eq; [lia|]. eapply Z.le_lt_trans with (2 ^ 14); [lia|vm_compute; reflexivity]. }
  unfold log2_num. rewrite NZ, EM, RP. cbv zeta. change (mantissa_max_bit_len m) with (64 * wlen m). change (mantissa_max_bit_len x) with (64 * wlen x). rewrite Lm. fold M. set (l := 64 * wlen x) in *.
  assert (HM2 : value m <> (/ 2)%R). { intros E. apply (H1 (e - 1)). rewrite VX, E. unfold Zminus. rewrite bpow_plus. reflexivity. }
  replace (count_leading_zeroes_skip_first (mm (nm m)) =? l) with false by (symmetry; apply Z.eqb_neq; intros Q; apply HM2, ZC2, Q).
  set (ap := (if e =? 0 then count_leading_ones (mm (nm m)) else if e =? 1 then count_leading_zeroes_skip_first (mm (nm m)) else 0) + 5).
  assert (HM64 : M mod 64 = 0) by (unfold M, l; destruct (Z.max_spec (prec_up p) (64 * wlen x)) as [[_ ->]|[_ ->]]; [rewrite Z.mul_comm; apply Z.mod_mul; lia|apply prec_up_mod]).
  assert (RX : (ln (value x) / ln 2 = IZR e + ln (value m) / ln 2)%R) by (rewrite (ln_x e m x ltac:(lra) VX); field; lra).
  assert (DIV : (Rabs (IZR e + ln (value m) / ln 2) = Rabs (IZR e * ln 2 + ln (value m)) / ln 2)%R). { rewrite <- (Rabs_pos_eq (ln 2)) at 3 by lra. unfold Rdiv. rewrite <- Rabs_inv, <- Rabs_mult. f_equal. field. lra. }
  apply (loop_ok (fun f c w i => log2_loop f g c x m e ap (prec_up p) rm w i) (fun c w => log2_sum g c m e (w + ap)) x (prec_up p) rm (ln (value x) / ln 2) (M + 64)); try reflexivity; try assumption; try lia; try apply prec_up_mod.
  - intros c0 w Hc0 Hw Hw64. rewrite RX. assert (LM : 64 * wlen m = l) by (rewrite Lm; reflexivity). assert (Hlw : l + 64 <= w) by lia. assert (Hw1 : 128 <= w) by lia.
    assert (HAP : 5 <= ap <= l + 5). { unfold ap. destruct (e =? 0); [clear - CL1; lia|]. destruct (e =? 1); [clear - ZC1; lia|]. clear - ZC1. lia. }
    assert (PX : prec_up (w + ap) mod 64 = 0) by apply prec_up_mod. assert (PX2 : w + 64 <= prec_up (w + ap) <= 2 * w). { assert (l mod 64 = 0) by (unfold l; rewrite Z.mul_comm; apply Z.mod_mul; lia). unfold prec_up. clear - HAP Hw64 Hlw H. dlia. }
    assert (PX3 : w + ap <= prec_up (w + ap)) by (unfold prec_up; clear; dlia).
    destruct (Z.eq_dec e 0) as [E0|E0].
    { assert (AE : ap = count_leading_ones (mm (nm m)) + 5) by (unfold ap; rewrite E0; reflexivity). rewrite E0, Rplus_0_l. apply (log_zero g m w (prec_up (w + ap)) l) with (L := count_leading_ones (mm (nm m))); try assumption; try reflexivity; try lia. apply CL2. }
    assert (FAR : (e = 1 -> (3 / 4 <= value m)%R) -> ap <= 64 -> lends (log2_sum g c0 m e (w + ap)) (good w (IZR e + ln (value m) / ln 2))).
    { intros C A6. apply (log_far g m w (prec_up (w + ap)) l) with (L := count_leading_ones (mm (nm m))); try assumption; try reflexivity; try lia; [unfold prec_up in *; clear - A6 HAP Hw64 PX2; dlia|]. rewrite DIV. eapply Rle_trans; [apply (ln_far e m Vm E0 C)|]. apply (Rmult_le_reg_r (ln 2)); [lra|]. unfold Rdiv. rewrite Rmult_assoc, Rinv_l, Rmult_1_r by lra. pose proof (Rabs_pos (IZR e * ln 2 + ln (value m))). nra. }
    destruct (Z.eq_dec e 1) as [E1|E1]; [|apply FAR; [intros; contradiction|]; unfold ap; replace (e =? 0) with false by lia; replace (e =? 1) with false by lia; lia].
    pose proof (ZC3 HM2) as ZC4. destruct (Z.eq_dec (count_leading_zeroes_skip_first (mm (nm m))) 1) as [ZE|ZE].
    { apply FAR; [|unfold ap; rewrite E1, ZE; cbn; lia]. intros _. rewrite ZE in ZC4. change (bpow radix2 (- (1))) with (/ 2)%R in ZC4. lra. }
    rewrite E1. assert (AE : ap = count_leading_zeroes_skip_first (mm (nm m)) + 5) by (unfold ap; rewrite E1; reflexivity). apply (log_one g m w (prec_up (w + ap)) l) with (n := count_leading_zeroes_skip_first (mm (nm m))); try assumption; try reflexivity; lia.
  - rewrite RX, DIV. pose proof (ln_size e m Vm HE) as S. assert (B : (Rabs (IZR e * ln 2 + ln (value m)) <= bpow radix2 99)%R).
    { clear - Vm HE LR. pose proof (ln_m_range m Vm) as [[R0 R1] R2]. eapply Rle_trans; [apply Rabs_triang|]. rewrite Rabs_mult, (Rabs_pos_eq (ln 2)), <- abs_IZR, (Rabs_left (ln (value m))) by lra.
      assert (A : (0 <= IZR (Z.abs e) <= IZR (2 ^ 40))%R) by (split; apply IZR_le; lia). apply Rle_trans with (IZR (2 ^ 40) + 1)%R; [nra|]. rewrite <- plus_IZR. change (bpow radix2 99) with (IZR (2 ^ 99)). apply IZR_le. vm_compute. discriminate. }
    apply (Rmult_le_reg_r (ln 2)); [lra|]. unfold Rdiv. rewrite Rmult_assoc, Rinv_l, Rmult_1_r by lra. eapply Rle_trans; [exact B|]. change 100 with (1 + 99). rewrite bpow_plus. change (bpow radix2 1) with 2%R. pose proof (bpow_gt_0 radix2 99). nra.
  - clear - HM64. dlia.
Qed.
