(** The series of the hyperbolic sine: reduction, sum and restoration together. *)

From Coq Require Import ZArith List Bool Lia Reals Lra.
From Flocq Require Import Core.
From Verif Require Import Words IntModel Mantissa Num Pow Consts Elem Series Exp SpecZ SpecOps SpecConst WordsP Spec RealP RealP2 NumP CmpP AddP SetP AddNum MulNum DivNum ArithTop ConvNum RootP ConstP ConstNum ExtP PowExt Refute1 ElemR ElemDom ApproxR ApproxNum SeriesNum SinhR SinhNum.
Import ListNotations.
Open Scope Z_scope.
Ltac Zify.zify_post_hook ::= idtac.
Arguments Z.mul : simpl never.
Arguments Z.add : simpl never.
Arguments Z.pow : simpl never.
Arguments Z.sub : simpl never.
Arguments Z.of_nat : simpl never.
Ltac dlia := Z.div_mod_to_equations; lia.

Lemma lc_two d a v : (d <= / 4)%R -> lc d a v -> (a / 2 <= v <= 2 * a)%R.
Proof.
  intros D L. apply (lc_weak d (/ 4)%R) in L; [|exact D]. pose proof L as (A & _). apply lc_abs in L; [|lra]. apply Rabs_le_inv in L. lra.
Qed.
Lemma eps_quarter P k : 128 <= P -> k <= 2 ^ 60 -> (IZR k * eps P <= / 4)%R.
Proof. intros HP Hk. eapply Rle_trans; [now apply eps_small|]. change (/ 4)%R with (bpow radix2 (-2)). apply bpow_le. lia. Qed.

(** Powers of three. *)
Lemma three_bounds n : 0 <= n -> 2 ^ n <= 3 ^ n <= 2 ^ (2 * n).
Proof. intros H. split; [apply Z.pow_le_mono_l; lia|]. rewrite Z.pow_mul_r by lia. apply Z.pow_le_mono_l. lia. Qed.
Lemma three_not_big n : 0 <= n <= 2 ^ 28 -> ~ big (3 ^ n).
Proof.
  intros H B. unfold big in B. rewrite Rabs_pos_eq in B by (apply IZR_le; apply Z.pow_nonneg; lia). pose proof (three_bounds n ltac:(lia)) as [_ T]. apply IZR_le in T. rewrite <- bpow_IZR in T by lia.
  assert (bpow radix2 (2 * n) < bpow radix2 EMAX)%R by (apply bpow_lt; lia). apply (Rlt_irrefl (bpow radix2 (2 * n))). eapply Rlt_le_trans; [exact H0|]. eapply Rle_trans; [exact B|exact T].
Qed.
Lemma power_of_three_ok n : forall k d, whole d (3 ^ k) -> 0 <= k -> k + Z.of_nat n <= 2 ^ 28 -> exists q, power_of_three n d = Ok q /\ whole q (3 ^ (k + Z.of_nat n)).
Proof.
  assert (W3 : whole THREE 3) by (split; [exact THREE_wf|split; [reflexivity|exact THREE_value]]).
  induction n as [|n IH]; intros k d Hd Hk HB; [exists d; replace (k + Z.of_nat 0) with k by lia; auto|]. cbn [power_of_three].
  pose proof (whole_mul d THREE _ _ Hd W3 ltac:(apply Z.pow_nonzero; lia) ltac:(lia)) as M. replace (3 ^ k * 3) with (3 ^ (k + 1)) in M by (rewrite Z.pow_add_r by lia; reflexivity).
  destruct (n_mul_full_prec d THREE) as [q|e|]; [|destruct e; try contradiction; now apply three_not_big in M; lia|contradiction]. cbn [bind].
  destruct (IH (k + 1) q M ltac:(lia) ltac:(lia)) as (r & -> & Hr). exists r. split; [reflexivity|]. replace (k + Z.of_nat (S n)) with (k + 1 + Z.of_nat n) by lia. exact Hr.
Qed.

Lemma FOUR_wf : wf FOUR. Proof. unfold FOUR. wf_concrete. Qed.
Lemma FOUR_value : value FOUR = 4%R.
Proof.
  unfold value, F2R. cbn [Fnum Fexp]. replace (sgnZ (ns FOUR) * magnitude FOUR) with (2 ^ 127) by (vm_compute; reflexivity). replace (ne FOUR - 64 * wlen FOUR) with (-125) by reflexivity.
  rewrite <- (bpow_IZR 127) by lia. rewrite <- bpow_plus. reflexivity.
Qed.
Lemma apx_THREE P : apx P Pos 0 3 THREE.
Proof. apply apx_exact; [exact THREE_wf|split; [reflexivity|exact THREE_nonzero]|reflexivity|exact THREE_value]. Qed.
Lemma apx_FOUR P : apx P Pos 0 4 FOUR.
Proof. apply apx_exact; [exact FOUR_wf|split; [reflexivity|vm_compute; discriminate]|reflexivity|exact FOUR_value]. Qed.

Section Sinh.
Variables (P PO : Z).
Hypothesis HP : 128 <= P <= PO.
Hypothesis HPO : PO <= 2 ^ 22.
Hypothesis HP64 : prec_up PO = PO.
Let HPP : 128 <= P <= prec_up PO.
Proof. clear - HP HP64. lia. Qed.
Let HL : prec_up PO < P_LIM.
Proof. rewrite HP64. eapply Z.le_lt_trans; [exact HPO|]. vm_compute. reflexivity. Qed.

Lemma arg_ok s x n a : apx P s 0 a x -> 64 * wlen x = PO -> 0 <= n <= 2 ^ 26 -> (bpow radix2 (- 2 ^ 26) <= a <= 1)%R ->
  exists q, (if 0 <? n then sinh_arg_reduce x n RNone else Ok x) = Ok q /\ apx P s 1 (a / IZR (3 ^ n)) q /\ 64 * wlen q = PO.
Proof.
  intros Hx Lx Hn [A1 A2]. destruct (Z.ltb_spec 0 n) as [N|N].
  - unfold sinh_arg_reduce. destruct (power_of_three_ok (Z.to_nat (n - 1)) 1 THREE) as (d & -> & Hd); [split; [exact THREE_wf|split; [reflexivity|exact THREE_value]]|lia|lia|]. cbn [bind].
    replace (1 + Z.of_nat (Z.to_nat (n - 1))) with n in Hd by lia. rewrite max_len, Lx. destruct Hd as (Wd & _ & Vd). pose proof (three_bounds n ltac:(lia)) as [T1 T2]. apply IZR_le in T1, T2. rewrite <- bpow_IZR in T1, T2 by lia.
    assert (D1 : (1 <= IZR (3 ^ n))%R). { eapply Rle_trans; [|exact T1]. change 1%R with (bpow radix2 0). apply bpow_le. lia. }
    assert (Nd : normal d). { apply normal_iff; [exact Wd|]. rewrite Vd, Rabs_pos_eq by lra. eapply Rle_trans; [|exact D1]. change 1%R with (bpow radix2 0). apply bpow_le. vm_compute. discriminate. }
    assert (Sd : ns d = Pos). { destruct Nd as [_ Nd]. pose proof (value_has_sign d Wd Nd) as V. rewrite Vd in V. unfold has_sign in V. destruct (ns d); [|reflexivity]. cbn [sgnZ] in V. exfalso. lra. }
    assert (Ad : apx P Pos 0 (IZR (3 ^ n)) d) by now apply apx_exact.
    destruct (apx_div P PO RNone HPP HL _ _ _ _ _ _ _ _ Hx Ad ltac:(lia)) as (q & E & Hq & Lq & _).
    { assert (I1 : (bpow radix2 (- (2 * n)) <= / IZR (3 ^ n))%R) by (rewrite bpow_opp; apply Rinv_le; lra). assert (I2 : (/ IZR (3 ^ n) <= 1)%R) by (rewrite <- Rinv_1; apply Rinv_le; lra).
      apply (mid_range (- 2 ^ 26 + - (2 * n)) 0); [unfold HX; lia|vm_compute; discriminate|]. split; [now apply low_mul|]. change (bpow radix2 0) with 1%R. unfold Rdiv. assert (0 < a)%R by (eapply Rlt_le_trans; [apply bpow_gt_0|exact A1]). assert (0 < / IZR (3 ^ n))%R by (apply Rinv_0_lt_compat; lra). apply Rle_trans with (1 * 1)%R; [apply Rmult_le_compat; lra|lra]. }
    exists q. rewrite sign_mul_pos_r in Hq. split; [exact E|]. split; [|rewrite Lq; exact HP64]. eapply apx_weak; [|exact Hq]. lia.
  - exists x. split; [reflexivity|]. split; [|exact Lx]. replace n with 0 by lia. eapply apx_same; [|eapply apx_weak; [|exact Hx]; lia]. change (IZR (3 ^ 0)) with 1%R. unfold Rdiv. rewrite Rinv_1. ring.
Qed.

(** One step of the restoration triples the inverse hyperbolic sine. *)
Definition atsinh (s : sign) (k : Z) (y : R) (v : num) : Prop := wf v /\ normal v /\ ns v = s /\ lc (IZR k * eps P) y (arcsinh (Rabs (value v))).

Lemma restore_ok s n : forall k y v, atsinh s k y v -> 0 <= k -> k + 4 * Z.of_nat n <= 2 ^ 59 -> (bpow radix2 (- 2 ^ 27) <= y)%R -> (IZR (3 ^ Z.of_nat n) * y <= 1)%R -> 64 * wlen v = PO -> ninexact v = true ->
  exists q, sinh_restore_loop n PO RNone v = Ok q /\ atsinh s (k + 4 * Z.of_nat n) (IZR (3 ^ Z.of_nat n) * y) q /\ 64 * wlen q = PO /\ ninexact q = true.
Proof.
  induction n as [|n IH]; intros k y v Hv Hk HK Y1 Y2 Lv Iv.
  - exists v. cbn [sinh_restore_loop]. split; [reflexivity|]. split; [|auto]. change (3 ^ Z.of_nat 0) with 1. rewrite Rmult_1_l. replace (k + 4 * Z.of_nat 0) with k by lia. exact Hv.
  - cbn [sinh_restore_loop]. replace (3 ^ Z.of_nat (S n)) with (3 * 3 ^ Z.of_nat n) in * by (rewrite Nat2Z.inj_succ, Z.pow_succ_r by lia; reflexivity). rewrite mult_IZR in *.
    assert (T1 : (1 <= IZR (3 ^ Z.of_nat n))%R) by (apply (IZR_le 1); pose proof (Z.pow_pos_nonneg 3 (Z.of_nat n)); lia). assert (Y0 : (0 < y)%R) by (eapply Rlt_le_trans; [apply bpow_gt_0|exact Y1]).
    assert (Y3 : (3 * y <= 1)%R) by nra.
    destruct Hv as (W & N & S & L). set (u := Rabs (value v)) in *. set (h := arcsinh u) in *.
    pose proof (lc_two _ _ _ (eps_quarter P k ltac:(lia) ltac:(lia)) L) as [H1 H2]. assert (Eu : u = sinh h) by (unfold h; now rewrite sinh_arcsinh).
    assert (U1 : (bpow radix2 (- 2 ^ 27 - 1) <= u)%R). { rewrite Eu. replace (- 2 ^ 27 - 1) with (- 2 ^ 27 + -1) by ring. rewrite bpow_plus. change (bpow radix2 (-1)) with (/ 2)%R. pose proof (sinh_gt h ltac:(lra)). lra. }
    assert (U2 : (u <= 4)%R). { rewrite Eu. eapply Rle_trans; [apply sinh_le with (b := (3 / 2)%R); lra|]. eapply Rle_trans; [|apply (cosh_32 (3 / 2)); lra]. unfold sinh, cosh. pose proof (exp_pos (- (3 / 2))). lra. }
    assert (U0 : (0 < u)%R) by (eapply Rlt_le_trans; [apply bpow_gt_0|exact U1]).
    assert (Av : apx P s 0 u v) by (rewrite <- S; now apply apx_self).
    assert (UU : (bpow radix2 ((- 2 ^ 27 - 1) + (- 2 ^ 27 - 1)) <= u * u)%R) by now apply low_mul. assert (UUU : (bpow radix2 ((- 2 ^ 27 - 1) + (- 2 ^ 27 - 1) + (- 2 ^ 27 - 1)) <= u * u * u)%R) by now apply low_mul.
    assert (V2 : (0 < u * u <= 16)%R) by nra. assert (V3 : (0 < u * u * u <= 64)%R) by nra.
    assert (MH : forall j a, (bpow radix2 j <= a)%R -> (a <= 1024)%R -> - HX <= j -> mid a) by (intros j a J1 J2 J; apply (mid_range j 10); [exact J|vm_compute; discriminate|split; assumption]).
    destruct (apx_mul P PO RNone HPP HL _ _ _ _ _ _ _ _ Av Av ltac:(lia)) as (c1 & -> & A1 & _ & I1); [apply (MH _ _ UU); [lra|vm_compute; discriminate]|]. cbn [bind].
    replace (sign_mul s s) with Pos in A1 by (destruct s; reflexivity).
    destruct (apx_mul P PO RNone HPP HL _ _ _ _ _ _ _ _ A1 Av ltac:(lia)) as (c2 & -> & A2 & _ & I2); [apply (MH _ _ UUU); [lra|vm_compute; discriminate]|]. cbn [bind]. rewrite sign_mul_pos in A2.
    destruct (apx_mul P PO RNone HPP HL _ _ _ _ _ _ _ _ Av (apx_THREE P) ltac:(lia)) as (p1 & -> & A3 & _ & I3); [apply (MH (- 2 ^ 27 - 1)); [lra|lra|vm_compute; discriminate]|]. cbn [bind]. rewrite sign_mul_pos_r in A3.
    destruct (apx_mul P PO RNone HPP HL _ _ _ _ _ _ _ _ A2 (apx_FOUR P) ltac:(lia)) as (p2 & -> & A4 & _ & I4); [apply (MH ((- 2 ^ 27 - 1) + (- 2 ^ 27 - 1) + (- 2 ^ 27 - 1))); [lra|lra|vm_compute; discriminate]|]. cbn [bind]. rewrite sign_mul_pos_r in A4.
    destruct (apx_add P PO RNone HPP HL s 3 (u * 3) (u * u * u * 4) p1 p2) as (q & -> & A5 & L5 & I5).
    { eapply apx_weak; [|exact A3]. lia. } { eapply apx_weak; [|exact A4]. lia. } { lia. } { apply (MH (- 2 ^ 27 - 1)); [lra|lra|vm_compute; discriminate]. }
    cbn [bind]. replace (u * 3 + u * u * u * 4)%R with (sinh (3 * h)) in A5 by (rewrite sinh_triple, <- Eu; ring).
    destruct (IH (k + 4) (3 * y)%R q) as (r & -> & R1 & R2 & R3).
    + destruct A5 as (W5 & N5 & S5 & L5'). split; [exact W5|]. split; [exact N5|]. split; [exact S5|]. change (3 + 1) with 4 in L5'. apply lc_arcsinh in L5'; [|apply Rmult_le_pos; [lra|left; apply eps_pos]|lra].
      rewrite plus_IZR, Rmult_plus_distr_r. eapply lc_trans; [|exact L5']. apply lc_scale; [lra|exact L].
    + lia. + lia. + lra. + nra. + rewrite L5. exact HP64.
    + apply I5. apply orb_true_iff. left. apply I3. apply orb_true_iff. left. exact Iv.
    + exists r. split; [reflexivity|]. split; [|auto]. replace (3 * IZR (3 ^ Z.of_nat n) * y)%R with (IZR (3 ^ Z.of_nat n) * (3 * y))%R by ring. replace (k + 4 * Z.of_nat (Datatypes.S n)) with (k + 4 + 4 * Z.of_nat n) by lia. exact R1.
Qed.
End Sinh.

(** ** The whole *)
Definition KS : Z := 2 ^ 39.
Lemma new_up p P : 1 <= p -> P <= 2 ^ 22 -> prec_up p = P -> sinh_new p = sinh_new P.
Proof.
  intros Hp HP E. assert (E2 : wlen_of_bits p = wlen_of_bits P). { rewrite <- E. unfold wlen_of_bits, prec_up. clear. dlia. }
  assert (HL : 2 ^ 22 < P_LIM) by (vm_compute; reflexivity). assert (p <= P) by (rewrite <- E; unfold prec_up; clear; dlia).
  unfold sinh_new, from_word, p_assertion, m_from_word. rewrite E2. destruct (Z.leb_spec P_LIM p); destruct (Z.leb_spec P_LIM P); try lia; reflexivity.
Qed.
Lemma apx_len_up P s k a v p : apx P s k a v -> 64 * wlen v <= prec_up p -> 0 < p -> prec_up p < P_LIM ->
  exists q, set_precision v p RNone = Ok q /\ apx P s k a q /\ 64 * wlen q = prec_up p /\ value q = value v.
Proof.
  intros H Hl Hp HP. destruct (Z_le_gt_dec (64 * wlen v) p) as [B|B].
  { destruct (apx_len P s k a v p H B Hp HP) as (q & E & A & L & V & _). exists q. auto. }
  destruct H as (W & N & S & L). assert (EW : wlen v = (p + 63) / 64) by (clear - Hl B Hp; unfold prec_up in Hl; dlia).
  unfold set_precision, set_precision_internal. rewrite p_assertion_ok by (clear - HP; unfold prec_up in HP; dlia). cbn [bind]. change (mantissa_max_bit_len v) with (64 * wlen v).
  replace (p <? 64 * wlen v) with true by (clear - B; lia). replace (0 <? p) with true by (clear - Hp; lia). cbn [andb]. unfold round_mantissa. cbn [ro_chk ro_ovf ro_m ro_inexact andb]. cbv zeta. match goal with |- context [ninexact v || ?b] => set (i := ninexact v || b) end.
  clearbody i.
  assert (E0 : mk_m (mm (nm v)) (mn (nm v)) = nm v) by (destruct (nm v); reflexivity). rewrite E0.
  replace (m_is_all_zero (nm v)) with false. 2:{ symmetry. unfold m_is_all_zero. destruct (all_zero (mm (nm v))) eqn:Z; [|reflexivity]. exfalso. apply (proj2 N). rewrite (WordsP2.all_zero_spec _ (wf_words v W)) in Z; now apply Z.eqb_eq. }
  replace (m_is_subnormal (nm v)) with false. 2:{ unfold m_is_subnormal. destruct N as [N _]. change (max_bit_len (nm v)) with (64 * wlen v). rewrite N. symmetry. apply Z.ltb_irrefl. }
  assert (EL : m_set_length (nm v) p = nm v). { unfold m_set_length. change (mlen (nm v)) with (wlen v). rewrite wlen_of_bits_eq by (clear - Hp; lia). rewrite <- EW, !Z.ltb_irrefl. reflexivity. }
  cbn [nm ns ne ninexact]. rewrite EL. eexists. split; [reflexivity|]. split; [|split; [unfold wlen; cbn [nm]; fold (wlen v); rewrite EW; reflexivity|reflexivity]].
  split; [|split; [exact N|split; [exact S|exact L]]]. destruct W. now constructor.
Qed.
Theorem sinh_series_at g x p P s : 128 <= p -> P <= 2 ^ 20 -> prec_up p = P -> wf x -> normal x -> ns x = s -> 64 * wlen x = P -> - 2 ^ 21 <= ne x <= 0 ->
  ends (sinh_series g x p RNone) (fun q => apx P s KS (sinh (Rabs (value x))) q /\ P <= 64 * wlen q /\ ninexact q = true).
Proof.
  intros Hp HPh EPp W N S L He. unfold sinh_series. assert (HpP : p <= P) by (rewrite <- EPp; unfold prec_up; clear; dlia). assert (HP : 128 <= P <= 2 ^ 20) by (clear - Hp HpP HPh; lia). assert (HP64 : prec_up P = P) by (rewrite <- EPp; unfold prec_up; clear; dlia). assert (PG : P <= p + 63) by (rewrite <- EPp; unfold prec_up; clear; dlia). assert (HP22 : 128 <= P <= 2 ^ 22) by (clear - HP; lia).
  rewrite (new_up p P ltac:(clear - Hp; lia) ltac:(apply HP22) EPp). destruct (new_ok P HP22 HP64) as (gen & -> & Hgen). cbn [done rbind].
  destruct (series_cost_optimize sinh_red_cost sinh_red_effect g p (sinh_iter_cost p) (- ne x) 2) as [[[n niter] e]|] eqn:EO; [|left; reflexivity].
  destruct (optimize_spec g p (- ne x) n niter e ltac:(clear - Hp HpP HP22; lia) ltac:(clear - He; lia) EO) as (step & Hst & Hn0 & Hsn & Hn & Ee & Hni & Hnt). clear EO. assert (Hn' : 10 * n <= 4 * P + 110) by (clear - Hn HpP; lia). clear Hn. rename Hn' into Hn. assert (Hnt' : 2 * niter * (e + 2) <= P) by (clear - Hnt HpP; lia). clear Hnt. rename Hnt' into Hnt.
  assert (He1 : n + step - ne x <= e). { rewrite Ee. unfold sinh_red_effect. clear - Hn0 Hst. assert (n + step <= (n + step) * 1000 / 631) by dlia. lia. } clear Ee.
  set (m := - ne x) in *. assert (Hm : 0 <= m <= 2 ^ 21) by (unfold m; clear - He; lia).
  set (p_arg := p + (if 0 <? n * 5 + 8 - e then n * 5 + 8 - e else 0)). assert (Hpa : p <= p_arg <= 3 * P + 63). { unfold p_arg. clear - HpP Hn He1 Hst Hn0 Hm m HP. destruct (Z.ltb_spec 0 (n * 5 + 8 - e)); unfold m in *; lia. }
  clearbody p_arg. set (PO := prec_up p_arg). assert (HPO : P <= PO <= 2 ^ 22) by (unfold PO; clear - Hpa HP EPp; rewrite <- EPp at 1; unfold prec_up; dlia). assert (HPO64 : prec_up PO = PO) by (unfold PO, prec_up; clear; dlia).
  assert (HL : prec_up PO < P_LIM) by (rewrite HPO64; eapply Z.le_lt_trans; [apply HPO|]; vm_compute; reflexivity).
  assert (HPP : 128 <= P <= prec_up PO) by (clear - HPO64 HPO HP; lia).
  assert (EP : 0 < P /\ 0 < p_arg) by (clear - Hp HP Hpa; lia).
  pose proof (apx_self P x W N) as Ax. rewrite S in Ax. destruct (normal_range x W N) as [X1 X2].
  destruct (apx_len_up P s 0 _ x p_arg Ax ltac:(fold PO; clear - L HPO; lia) ltac:(apply EP) ltac:(fold PO; rewrite <- HPO64; exact HL)) as (x1 & -> & Ax1 & L1 & _). fold PO in L1. cbn [done rbind].
  assert (Hn26 : 0 <= n <= 2 ^ 26) by (clear - Hn Hn0 HP; lia).
  set (ax := Rabs (value x)) in *. assert (AX1 : (bpow radix2 (- m - 1) <= ax)%R) by (unfold m; rewrite Z.opp_involutive; exact X1). assert (AX2 : (ax <= bpow radix2 (- m))%R) by (unfold m; rewrite Z.opp_involutive; left; exact X2).
  assert (AX3 : (ax <= 1)%R). { eapply Rle_trans; [exact AX2|]. change 1%R with (bpow radix2 0). apply bpow_le. clear - Hm. lia. }
  destruct (arg_ok P PO ltac:(clear - HP HPO; lia) ltac:(apply HPO) HPO64 s x1 n ax Ax1 L1 Hn26) as (arg & -> & Harg & Larg).
  { split; [|exact AX3]. eapply Rle_trans; [|exact AX1]. apply bpow_le. clear - Hm. lia. }
  cbn [done rbind]. set (t := (ax / IZR (3 ^ n))%R) in *.
  (* the reduced argument *)
  pose proof (three_bounds n Hn0) as [T1 T2]. apply IZR_le in T1, T2. rewrite <- bpow_IZR in T1, T2 by (clear - Hn0; lia).
  assert (D0 : (0 < IZR (3 ^ n))%R) by (eapply Rlt_le_trans; [apply bpow_gt_0|exact T1]). pose proof (bpow_gt_0 radix2 (- m - 1)) as B0.
  assert (TL : (bpow radix2 (- m - 1 + - (2 * n)) <= t)%R). { unfold t. apply low_mul; [exact AX1|]. rewrite bpow_opp. apply Rinv_le; [exact D0|exact T2]. }
  assert (TU : (t <= / 8)%R).
  { unfold t. assert (I1 : (/ IZR (3 ^ n) <= bpow radix2 (- n))%R) by (rewrite bpow_opp; apply Rinv_le; [apply bpow_gt_0|exact T1]). assert (I0 : (0 < / IZR (3 ^ n))%R) by now apply Rinv_0_lt_compat.
    change (/ 8)%R with (bpow radix2 (-3)). apply Rle_trans with (bpow radix2 (- m) * bpow radix2 (- n))%R; [apply Rmult_le_compat; [lra|lra|exact AX2|exact I1]|]. rewrite <- bpow_plus. apply bpow_le. unfold m in *. clear - Hsn Hst. lia. }
  assert (T0 : (0 < t)%R) by (eapply Rlt_le_trans; [apply bpow_gt_0|exact TL]).
  pose proof Harg as (Wa & Na & Sa & La). set (A := Rabs (value arg)) in *. pose proof (lc_two _ _ _ (eps_quarter P 1 ltac:(apply HP) ltac:(clear; lia)) La) as [A1 A2].
  assert (AA : apx P s 0 A arg) by (rewrite <- Sa; now apply apx_self).
  assert (AL : (bpow radix2 (- m - 2 - 2 * n) <= A)%R). { replace (- m - 2 - 2 * n) with (- m - 1 + - (2 * n) + -1) by ring. rewrite bpow_plus. change (bpow radix2 (-1)) with (/ 2)%R. lra. }
  assert (A0 : (0 < A)%R) by lra. assert (AM : - HX <= - m - 2 - 2 * n + (- m - 2 - 2 * n)) by (unfold HX; clear - Hm Hn26; lia).
  assert (AAL : (bpow radix2 (- m - 2 - 2 * n + (- m - 2 - 2 * n)) <= A * A)%R) by now apply low_mul.
  assert (EPM : prec_up p_arg = prec_up PO) by (fold PO; congruence).
  destruct (apx_mul P p_arg RNone ltac:(rewrite EPM; exact HPP) ltac:(rewrite EPM; exact HL) _ _ _ _ _ _ _ _ AA AA ltac:(clear; lia)) as (xs & -> & Hxs & Lxs & _).
  { apply (mid_range (- m - 2 - 2 * n + (- m - 2 - 2 * n)) 0); [exact AM|vm_compute; discriminate|]. split; [exact AAL|]. change (bpow radix2 0) with 1%R. clear - A0 A2 TU. nra. }
  cbn [done rbind]. replace (sign_mul s s) with Pos in Hxs by (destruct s; reflexivity). fold PO in Lxs. pose proof Hxs as (Ws & Ns & Ss & Ls). set (X := Rabs (value xs)) in *.
  pose proof (lc_two _ _ _ (eps_quarter P (0 + 0 + 1) ltac:(apply HP) ltac:(clear; lia)) Ls) as [XA XB].
  assert (XU : (X <= / 8)%R) by (clear - XB A0 A2 TU; nra).
  assert (AX : apx P Pos 0 X xs) by (rewrite <- Ss; now apply apx_self).
  destruct (normal_range xs Ws Ns) as [R1 R2]. fold X in R1, R2.
  assert (E1 : ne xs <= -2). { assert (ne xs - 1 <= -3); [|lia]. apply (le_bpow radix2). eapply Rle_trans; [exact R1|exact XU]. }
  assert (E2 : 1 - ne xs <= 2 * m + 4 * n + 5). { assert (EX : - m - 2 - 2 * n + (- m - 2 - 2 * n) + -1 < ne xs); [|clear - EX; lia]. apply (lt_bpow radix2). eapply Rle_lt_trans; [|exact R2]. rewrite bpow_plus. change (bpow radix2 (-1)) with (/ 2)%R. lra. }
  assert (X0 : (0 < X)%R) by (eapply Rlt_le_trans; [apply bpow_gt_0|exact R1]).
  assert (FL : (bpow radix2 (- m - 2 - 2 * n + (ne xs - 1)) <= A * X)%R) by now apply low_mul.
  assert (FU : (A * X <= A)%R) by (clear - A0 X0 XU; nra).
  destruct (apx_mul P p_arg RNone ltac:(rewrite EPM; exact HPP) ltac:(rewrite EPM; exact HL) _ _ _ _ _ _ _ _ AA AX ltac:(clear; lia)) as (xf & -> & Hxf & Lxf & _).
  { apply (mid_range (- m - 2 - 2 * n + (ne xs - 1)) 0); [unfold HX; clear - Hm Hn26 E2; lia|vm_compute; discriminate|]. split; [exact FL|]. change (bpow radix2 0) with 1%R. lra. }
  cbn [done rbind]. rewrite sign_mul_pos_r in Hxf. fold PO in Lxf.
  (* the sum *)
  eapply ends_bind.
  { apply (series_run_ok P PO sinh_gen sinh_next (sinh_at P) sC JMAX (2 ^ 26) QS ltac:(clear - HP HPO; lia) ltac:(apply HPO) HPO64 ltac:(clear; lia) ltac:(unfold QS; clear; lia) sC_range sC_decr sC_low) with (s := s) (k := 1) (A := A) (F := (A * X)%R).
    - intros j g0 Hj HJ. destruct (next_ok P HP22 HP64 j g0 Hj HJ) as (c & g' & Q1 & Q2 & Q3 & Q4). exists c, g'. split; [exact Q1|]. split; [exact Q2|]. split; [exact Q3|]. clear - Q4 HPO. lia.
    - exact Ws. - exact Ns. - exact Ss. - exact Lxs. - clear - E1. lia.
    - eapply apx_weak; [|exact AA]. clear. lia.
    - eapply apx_weak; [|exact Hxf]. clear. lia.
    - exact Larg. - exact Lxf. - exact Hgen.
    - clear. lia.
    - split; [eapply low_weak; [|exact FL]; clear - Hm Hn HP E2; lia|exact FU].
    - lra.
    - clear - Hni Hnt HP He1 Hn0 Hst He m. nia.
    - assert (Q1 : 1 - ne xs <= 4 * (e + 2)) by (unfold m in *; clear - E2 He1 Hst He Hn0; lia). assert (Q2 : 2 * niter * (1 - ne xs) <= 4 * P) by (clear - Q1 Hnt Hni; nia). clear - Q2 E2 Hn Hm HP. lia.
    - rewrite JMAX_Z. unfold J22. unfold m in *. clear - Hni Hnt HP He1 Hn0 Hst He. nia. }
  intros ret [(M & HM & Hret & Lret & Tail) Iret]. fold X in Hret, Tail. 
  (* back to the hyperbolic sine *)
  set (b := sqrt X). assert (Bb : (b * b = X)%R) by (apply sqrt_sqrt; lra). assert (b0 : (0 < b)%R) by now apply sqrt_lt_R0. assert (b1 : (b <= 1)%R) by (clear - Bb b0 XU; nra).
  pose proof (eps_pos P) as Ep.
  assert (LB : lc (IZR 1 * eps P) b A). { apply lc_sym. pose proof (lc_sqrt _ _ _ Ls) as Q. rewrite sqrt_square in Q by lra. fold b in Q. eapply lc_weak; [|exact Q]. change (IZR (0 + 0 + 1)) with 1%R. lra. }
  set (ps := psum sC X 0 M) in *. assert (PS0 : (0 <= ps)%R). { unfold ps. destruct M as [|M]; [cbn; lra|]. pose proof (psum_lower sC X sC_range ltac:(split; [exact X0|lra]) 0 M). pose proof (sC_range 0). lra. }
  assert (ET : (b + b * X * ps = tp (2 * M + 3) b)%R). { rewrite <- psum_taylor, Bb. reflexivity. }
  set (T := tp (2 * M + 3) b) in *. assert (TB : (b <= T)%R) by (assert (0 <= b * X * ps)%R by (apply Rmult_le_pos; [apply Rmult_le_pos; lra|exact PS0]); lra).
  pose proof (taylor_sinh M b ltac:(lra)) as [TS1 TS2]. fold T in TS1, TS2.
  assert (LT : lc (IZR 512 * eps P) T (sinh b)).
  { apply lc_tail; [lra|lra|]. split; [lra|]. assert (Q : (cosh b * (b ^ (2 * M + 3) / INR (fact (2 * M + 3))) <= 512 * eps P * T)%R); [|lra].
    replace (b ^ (2 * M + 3))%R with (b * X * X ^ M)%R by (rewrite pow_add, pow_mult; replace (b ^ 2)%R with X by (rewrite <- Bb; ring); rewrite <- Bb; ring). fold (sC M) in Tail. unfold Rdiv. fold (sC M).
    assert (Q1 : (X * X ^ M * sC M <= 128 * eps P)%R). { apply Rmult_le_reg_l with A; [exact A0|]. replace (A * (X * X ^ M * sC M))%R with (A * X * X ^ M * sC M)%R by ring. replace (A * (128 * eps P))%R with (128 * eps P * A)%R by ring. exact Tail. }
    assert (Q0 : (0 <= X * X ^ M * sC M)%R). { apply Rmult_le_pos; [apply Rmult_le_pos; [lra|apply pow_le; lra]|pose proof (sC_range M); lra]. }
    pose proof (cosh_32 b ltac:(lra)) as Q2. pose proof (cosh_pos b) as Q3. replace (cosh b * (b * X * X ^ M * sC M))%R with (cosh b * b * (X * X ^ M * sC M))%R by ring.
    apply Rle_trans with (4 * b * (128 * eps P))%R; [apply Rmult_le_compat; [apply Rmult_le_pos; lra|exact Q0|apply Rmult_le_compat_r; lra|exact Q1]|].
    assert (b * eps P <= T * eps P)%R by (apply Rmult_le_compat_r; lra). lra. }
  assert (LR : atsinh P s (512 + (1 + (1 + 2 * 2 ^ 26 + 2 ^ 35))) b ret).
  { destruct Hret as (Wr & Nr & Sr & Lr). split; [exact Wr|]. split; [exact Nr|]. split; [exact Sr|]. apply lc_arcsinh; [apply Rmult_le_pos; [apply IZR_le; clear; lia|lra]|exact b0|].
    rewrite (plus_IZR 512), Rmult_plus_distr_r. eapply lc_trans; [apply lc_sym; exact LT|]. rewrite (plus_IZR 1), Rmult_plus_distr_r. eapply lc_trans; [|exact Lr].
    assert (0 <= X * ps)%R by (apply Rmult_le_pos; lra). replace T with ((1 + X * ps) * b)%R by (rewrite <- ET; ring). replace (A + A * X * ps)%R with ((1 + X * ps) * A)%R by ring. apply lc_scale; [lra|exact LB]. }
  assert (LR2 : atsinh P s (1 + (1 + (512 + (1 + (1 + 2 * 2 ^ 26 + 2 ^ 35))))) t ret).
  { destruct LR as (Wr & Nr & Sr & Lr). split; [exact Wr|]. split; [exact Nr|]. split; [exact Sr|]. rewrite (plus_IZR 1), Rmult_plus_distr_r. eapply lc_trans; [exact La|]. rewrite (plus_IZR 1 (512 + _)), Rmult_plus_distr_r. eapply lc_trans; [apply lc_sym; exact LB|exact Lr]. }
  assert (FIN : forall q, atsinh P s (1 + (1 + (512 + (1 + (1 + 2 * 2 ^ 26 + 2 ^ 35)))) + 4 * n) ax q -> apx P s KS (sinh ax) q).
  { intros q (Wq & Nq & Sq & Lq). split; [exact Wq|]. split; [exact Nq|]. split; [exact Sq|]. rewrite <- (sinh_arcsinh (Rabs (value q))). set (k := 1 + _ + 4 * n) in *. assert (Hk : 0 <= k /\ 4 * k <= KS) by (unfold k, KS; clear - Hn Hn0 HP; lia). clearbody k.
    pose proof (eps_quarter P k ltac:(apply HP) ltac:(unfold KS in Hk; clear - Hk; lia)) as Kq. assert (Kp : (0 <= IZR k * eps P)%R) by (apply Rmult_le_pos; [apply IZR_le; apply Hk|lra]).
    eapply lc_weak; [|apply (lc_sinh _ ax _ Kp); [lra| |exact Lq]].
    - rewrite <- Rmult_assoc, <- (mult_IZR 4). apply Rmult_le_compat_r; [lra|]. apply IZR_le. apply Hk.
    - pose proof (exp_upper (IZR k * eps P) ltac:(lra)) as EU. pose proof (exp_pos (IZR k * eps P)). apply Rle_trans with (1 * exp (IZR k * eps P))%R; [apply Rmult_le_compat_r; lra|lra]. }
  destruct (Z.ltb_spec 0 n) as [Z0|Z0].
  - unfold sinh_arg_restore. rewrite max_len, Lret.
    assert (E3 : (IZR (3 ^ n) * t = ax)%R) by (unfold t; field; lra).
    destruct (restore_ok P PO ltac:(clear - HP HPO; lia) ltac:(apply HPO) HPO64 s (Z.to_nat n) _ t ret LR2) as (q & -> & Rq & Lq & Iq).
    + clear. lia. + clear - Hn26. lia. + eapply low_weak; [|exact TL]. clear - Hm Hn HP. lia. + rewrite Z2Nat.id by exact Hn0. rewrite E3. exact AX3. + exact Lret. + exact Iret.
    + apply ends_ok. rewrite Z2Nat.id, E3 in Rq by exact Hn0. split; [now apply FIN|]. split; [clear - Lq HPO; lia|exact Iq].
  - apply ends_ok. split; [|split; [clear - Lret HPO; lia|exact Iret]]. apply FIN. assert (n = 0) by (clear - Z0 Hn0; lia). subst n. replace t with ax in LR2 by (unfold t; change (IZR (3 ^ 0)) with 1%R; field). rewrite Z.add_0_r. exact LR2.
Qed.

Theorem sinh_series_ok g x P s : 128 <= P <= 2 ^ 20 -> prec_up P = P -> wf x -> normal x -> ns x = s -> 64 * wlen x = P -> - 2 ^ 21 <= ne x <= 0 ->
  ends (sinh_series g x P RNone) (fun q => apx P s KS (sinh (Rabs (value x))) q /\ P <= 64 * wlen q /\ ninexact q = true).
Proof. intros [H1 H2] H3. now apply sinh_series_at. Qed.
