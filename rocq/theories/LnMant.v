(** The logarithm: the mantissa, the parts of the sum and the accepted result of a round. *)

From Coq Require Import ZArith List Bool Lia Reals Lra.
From Flocq Require Import Core.
From Verif Require Import Words IntModel Mantissa Num Pow Consts Elem Ctx Series Ln SpecZ SpecOps SpecConst SpecReach SpecPow SpecElem WordsP Spec RealP RealP2 NumP CmpP AddP SetP AddNum MulNum DivNum ArithTop RoundableNum PowNum PowTop ConstP ConstTop ConstNum ConstReach PowExt IntNum CtxP ElemNum ElemDom ApproxR ApproxNum SeriesP SeriesNum SinhNum SinhTop ExpNum RetryNum ExpTop LnR LnConst LnNum LnSharp LnSharp2 LnSharp3.
Import ListNotations.
Open Scope Z_scope.
Ltac Zify.zify_post_hook ::= idtac.
Arguments Z.mul : simpl never.
Arguments Z.add : simpl never.
Arguments Z.pow : simpl never.
Arguments Z.sub : simpl never.
Arguments Z.of_nat : simpl never.
Ltac dlia := Z.div_mod_to_equations; lia.

(** ** Acceptance with an error below 15/16 of a unit *)
Theorem accept_rel r v p rm w : wf v -> normal v -> ninexact v = true -> w + 64 <= 64 * wlen v -> has_sign (ns v) r ->
  (Rabs (Rabs (value v) - Rabs r) <= 15 / 16 * bpow radix2 (- w) * Rabs r)%R -> 0 < p -> p mod 64 = 0 -> w mod 64 = 0 -> p + 64 <= w ->
  match try_set_precision v p rm w with
  | Ok (y, true) => elem_result r p rm y
  | Ok (_, false) => True
  | Err (ExponentOverflow s) => elem_overflow r p rm s
  | _ => False
  end.
Proof.
  intros W N I L S A Hp Hp64 Hw64 Hw. pose proof (value_has_sign v W ltac:(apply N)) as SV.
  assert (E2 : (bpow radix2 (- w) <= / 16)%R) by (change (/ 16)%R with (bpow radix2 (-4)); apply bpow_le; lia). pose proof (bpow_gt_0 radix2 (- w)) as G. pose proof (Rabs_pos r) as R0.
  assert (CL : close p r (value v)). { unfold close. rewrite Rabs_minus_sym, (signs_apart (ns v)) by assumption. eapply Rle_trans; [exact A|]. rewrite Rmult_comm. apply Rmult_le_compat_l; [exact R0|]. apply Rle_trans with (bpow radix2 (- w)); [lra|apply bpow_le; lia]. }
  assert (R2 : (15 / 16 * Rabs r <= Rabs (value v))%R). { apply Rabs_le_inv in A. assert (15 / 16 * bpow radix2 (- w) * Rabs r <= / 16 * Rabs r)%R by (apply Rmult_le_compat_r; lra). lra. }
  assert (ED : (Rabs (r - value v) < bpow radix2 (ne v - w))%R).
  { rewrite (signs_apart (ns v)) by assumption. eapply Rle_lt_trans; [exact A|]. pose proof (value_lt_bpow v W) as B. unfold Zminus. rewrite bpow_plus.
    apply Rle_lt_trans with (bpow radix2 (- w) * Rabs (value v))%R; [replace (15 / 16 * bpow radix2 (- w) * Rabs r)%R with (bpow radix2 (- w) * (15 / 16 * Rabs r))%R by ring; apply Rmult_le_compat_l; lra|]. rewrite Rmult_comm. apply Rmult_lt_compat_r; assumption. }
  pose proof (try_outcome v p rm w W N ltac:(lia) Hp64 Hw64 ltac:(lia)) as O. pose proof (try_any v p rm w W N ltac:(lia) Hp64 Hw64 ltac:(lia)) as T. pose proof (accept_directed r v p rm w) as D.
  destruct (try_set_precision v p rm w) as [[y [|]]|[s| | |]|]; try exact O.
  - destruct O as (O1 & O2 & O3 & O4 & O5). split; [exact O1|]. split; [exact O2|]. split; [rewrite O3; exact S|]. split; [exact (O4 I)|]. split; [exists (value v); split; [exact CL|exact O5]|]. intros D3 D4. refine (proj1 (D y W N I _ Hw64 _ ED D4 D3 eq_refl)); lia.
  - clear D. pose proof (wf_lim v W) as HL. assert (HP : prec_up p < P_LIM) by (unfold prec_up; clear - Hp64 HL L Hw; dlia).
    pose proof (set_precision_spec v p rm W Hp HP ltac:(right; left; auto)) as [SE SO]. assert (GN : rnd_grad p rm (value v) = rnd_prec p rm (value v)) by (apply grad_normal; apply normal_iff; auto). rewrite GN in SE, SO.
    destruct (Rle_or_lt (bpow radix2 EMAX) (Rabs (rnd_prec p rm (value v)))) as [OV|OV]; [|destruct (SO OV) as (y & Ey & _); rewrite T in Ey; discriminate Ey].
    rewrite (SE OV) in T. injection T as <-. split; [exact S|]. exists (value v). split; [exact CL|exact OV].
Qed.
(** No overflow. *)
Lemma no_overflow r p rm s : 0 < p -> (Rabs r <= bpow radix2 100)%R -> ~ elem_overflow r p rm s.
Proof.
  intros Hp HR (_ & a & C & O). unfold close in C. assert (B : (bpow radix2 (- (p + 64)) <= 1)%R) by (change 1%R with (bpow radix2 0); apply bpow_le; lia). pose proof (Rabs_pos r) as R0.
  assert (A : (Rabs a <= bpow radix2 101)%R). { change 101 with (1 + 100). rewrite bpow_plus. change (bpow radix2 1) with 2%R. assert (Rabs r * bpow radix2 (- (p + 64)) <= Rabs r * 1)%R by (apply Rmult_le_compat_l; lra). pose proof (Rabs_triang_inv a r). lra. }
  assert (A2 : (Rabs (rnd_prec p rm a) <= bpow radix2 101)%R). { unfold rnd_prec. apply abs_round_le_generic; [apply FLX_exp_valid; exact Hp|apply rnd_valid| |exact A]. apply generic_format_bpow. unfold FLX_exp. lia. }
  apply (Rlt_irrefl (bpow radix2 101)). eapply Rlt_le_trans; [|eapply Rle_trans; [exact O|exact A2]]. apply bpow_lt. vm_compute. reflexivity.
Qed.

(** ** A sum near [r] *)
Lemma sum_round p1 p2 W p r d : 128 <= W -> prec_up p = W -> W < P_LIM -> wf p1 -> normal p1 -> wf p2 -> normal p2 -> r <> 0%R -> mid (Rabs r) -> (0 <= d <= / 256)%R ->
  (Rabs (value p1 + value p2 - r) <= d * Rabs r)%R -> ninexact p1 || ninexact p2 = true ->
  exists q, n_add p1 p2 p RNone = Ok q /\ wf q /\ normal q /\ 64 * wlen q = W /\ ninexact q = true /\ has_sign (ns q) r /\ (Rabs (Rabs (value q) - Rabs r) <= 17 / 16 * (d + eta W) * Rabs r)%R.
Proof.
  intros HW H64 HL W1 N1 W2 N2 R0 M Hd HE HI. assert (Rp : (0 < Rabs r)%R) by now apply Rabs_pos_lt. set (y := (value p1 + value p2)%R) in *.
  assert (HE2 : (Rabs (y - r) < Rabs r)%R) by (eapply Rle_lt_trans; [exact HE|]; assert (d * Rabs r <= / 256 * Rabs r)%R by (apply Rmult_le_compat_r; lra); lra).
  assert (SY : forall s, has_sign s y -> has_sign s r). { intros s. unfold has_sign. destruct s; cbn [sgnZ]; revert HE2; unfold Rabs; destruct (Rcase_abs (y - r)), (Rcase_abs r); intros; lra. }
  assert (Y0 : y <> 0%R). { intros E. rewrite E in HE2. replace (0 - r)%R with (- r)%R in HE2 by ring. rewrite Rabs_Ropp in HE2. lra. }
  assert (Pp : 0 < p) by (clear - H64 HW; unfold prec_up in H64; dlia). assert (HL' : prec_up p < P_LIM) by (rewrite H64; exact HL).
  pose proof (add_sub_nonzero p1 p2 p 1 RNone W1 W2 ltac:(apply N1) ltac:(apply N2) (or_introl eq_refl) Pp HL') as [C _]. rewrite Rmult_1_l in C. destruct (C Y0) as (t & Ht & CR). rewrite H64 in CR. fold y in Ht, CR.
  assert (LC : lc (65 / 64 * d) (Rabs r) (Rabs y)). { apply lc_near; [exact Rp|lra|]. eapply Rle_trans; [apply Rabs_triang_inv2|exact HE]. }
  destruct (near_round W RNone y t _ _ (65 / 64 * d) (Rabs r) CR HW LC ltac:(lra) M) as (q & E & (Wq & Nq & Sq & Lq) & Lenq & Iq).
  exists q. split; [exact E|]. split; [exact Wq|]. split; [exact Nq|]. split; [exact Lenq|]. split; [apply Iq; exact HI|]. split; [rewrite Sq; now apply SY|].
  pose proof (eta_small W HW) as ES. pose proof (eta_pos W) as EP. eapply Rle_trans; [apply lc_abs_near; [|exact Lq]; lra|]. apply Rmult_le_compat_r; lra.
Qed.

(** ** The mantissa *)
Lemma ln_mant x : wf x -> (0 < value x)%R -> exists e m, ln_mantissa x = (e, m) /\ wf m /\ normal m /\ ns m = Pos /\ ne m = 0 /\ ninexact m = ninexact x /\ wlen m = wlen x /\
  value x = (bpow radix2 e * value m)%R /\ (/ 2 <= value m < 1)%R /\ (bpow radix2 (- (64 * wlen x)) <= 1 - value m)%R /\ EMIN - 64 * wlen x <= e <= EMAX /\
  (let n := count_leading_ones (mm (nm m)) in 0 <= n <= 64 * wlen x /\ (bpow radix2 (- (n + 1)) <= 1 - value m <= bpow radix2 (- n))%R) /\
  (let n := count_leading_zeroes_skip_first (mm (nm m)) in 1 <= n <= 64 * wlen x /\ (n = 64 * wlen x <-> value m = (/ 2)%R) /\ (value m <> (/ 2)%R -> (bpow radix2 (- n) <= 2 * value m - 1 < bpow radix2 (1 - n))%R)).
Proof.
  intros W H. destruct (yes_pos x W H) as [N _]. assert (S : ns x = Pos). { pose proof (value_has_sign x W N) as V. unfold has_sign in V. destruct (ns x); [|reflexivity]. cbn [sgnZ] in V. lra. }
  destruct (nonzero_bits x W N) as (M0 & N0 & L0). set (l := 64 * wlen x) in *.
  destruct (maximize_spec (mm (nm x)) (wf_words x W) M0) as (w & E & S0 & V & O & Lw & B). fold (wlen x) (magnitude x) in *. fold l in E, S0, V, B. rewrite <- (wf_bits x W) in E, S0, V.
  exists (ne x - (l - mn (nm x))), (mk_num (mk_m w l) (ns x) 0 (ninexact x)). unfold ln_mantissa, m_normilize2. rewrite E. unfold max_bit_len, mlen. fold (wlen x). replace (wlen x * 64) with l by (unfold l; ring).
  set (m := mk_num (mk_m w l) (ns x) 0 (ninexact x)). assert (Wl : wlen m = wlen x) by exact Lw. assert (Mg : magnitude m = val w) by reflexivity. assert (VM : value m = (IZR (val w) * bpow radix2 (- l))%R). { rewrite value_split. change (ns m) with (ns x). rewrite S, Mg, Wl. unfold sgnR. cbn [sgnZ]. change (ne m) with 0. fold l. rewrite Z.sub_0_l. ring. }
  pose proof (wf_lim x W) as LX. pose proof (wf_exp x W) as EX. assert (H2 : 2 ^ l = 2 ^ (l - 1) + 2 ^ (l - 1)). { replace l with (l - 1 + 1) at 1 by lia. rewrite Z.pow_add_r by lia. change (2 ^ 1) with 2. lia. }
  assert (P0 : 0 < 2 ^ (l - 1)) by (apply Z.pow_pos_nonneg; lia).
  assert (BL : bitlen (val w) = l) by (apply bitlen_unique; [clear - L0; unfold l; lia|exact B]).
  assert (Wm : wf m). { split; [exact O|cbn [nm mn m]; rewrite Mg; symmetry; exact BL|rewrite Wl; exact LX|change (ne m) with 0; change EMIN with (-2147483648); change EMAX with 2147483647; lia|reflexivity|]. rewrite Wl. cbn [nm mn m]. fold l. intros F. exfalso. clear - F. lia. }
  assert (Nm : normal m). { split; [cbn [nm mn m]; rewrite Wl; reflexivity|]. unfold nonzero. rewrite Mg. clear - B P0. lia. }
  assert (VR : (bpow radix2 (- l) * IZR (2 ^ (l - 1)) = / 2)%R). { rewrite <- bpow_IZR by lia. rewrite <- bpow_plus. replace (- l + (l - 1)) with (-1) by lia. reflexivity. }
  assert (VR2 : (bpow radix2 (- l) * IZR (2 ^ l) = 1)%R). { rewrite <- bpow_IZR by lia. rewrite <- bpow_plus, Z.add_opp_diag_l. reflexivity. }
  pose proof (bpow_gt_0 radix2 (- l)) as BP.
  assert (HM : (/ 2 <= value m < 1)%R). { rewrite VM. split; [rewrite <- VR, Rmult_comm; apply Rmult_le_compat_r; [lra|]; apply IZR_le; apply B|rewrite <- VR2, (Rmult_comm (bpow _ _)); apply Rmult_lt_compat_r; [lra|]; apply IZR_lt; apply B]. }
  assert (G1 : (1 - value m = IZR (2 ^ l - val w) * bpow radix2 (- l))%R). { rewrite VM, minus_IZR. rewrite <- VR2 at 1. ring. }
  assert (G2 : (2 * value m - 1 = IZR (2 * (val w - 2 ^ (l - 1))) * bpow radix2 (- l))%R). { rewrite VM, mult_IZR, minus_IZR. replace 1%R with (2 * (bpow radix2 (- l) * IZR (2 ^ (l - 1))))%R at 1 by (rewrite VR; field). ring. }
  split; [reflexivity|]. split; [exact Wm|]. split; [exact Nm|]. split; [exact S|]. split; [reflexivity|]. split; [reflexivity|]. split; [exact Wl|].
  split. { rewrite VM, V, mult_IZR, <- bpow_IZR by exact S0. rewrite value_split, S. unfold sgnR. cbn [sgnZ]. fold l. rewrite Rmult_1_l. replace (ne x - l) with (ne x - (l - mn (nm x)) + ((l - mn (nm x)) + - l)) by ring. rewrite !bpow_plus. ring. }
  split; [exact HM|]. split. { rewrite G1. rewrite <- (Rmult_1_l (bpow radix2 (- l))) at 1. apply Rmult_le_compat_r; [lra|]. apply IZR_le. clear - B. lia. }
  split; [change EMIN with (-2147483648) in *; change EMAX with 2147483647 in *; clear - EX N0 S0; lia|]. change (mm (nm m)) with w. cbv zeta. split.
  - rewrite (clo_spec w O), Lw. fold l. set (F := 2 ^ l - 1 - val w). assert (F0 : 0 <= F) by (unfold F; clear - B; lia). pose proof (bitlen_le F l ltac:(lia) ltac:(unfold F; clear - B P0; lia)) as Bl.
    assert (B2 : 0 <= bitlen F /\ (0 < F -> 2 ^ (bitlen F - 1) <= F /\ 1 <= bitlen F)). { destruct (Z.eq_dec F 0) as [E0|E0]; [rewrite E0; change (bitlen 0) with 0; clear; lia|]. pose proof (bitlen_spec F ltac:(lia)). pose proof (bitlen_pos F ltac:(lia)). lia. }
    destruct B2 as [B2 B3]. split; [clear - Bl B2; lia|]. rewrite G1. replace (2 ^ l - val w) with (F + 1) by (unfold F; ring). split.
    { replace (- (l - bitlen F + 1)) with (bitlen F - 1 + - l) by ring. rewrite bpow_plus. apply Rmult_le_compat_r; [lra|].
      destruct (Z.eq_dec F 0) as [E0|E0]; [rewrite E0; change (bitlen 0) with 0; change (bpow radix2 (0 - 1)) with (/ 2)%R; change (IZR (0 + 1)) with 1%R; lra|]. destruct (B3 ltac:(lia)) as [B4 B5]. rewrite bpow_IZR by lia. apply IZR_le. clear - B4. lia. }
    replace (- (l - bitlen F)) with (bitlen F + - l) by ring. rewrite bpow_plus. apply Rmult_le_compat_r; [lra|]. rewrite bpow_IZR by exact B2. apply IZR_le.
    destruct (Z.eq_dec F 0) as [E0|E0]; [rewrite E0; change (bitlen 0) with 0; vm_compute; discriminate|]. pose proof (bitlen_spec F ltac:(lia)) as [_ B5]. clear - B5. lia.
  - rewrite (clz_skip_spec w O) by (rewrite Lw; exact L0). rewrite Lw. fold l. assert (EF : val w mod 2 ^ (l - 1) = val w - 2 ^ (l - 1)) by (symmetry; apply Z.mod_unique with 1; lia). rewrite EF. set (F := val w - 2 ^ (l - 1)) in *.
    assert (FB : 0 <= F < 2 ^ (l - 1)) by (unfold F; clear - B H2; lia). pose proof (bitlen_le F (l - 1) ltac:(lia) FB) as Bl. assert (HF : F = 0 <-> value m = (/ 2)%R). { split; intros E0; [assert (Q : (2 * value m - 1 = 0)%R) by (rewrite G2, E0; change (IZR (2 * 0)) with 0%R; ring); lra|]. assert (Q : (IZR (2 * F) * bpow radix2 (- l) = 0)%R) by (rewrite <- G2; lra). apply Rmult_integral in Q as [Q|Q]; [|lra]. apply eq_IZR in Q. clear - Q. lia. }
    assert (B2 : F = 0 -> bitlen F = 0) by (intros ->; reflexivity). assert (B3 : 0 < F -> 2 ^ (bitlen F - 1) <= F < 2 ^ bitlen F /\ 1 <= bitlen F). { intros E0. pose proof (bitlen_spec F E0). pose proof (bitlen_pos F E0). lia. }
    split; [destruct (Z.eq_dec F 0) as [E0|E0]; [rewrite (B2 E0); clear - N0; lia|]; destruct (B3 ltac:(lia)) as [_ B5]; clear - Bl B5; lia|]. split.
    { rewrite <- HF. split; intros E0; [|rewrite (B2 E0); ring]. destruct (Z.eq_dec F 0) as [E1|E1]; [exact E1|]. exfalso. destruct (B3 ltac:(lia)) as [_ B5]. clear - E0 B5. lia. }
    intros NE. assert (F1 : 0 < F) by (destruct (Z.eq_dec F 0) as [E0|E0]; [apply HF in E0; contradiction|clear - FB E0; lia]). destruct (B3 F1) as [[B4 B5] B6]. rewrite G2. split.
    + replace (- (l - bitlen F)) with (bitlen F + - l) by ring. rewrite bpow_plus. apply Rmult_le_compat_r; [lra|]. rewrite bpow_IZR by lia. apply IZR_le. replace (bitlen F) with (1 + (bitlen F - 1)) by ring. rewrite Z.pow_add_r by lia. change (2 ^ 1) with 2. clear - B4. lia.
    + replace (1 - (l - bitlen F)) with (1 + bitlen F + - l) by ring. rewrite (bpow_plus _ (1 + bitlen F)). apply Rmult_lt_compat_r; [lra|]. rewrite bpow_IZR by lia. apply IZR_lt. rewrite Z.pow_add_r by lia. change (2 ^ 1) with 2. clear - B5. lia.
Qed.
