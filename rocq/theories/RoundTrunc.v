(** try_set_precision of a truncated approximation that has no spare bits: the number may
    lie up to two units above it. *)

From Coq Require Import ZArith List Bool Lia Reals Lra.
From Flocq Require Import Core Relative.
From Verif Require Import Words IntModel Mantissa Num Pow Consts Elem Ctx Series Ln SpecZ SpecOps SpecConst SpecReach SpecPow SpecElem WordsP Spec RealP RealP2 NumP CmpP AddP SetP AddNum MulNum DivNum RootNum ArithTop WordsP2 RoundP Roundable RoundableNum PowNum PowTop ConstP ConstTop ConstNum ConstReach PowExt IntNum CtxP ElemNum ElemDom ApproxR ApproxNum SeriesP SeriesNum SinhNum SinhTop ExpNum RetryNum ExpTop LnR LnConst LnNum LnSharp LnSharp2 LnSharp3 LnMant LnTop LnUse.
Import ListNotations.
Open Scope Z_scope.
Ltac Zify.zify_post_hook ::= idtac.
Arguments Z.mul : simpl never.
Arguments Z.add : simpl never.
Arguments Z.pow : simpl never.
Arguments Z.sub : simpl never.
Arguments Z.of_nat : simpl never.
Ltac dlia := Z.div_mod_to_equations; lia.

Lemma trunc_cell x r d : wf x -> normal x -> ns x = Pos -> 0 <= d <= 64 * wlen x - 1 ->
  1 <= magnitude x mod 2 ^ d <= 2 ^ d - 2 -> (value x - bpow radix2 (ne x - 64 * wlen x) < r < value x + 2 * bpow radix2 (ne x - 64 * wlen x))%R ->
  exists k, (forall v, v = value x \/ v = r ->
    (IZR k < v * bpow radix2 (64 * wlen x - ne x - d) < IZR (k + 1))%R /\ (bpow radix2 (ne x - 1) <= Rabs v < bpow radix2 (ne x))%R).
Proof.
  intros Wx [Hn Hnz] Sx Hd HW Hr. pose proof (wf_words x Wx) as Hok. pose proof (val_bound _ Hok) as HM. fold (magnitude x) (wlen x) in HM.
  set (M := magnitude x) in *. set (L := wlen x) in *. set (e := ne x) in *.
  assert (HM1 : 2 ^ (64 * L - 1) <= M).
  { pose proof (wf_bits x Wx) as Hb. rewrite Hn in Hb. fold M in Hb. pose proof (bitlen_spec M ltac:(unfold nonzero in Hnz; fold M in Hnz; lia)) as [B _]. rewrite <- Hb in B. exact B. }
  pose proof (pow2_gt0 d ltac:(lia)) as Pd. set (q := M / 2 ^ d). pose proof (Z.div_mod M (2 ^ d) ltac:(lia)) as EM. fold q in EM.
  assert (Q1 : q * 2 ^ d + 1 <= M) by (rewrite EM, Z.mul_comm; lia).
  assert (Q2 : M + 2 <= (q + 1) * 2 ^ d) by (rewrite EM; rewrite Z.mul_add_distr_r, Z.mul_1_l, (Z.mul_comm q); lia).
  assert (Q3 : 2 ^ (64 * L - 1) <= q * 2 ^ d).
  { assert (2 ^ (64 * L - 1) = 2 ^ (64 * L - 1 - d) * 2 ^ d) as -> by (rewrite <- Z.pow_add_r by lia; f_equal; lia). apply Z.mul_le_mono_nonneg_r; [lia|].
    apply Z.div_le_lower_bound; [lia|]. rewrite <- Z.pow_add_r by lia. replace (d + (64 * L - 1 - d)) with (64 * L - 1) by lia. auto. }
  assert (Q4 : (q + 1) * 2 ^ d <= 2 ^ (64 * L)).
  { assert (2 ^ (64 * L) = 2 ^ (64 * L - d) * 2 ^ d) as -> by (rewrite <- Z.pow_add_r by lia; f_equal; lia). apply Z.mul_le_mono_nonneg_r; [lia|].
    assert (q < 2 ^ (64 * L - d)); [|lia]. apply Z.div_lt_upper_bound; [lia|]. rewrite <- Z.pow_add_r by lia. replace (d + (64 * L - d)) with (64 * L) by lia. lia. }
  clearbody q. clear EM HW.
  set (c := bpow radix2 (64 * L - e)). pose proof (bpow_gt_0 radix2 (64 * L - e)) as Pc. fold c in Pc.
  assert (Ev : (value x * c = IZR M)%R).
  { unfold value, F2R. cbn [Fnum Fexp]. fold M L e. rewrite Sx. cbn [sgnZ]. rewrite Z.mul_1_l. unfold c. rewrite Rmult_assoc, <- bpow_plus. replace (e - 64 * L + (64 * L - e)) with 0 by lia. cbn [bpow]. ring. }
  assert (Eu : (bpow radix2 (e - 64 * L) * c = 1)%R) by (unfold c; rewrite <- bpow_plus; replace (e - 64 * L + (64 * L - e)) with 0 by lia; reflexivity).
  set (u := bpow radix2 (e - 64 * L)) in *.
  assert (Er : (IZR M - 1 < r * c < IZR M + 2)%R). { rewrite <- Ev. destruct Hr as [R1 R2]. apply Rmult_lt_compat_r with (r := c) in R1, R2; [|exact Pc..]. lra. }
  assert (Sc : forall v, (v * bpow radix2 (64 * L - e - d) = v * c / IZR (2 ^ d))%R).
  { intros v. unfold c. unfold Rdiv. rewrite Rmult_assoc. f_equal. rewrite <- bpow_IZR by lia. rewrite <- bpow_opp, <- bpow_plus. f_equal. }
  assert (Pdr : (0 < IZR (2 ^ d))%R) by now apply IZR_lt.
  apply IZR_le in Q1, Q2, Q3, Q4. rewrite plus_IZR in Q1, Q2. rewrite !mult_IZR in Q1, Q2, Q3, Q4. rewrite plus_IZR in Q2, Q4.
  assert (B1 : (IZR (2 ^ (64 * L - 1)) = bpow radix2 (e - 1) * c)%R) by (unfold c; rewrite <- bpow_IZR, <- bpow_plus by lia; f_equal; lia).
  assert (B2 : (IZR (2 ^ (64 * L)) = bpow radix2 e * c)%R) by (unfold c; rewrite <- bpow_IZR, <- bpow_plus by lia; f_equal; lia).
  assert (G : forall v, v = value x \/ v = r -> (IZR q * IZR (2 ^ d) < v * c < (IZR q + 1) * IZR (2 ^ d))%R). { intros v [-> | ->]; [rewrite Ev|]; lra. }
  assert (P0 : (0 <= IZR (2 ^ (64 * L - 1)))%R) by (apply IZR_le, Z.pow_nonneg; lia).
  clear Er Ev. exists q. intros v Hv. specialize (G v Hv). rewrite Sc. split.
  - split; (apply Rmult_lt_reg_r with (IZR (2 ^ d)); [exact Pdr|]); unfold Rdiv; rewrite Rmult_assoc, Rinv_l, Rmult_1_r by lra; [|rewrite plus_IZR]; lra.
  - assert (Av : (Rabs v * c = v * c)%R) by (rewrite Rabs_pos_eq; [reflexivity|]; apply Rmult_le_reg_r with c; [exact Pc|]; lra).
    split; [apply Rmult_le_reg_r with c|apply Rmult_lt_reg_r with c]; auto; rewrite Av; rewrite <- ?B1, <- ?B2; lra.
Qed.

Lemma trunc_same x r d p rm : wf x -> normal x -> ns x = Pos -> 0 < p < 64 * wlen x -> d = (64 * wlen x - p - Z.b2z (nearest rm)) -> 
  1 <= magnitude x mod 2 ^ d <= 2 ^ d - 2 -> (value x - bpow radix2 (ne x - 64 * wlen x) < r < value x + 2 * bpow radix2 (ne x - 64 * wlen x))%R ->
  rnd_prec p rm (value x) = rnd_prec p rm r.
Proof.
  intros Wx Nx Sx Hp Ed HW Hr. destruct (trunc_cell x r d Wx Nx Sx ltac:(destruct (nearest rm); cbn [Z.b2z] in Ed; lia) HW Hr) as (k & Hk).
  destruct (Hk (value x) (or_introl eq_refl)) as [K1 K2]. destruct (Hk r (or_intror eq_refl)) as [K3 K4]. clear Hk.
  unfold rnd_prec. rewrite (round_cell _ rm (ne x) (value x) p K2), (round_cell _ rm (ne x) r p K4) by reflexivity. f_equal. f_equal.
  destruct (nearest rm) eqn:Nr; cbn [Z.b2z] in Ed.
  - apply (near_rnd_same rm k); auto; rewrite Rmult_assoc; change 2%R with (bpow radix2 1); rewrite <- bpow_plus; replace (p - ne x + 1) with (64 * wlen x - ne x - d) by lia; auto.
  - apply (dir_rnd_same rm k); auto; replace (p - ne x) with (64 * wlen x - ne x - d) by lia; auto.
Qed.

(** Truncating twice. *)
Lemma trunc_pos p a : 0 < p -> (0 <= a)%R -> (0 <= rnd_prec p RNone a <= a)%R.
Proof.
  intros Hp Ha. assert (V : Valid_exp (FLX_exp p)) by (apply FLX_exp_valid; exact Hp). unfold rnd_prec. cbn [rnd]. split.
  - apply round_ge_generic; [exact V|typeclasses eauto|apply generic_format_0|exact Ha].
  - rewrite round_ZR_DN by exact Ha. apply round_DN_pt; exact V.
Qed.
Lemma trunc_twice p w a : 0 < p <= w -> (0 <= a)%R -> rnd_prec p RNone (rnd_prec w RNone a) = rnd_prec p RNone a.
Proof.
  intros Hp Ha. assert (Vp : Valid_exp (FLX_exp p)) by (apply FLX_exp_valid; red; lia). assert (Vw : Valid_exp (FLX_exp w)) by (apply FLX_exp_valid; red; lia). destruct (trunc_pos w a ltac:(lia) Ha) as [A1 A2]. destruct (trunc_pos p a ltac:(lia) Ha) as [B1 B2].
  apply Rle_antisym.
  - unfold rnd_prec at 1 3. apply round_le; [exact Vp|apply rnd_valid|exact A2].
  - set (t := rnd_prec p RNone a) in *. assert (F : generic_format radix2 (FLX_exp p) t) by (unfold t, rnd_prec; apply generic_format_round; [exact Vp|apply rnd_valid]).
    assert (Fw : generic_format radix2 (FLX_exp w) t). { apply (generic_inclusion_mag radix2 (FLX_exp p)); [|exact F]. intros _. unfold FLX_exp. lia. }
    assert (T1 : (t <= rnd_prec w RNone a)%R). { rewrite <- (round_generic radix2 (FLX_exp w) (rnd RNone) t Fw). unfold rnd_prec. apply round_le; [exact Vw|apply rnd_valid|exact B2]. }
    rewrite <- (round_generic radix2 (FLX_exp p) (rnd RNone) t F). unfold rnd_prec at 1. apply round_le; [exact Vp|apply rnd_valid|exact T1].
Qed.

(** Acceptance of a truncated approximation of [a], which is near [r]. *)
Theorem accept_trunc r a v p rm w : wf v -> normal v -> ninexact v = true -> 64 * wlen v = w -> ns v = Pos -> (0 < r)%R -> value v = rnd_prec w RNone a ->
  (Rabs (a - r) <= bpow radix2 (- (w + 2)) * r)%R -> (r <= bpow radix2 100)%R -> 0 < p -> p mod 64 = 0 -> p + 64 <= w -> accepts r p rm w v.
Proof.
  intros W N Ix L Sv R0 VT D RB Hp Hp64 Hw. pose proof (value_has_sign v W ltac:(apply N)) as HS. rewrite Sv in HS. unfold has_sign in HS. cbn [sgnZ] in HS. rewrite Rmult_1_l in HS.
  assert (B1 : (bpow radix2 (- (w + 2)) <= / 16)%R) by (change (/ 16)%R with (bpow radix2 (-4)); apply bpow_le; lia). pose proof (bpow_gt_0 radix2 (- (w + 2))) as B0. set (b := bpow radix2 (- (w + 2))) in *.
  assert (D1 : (b * r <= / 16 * r)%R) by (apply Rmult_le_compat_r; lra). pose proof (Rabs_le_inv _ _ D) as D2. assert (A0 : (0 < a)%R) by lra.
  destruct (trunc_pos w a ltac:(lia) ltac:(lra)) as [_ T2]. rewrite <- VT in T2.
  destruct (normal_range v W N) as [N1 N2]. rewrite Rabs_pos_eq in N1, N2 by lra.
  assert (AE : (a < value v + bpow radix2 (ne v - w))%R).
  { assert (Fw : generic_format radix2 (FLX_exp w) (value v)) by (rewrite VT; unfold rnd_prec; apply generic_format_round; [apply FLX_exp_valid; red; lia|apply rnd_valid]).
    assert (ML : mag radix2 (value v) = ne v :> Z) by (apply mag_unique; rewrite Rabs_pos_eq by lra; split; assumption).
    pose proof (ulp_neq_0 radix2 (FLX_exp w) (value v) ltac:(lra)) as U. unfold cexp in U. rewrite ML in U. unfold FLX_exp at 2 in U. rewrite <- U.
    destruct (Rlt_or_le a (value v + ulp radix2 (FLX_exp w) (value v))) as [Q|Q]; [exact Q|exfalso].
    assert (VV : Valid_exp (FLX_exp w)) by (apply FLX_exp_valid; red; lia). assert (FS : generic_format radix2 (FLX_exp w) (value v + ulp radix2 (FLX_exp w) (value v))). { rewrite <- succ_eq_pos by lra. apply generic_format_succ; [exact VV|exact Fw]. }
    assert (X : (value v + ulp radix2 (FLX_exp w) (value v) <= rnd_prec w RNone a)%R). { rewrite <- (round_generic radix2 (FLX_exp w) (rnd RNone) _ FS). unfold rnd_prec. apply round_le; [exact VV|apply rnd_valid|exact Q]. }
    rewrite <- VT, U in X. pose proof (bpow_gt_0 radix2 (ne v - w)). lra. }
  assert (UB : (b * r <= / 2 * bpow radix2 (ne v - w))%R).
  { assert (r <= 2 * bpow radix2 (ne v))%R. { assert (bpow radix2 (ne v - w) <= / 16 * bpow radix2 (ne v))%R. { unfold Z.sub. rewrite bpow_plus, Rmult_comm. apply Rmult_le_compat_r; [apply bpow_ge_0|]. change (/ 16)%R with (bpow radix2 (-4)). apply bpow_le. lia. } lra. }
    apply Rle_trans with (b * (2 * bpow radix2 (ne v)))%R; [apply Rmult_le_compat_l; lra|]. right. unfold b, Z.sub. rewrite bpow_plus. rewrite Z.opp_add_distr, bpow_plus. change (bpow radix2 (- (2))) with (/ 4)%R. field. }
  pose proof (bpow_gt_0 radix2 (ne v - w)) as U0. assert (ER : (value v - bpow radix2 (ne v - 64 * wlen v) < r < value v + 2 * bpow radix2 (ne v - 64 * wlen v))%R) by (rewrite L; lra).
  assert (EA : (value v - bpow radix2 (ne v - 64 * wlen v) < a < value v + 2 * bpow radix2 (ne v - 64 * wlen v))%R) by (rewrite L; lra).
  assert (CL : close p r a). { unfold close. rewrite (Rabs_pos_eq r) by lra. eapply Rle_trans; [exact D|]. rewrite Rmult_comm. apply Rmult_le_compat_l; [lra|]. apply bpow_le. lia. }
  assert (Hp2 : 0 < p < 64 * wlen v) by lia. assert (HS64 : w mod 64 = 0) by (rewrite <- L, Z.mul_comm; apply Z.mod_mul; lia).
  pose proof (try_outcome v p rm w W N Hp2 Hp64 HS64 ltac:(lia)) as O. pose proof (try_any v p rm w W N Hp2 Hp64 HS64 ltac:(lia)) as T.
  assert (SR : has_sign (ns v) r) by (rewrite Sv; unfold has_sign; cbn [sgnZ]; lra).
  unfold accepts. assert (K : forall z, try_set_precision v p rm w = z -> match z with Ok (y, true) => (rm <> RNone -> rnd_prec p rm (value v) = rnd_prec p rm r) /\ rnd_prec p rm (value v) = rnd_prec p rm a | Err _ => rnd_prec p rm (value v) = rnd_prec p rm a | _ => True end).
  { intros z Ez. destruct (Req_dec 0 0) as [_|]; [|lra]. assert (RM : rm = RNone \/ rm <> RNone) by (destruct rm; [left; reflexivity|right; discriminate..]). destruct RM as [RM|RM].
    - assert (TT : rnd_prec p rm (value v) = rnd_prec p rm a) by (rewrite RM, VT; apply trunc_twice; [lia|lra]). destruct z as [[y [|]]| |]; auto. split; [|exact TT]. intros; contradiction.
    - pose proof (try_accept v p rm 0 W N Ix Hp2 ltac:(lia) ltac:(lia) RM ltac:(reflexivity)) as A. cbv zeta in A. replace (64 * (wlen v - 0)) with w in A by lia. rewrite Ez in A. unfold test_bits in A. change (64 * 0) with 0 in A. change (2 ^ 0) with 1 in A. rewrite Z.div_1_r, Z.sub_0_r in A.
      assert (C : forall t, (value v - bpow radix2 (ne v - 64 * wlen v) < t < value v + 2 * bpow radix2 (ne v - 64 * wlen v))%R -> 1 <= magnitude v mod 2 ^ (64 * wlen v - p - Z.b2z (nearest rm)) <= 2 ^ (64 * wlen v - p - Z.b2z (nearest rm)) - 2 -> rnd_prec p rm (value v) = rnd_prec p rm t).
      { intros t Ht HB. exact (trunc_same v t _ p rm W N Sv Hp2 eq_refl HB Ht). }
      destruct z as [[y [|]]|e|]; [|exact I| |exact I].
      + destruct A as (_ & A & _). split; [intros _|]; apply C; assumption.
      + destruct A as (_ & A & _). apply C; assumption. }
  specialize (K _ eq_refl). destruct (try_set_precision v p rm w) as [[y [|]]|[s| | |]|]; try exact O.
  - destruct O as (O1 & O2 & O3 & O4 & O5). destruct K as [K1 K2]. split; [exact O1|]. split; [exact O2|]. split; [rewrite O3; exact SR|]. split; [exact (O4 Ix)|]. split; [exists a; split; [exact CL|congruence]|]. intros _ D4. rewrite O5. apply K1. exact D4.
  - pose proof (wf_lim v W) as HL. assert (HP : prec_up p < P_LIM) by (unfold prec_up; clear - Hp64 HL L Hw; dlia).
    pose proof (set_precision_spec v p rm W Hp HP ltac:(right; left; auto)) as [SE SO]. assert (GN : rnd_grad p rm (value v) = rnd_prec p rm (value v)) by (apply grad_normal; apply normal_iff; auto). rewrite GN in SE, SO.
    destruct (Rle_or_lt (bpow radix2 EMAX) (Rabs (rnd_prec p rm (value v)))) as [OV|OV]; [|destruct (SO OV) as (y & Ey & _); rewrite T in Ey; discriminate Ey].
    rewrite K in OV. apply (no_overflow r p rm (ns v) Hp); [rewrite Rabs_pos_eq by lra; exact RB|]. split; [exact SR|]. exists a. split; [exact CL|exact OV].
Qed.
