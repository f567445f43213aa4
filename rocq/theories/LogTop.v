(** The logarithm to an arbitrary base: the retry loop and the whole function. *)

From Coq Require Import ZArith List Bool Lia Reals Lra.
From Flocq Require Import Core Relative.
From Verif Require Import Words IntModel Mantissa Num Pow Consts Elem Ctx Series Ln Exp DecConv RealPow Log SpecZ SpecOps SpecConst SpecReach SpecPow SpecElem SpecRealPow WordsP WordsP2 RoundP Spec RealP RealP2 NumP CmpP AddP SetP AddNum MulNum DivNum ArithTop RoundableNum PowNum PowTop ConstP ConstTop ConstNum ConstReach LoopP SmallP PowExt IntNum ElemNum ElemDom ApproxR CtxP ApproxNum SeriesP SinhNum SinhTop ExpNum RetryNum ExpTop HypNum HypTop LnR LnConst LnMant LnNum LnSharp LnSharp2 LnSharp3 LnTop LnUse Log2Top ConvNum DecRead RealPowTop Log10Top SpecLog.
Import ListNotations.
Open Scope Z_scope.
Ltac Zify.zify_post_hook ::= idtac.
Arguments Z.mul : simpl never.
Arguments Z.add : simpl never.
Arguments Z.pow : simpl never.
Arguments Z.sub : simpl never.
Arguments Z.of_nat : simpl never.
Ltac dlia := Z.div_mod_to_equations; lia.

Lemma not_unit v : (0 < v)%R -> v <> 1%R -> Rabs v <> 1%R.
Proof. intros H N. rewrite Rabs_pos_eq by lra. exact N. Qed.
Lemma cmp_zero_pos t x : wf t -> wf x -> nonzero x -> ns x = Pos -> ns t = Pos -> n_cmp t x = 0 -> value t = value x /\ nonzero t.
Proof.
  intros Wt W N Sx St C. destruct (Z.eq_dec (magnitude t) 0) as [Z|Nt].
  - exfalso. unfold n_cmp, n_abs_cmp in C. rewrite (is_zero_true t Wt Z), (is_zero_false x W N), St, Sx in C. cbn in C. discriminate C.
  - pose proof (n_cmp_spec t x Wt W Nt N) as CS. rewrite C in CS. split; [|exact Nt]. destruct (Rcompare_spec (value t) (value x)); cbn in CS; [discriminate CS|assumption|discriminate CS].
Qed.

(** Mode None cuts whole words only. *)
Lemma keep_words x q : wf x -> nonzero x -> 0 < q < 64 * wlen x -> (q + 63) / 64 = wlen x -> exists ix, set_precision x q RNone = Ok (mk_num (nm x) (ns x) (ne x) ix).
Proof.
  intros W Nx Hq HL. pose proof (wf_words x W) as Hok. pose proof (wf_bits x W) as Hbits. pose proof (wf_lim x W) as HLim.
  unfold set_precision, set_precision_internal, p_assertion. rewrite (proj2 (Z.leb_gt P_LIM q)) by (clear - Hq HLim; lia). cbn [bind].
  unfold mantissa_max_bit_len, max_bit_len, mlen. fold (wlen x). cbv zeta. rewrite (proj2 (Z.ltb_lt q (64 * wlen x))), (proj2 (Z.ltb_lt 0 q)) by lia. cbn [andb].
  pose proof (round_mantissa_none (mm (nm x)) (64 * wlen x - q) (is_positive x) false (64 * wlen x) (ninexact x) Hok ltac:(fold (wlen x); lia)) as (R1 & R2 & R3 & R4).
  set (r := round_mantissa _ _ _ _ _ _ _) in *. rewrite R1, R2, R3. cbn [andb]. unfold m_is_all_zero. cbn [mm mn]. rewrite all_zero_spec by auto.
  fold (magnitude x). rewrite (proj2 (Z.eqb_neq _ _) Nx). unfold m_update_bit_len. cbn [mm mn]. rewrite (find_bit_len_spec _ Hok). fold (magnitude x). rewrite <- Hbits.
  replace (mk_m (mm (nm x)) (mn (nm x))) with (nm x) by (now destruct (nm x)). cbn [nm ns ne ninexact].
  assert (SL : m_set_length (nm x) q = nm x). { unfold m_set_length, mlen. rewrite wlen_of_bits_eq by lia. fold (wlen x). rewrite HL, Z.ltb_irrefl. reflexivity. }
  destruct (m_is_subnormal (nm x)); cbn [bind nm ns ne ninexact]; rewrite SL; eexists; reflexivity.
Qed.

Section Round.
Context (w p : Z) (rm : rmode) (v n : R) (h g : nat).
Hypotheses (Hp : 0 < p) (Hp64 : p mod 64 = 0) (Hpw : p + 64 <= w) (Hw64 : w mod 64 = 0) (HB : work h (w + 128) 64 <= 2 ^ 14).
Hypotheses (V0 : (0 < v)%R) (V1 : v <> 1%R) (N0 : (0 < n)%R) (N1 : n <> 1%R).
Notation r := (real_log v n).

Definition log_ok (ret : num) : Prop := near (IZR 4 * eps (w + 64)) (ns ret) (Rabs r) ret /\ has_sign (ns ret) r /\ ninexact ret = true /\ 64 * wlen ret = w + 64.
Lemma log_size x y : wf x -> value x = v -> 64 * wlen x <= w + 64 -> wf y -> value y = n -> 64 * wlen y <= w + 64 -> (bpow radix2 (- (w + 105)) <= Rabs r <= bpow radix2 (w + 105))%R.
Proof.
  intros W V L Wy Vy Ly. destruct (lim10 w p h Hp Hp64 Hpw Hw64 HB) as (H1 & H2 & PL & PU). change (2 ^ 14) with 16384 in H2.
  destruct (ln_size2 x W ltac:(rewrite V; exact V0) ltac:(rewrite V; exact V1) ltac:(change (2 ^ 20) with 1048576; lia)) as [A1 _].
  destruct (ln_size2 y Wy ltac:(rewrite Vy; exact N0) ltac:(rewrite Vy; exact N1) ltac:(change (2 ^ 20) with 1048576; lia)) as [B1 _].
  pose proof (ln_size3 x W ltac:(rewrite V; exact V0) ltac:(change (2 ^ 20) with 1048576; lia)) as A2. pose proof (ln_size3 y Wy ltac:(rewrite Vy; exact N0) ltac:(change (2 ^ 20) with 1048576; lia)) as B2.
  rewrite V in A1, A2. rewrite Vy in B1, B2. unfold real_log, Rdiv. rewrite Rabs_mult, Rabs_inv. set (a := Rabs (ln v)) in *. set (b := Rabs (ln n)) in *.
  assert (A3 : (bpow radix2 (- (w + 65)) <= a)%R) by (eapply Rle_trans; [|exact A1]; apply bpow_le; clear - L; lia). assert (B3 : (bpow radix2 (- (w + 65)) <= b)%R) by (eapply Rle_trans; [|exact B1]; apply bpow_le; clear - Ly; lia).
  pose proof (bpow_gt_0 radix2 (- (w + 65))) as Z0. assert (Z1 : (0 < b)%R) by lra. split.
  - replace (- (w + 105)) with (- (w + 65) + - 40) by ring. rewrite bpow_plus. apply Rmult_le_compat; [lra|apply bpow_ge_0|exact A3|]. replace (bpow radix2 (-40)) with (/ bpow radix2 40)%R by (rewrite <- bpow_opp; reflexivity). apply Rinv_le; [exact Z1|exact B2].
  - replace (w + 105) with (40 + (w + 65)) by ring. rewrite bpow_plus. apply Rmult_le_compat; [apply Rabs_pos|left; apply Rinv_0_lt_compat; exact Z1|exact A2|]. replace (w + 65) with (- - (w + 65)) by ring. rewrite bpow_opp. apply Rinv_le; assumption.
Qed.
Lemma log_quotient c x y : preach c -> wf x -> value x = v -> 64 * wlen x <= w + 64 -> wf y -> value y = n -> 64 * wlen y <= w + 64 ->
  p_ln h g c x (w + 5) RNone = None \/
  exists c1 p1, p_ln h g c x (w + 5) RNone = Some (c1, Ok p1) /\ (p_ln h g c1 y (w + 5) RNone = None \/
    exists c2 p2 ret, p_ln h g c1 y (w + 5) RNone = Some (c2, Ok p2) /\ preach c2 /\ n_div p1 p2 (w + 5) RNone = Ok ret /\ log_ok ret).
Proof.
  intros [Hl He] W V L Wy Vy Ly. pose proof (log_size x y W V L Wy Vy Ly) as SZ. destruct (lim10 w p h Hp Hp64 Hpw Hw64 HB) as (H1 & H2 & PL & PU). unfold p_ln.
  destruct (ln_close h g (fst c) x (w + 5) Hl W ltac:(rewrite V; exact V0) ltac:(rewrite V; exact V1) ltac:(rewrite PU; lia) ltac:(rewrite PU; lia) ltac:(rewrite PU; replace (w + 64 + 64) with (w + 128) by ring; exact HB)) as [->|(l' & q & -> & Hl' & NQ)]; [left; reflexivity|].
  right. exists (l', snd c), q. split; [reflexivity|]. cbn [fst snd].
  destruct (ln_close h g l' y (w + 5) Hl' Wy ltac:(rewrite Vy; exact N0) ltac:(rewrite Vy; exact N1) ltac:(rewrite PU; lia) ltac:(rewrite PU; lia) ltac:(rewrite PU; replace (w + 64 + 64) with (w + 128) by ring; exact HB)) as [->|(l2 & q2 & -> & Hl2 & NQ2)]; [left; reflexivity|].
  right. rewrite PU, V in NQ. rewrite PU, Vy in NQ2. destruct NQ as (Lq & Iq & Sq & NQ & _). destruct NQ2 as (Lq2 & Iq2 & Sq2 & NQ2 & _).
  set (W0 := w + 64) in *. pose proof (eps_eta W0) as EE. pose proof (eta_pos W0) as EP. pose proof (eta_small W0 ltac:(unfold W0; lia)) as ES.
  assert (RA : Rabs r = (Rabs (ln v) / Rabs (ln n))%R) by (unfold real_log, Rdiv; rewrite Rabs_mult, Rabs_inv; reflexivity).
  assert (M : mid (Rabs (ln v) / Rabs (ln n))). { rewrite <- RA. apply (mid_range (- (w + 105)) (w + 105)); [change HX with 1073741824; change (2 ^ 14) with 16384 in H2; lia|change HX with 1073741824; change (2 ^ 14) with 16384 in H2; lia|exact SZ]. }
  assert (DD : (2 * eta W0 + 2 * eta W0 <= 1)%R) by lra.
  destruct (near_div W0 (w + 5) RNone ltac:(unfold W0; lia) PU PL _ _ _ _ _ _ _ _ NQ NQ2 DD M) as (ret & Er & NR & LR & IR).
  exists (l2, snd c), q2, ret. split; [reflexivity|]. split; [split; [exact Hl2|exact He]|]. split; [exact Er|].
  assert (SR : ns ret = sign_mul (ns q) (ns q2)) by (destruct NR as (_ & _ & S & _); exact S).
  unfold log_ok. fold W0. split; [rewrite RA; apply near_weak with (2 * eta W0 + 2 * eta W0 + eta W0)%R; [lra|]; rewrite SR; exact NR|].
  split; [|split; [apply IR; rewrite Iq; reflexivity|exact LR]]. rewrite SR. unfold real_log, Rdiv. apply sign_product; [exact Sq|]. unfold has_sign in *. assert (LN : ln n <> 0%R) by (intros E; rewrite E in Sq2; lra).
  apply (Rmult_lt_reg_r (ln n * ln n)); [destruct (Rtotal_order (ln n) 0) as [X|[X|X]]; [nra|contradiction|nra]|]. rewrite Rmult_0_l. replace (IZR (sgnZ (ns q2)) * / ln n * (ln n * ln n))%R with (IZR (sgnZ (ns q2)) * ln n)%R by (field; exact LN). exact Sq2.
Qed.
Lemma log_close ret : log_ok ret -> close p r (value ret) /\ has_sign (ns ret) (value ret).
Proof.
  intros ((Wr & Nr & _ & LC) & SR & IR & LR). destruct (lim10 w p h Hp Hp64 Hpw Hw64 HB) as (H1 & H2 & PL & PU). pose proof (value_has_sign ret Wr ltac:(apply Nr)) as SV. split; [|exact SV].
  unfold close. rewrite Rabs_minus_sym, (signs_apart (ns ret)) by assumption. assert (D : (0 <= IZR 4 * eps (w + 64) <= / 128)%R). { split; [pose proof (eps_pos (w + 64)); lra|]. eapply Rle_trans; [apply eps_small; [lia|vm_compute; discriminate]|]. change (/ 128)%R with (bpow radix2 (-7)). apply bpow_le. lia. }
  pose proof (lc_abs_near _ _ _ D LC) as X. eapply Rle_trans; [exact X|]. rewrite Rmult_comm. apply Rmult_le_compat_l; [apply Rabs_pos|].
  apply Rle_trans with (IZR 8 * eps (w + 64))%R; [pose proof (eps_pos (w + 64)); lra|]. unfold eps. change (IZR 8) with (bpow radix2 3). rewrite <- bpow_plus. apply bpow_le. clear - Hpw. lia.
Qed.

(** The power the answer is tested with. *)
Lemma power_near P t : (0 < P)%R -> (Rabs (t - P) <= bpow radix2 (2 - (w + 64)) * P)%R -> (Rabs (P - t) <= t * bpow radix2 (- (p + 64)))%R.
Proof.
  intros P0 D. pose proof (lim10 w p h Hp Hp64 Hpw Hw64 HB) as (H1 & _). assert (B : (bpow radix2 (2 - (w + 64)) <= / 4)%R) by (change (/ 4)%R with (bpow radix2 (-2)); apply bpow_le; lia).
  assert (T : (P / 2 <= t)%R). { assert (bpow radix2 (2 - (w + 64)) * P <= / 4 * P)%R by (apply Rmult_le_compat_r; lra). apply Rabs_le_inv in D. lra. }
  rewrite Rabs_minus_sym. eapply Rle_trans; [exact D|]. apply Rle_trans with (2 * t * bpow radix2 (2 - (w + 64)))%R; [rewrite Rmult_comm; apply Rmult_le_compat_r; [apply bpow_ge_0|lra]|].
  replace (2 * t * bpow radix2 (2 - (w + 64)))%R with (t * (2 * bpow radix2 (2 - (w + 64))))%R by ring. apply Rmult_le_compat_l; [lra|]. change 2%R with (bpow radix2 1). rewrite <- bpow_plus. apply bpow_le. lia.
Qed.
Definition power_out (a : R) (res : result num) : Prop :=
  match res with
  | Ok t => wf t /\ ns t = Pos /\ ((0 < value t)%R -> (Rabs (Rpower n a - value t) <= value t * bpow radix2 (- (p + 64)))%R)
  | Err e => e = ExponentOverflow Pos /\ (bpow radix2 (EMAX - 1) <= Rpower n a)%R
  | Panic => False
  end.
Lemma emax_half P : (bpow radix2 EMAX <= 2 * P)%R -> (bpow radix2 (EMAX - 1) <= P)%R.
Proof. generalize EMAX. intros e H. unfold Zminus. rewrite bpow_plus. change (bpow radix2 (- (1))) with (/ 2)%R. lra. Qed.
Lemma log_power c ret x y : preach c -> wf x -> value x = v -> 64 * wlen x <= w + 64 -> log_ok ret -> wf y -> value y = n -> 64 * wlen y = w + 64 -> work h (work h (w + 128) 64 + 128) 64 <= 2 ^ 14 ->
  match f_pow h h g c y ret (w + 5) RNone with
  | None => True
  | Some (c', res) => preach c' /\ power_out (value ret) res
  end.
Proof.
  intros Hc W V L RO Wy Vy Ly HB2. destruct (lim10 w p h Hp Hp64 Hpw Hw64 HB) as (H1 & H2 & PL & PU). pose proof (log_size x y W V L Wy Vy ltac:(lia)) as SZ. pose proof RO as ((Wr & Nr & _ & LC) & SR & IR & LR).
  assert (Ny : nonzero y) by (destruct (yes_pos y Wy ltac:(rewrite Vy; exact N0)) as [X _]; exact X). assert (Uy : Rabs (value y) <> 1%R) by (rewrite Vy; apply not_unit; assumption).
  assert (Sy : ns y = Pos). { pose proof (value_has_sign y Wy Ny) as S. unfold has_sign in S. rewrite Vy in S. destruct (ns y); [cbn [sgnZ] in S; lra|reflexivity]. }
  assert (PP : (0 < Rpower n (value ret))%R) by apply exp_pos. assert (W0 : 0 < w + 5) by lia. assert (PLU : prec_up (w + 5) < P_LIM) by (rewrite PU; exact PL).
  destruct (Req_dec (Rabs (value ret)) 1) as [U|U].
  - unfold f_pow. assert (PS : pow_special y ret = true) by (unfold pow_special; rewrite (proj2 (unit_iff ret Wr) U), !orb_true_r; reflexivity). rewrite PS. unfold pure. split; [exact Hc|].
    assert (C1 : value ret = 1%R \/ value ret = (-1)%R). { destruct (Rle_or_lt 0 (value ret)) as [X|X]; [rewrite Rabs_pos_eq in U by exact X; left; exact U|rewrite Rabs_left in U by exact X; right; lra]. }
    destruct C1 as [C1|C1].
    + assert (EP : n_pow (fun _ _ _ _ => Panic) y ret (w + 5) RNone = do z <- set_precision y (w + 5) RNone; Ok (set_inexact z (ninexact z || ninexact ret))).
      { unfold n_pow. rewrite (is_zero_false ret), (is_zero_false y) by (auto; apply Nr). destruct (andb (ne y =? 1) _) eqn:E; [apply (unit_iff y Wy) in E; contradiction|]. unfold is_negative. rewrite Sy. cbn [is_pos negb andb]. rewrite (proj2 (unit_iff ret Wr) U). unfold is_positive. destruct (ns ret) eqn:SN; [unfold has_sign in SR; pose proof (value_has_sign ret Wr ltac:(apply Nr)) as S; unfold has_sign in S; rewrite SN, C1 in S; cbn [sgnZ] in S; lra|reflexivity]. }
      rewrite EP. destruct (keep_words y (w + 5) Wy Ny ltac:(lia) ltac:(clear - Ly Hw64; dlia)) as (ix & ->). set (z := mk_num (nm y) (ns y) (ne y) ix). assert (Wz : wf z) by (exact (wf_inexact y ix Wy)). assert (Sz : ns z = ns y) by reflexivity. assert (Vz : value z = value y) by reflexivity. clearbody z. cbn [bind power_out]. split; [now apply wf_inexact|]. split; [cbn; congruence|]. intros _. change (value (set_inexact z (ninexact z || ninexact ret))) with (value z). rewrite Vz, Vy, C1, Rpower_1 by exact N0. rewrite Rminus_diag_eq, Rabs_R0 by reflexivity. apply Rmult_le_pos; [lra|apply bpow_ge_0].
    + pose proof (pow_exp_minus_one_spec (fun _ _ _ _ => Panic) y ret (w + 5) RNone Wy Wr Ny Uy C1 W0 PLU) as CR. rewrite PU, Vy, Sy in CR. assert (EI : Rpower n (value ret) = (/ n)%R) by (rewrite C1; replace (-1)%R with (- (1))%R by ring; rewrite Rpower_Ropp, Rpower_1 by exact N0; reflexivity).
      assert (IP : (0 < / n)%R) by (apply Rinv_0_lt_compat; exact N0). unfold power_out. rewrite EI. unfold correctly_rounded in CR. cbv zeta in CR. destruct CR as [CO CN]. pose proof (cut_le (w + 64) (/ n) ltac:(lia)) as CL. rewrite (Rabs_pos_eq (/ n)) in CL by lra.
      destruct (Rle_or_lt (bpow radix2 EMAX) (Rabs (rnd_prec (w + 64) RNone (/ n)))) as [O|O].
      * rewrite (CO O). split; [reflexivity|]. apply emax_half. pose proof (Rle_trans _ _ _ O CL) as OC. eapply Rle_trans; [exact OC|]. clear - IP. lra.
      * destruct (CN O) as (q & -> & Wq & Lq & Sq & NQ & _). split; [exact Wq|]. split; [exact Sq|]. intros _.
        assert (LO : (bpow radix2 (EMIN - 1) <= Rabs (rnd_prec (w + 64) RNone (/ n)))%R).
        { assert (F : (bpow radix2 (- EMAX) <= / n)%R). { rewrite bpow_opp. apply Rinv_le; [exact N0|]. rewrite <- Vy. rewrite <- (Rabs_pos_eq (value y)) by lra. eapply Rle_trans; [left; apply PowTop.value_lt_bpow; exact Wy|]. apply bpow_le. apply (wf_exp y Wy). }
          pose proof (cut_rel (w + 64) (/ n) ltac:(lia)) as CE. rewrite (Rabs_pos_eq (/ n)) in CE by lra. assert (B : (bpow radix2 (1 - (w + 64)) <= / 4)%R) by (change (/ 4)%R with (bpow radix2 (-2)); apply bpow_le; lia).
          assert (bpow radix2 (1 - (w + 64)) * / n <= / 4 * / n)%R by (apply Rmult_le_compat_r; lra). apply Rabs_le_inv in CE. apply Rle_trans with (/ n / 2)%R; [|rewrite Rabs_pos_eq; lra].
          apply Rle_trans with (bpow radix2 (- EMAX + -1)); [apply bpow_le; vm_compute; discriminate|]. rewrite bpow_plus. change (bpow radix2 (-1)) with (/ 2)%R. lra. }
        destruct (NQ LO) as [VQ _]. apply power_near; [lra|]. rewrite VQ. pose proof (cut_rel (w + 64) (/ n) ltac:(lia)) as CE. rewrite (Rabs_pos_eq (/ n)) in CE by lra. eapply Rle_trans; [exact CE|]. apply Rmult_le_compat_r; [lra|]. apply bpow_le. lia.
  - assert (RP : real_power (value y) (value ret) (Rpower n (value ret))) by (left; split; [rewrite Vy; exact N0|rewrite Vy; reflexivity]).
    assert (LOW : (bpow radix2 (EMIN + 2 ^ 15) <= Rabs (value ret))%R).
    { pose proof (lc_two _ _ _ (eps_quarter (w + 64) 4 ltac:(lia) ltac:(vm_compute; discriminate)) LC) as [T _]. eapply Rle_trans; [|exact T]. apply Rle_trans with (bpow radix2 (- (w + 105) + -1)); [apply bpow_le; change (2 ^ 14) with 16384 in H2; change EMIN with (-2147483648); change (2 ^ 15) with 32768; lia|]. rewrite bpow_plus. change (bpow radix2 (-1)) with (/ 2)%R. lra. }
    pose proof (f_pow_ok h h g c y ret (w + 5) RNone _ Hc Wy Wr Ny ltac:(apply Nr) Uy U RP LOW W0) as FP. rewrite PU in FP. specialize (FP ltac:(rewrite Ly, LR, !Z.max_id; replace (w + 64 + 64) with (w + 128) by ring; exact HB2)).
    destruct (f_pow h h g c y ret (w + 5) RNone) as [[c' res]|]; [|exact I]. destruct FP as [Hc' FP]. split; [exact Hc'|]. set (P := Rpower n (value ret)) in *.
    assert (CT : forall a, close (w + 64) P a -> (Rabs (a - P) <= / 1024 * bpow radix2 (1 - (w + 64)) * P)%R).
    { intros a C. unfold close in C. rewrite (Rabs_pos_eq P) in C by lra. eapply Rle_trans; [exact C|]. rewrite Rmult_comm. apply Rmult_le_compat_r; [lra|]. change (/ 1024)%R with (bpow radix2 (-10)). rewrite <- bpow_plus. apply bpow_le. lia. }
    pose proof (bpow_gt_0 radix2 (1 - (w + 64))) as D0. assert (D1 : (bpow radix2 (1 - (w + 64)) <= / 4)%R) by (change (/ 4)%R with (bpow radix2 (-2)); apply bpow_le; lia).
    assert (E2 : bpow radix2 (2 - (w + 64)) = (2 * bpow radix2 (1 - (w + 64)))%R) by (change 2%R with (bpow radix2 1); rewrite <- bpow_plus; f_equal; ring).
    set (d := bpow radix2 (1 - (w + 64))) in *. assert (DP : (0 < d * P <= / 4 * P)%R) by (split; [apply Rmult_lt_0_compat; lra|apply Rmult_le_compat_r; lra]).
    destruct res as [q|[s| | |]|]; cbn [pow_post power_out] in *; try contradiction.
    + destruct FP as [(Wq & Lq & Sq & Iq & (a & Ca & Va) & _)|(Wq & Lq & Vq & Sq & _)].
      * split; [exact Wq|]. split; [unfold has_sign in Sq; destruct (ns q); [cbn [sgnZ] in Sq; lra|reflexivity]|]. intros _. apply power_near; [exact PP|]. rewrite E2, Va. pose proof (cut_rel (w + 64) a ltac:(lia)) as CE. fold d in CE. specialize (CT a Ca). apply Rabs_le_inv in CT. assert (AB : (0 <= a <= 2 * P)%R) by lra. rewrite (Rabs_pos_eq a) in CE by lra.
        assert (AC : (a <= 5 / 4 * P)%R) by lra. assert (d * a <= d * (5 / 4 * P))%R by (apply Rmult_le_compat_l; lra). apply Rabs_le_inv in CE. fold P. clear - CE H CT DP. clearbody P d. apply Rabs_le. lra.
      * split; [exact Wq|]. split; [unfold has_sign in Sq; destruct (ns q); [cbn [sgnZ] in Sq; lra|reflexivity]|]. intros X. rewrite Vq in X. lra.
    + destruct FP as (Sq & a & Ca & O). split; [unfold has_sign in Sq; destruct s; [cbn [sgnZ] in Sq; lra|reflexivity]|]. fold P. apply emax_half. pose proof (cut_le (w + 64) a ltac:(lia)) as CL. specialize (CT a Ca). apply Rabs_le_inv in CT. rewrite (Rabs_pos_eq a) in CL by lra. pose proof (Rle_trans _ _ _ O CL) as Q. eapply Rle_trans; [exact Q|]. clear - CT DP. lra.
Qed.
(** The answer in that case. *)
Lemma log_answer ret x y b : wf x -> value x = v -> 64 * wlen x <= w + 64 -> wf y -> value y = n -> 64 * wlen y <= w + 64 -> log_ok ret -> (Rabs (Rpower n (value ret) - v) <= v * bpow radix2 (- (p + 64)))%R -> log_post v n p rm (set_precision (set_inexact ret (ninexact ret || b)) p rm).
Proof.
  intros W V L Wy Vy Ly RO NT. pose proof (log_size x y W V L Wy Vy Ly) as SZ. destruct (log_close ret RO) as [CL SV]. destruct RO as ((Wr & Nr & _ & LC) & SR & IR & LR). destruct (lim10 w p h Hp Hp64 Hpw Hw64 HB) as (H1 & H2 & PL & PU). assert (PP : prec_up p = p) by (unfold prec_up; clear - Hp64; dlia).
  pose proof (lc_two _ _ _ (eps_quarter (w + 64) 4 ltac:(lia) ltac:(vm_compute; discriminate)) LC) as [T1 T2].
  assert (LOW : (bpow radix2 (EMIN - 1) <= Rabs (value ret))%R).
  { eapply Rle_trans; [|exact T1]. apply Rle_trans with (bpow radix2 (- (w + 105) + -1)); [apply bpow_le; change (2 ^ 14) with 16384 in H2; change EMIN with (-2147483648); lia|]. rewrite bpow_plus. change (bpow radix2 (-1)) with (/ 2)%R. lra. }
  set (z := set_inexact ret _). assert (Wz : wf z) by now apply wf_inexact. destruct (set_precision_spec z p rm Wz Hp ltac:(rewrite PP; lia) ltac:(right; left; split; [exact Hp64|exact Nr])) as [_ SO].
  change (value z) with (value ret) in SO. rewrite (grad_normal p rm (value ret) LOW) in SO. destruct SO as (q & E & Wq & Lq & Sq & Vq & Iq).
  { assert (VB : (Rabs (value ret) <= bpow radix2 (w + 106))%R) by (replace (w + 106) with (1 + (w + 105)) by ring; rewrite bpow_plus; change (bpow radix2 1) with 2%R; lra).
    apply Rle_lt_trans with (bpow radix2 (w + 106)); [|apply bpow_lt; change EMAX with 2147483647; change (2 ^ 14) with 16384 in H2; lia].
    pose proof (FLX_exp_valid p (prec_gt_0_ := Hp)) as FV. unfold rnd_prec. apply abs_round_le_generic; [exact FV|apply rnd_valid|apply generic_format_bpow; unfold FLX_exp; lia|exact VB]. }
  rewrite E. right. exists (value ret). split; [exact CL|]. split; [exact NT|]. split; [exact Wq|]. split; [rewrite Lq; unfold prec_up in PP; exact PP|]. split; [rewrite Sq; exact SV|]. split; [apply Iq; left; cbn; rewrite IR; reflexivity|exact Vq].
Qed.
End Round.

(** ** The loop *)
Theorem log_loop_ok x0 n0 p rm h g B : wf x0 -> wf n0 -> (0 < value x0)%R -> value x0 <> 1%R -> (0 < value n0)%R -> value n0 <> 1%R -> 0 < p -> p mod 64 = 0 -> work h (work h (B + 128) 64 + 128) 64 <= 2 ^ 14 ->
  forall f c x y w i, preach c -> wf x -> value x = value x0 -> 64 * wlen x <= w -> 64 * wlen x0 <= w -> wf y -> value y = value n0 -> 64 * wlen y <= w -> p + 64 <= w -> w mod 64 = 0 -> 64 <= i -> i mod 64 = 0 -> work f w i <= B ->
  match log_loop f h g c x0 n0 x y p rm w i with
  | None => True
  | Some (c', res) => preach c' /\ log_post (value x0) (value n0) p rm res
  end.
Proof.
  intros Wx Wn V0 V1 N0 N1 Hp Hp64 HB0. induction f as [|f IH]; intros c x y w i Hc W V L L0 Wy Vy Ly Hpw Hw64 Hi Hi64 HF; [exact I|].
  pose proof (work_ge (S f) w i ltac:(lia) ltac:(lia)) as HG. change (work (S f) w i) with (work f (w + i) (64 * (((w + i) / 5 + 63) / 64))) in HF, HG.
  pose proof (work_ge f (w + i) (64 * (((w + i) / 5 + 63) / 64)) ltac:(lia) ltac:(clear - Hp Hpw Hi; dlia)) as HG2.
  pose proof (work_ge h (B + 128) 64 ltac:(lia) ltac:(lia)) as HH. pose proof (work_ge h (work h (B + 128) 64 + 128) 64 ltac:(lia) ltac:(lia)) as HH2.
  assert (HM : work h (w + 128) 64 <= work h (B + 128) 64) by (apply work_mono; lia). assert (HB : work h (w + 128) 64 <= 2 ^ 14) by lia.
  pose proof (work_ge h (w + 128) 64 ltac:(lia) ltac:(lia)) as HH3.
  assert (HB2 : work h (work h (w + 128) 64 + 128) 64 <= 2 ^ 14) by (eapply Z.le_trans; [|exact HB0]; apply work_mono; lia).
  destruct (lim10 w p h Hp Hp64 Hpw Hw64 HB) as (H1 & H2 & PL & PU).
  assert (RI : round_p ((w + i) / 5) = 64 * (((w + i) / 5 + 63) / 64)) by (apply round_step; [lia|lia|change (2 ^ 20) with 1048576; change (2 ^ 14) with 16384 in HB0; lia]).
  cbn [log_loop]. cbv zeta. destruct (widen x (w + 5) W ltac:(lia) ltac:(lia) ltac:(rewrite PU; exact PL)) as (z & -> & Wz & Lz & Sz & Vz). destruct (widen y (w + 5) Wy ltac:(lia) ltac:(lia) ltac:(rewrite PU; exact PL)) as (u & -> & Wu & Lu & Su & Vu). rewrite PU in Lz, Lu. rewrite V in Vz. rewrite Vy in Vu. unfold pure at 1 2. cbn [pbind].
  destruct (log_quotient w p (value x0) (value n0) h g Hp Hp64 Hpw Hw64 HB V0 V1 N0 N1 c z u Hc Wz Vz ltac:(lia) Wu Vu ltac:(lia)) as [->|(c1 & p1 & -> & [E2|(c2 & p2 & ret & E2 & Hc2 & E3 & RO)])]; [exact I|cbn [pbind]; rewrite E2; exact I|]. cbn [pbind]. rewrite E2. cbn [pbind]. unfold pure at 1. rewrite E3. cbn [pbind].
  pose proof RO as ((Wr & Nr & _ & LC) & SR & IR & LR). pose proof (log_size w p (value x0) (value n0) h Hp Hp64 Hpw Hw64 HB V0 V1 N0 N1 z u Wz Vz ltac:(lia) Wu Vu ltac:(lia)) as SZ.
  pose proof (accept_elem (real_log (value x0) (value n0)) ret p rm w 4 Wr Nr IR ltac:(lia) SR LC ltac:(vm_compute; split; discriminate) Hp Hp64 Hw64 Hpw) as A.
  destruct (try_set_precision ret p rm w) as [[y0 [|]]|[s| | |]|]; try contradiction.
  - split; [exact Hc2|]. left. eexists. split; [reflexivity|]. rewrite <- orb_assoc. now apply elem_mark.
  - change (mantissa_max_bit_len x0) with (64 * wlen x0). rewrite Z.max_l by lia.
    pose proof (log_power w p (value x0) (value n0) h g Hp Hp64 Hpw Hw64 HB V0 V1 N0 N1 c2 ret z u Hc2 Wz Vz ltac:(lia) RO Wu Vu Lu HB2) as LP.
    destruct (f_pow h h g c2 u ret (w + 5) RNone) as [[c3 [t|e|]]|]; [| |destruct LP as [_ LP]; contradiction|exact I]; destruct LP as [Hc3 LP]; cbn [pbind power_out] in *.
    + destruct LP as (Wt & St & LP). destruct (Z.eqb_spec (n_cmp t x0) 0) as [C|C].
      * split; [exact Hc3|]. rewrite <- orb_assoc. destruct (yes_pos x0 Wx V0) as [Nx _].
        assert (Sx : ns x0 = Pos). { pose proof (value_has_sign x0 Wx Nx) as S. unfold has_sign in S. destruct (ns x0); [cbn [sgnZ] in S; lra|reflexivity]. }
        destruct (cmp_zero_pos t x0 Wt Wx Nx Sx St C) as [VT _]. rewrite VT in LP. exact (log_answer w p rm (value x0) (value n0) h Hp Hp64 Hpw Hw64 HB V0 V1 N0 N1 ret z u _ Wz Vz ltac:(lia) Wu Vu ltac:(lia) RO (LP V0)).
      * rewrite RI. apply IH; [exact Hc3|exact Wz|exact Vz|lia|lia|exact Wu|exact Vu|lia|lia| |clear - Hp Hpw Hi; dlia|rewrite Z.mul_comm; apply Z.mod_mul; lia|exact HF]. clear - Hw64 Hi64. dlia.
    + split; [exact Hc3|]. right. exists (value ret). split; [apply (log_close w p (value x0) (value n0) h Hp Hp64 Hpw Hw64 HB ret RO)|exact LP].
  - exfalso. destruct A as (_ & a & C & O). assert (CB : (bpow radix2 (- (p + 64)) <= 1)%R) by (change 1%R with (bpow radix2 0); apply bpow_le; lia). unfold close in C. set (r := real_log (value x0) (value n0)) in *. pose proof (Rabs_pos r) as RP. assert (AB : (Rabs a <= bpow radix2 (w + 106))%R).
    { replace (w + 106) with (1 + (w + 105)) by ring. rewrite bpow_plus. change (bpow radix2 1) with 2%R. assert (Rabs r * bpow radix2 (- (p + 64)) <= Rabs r * 1)%R by (apply Rmult_le_compat_l; lra). pose proof (Rabs_triang_inv a r). lra. }
    assert (O2 : (Rabs (rnd_prec p rm a) <= bpow radix2 (w + 106))%R). { pose proof (FLX_exp_valid p (prec_gt_0_ := Hp)) as FV. unfold rnd_prec. apply abs_round_le_generic; [exact FV|apply rnd_valid|apply generic_format_bpow; unfold FLX_exp; lia|exact AB]. }
    pose proof (Rle_trans _ _ _ O O2) as X. apply le_bpow in X. change EMAX with 2147483647 in X. change (2 ^ 14) with 16384 in H2. lia.
Qed.

Definition log_start (p : Z) (x n : num) : Z := Z.max (prec_up p) (Z.max (64 * wlen x) (64 * wlen n)) + 64.
Lemma pos_guard x n : wf x -> wf n -> (0 < value x)%R -> (0 < value n)%R -> is_zero x || is_negative x || is_zero n || is_negative n = false.
Proof. intros W Wn H Hn. pose proof (proj2 (yes_pos x W H)) as A. pose proof (proj2 (yes_pos n Wn Hn)) as B. rewrite A. cbn [orb]. exact B. Qed.
Lemma round_prec p B : 0 < p -> prec_up p <= B -> B < P_LIM -> round_p p = prec_up p.
Proof. intros Hp HB HL. apply round_p_eq; lia. Qed.
Lemma max64 p x n : Z.max (prec_up p) (Z.max (64 * wlen x) (64 * wlen n)) mod 64 = 0.
Proof. destruct (Z.max_spec (64 * wlen x) (64 * wlen n)) as [[_ ->]|[_ ->]]; destruct (Z.max_spec (prec_up p) (64 * wlen n)) as [[_ E1]|[_ E1]]; destruct (Z.max_spec (prec_up p) (64 * wlen x)) as [[_ E2]|[_ E2]]; rewrite ?E1, ?E2; try apply prec_up_mod; rewrite Z.mul_comm; apply Z.mod_mul; lia. Qed.
Lemma log_unfold f h g c x n p rm M : 0 < p -> wf x -> wf n -> (0 < value x)%R -> (0 < value n)%R -> M = Z.max (prec_up p) (Z.max (64 * wlen x) (64 * wlen n)) -> M < P_LIM ->
  log_num f h g c x n p rm = log_loop f h g c x n (set_inexact x false) (set_inexact n false) (prec_up p) rm (M + 64) 64.
Proof.
  intros Hp W Wn V0 N0 -> HL. unfold log_num. cbv zeta. rewrite (pos_guard x n W Wn V0 N0), (round_prec p _ Hp (Z.le_max_l _ _) HL). reflexivity.
Qed.
Theorem log_num_ok f h g c x n p rm : preach c -> wf x -> wf n -> (0 < value x)%R -> value x <> 1%R -> (0 < value n)%R -> value n <> 1%R -> 0 < p ->
  work h (work h (work f (Z.max (prec_up p) (Z.max (64 * wlen x) (64 * wlen n)) + 64) 64 + 128) 64 + 128) 64 <= 2 ^ 14 ->
  match log_num f h g c x n p rm with
  | None => True
  | Some (c', res) => preach c' /\ log_post (value x) (value n) (prec_up p) rm res
  end.
Proof.
  intros Hc W Wn V0 V1 N0 N1 Hp HB. assert (P64 : 64 <= prec_up p) by (unfold prec_up; clear - Hp; dlia). pose proof (max64 p x n) as HM64.
  remember (Z.max (prec_up p) (Z.max (64 * wlen x) (64 * wlen n))) as M eqn:EM. assert (HM1 : prec_up p <= M /\ 64 * wlen x <= M /\ 64 * wlen n <= M) by (clear - EM; lia).
  pose proof (work_ge f (M + 64) 64 ltac:(lia) ltac:(lia)) as G1. pose proof (work_ge h (work f (M + 64) 64 + 128) 64 ltac:(lia) ltac:(lia)) as G2. pose proof (work_ge h (work h (work f (M + 64) 64 + 128) 64 + 128) 64 ltac:(lia) ltac:(lia)) as G3.
  rewrite (log_unfold f h g c x n p rm M Hp W Wn V0 N0 EM ltac:(eapply Z.le_lt_trans with (2 ^ 14); [lia|vm_compute; reflexivity])). clear EM.
  exact (log_loop_ok x n (prec_up p) rm h g (work f (M + 64) 64) W Wn V0 V1 N0 N1 ltac:(lia) (prec_up_mod p) HB f c (set_inexact x false) (set_inexact n false) (M + 64) 64 Hc (wf_inexact x false W) eq_refl
    ltac:(change (wlen (set_inexact x false)) with (wlen x); lia) ltac:(lia) (wf_inexact n false Wn) eq_refl ltac:(change (wlen (set_inexact n false)) with (wlen n); lia) ltac:(lia) ltac:(clear - HM64; dlia) ltac:(lia) eq_refl ltac:(lia)).
Qed.
Theorem log_num_outside f h g c x n p rm : wf x -> wf n -> (value x <= 0)%R \/ (value n <= 0)%R -> log_num f h g c x n p rm = Some (c, Err InvalidArgument).
Proof.
  intros W Wn H. unfold log_num. cbv zeta. assert (G : is_zero x || is_negative x || is_zero n || is_negative n = true).
  { destruct H as [H|H]; [rewrite (not_pos x W H); reflexivity|]. pose proof (not_pos n Wn H) as E. destruct (is_zero n), (is_negative n); try discriminate E; rewrite ?orb_true_r; reflexivity. }
  rewrite G. reflexivity.
Qed.
(** The logarithm of 1, and the base 1. *)
Lemma p_ln_one h g c z q : wf z -> value z = 1%R -> 0 < q -> prec_up q < P_LIM -> exists l, p_ln h g c z q RNone = Some (c, Ok l) /\ wf l /\ magnitude l = 0 /\ ns l = Pos.
Proof.
  intros W V Hq HP. unfold p_ln. rewrite (ln_num_special h g (fst c) z q RNone W (or_intror (conj V (conj Hq HP))) (fun _ _ _ => Panic)).
  destruct (ln_one (fun _ _ _ => Panic) z q RNone W V Hq HP) as (l & -> & Wl & _ & Sl & Vl & _). exists l. split; [now destruct c|]. split; [exact Wl|]. split; [apply value_zero_iff; exact Vl|exact Sl].
Qed.
Theorem log_num_base_one f h g c x n p rm : preach c -> wf x -> wf n -> (0 < value x)%R -> value n = 1%R -> 0 < p -> work h (log_start p x n + 128) 64 <= 2 ^ 14 ->
  log_num (S f) h g c x n p rm = None \/ exists c' e, preach c' /\ log_num (S f) h g c x n p rm = Some (c', Err e) /\ (value x = 1%R -> e = InvalidArgument) /\ (value x <> 1%R -> e = DivisionByZero).
Proof.
  intros Hc W Wn V0 VN Hp HB. unfold log_start in HB. assert (P64 : 64 <= prec_up p) by (unfold prec_up; clear - Hp; dlia). pose proof (max64 p x n) as HM64.
  remember (Z.max (prec_up p) (Z.max (64 * wlen x) (64 * wlen n))) as M eqn:EM. assert (HM1 : prec_up p <= M /\ 64 * wlen x <= M /\ 64 * wlen n <= M) by (clear - EM; lia).
  pose proof (work_ge h (M + 64 + 128) 64 ltac:(lia) ltac:(lia)) as G. assert (HB1 : M + 192 <= 2 ^ 14) by lia.
  rewrite (log_unfold (S f) h g c x n p rm M Hp W Wn V0 ltac:(lra) EM ltac:(eapply Z.le_lt_trans with (2 ^ 14); [lia|vm_compute; reflexivity])). clear EM.
  assert (PU : prec_up (M + 64 + 5) = M + 128) by (unfold prec_up; clear - HM64; dlia). assert (PL : prec_up (M + 64 + 5) < P_LIM) by (rewrite PU; eapply Z.le_lt_trans with (2 ^ 14); [lia|vm_compute; reflexivity]). assert (PQ : 0 < M + 64 + 5) by lia.
  cbn [log_loop]. cbv zeta. destruct (widen (set_inexact x false) (M + 64 + 5) (wf_inexact x false W) PQ ltac:(change (wlen (set_inexact x false)) with (wlen x); lia) PL) as (z & -> & Wz & Lz & Sz & Vz). destruct (widen (set_inexact n false) (M + 64 + 5) (wf_inexact n false Wn) PQ ltac:(change (wlen (set_inexact n false)) with (wlen n); lia) PL) as (u & -> & Wu & Lu & Su & Vu).
  change (value (set_inexact x false)) with (value x) in Vz. change (value (set_inexact n false)) with (value n) in Vu. rewrite VN in Vu. change (pure c (Ok z)) with (Some (c, Ok z)). cbn [pbind]. change (pure c (Ok u)) with (Some (c, Ok u)). cbn [pbind].
  assert (DN : p_ln h g c z (M + 64 + 5) RNone = None \/ exists c1 l, p_ln h g c z (M + 64 + 5) RNone = Some (c1, Ok l) /\ preach c1 /\ wf l /\ (magnitude l = 0 <-> value x = 1%R)).
  { destruct (Req_dec (value x) 1) as [X|X].
    - rewrite X in Vz. destruct (p_ln_one h g c z _ Wz Vz PQ PL) as (l & E & Wl & Ml & _). right. exists c, l. split; [exact E|]. split; [exact Hc|]. split; [exact Wl|tauto].
    - destruct Hc as [Hl He]. rewrite <- Vz in V0, X. unfold p_ln. destruct (ln_close h g (fst c) z (M + 64 + 5) Hl Wz V0 X ltac:(rewrite PU; lia) ltac:(rewrite PU; lia) ltac:(rewrite PU; replace (M + 128 + 64) with (M + 64 + 128) by ring; exact HB)) as [->|(l' & q & -> & Hl' & NQ)]; [left; reflexivity|].
      right. exists (l', snd c), q. split; [reflexivity|]. split; [split; [exact Hl'|exact He]|]. destruct NQ as (_ & _ & _ & (Wq & Nq & _) & _). split; [exact Wq|]. split; [intros Z; destruct (proj2 Nq Z)|intros Z; rewrite Vz in X; contradiction]. }
  destruct DN as [->|(c1 & l & -> & Hc1 & Wl & ML)]; [left; reflexivity|]. right. exists c1, (if magnitude l =? 0 then InvalidArgument else DivisionByZero). split; [exact Hc1|]. cbn [pbind].
  destruct (p_ln_one h g c1 u _ Wu Vu PQ PL) as (l2 & -> & Wl2 & Ml2 & _). cbn [pbind]. unfold pure. rewrite (div_by_zero l l2 _ RNone Wl Wl2 Ml2). cbn [pbind]. split; [reflexivity|].
  destruct (Z.eqb_spec (magnitude l) 0) as [Z|Z]; split; intros X; try reflexivity; exfalso; [apply ML in Z; contradiction|apply Z, ML, X].
Qed.
(** Without the test the position of the test does not matter. *)
Definition off_words (l : words) (rz : bool) : bool := fold_left (fun r v => if v =? 0 then r else false) l rz.
Lemma scan_off td l : forall cc rz, fold_left (scan_word td) l (false, cc, rz) = (false, cc, off_words l rz).
Proof. induction l as [|v l IH]; intros cc rz; [reflexivity|]. cbn [fold_left]. unfold scan_word at 2. cbn [andb]. apply IH. Qed.
Definition off_peek (m : words) (i t : Z) : bool := if 0 <? t then wshl (znth i m) (64 - t) =? 0 else true.
Lemma peek_off m i t cc : rm_peek m i t false cc = (false, cc, off_peek m i t, 0, i).
Proof. unfold rm_peek, off_peek. cbn [andb]. destruct (0 <? t); [|reflexivity]. destruct (_ =? 0); reflexivity. Qed.
Lemma round_off m n rm pos ix s s' : round_mantissa m n rm pos false s ix = round_mantissa m n rm pos false s' ix.
Proof.
  destruct rm; [reflexivity|..]; unfold round_mantissa; cbv zeta; destruct ((0 <? n) && (n <? 64 * zlen m)); try reflexivity.
  all: rewrite !peek_off, !scan_off; reflexivity.
Qed.
Lemma try_exact x p rm s : ninexact x = false -> try_set_precision x p rm s = do q <- set_precision x p rm; Ok (q, true).
Proof.
  intros E. unfold try_set_precision, set_precision, set_precision_internal. rewrite E. destruct (p_assertion p); [cbn [bind]|reflexivity|reflexivity]. cbv zeta.
  rewrite (round_off _ _ rm _ _ s (mantissa_max_bit_len x)). destruct ((p <? mantissa_max_bit_len x) && (0 <? p)).
  - set (r := round_mantissa _ _ _ _ _ _ _). assert (RC : ro_chk r = false). { unfold r. clear r. unfold round_mantissa. cbv zeta. destruct rm; try reflexivity; destruct ((0 <? _) && (_ <? 64 * _)); try reflexivity.
      all: rewrite !peek_off, !scan_off.
      all: match goal with |- context [rm_finish ?a ?b ?c ?d] => destruct (rm_finish a b c d) | |- context [if ?c then rm_finish ?x1 ?x2 ?x3 ?x4 else rm_finish ?y1 ?y2 ?y3 ?y4] => destruct c; [destruct (rm_finish x1 x2 x3 x4)|destruct (rm_finish y1 y2 y3 y4)] end; try reflexivity.
      all: cbn beta iota. all: repeat match goal with |- context [let '(_, _) := ?e in _] => destruct e end; reflexivity. }
    rewrite RC. cbn [andb]. destruct (ro_ovf r); [destruct (ne x =? EXPONENT_MAX); reflexivity|]. destruct (m_is_all_zero _); [reflexivity|]. destruct (m_is_subnormal _); reflexivity.
  - destruct (p =? 0); [|reflexivity]. destruct (is_zero x); reflexivity.
Qed.
Theorem log_num_one f h g c x n p rm : preach c -> wf x -> wf n -> value x = 1%R -> (0 < value n)%R -> value n <> 1%R -> 0 < p -> work h (log_start p x n + 128) 64 <= 2 ^ 14 ->
  log_num (S f) h g c x n p rm = None \/ exists c' res s, preach c' /\ log_num (S f) h g c x n p rm = Some (c', res) /\ has_sign s (ln (value n)) /\ exactly (prec_up p) 0 s (ninexact x || ninexact n) res.
Proof.
  intros Hc W Wn VX N0 N1 Hp HB. unfold log_start in HB. assert (P64 : 64 <= prec_up p) by (unfold prec_up; clear - Hp; dlia). pose proof (max64 p x n) as HM64.
  remember (Z.max (prec_up p) (Z.max (64 * wlen x) (64 * wlen n))) as M eqn:EM. assert (HM1 : prec_up p <= M /\ 64 * wlen x <= M /\ 64 * wlen n <= M) by (clear - EM; lia).
  pose proof (work_ge h (M + 64 + 128) 64 ltac:(lia) ltac:(lia)) as G. assert (HB1 : M + 192 <= 2 ^ 14) by lia. assert (ML : M < P_LIM) by (eapply Z.le_lt_trans with (2 ^ 14); [lia|vm_compute; reflexivity]).
  rewrite (log_unfold (S f) h g c x n p rm M Hp W Wn ltac:(lra) N0 EM ML). clear EM.
  assert (PU : prec_up (M + 64 + 5) = M + 128) by (unfold prec_up; clear - HM64; dlia). assert (PL : prec_up (M + 64 + 5) < P_LIM) by (rewrite PU; eapply Z.le_lt_trans with (2 ^ 14); [lia|vm_compute; reflexivity]). assert (PQ : 0 < M + 64 + 5) by lia.
  cbn [log_loop]. cbv zeta. destruct (widen (set_inexact x false) (M + 64 + 5) (wf_inexact x false W) PQ ltac:(change (wlen (set_inexact x false)) with (wlen x); lia) PL) as (z & -> & Wz & Lz & Sz & Vz). destruct (widen (set_inexact n false) (M + 64 + 5) (wf_inexact n false Wn) PQ ltac:(change (wlen (set_inexact n false)) with (wlen n); lia) PL) as (u & -> & Wu & Lu & Su & Vu).
  change (value (set_inexact x false)) with (value x) in Vz. change (value (set_inexact n false)) with (value n) in Vu. rewrite VX in Vz. change (pure c (Ok z)) with (Some (c, Ok z)). cbn [pbind]. change (pure c (Ok u)) with (Some (c, Ok u)). cbn [pbind].
  destruct (p_ln_one h g c z _ Wz Vz PQ PL) as (l & -> & Wl & Ml & Sl). cbn [pbind]. destruct Hc as [Hl He]. rewrite <- Vu in N0, N1. unfold p_ln.
  destruct (ln_close h g (fst c) u (M + 64 + 5) Hl Wu N0 N1 ltac:(rewrite PU; lia) ltac:(rewrite PU; lia) ltac:(rewrite PU; replace (M + 128 + 64) with (M + 64 + 128) by ring; exact HB)) as [->|(l' & q & -> & Hl' & NQ)]; [left; reflexivity|].
  right. rewrite Vu in NQ. destruct NQ as (_ & _ & SQ & (Wq & Nq & _) & _). cbn [pbind]. unfold pure. rewrite (div_zero l q (M + 64 + 5) RNone Wl Wq Ml (proj2 Nq) ltac:(lia) PL). cbn [pbind].
  rewrite Sl, PU. assert (SM : sign_mul Pos (ns q) = ns q) by (destruct (ns q); reflexivity). rewrite SM.
  destruct (zero_m_new ((M + 128) / 64) (ns q) false ltac:(clear - P64 HM1; dlia) ltac:(rewrite PU in PL; clear - PL HM64; dlia)) as (A & B & C). replace (64 * ((M + 128) / 64)) with (M + 128) in A, B, C by (clear - HM64; dlia). set (t := mk_num (m_new (M + 128)) (ns q) 0 false) in *.
  rewrite (try_exact t (prec_up p) rm (M + 64) eq_refl). destruct (set_precision_zero t (prec_up p) rm A C ltac:(lia) ltac:(rewrite up_idem; lia)) as (a & -> & Wa & La & Sa & Ma & Ia). cbn [bind].
  exists (l', snd c). eexists. exists (ns q). split; [split; [exact Hl'|exact He]|]. split; [reflexivity|]. split; [exact SQ|]. eexists. split; [reflexivity|]. split; [now apply wf_inexact|]. split; [change (wlen (set_inexact a (ninexact a || ninexact x || ninexact n))) with (wlen a); rewrite La; exact (up_idem p)|]. split; [exact Sa|]. split; [apply value_zero_iff; exact Ma|]. cbn. rewrite Ia. reflexivity.
Qed.
