(** The arctangent for arguments below one in magnitude. *)

From Coq Require Import ZArith List Bool Lia Reals Lra.
From Flocq Require Import Core.
From Verif Require Import Words IntModel Mantissa Num Pow Consts Elem Series Exp Ln Sin Atan SpecZ SpecOps SpecConst SpecPow SpecElem WordsP Spec RealP RealP2 NumP CmpP AddP SetP AddNum MulNum DivNum ArithTop ConvNum Conv2Num RootP ConstP ConstNum ExtP PowExt Refute1 ElemR ElemDom SmallP ElemNum ApproxR ApproxNum SeriesNum SinhR SinhNum SinhTop ExpNum LnR LnNum RetryNum ConstReach SpecReach ExpTop HypNum HypTop TanhNum AltNum AltDiv AtanR.
Import ListNotations.
Open Scope Z_scope.
Ltac Zify.zify_post_hook ::= idtac.
Arguments Z.mul : simpl never.
Arguments Z.add : simpl never.
Arguments Z.pow : simpl never.
Arguments Z.sub : simpl never.
Arguments Z.of_nat : simpl never.
Ltac dlia := Z.div_mod_to_equations; lia.

(** ** The generator *)
Definition prior (j : nat) : sign := if Nat.even j then Pos else Neg.
Lemma prior_S j : prior (S j) = sg j.
Proof. unfold prior, sg. rewrite Nat.even_succ, <- Nat.negb_even. destruct (Nat.even j); reflexivity. Qed.
Definition atan_at (j : nat) (c : num) : Prop := wf c /\ normal c /\ ns c = prior j /\ 64 * wlen c = 64 /\ value c = (sr (prior j) * IZR (2 * Z.of_nat j + 1))%R.
Lemma aC_inv j : (/ aC j = IZR (2 * Z.of_nat j + 3))%R.
Proof. unfold aC. rewrite Rinv_inv, INR_IZR_INZ. f_equal. lia. Qed.
Lemma atan_next_ok P j c : 128 <= P -> atan_at j c -> (j <= JMAX)%nat -> exists c' g', atan_next c = Ok (c', g') /\ atan_at (S j) g' /\ apx P (sg j) 0 (/ aC j) c' /\ 64 * wlen c' <= P.
Proof.
  intros HP (Wc & Nc & Sc & Lc & Vc) Hj. assert (HJ : Z.of_nat j <= 2 ^ 23) by (rewrite <- JMAX_Z; lia). unfold atan_next. rewrite max_len, Lc. set (m := 2 * Z.of_nat j + 1) in *.
  assert (Hadd : exists q, (if is_positive c then n_add c TWO 64 RNone else n_sub c TWO 64 RNone) = Ok q /\ wf q /\ normal q /\ ns q = prior j /\ 64 * wlen q = 64 /\ value q = (sr (prior j) * IZR (m + 2))%R).
  { assert (V0 : (0 < IZR (m + 2))%R) by (apply IZR_lt; unfold m; lia).
    assert (Q : forall op, op = 1 \/ op = -1 -> (IZR op = sr (prior j)) -> exists q, add_sub c TWO 64 op RNone false = Ok q /\ wf q /\ normal q /\ ns q = prior j /\ 64 * wlen q = 64 /\ value q = (sr (prior j) * IZR (m + 2))%R).
    { intros op Hop Eop. pose proof (add_sub_nonzero c TWO 64 op RNone Wc TWO_wf ltac:(destruct Nc; assumption) TWO_nonzero Hop ltac:(lia) ltac:(vm_compute; reflexivity)) as [C _].
      rewrite Vc, TWO_value, Eop in C. replace (sr (prior j) * IZR m + sr (prior j) * 2)%R with (sr (prior j) * IZR (m + 2))%R in C by (rewrite plus_IZR; ring). change (prec_up 64) with 64 in C.
      destruct C as (s & HS & C). { rewrite <- Eop. destruct Hop as [-> | ->]; lra. }
      assert (Es : s = prior j) by (unfold has_sign, sr in HS; destruct s, (prior j); cbn [sgnZ] in HS; try reflexivity; exfalso; lra). subst s.
      apply cut_exact in C; [|lia| |rewrite sr_abs by lra; apply mid_int; unfold m; lia].
      - destruct C as (q & E & C). exists q. split; [exact E|]. tauto.
      - unfold sr. rewrite <- mult_IZR. apply int_format. destruct (prior j); cbn [sgnZ]; unfold m; lia. }
    unfold is_positive. rewrite Sc. unfold n_add, n_sub, sr in *. destruct (prior j); cbn; apply Q; auto. }
  destruct Hadd as (q & -> & Wq & Nq & Sq & Lq & Vq). cbn [bind]. exists (n_neg q), (n_neg q). split; [reflexivity|].
  assert (V1 : value (n_neg q) = (sr (sg j) * IZR (m + 2))%R). { rewrite n_neg_value, Vq. unfold sr, prior, sg. destruct (Nat.even j); cbn [sgnZ]; ring. }
  assert (S1 : ns (n_neg q) = sg j). { unfold n_neg, set_sign. cbn [ns]. rewrite Sq. unfold prior, sg. destruct (Nat.even j); reflexivity. }
  assert (W1 : wf (n_neg q)) by now apply n_neg_wf. assert (N1 : normal (n_neg q)) by exact Nq.
  split; [|split; [|change (wlen (n_neg q)) with (wlen q); lia]].
  - unfold atan_at. rewrite prior_S. replace (2 * Z.of_nat (S j) + 1) with (m + 2) by (unfold m; lia). auto.
  - rewrite aC_inv. replace (2 * Z.of_nat j + 3) with (m + 2) by (unfold m; lia). eapply apx_same; [|rewrite <- S1; apply apx_self; assumption]. rewrite V1. apply sr_abs. apply IZR_le. unfold m. lia.
Qed.
Lemma atan_new_ok : exists c, atan_new = Ok c /\ atan_at 0 c.
Proof.
  unfold atan_new. destruct (from_word_spec 1 1 ltac:(lia) ltac:(lia) ltac:(vm_compute; reflexivity)) as (i & -> & Wi & Li & Si & _ & Vi). exists i. split; [reflexivity|]. split; [exact Wi|].
  split; [apply normal_iff; [exact Wi|]; rewrite Vi, Rabs_pos_eq by lra; change (IZR 1) with (bpow radix2 0); apply bpow_le; vm_compute; discriminate|]. split; [exact Si|]. split; [exact Li|]. rewrite Vi. change (2 * Z.of_nat 0 + 1) with 1. change (sr (prior 0)) with 1%R. lra.
Qed.

(** ** The number of reductions and of terms *)
Definition red_unit_a (p : Z) : Z := 2 * (calc_mul_cost p + calc_add_cost p) + calc_sqrt_cost p (calc_mul_cost p) (calc_add_cost p).
Lemma sqrt_cost_nonneg p : 1 <= p <= 2 ^ 22 -> 0 <= calc_sqrt_cost p (calc_mul_cost p) (calc_add_cost p).
Proof.
  intros H. pose proof (mul_cost_nonneg p ltac:(lia)) as M. unfold calc_sqrt_cost, calc_add_cost. assert (L : 0 <= log2_floor p) by (rewrite log2_floor_spec by lia; apply Z.log2_nonneg). apply Z.div_pos; [|lia]. apply Z.mul_nonneg_nonneg; [|lia]. apply Z.div_pos; [lia|lia].
Qed.
Lemma series_cost_a niter p : 0 <= niter < 2 ^ 32 -> 64 <= p <= 2 ^ 22 -> 0 < red_unit_a p /\ 0 <= series_cost niter p atan_iter_cost <= 3 * niter * red_unit_a p.
Proof.
  intros Hn Hp. pose proof (mul_cost_nonneg p ltac:(lia)) as M. pose proof (sqrt_int_le niter Hn) as S. pose proof (sqrt_cost_nonneg p ltac:(lia)) as C. unfold red_unit_a, series_cost, atan_iter_cost. set (cq := calc_sqrt_cost _ _ _) in *. unfold calc_add_cost. clearbody cq.
  set (m := calc_mul_cost p) in *. clearbody m. split; [lia|]. set (sq := sqrt_int niter) in *. clearbody sq.
  assert (A : 0 <= niter * (m + p + 64) <= niter * (2 * (m + p) + cq)) by nia.
  destruct (RECT_ITER_THRESHOLD <=? niter); [|nia].
  assert (B : 0 <= sq * m <= niter * (2 * (m + p) + cq)) by nia.
  assert (Q : 0 <= 10 * (niter / 10) <= niter) by (clear - Hn; dlia). set (q := niter / 10) in *. clearbody q.
  assert (E : 0 <= q * (2 * m + p + 64) <= q * (2 * (m + p) + cq)) by nia. nia.
Qed.
Lemma optimize_loop_a f p m step B : -1 <= m -> 64 <= p <= 2 ^ 22 -> 1 <= step -> forall times c1,
  0 <= times /\ 0 <= times + m -> match c1 with None => True | Some c => c <= B /\ step <= times /\ (times - step) * red_unit_a p <= c end ->
  (c1 = None -> series_cost (series_niter p (atan_red_effect times m) / 2) p atan_iter_cost + atan_red_cost times p <= B) ->
  (forall t, 0 <= t /\ 0 <= t + m -> 0 <= series_niter p (atan_red_effect t m) / 2 < 2 ^ 32) ->
  forall n niter e, optimize_loop atan_red_cost atan_red_effect f p atan_iter_cost m 2 step times c1 = Some (n, niter, e) ->
  times - step <= n /\ (c1 = None -> times <= n) /\ n * red_unit_a p <= B /\ e = atan_red_effect (n + step) m /\ niter = series_niter p e / 2.
Proof.
  intros Hm Hp Hs. induction f as [|f IH]; intros times c1 Ht Hc1 HB HN n niter e E; [discriminate E|]. cbn [optimize_loop] in E. cbv zeta in E.
  set (c2 := series_cost _ _ _ + atan_red_cost times p) in E. pose proof (series_cost_a _ p (HN times Ht) Hp) as [R0 [R1 _]].
  assert (C2 : times * red_unit_a p <= c2). { unfold c2, atan_red_cost. fold (red_unit_a p). lia. }
  destruct (match c1 with None => true | Some c => c2 <? c end) eqn:T.
  - apply IH in E; [|lia| |discriminate|exact HN].
    + destruct E as (E1 & _ & E3 & E4 & E5). split; [lia|]. split; [intros _; lia|]. auto.
    + split; [|split; [lia|replace (times + step - step) with times by ring; exact C2]]. destruct c1 as [c|]; [apply Z.ltb_lt in T; lia|]. apply HB. reflexivity.
  - destruct c1 as [c|]; [|discriminate T]. injection E as <- <- <-. destruct Hc1 as (Q1 & Q2 & Q3). split; [lia|]. split; [discriminate|]. split; [lia|]. replace (times - step + step) with times by ring. auto.
Qed.
Lemma optimize_a f p m n niter e : 128 <= p <= 2 ^ 22 -> -1 <= m -> series_cost_optimize atan_red_cost atan_red_effect f p atan_iter_cost m 2 = Some (n, niter, e) ->
  exists step, 3 <= step <= 11 /\ 0 <= n /\ step <= m + n /\ 10 * n <= 3 * p + 120 /\ e = n + step + m /\ 0 <= niter /\ 2 * niter * (e + 2) <= p.
Proof.
  intros Hp Hm E. unfold series_cost_optimize in E. rewrite log2_floor_spec in E by lia. assert (L7 : 7 <= Z.log2 p) by (apply Z.log2_le_pow2; lia). assert (L22 : Z.log2 p <= 22). { change 22 with (Z.log2 (2 ^ 22)). apply Z.log2_le_mono. lia. }
  set (step := Z.log2 p / 2) in *. assert (HS : 3 <= step <= 11) by (unfold step; clear - L7 L22; dlia). clearbody step.
  set (r0 := if m <? step then step - m else 0) in *. assert (R0 : 0 <= r0 <= 12 /\ step <= m + r0) by (unfold r0; destruct (Z.ltb_spec m step); lia). clearbody r0.
  assert (NI : forall t, 0 <= t /\ 0 <= t + m -> 0 <= series_niter p (atan_red_effect t m) / 2 < 2 ^ 32 /\ 2 * (series_niter p (atan_red_effect t m) / 2) * (atan_red_effect t m + 2) <= p).
  { intros t Ht. pose proof (niter_le p (atan_red_effect t m) ltac:(lia) ltac:(unfold atan_red_effect; lia)) as [N1 N2]. assert (E1 : 0 <= atan_red_effect t m) by (unfold atan_red_effect; lia). set (e0 := atan_red_effect t m) in *. set (k := series_niter p e0) in *. clearbody k e0.
    assert (D : p / (e0 + 2) * (e0 + 2) <= p) by (rewrite Z.mul_comm; apply Z.mul_div_le; lia). set (d := p / (e0 + 2)) in *. clearbody d.
    assert (H2 : 0 <= 2 * (k / 2) <= k) by (clear - N1; dlia). set (h := k / 2) in *. clearbody h. split; nia. }
  pose proof (NI r0 ltac:(lia)) as [N0 N1]. set (it0 := series_niter p (atan_red_effect r0 m) / 2) in *.
  assert (IT : 10 * it0 <= p) by (unfold atan_red_effect in N1; nia). pose proof (series_cost_a it0 p N0 ltac:(lia)) as [U0 [_ U1]].
  pose proof (optimize_loop_a f p m step ((3 * it0 + r0) * red_unit_a p) Hm ltac:(lia) ltac:(lia) r0 None ltac:(lia) I) as O.
  specialize (O ltac:(intros _; unfold atan_red_cost; fold (red_unit_a p) it0; lia) (fun t Ht => proj1 (NI t Ht)) n niter e E). destruct O as (_ & O2 & O3 & O4 & O5). specialize (O2 eq_refl).
  assert (n <= 3 * it0 + r0) by (apply Zmult_le_reg_r with (red_unit_a p); lia).
  exists step. split; [exact HS|]. split; [lia|]. split; [lia|]. split; [lia|]. split; [exact O4|]. rewrite O5, O4. destruct (NI (n + step) ltac:(lia)) as [Q1 Q2]. split; [lia|exact Q2].
Qed.

(** ** The reduction *)
Section Reduce.
Variables (P PO : Z).
Hypothesis HP : 128 <= P <= PO.
Hypothesis HPO : PO <= 2 ^ 22.
Hypothesis HP64 : prec_up PO = PO.
Let HPP : 128 <= P <= prec_up PO.
Proof. clear - HP HP64. lia. Qed.
Let HL : prec_up PO < P_LIM.
Proof. rewrite HP64. eapply Z.le_lt_trans; [exact HPO|]. vm_compute. reflexivity. Qed.

Lemma atan_reduce_ok s n : forall k a x, apx P s k a x -> 0 <= k -> k + 5 * Z.of_nat n <= 2 ^ 50 -> (0 < a <= 1)%R -> (bpow radix2 (- 2 ^ 26) <= a * (/ 4) ^ n)%R -> 64 * wlen x = PO ->
  exists q, atan_reduce_loop n PO x = Ok q /\ apx P s (k + 5 * Z.of_nat n) (halves n a) q /\ 64 * wlen q = PO.
Proof.
  induction n as [|n IH]; intros k a x Hx Hk HK Ha Hl Lx.
  - exists x. cbn [atan_reduce_loop halves]. split; [reflexivity|]. split; [|exact Lx]. replace (k + 5 * Z.of_nat 0) with k by lia. exact Hx.
  - cbn [atan_reduce_loop halves]. pose proof Hx as (W & N & Sx & L). set (u := Rabs (value x)) in *. assert (Ax : apx P s 0 u x) by (rewrite <- Sx; now apply apx_self).
    assert (H4 : (0 < (/ 4) ^ S n <= 1)%R) by (apply pow_le1; lra). assert (AL : (bpow radix2 (- 2 ^ 26) <= a)%R). { eapply Rle_trans; [exact Hl|]. apply Rle_trans with (a * 1)%R; [apply Rmult_le_compat_l; lra|lra]. }
    pose proof (lc_two _ _ _ (eps_quarter P k ltac:(lia) ltac:(lia)) L) as [U1 U2].
    assert (UL : (bpow radix2 (- 2 ^ 26 + -1) <= u)%R). { rewrite bpow_plus. change (bpow radix2 (-1)) with (/ 2)%R. lra. } assert (U0 : (0 < u <= 2)%R) by (split; [eapply Rlt_le_trans; [apply bpow_gt_0|exact UL]|lra]).
    assert (UU : (bpow radix2 (- 2 ^ 26 + -1 + (- 2 ^ 26 + -1)) <= u * u)%R) by now apply low_mul. assert (V2 : (0 < u * u <= 4)%R) by (clear - U0; nra).
    assert (MH : forall j a, (bpow radix2 j <= a)%R -> (a <= 1024)%R -> - HX <= j -> mid a) by (intros j b J1 J2 J; apply (mid_range j 10); [exact J|vm_compute; discriminate|split; assumption]).
    assert (M1 : forall b, (1 <= b <= 1024)%R -> mid b) by (intros b J; apply (MH 0); [exact (proj1 J)|apply J|vm_compute; discriminate]).
    assert (A1 : apx P Pos 1 1 ONE). { eapply apx_weak with 0; [lia|]. apply apx_exact; [exact ONE_wf|split; [reflexivity|exact ONE_nonzero]|reflexivity|exact ONE_value]. }
    destruct (apx_mul P PO RNone HPP HL _ _ _ _ _ _ _ _ Ax Ax ltac:(lia)) as (xx & -> & H1 & _ & _); [apply (MH _ _ UU); [lra|vm_compute; discriminate]|]. cbn [bind]. replace (sign_mul s s) with Pos in H1 by (destruct s; reflexivity).
    destruct (apx_add P PO RNone HPP HL Pos 1 (u * u) 1 xx ONE H1 A1 ltac:(lia)) as (n0 & -> & H2 & _ & _); [apply M1; lra|]. cbn [bind]. destruct (sqrt_sq1 u) as [Q1 Q2]. rewrite Rabs_pos_eq in Q2 by lra. rewrite (Rplus_comm (u * u)) in H2.
    destruct (apx_sqrt P PO RNone HPP HL _ _ n0 H2 ltac:(lia) ltac:(lia)) as (n1 & -> & H3 & _ & _); [apply M1; lra|]. cbn [bind].
    destruct (apx_add P PO RNone HPP HL Pos 3 (sqrt (1 + u * u)) 1 n1 ONE H3 ltac:(eapply apx_weak; [|exact A1]; lia) ltac:(lia)) as (n2 & -> & H5 & _ & _); [apply M1; lra|]. cbn [bind]. rewrite (Rplus_comm (sqrt _)) in H5.
    assert (HB : (u / 8 <= u / (1 + sqrt (1 + u * u)) <= u)%R). { unfold Rdiv. split; [apply Rmult_le_compat_l; [lra|]; apply Rinv_le; lra|]. apply Rle_trans with (u * / 1)%R; [|rewrite Rinv_1; lra]. apply Rmult_le_compat_l; [lra|]. apply Rinv_le; lra. }
    destruct (apx_div P PO RFromZero HPP HL _ _ _ _ _ _ _ _ Ax H5 ltac:(lia)) as (y & -> & H6 & Ly & _).
    { apply (MH (- 2 ^ 26 + -1 + -3)); [rewrite bpow_plus; change (bpow radix2 (-3)) with (/ 8)%R; lra|lra|vm_compute; discriminate]. }
    cbn [bind]. rewrite sign_mul_pos_r in H6. change (u / (1 + sqrt (1 + u * u)))%R with (half u) in H6.
    pose proof (half_bounds a Ha) as B. pose proof (half_pos a ltac:(lra)) as B0.
    destruct (IH (k + 5) (half a) y) as (q & Eq & Hq & Lq).
    + apply (apx_trans P s k 5 (half a) (half u) y); [|exact H6]. apply lc_half; [|exact L]. apply Rmult_le_pos; [apply IZR_le; lia|left; apply eps_pos].
    + lia. + lia. + lra.
    + eapply Rle_trans; [exact Hl|]. cbn [pow]. rewrite <- Rmult_assoc. apply Rmult_le_compat_r; [left; apply pow_lt; lra|lra].
    + rewrite Ly. exact HP64.
    + exists q. split; [exact Eq|]. split; [|exact Lq]. eapply apx_weak; [|exact Hq]. lia.
Qed.
End Reduce.

(** ** The series *)
Definition KT : Z := 2 ^ 57 + 2 ^ 30.
Theorem atan_series_one g x P s : 128 <= P <= 2 ^ 20 -> wf x -> normal x -> ns x = s -> 64 * wlen x = P -> - 2 ^ 21 <= ne x <= 1 -> (Rabs (value x) <= 1)%R ->
  ends (atan_series g x RNone) (fun q => apx P s KT (atan (Rabs (value x))) q /\ P <= 64 * wlen q /\ ninexact q = true).
Proof.
  intros HP W N S L He H1. unfold atan_series. cbv zeta. rewrite max_len, L. assert (HP64 : prec_up P = P) by (unfold prec_up; clear - L; dlia). assert (HP22 : 128 <= P <= 2 ^ 22) by (clear - HP; lia).
  destruct atan_new_ok as (gen & -> & Hgen). cbn [done rbind].
  destruct (series_cost_optimize atan_red_cost atan_red_effect g P atan_iter_cost (- ne x) 2) as [[[n niter] e]|] eqn:EO; [|left; reflexivity].
  destruct (optimize_a g P (- ne x) n niter e ltac:(clear - HP22; lia) ltac:(clear - He; lia) EO) as (step & Hst & Hn0 & Hsn & Hn & Ee & Hni & Hnt). clear EO.
  assert (He1 : n + step - ne x <= e) by (clear - Ee; lia). clear Ee.
  replace (e <? 3) with false by (symmetry; apply Z.ltb_ge; clear - He1 Hsn Hst; lia).
  set (m := - ne x) in *. assert (Hm : -1 <= m <= 2 ^ 21) by (unfold m; clear - He; lia).
  set (p_arg := P + (if 0 <? n * 8 + 2 - e then n * 8 + 2 - e else 0)). assert (Hpa : P <= p_arg <= P + 8 * n + 2). { unfold p_arg. clear - Hn He1 Hst Hn0 Hm m HP. destruct (Z.ltb_spec 0 (n * 8 + 2 - e)); unfold m in *; lia. }
  clearbody p_arg. set (PO := prec_up p_arg). assert (HPO : P <= PO <= 2 ^ 22) by (unfold PO; clear - Hpa HP HP64 Hn; rewrite <- HP64 at 1; unfold prec_up; dlia). assert (HPO64 : prec_up PO = PO) by (unfold PO, prec_up; clear; dlia).
  assert (HL : prec_up PO < P_LIM) by (rewrite HPO64; eapply Z.le_lt_trans; [apply HPO|]; vm_compute; reflexivity).
  assert (HPP : 128 <= P <= prec_up PO) by (clear - HPO64 HPO HP; lia).
  assert (EP : 0 < P /\ 0 < p_arg) by (clear - HP Hpa; lia).
  pose proof (apx_self P x W N) as Ax. rewrite S in Ax. destruct (normal_range x W N) as [X1 X2].
  destruct (apx_len_up P s 0 _ x p_arg Ax ltac:(fold PO; clear - L HPO; lia) ltac:(apply EP) ltac:(fold PO; rewrite <- HPO64; exact HL)) as (x1 & -> & Ax1 & L1 & _). fold PO in L1. cbn [done rbind].
  assert (Hn26 : 0 <= n <= 2 ^ 26) by (clear - Hn Hn0 HP; lia).
  set (ax := Rabs (value x)) in *. assert (AX1 : (bpow radix2 (- m - 1) <= ax)%R) by (unfold m; rewrite Z.opp_involutive; exact X1). assert (AX2 : (ax <= bpow radix2 (- m))%R) by (unfold m; rewrite Z.opp_involutive; left; exact X2).
  assert (AX3 : (ax <= 1)%R) by exact H1.
  assert (P4 : forall r, ((/ 4) ^ Z.to_nat r = bpow radix2 (- (2 * Z.of_nat (Z.to_nat r))))%R) by (intros r; generalize (Z.to_nat r); clear; intros i; induction i as [|i IH]; [reflexivity|]; cbn [pow]; rewrite IH; change (/ 4)%R with (bpow radix2 (-2)); rewrite <- bpow_plus; f_equal; lia).
  assert (P2 : forall r, ((/ 2) ^ Z.to_nat r = bpow radix2 (- Z.of_nat (Z.to_nat r)))%R) by (intros r; generalize (Z.to_nat r); clear; intros i; induction i as [|i IH]; [reflexivity|]; cbn [pow]; rewrite IH; change (/ 2)%R with (bpow radix2 (-1)); rewrite <- bpow_plus; f_equal; lia).
  specialize (P4 n). specialize (P2 n). rewrite Z2Nat.id in P4, P2 by exact Hn0.
  assert (AX0 : (0 < ax)%R) by (eapply Rlt_le_trans; [apply bpow_gt_0|exact AX1]).
  assert (AL4 : (bpow radix2 (- m - 1 + - (2 * n)) <= ax * (/ 4) ^ Z.to_nat n)%R) by (rewrite P4; apply low_mul; [exact AX1|apply Rle_refl]).
  assert (RED : exists arg, (if 0 <? n then atan_arg_reduce x1 n else Ok x1) = Ok arg /\ apx P s (5 * n) (halves (Z.to_nat n) ax) arg /\ 64 * wlen arg = PO).
  { assert (R : exists q, atan_reduce_loop (Z.to_nat n) PO x1 = Ok q /\ apx P s (0 + 5 * Z.of_nat (Z.to_nat n)) (halves (Z.to_nat n) ax) q /\ 64 * wlen q = PO).
    { apply (atan_reduce_ok P PO ltac:(clear - HP HPO; lia) ltac:(apply HPO) HPO64); [exact Ax1|clear; lia|rewrite Z2Nat.id by exact Hn0; clear - Hn26; lia|lra| |exact L1]. eapply low_weak; [|exact AL4]. clear - Hm Hn HP. lia. }
    destruct R as (q & Eq & Hq & Lq). rewrite Z2Nat.id in Hq by exact Hn0. unfold atan_arg_reduce. rewrite max_len, L1. destruct (Z.ltb_spec 0 n) as [Z0|Z0]; [exists q; auto|]. exists x1. assert (n = 0) by (clear - Z0 Hn0; lia). subst n. cbn [atan_reduce_loop Z.to_nat] in Eq. injection Eq as <-. auto. }
  destruct RED as (arg & -> & Harg & Larg). cbn [done rbind].
  destruct (halves_bounds (Z.to_nat n) ax ltac:(lra)) as [TL TU0]. pose proof (halves_atan (Z.to_nat n) ax) as EH. set (t := halves (Z.to_nat n) ax) in *.
  assert (TU : (t <= / 8)%R). { eapply Rle_trans; [exact TU0|]. rewrite P2. change (/ 8)%R with (bpow radix2 (-3)). apply Rle_trans with (bpow radix2 (- m) * bpow radix2 (- n))%R; [apply Rmult_le_compat_r; [apply bpow_ge_0|exact AX2]|]. rewrite <- bpow_plus. apply bpow_le. unfold m in *. clear - Hsn Hst. lia. }
  apply (Rle_trans _ _ _ AL4) in TL.
  assert (T0 : (0 < t)%R) by (eapply Rlt_le_trans; [apply bpow_gt_0|exact TL]).
  pose proof Harg as (Wa & Na & Sa & La). set (A := Rabs (value arg)) in *. pose proof (lc_two _ _ _ (eps_quarter P (5 * n) ltac:(apply HP) ltac:(clear - Hn26; lia)) La) as [A1 _].
  assert (TW : (bpow radix2 (-66) <= / 64)%R) by (change (/ 64)%R with (bpow radix2 (-6)); apply bpow_le; clear; lia). pose proof (eps_pos P) as Ep.
  assert (A2 : (A <= 33 / 32 * t)%R). { pose proof (eps_small P (5 * n) ltac:(apply HP) ltac:(clear - Hn26; lia)) as E5. assert (E0 : (0 <= IZR (5 * n) * eps P)%R) by (apply Rmult_le_pos; [apply IZR_le; clear - Hn0; lia|lra]). pose proof (exp_upper (IZR (5 * n) * eps P) ltac:(lra)) as EU. destruct La as (_ & _ & UA). eapply Rle_trans; [exact UA|]. rewrite Rmult_comm. apply Rmult_le_compat_r; lra. }
  assert (AA : apx P s 0 A arg) by (rewrite <- Sa; now apply apx_self).
  assert (AL : (bpow radix2 (- m - 2 - 2 * n) <= A)%R). { replace (- m - 2 - 2 * n) with (- m - 1 + - (2 * n) + -1) by ring. rewrite bpow_plus. change (bpow radix2 (-1)) with (/ 2)%R. lra. }
  assert (A0 : (0 < A)%R) by lra. assert (AM : - HX <= - m - 2 - 2 * n + (- m - 2 - 2 * n)) by (unfold HX; clear - Hm Hn26; lia).
  assert (AAL : (bpow radix2 (- m - 2 - 2 * n + (- m - 2 - 2 * n)) <= A * A)%R) by now apply low_mul.
  assert (EPM : prec_up p_arg = prec_up PO) by (fold PO; congruence).
  destruct (apx_mul P p_arg RNone ltac:(rewrite EPM; exact HPP) ltac:(rewrite EPM; exact HL) _ _ _ _ _ _ _ _ AA AA ltac:(clear; lia)) as (xs & -> & Hxs & Lxs & _).
  { apply (mid_range (- m - 2 - 2 * n + (- m - 2 - 2 * n)) 0); [exact AM|vm_compute; discriminate|]. split; [exact AAL|]. change (bpow radix2 0) with 1%R. clear - A0 A2 TU. nra. }
  cbn [done rbind]. replace (sign_mul s s) with Pos in Hxs by (destruct s; reflexivity). fold PO in Lxs. pose proof Hxs as (Ws & Ns & Ss & Ls). set (X := Rabs (value xs)) in *.
  pose proof (lc_two _ _ _ (eps_quarter P (0 + 0 + 1) ltac:(apply HP) ltac:(clear; lia)) Ls) as [XA _].
  assert (XU : (X <= / 32)%R). { pose proof (eps_small P (0 + 0 + 1) ltac:(apply HP) ltac:(clear; lia)) as E5. assert (E0 : (0 <= IZR (0 + 0 + 1) * eps P)%R) by (apply Rmult_le_pos; [apply IZR_le; clear; lia|lra]). pose proof (exp_upper (IZR (0 + 0 + 1) * eps P) ltac:(lra)) as EU. destruct Ls as (_ & _ & UA). eapply Rle_trans; [exact UA|]. assert (A * A <= / 50)%R by (clear - A0 A2 TU; nra). pose proof (exp_pos (IZR (0 + 0 + 1) * eps P)). apply Rle_trans with (/ 50 * (33 / 32))%R; [apply Rmult_le_compat; try lra; clear - A0; nra|lra]. }
  assert (AX : apx P Pos 0 X xs) by (rewrite <- Ss; now apply apx_self).
  destruct (normal_range xs Ws Ns) as [R1 R2]. fold X in R1, R2.
  assert (E1 : ne xs <= -4). { assert (ne xs - 1 <= -5); [|lia]. apply (le_bpow radix2). eapply Rle_trans; [exact R1|exact XU]. }
  assert (E2 : 1 - ne xs <= 2 * m + 4 * n + 5). { assert (EX : - m - 2 - 2 * n + (- m - 2 - 2 * n) + -1 < ne xs); [|clear - EX; lia]. apply (lt_bpow radix2). eapply Rle_lt_trans; [|exact R2]. rewrite bpow_plus. change (bpow radix2 (-1)) with (/ 2)%R. lra. }
  assert (X0 : (0 < X)%R) by (eapply Rlt_le_trans; [apply bpow_gt_0|exact R1]).
  assert (FL : (bpow radix2 (- m - 2 - 2 * n + (ne xs - 1)) <= A * X)%R) by now apply low_mul.
  assert (FU : (A * X <= A / 2)%R) by (clear - A0 X0 XU; nra).
  destruct (apx_mul P p_arg RNone ltac:(rewrite EPM; exact HPP) ltac:(rewrite EPM; exact HL) _ _ _ _ _ _ _ _ AA AX ltac:(clear; lia)) as (xf & -> & Hxf & Lxf & _).
  { apply (mid_range (- m - 2 - 2 * n + (ne xs - 1)) 0); [unfold HX; clear - Hm Hn26 E2; lia|vm_compute; discriminate|]. split; [exact FL|]. change (bpow radix2 0) with 1%R. lra. }
  cbn [done rbind]. rewrite sign_mul_pos_r in Hxf. fold PO in Lxf.
  (* the sum *)
  eapply ends_bind.
  { apply (alt_run_ok P PO num atan_next atan_at aC JMAX 0 26 ltac:(clear - HP HPO; lia) ltac:(apply HPO) HPO64 ltac:(clear; lia) ltac:(clear; lia) aC_range aC_decr) with (s := s) (k := 1) (A := A) (F := (A * X)%R).
    - exact aC_low.
    - intros j g0 Hj HJ. destruct (atan_next_ok P j g0 ltac:(apply HP) Hj HJ) as (c & g' & Q1 & Q2 & Q3 & Q4). exists c, g'. split; [exact Q1|]. split; [exact Q2|]. split; [exact Q3|]. clear - Q4 HPO. lia.
    - exact Ws. - exact Ns. - exact Ss. - exact Lxs. - clear - E1. lia.
    - eapply apx_weak; [|exact AA]. clear. lia.
    - eapply apx_weak; [|exact Hxf]. clear. lia.
    - exact Larg. - exact Lxf. - exact Hgen.
    - clear. lia.
    - split; [eapply low_weak; [|exact FL]; clear - Hm Hn HP E2; lia|exact FU].
    - lra.
    - clear - Hni Hnt HP He1 Hn0 Hst He m. nia.
    - assert (Q1 : 1 - ne xs <= 4 * (e + 2)) by (unfold m in *; clear - E2 He1 Hst He Hn0; lia). assert (Q2 : 2 * niter * (1 - ne xs) <= 4 * P) by (clear - Q1 Hnt Hni; nia). clear - Q2 E2 Hn Hm HP. lia.
    - rewrite JMAX_Z. unfold J22. unfold m in *. clear - Hni Hnt HP He1 Hn0 Hst He. nia. }
  intros ret [(M & HM & Hret & Lret & Tail) Iret]. fold X in Hret, Tail.
  (* back to the arctangent *)
  set (b := sqrt X). assert (Bb : (b * b = X)%R) by (apply sqrt_sqrt; lra). assert (b0 : (0 < b)%R) by now apply sqrt_lt_R0.
  assert (LB : lc (IZR 1 * eps P) b A). { apply lc_sym. pose proof (lc_sqrt _ _ _ Ls) as Q. rewrite sqrt_square in Q by lra. fold b in Q. eapply lc_weak; [|exact Q]. change (IZR (0 + 0 + 1)) with 1%R. lra. }
  pose proof (atan_taylor b M ltac:(lra)) as TS. unfold ap in TS. rewrite Bb in TS.
  set (ps := psum aC (- X) 0 M) in *. assert (PS0 : (0 <= ps <= 1)%R). { unfold ps. pose proof (alt_range aC X aC_range aC_decr ltac:(split; [exact X0|lra]) M 0). pose proof (aC_range 0). lra. }
  set (T := (b - b * X * ps)%R) in *.
  assert (XP : (0 <= X * ps <= / 8)%R) by (split; [apply Rmult_le_pos; lra|apply Rle_trans with (/ 8 * 1)%R; [apply Rmult_le_compat; lra|lra]]).
  assert (TB : (b / 2 <= T)%R). { unfold T. rewrite Rmult_assoc. assert (b * (X * ps) <= b * / 8)%R by (apply Rmult_le_compat_l; lra). lra. }
  assert (LT : lc (IZR 512 * eps P) T (atan b)).
  { replace (IZR 512 * eps P)%R with (2 * (256 * eps P))%R by ring. apply lc_round; [lra|split; [lra|]; pose proof (eps_quarter P 512 ltac:(apply HP) ltac:(clear; lia)); lra|]. eapply Rle_trans; [exact TS|].
    assert (Q1 : (X * X ^ M * aC M <= 128 * eps P)%R). { apply Rmult_le_reg_l with A; [exact A0|]. replace (A * (X * X ^ M * aC M))%R with (A * X * X ^ M * aC M)%R by ring. replace (A * (128 * eps P))%R with (128 * eps P * A)%R by ring. exact Tail. }
    replace (b * X * X ^ M * aC M)%R with (b * (X * X ^ M * aC M))%R by ring. apply Rle_trans with (b * (128 * eps P))%R; [apply Rmult_le_compat_l; lra|]. assert (128 * eps P * (b / 2) <= 128 * eps P * T)%R by (apply Rmult_le_compat_l; lra). lra. }
  set (k0 := 2 ^ 8 * 1 + 2 ^ 57) in *. assert (K0 : k0 = 2 ^ 8 + 2 ^ 57) by reflexivity. clearbody k0.
  assert (LR2 : apx P s ((5 * n + 1) + (512 + (1 + k0))) (atan t) ret).
  { apply (apx_trans P s (5 * n + 1) _ (atan t) (atan b)).
    - apply lc_atan; [apply Rmult_le_pos; [apply IZR_le; clear - Hn0; lia|lra]|]. rewrite plus_IZR, Rmult_plus_distr_r. eapply lc_trans; [exact La|apply lc_sym; exact LB].
    - apply (apx_trans P s 512 _ (atan b) T); [apply lc_sym; exact LT|]. apply (apx_trans P s 1 _ T (A - A * X * ps)); [|exact Hret].
      replace T with ((1 - X * ps) * b)%R by (unfold T; ring). replace (A - A * X * ps)%R with ((1 - X * ps) * A)%R by ring. apply lc_scale; [lra|exact LB]. }
  assert (KB : 5 * n + 1 + (512 + (1 + k0)) <= KT) by (rewrite K0; unfold KT; clear - Hn26; lia).
  destruct (Z.ltb_spec 0 n) as [Z0|Z0].
  - (* scaling back *)
    pose proof LR2 as (Wr & Nr & Sr & Lr). destruct (normal_range ret Wr Nr) as [N1 N2]. pose proof (lc_two _ _ _ (eps_quarter P _ ltac:(apply HP) ltac:(eapply Z.le_trans; [exact KB|]; unfold KT; clear; lia)) Lr) as [B1 B2].
    assert (AT : (atan t <= / 8)%R) by (pose proof (atan_le_id t ltac:(lra)); lra). assert (ATL : (bpow radix2 (- m - 1 + - (2 * n) + -1) <= atan t)%R).
    { rewrite bpow_plus. change (bpow radix2 (-1)) with (/ 2)%R. pose proof (atan_near t ltac:(lra)) as [_ Q]. assert (/ 2 * (t * t * t) <= / 2 * t)%R by (clear - T0 TU; nra). lra. }
    assert (NE : ne ret <= 0). { apply Zlt_succ_le. assert (ne ret - 1 < 0); [|lia]. apply (lt_bpow radix2). change (bpow radix2 0) with 1%R. lra. }
    assert (NL : - m - 1 + - (2 * n) + -1 + -1 < ne ret). { apply (lt_bpow radix2). eapply Rle_lt_trans; [|exact N2]. rewrite bpow_plus. change (bpow radix2 (-1)) with (/ 2)%R. lra. }
    destruct (set_exponent_spec ret (ne ret + n) Wr) as (W1 & L3 & S3 & I3 & V3). { change EMIN with (- 2 ^ 31). change EMAX with (2 ^ 31 - 1). clear - NE NL Hm Hn26. lia. }
    set (q := set_exponent ret (ne ret + n)) in *. replace (ne ret + n - ne ret) with n in V3 by ring.
    assert (P2n : (2 ^ Z.to_nat n = bpow radix2 n)%R). { rewrite <- (Z2Nat.id n) at 2 by exact Hn0. generalize (Z.to_nat n). clear. intros i. induction i as [|i IH]; [reflexivity|]. cbn [pow]. rewrite IH. change 2%R with (bpow radix2 1) at 1. rewrite <- bpow_plus. f_equal. lia. }
    assert (AV : Rabs (value q) = (bpow radix2 n * Rabs (value ret))%R) by (rewrite V3, Rabs_mult, (Rabs_pos_eq (bpow radix2 n)) by apply bpow_ge_0; ring).
    apply ends_ok. split; [|split; [rewrite L3, Lret; clear - HPO; lia|rewrite I3; exact Iret]]. split; [exact W1|]. split; [|split; [rewrite S3; exact Sr|]].
    + apply normal_iff; [exact W1|]. rewrite AV. eapply Rle_trans; [|apply Rle_trans with (1 * Rabs (value ret))%R; [rewrite Rmult_1_l; exact N1|]].
      * apply bpow_le. change EMIN with (- 2 ^ 31). clear - NL Hm Hn26. lia.
      * apply Rmult_le_compat_r; [apply Rabs_pos|]. change 1%R with (bpow radix2 0). apply bpow_le. exact Hn0.
    + rewrite AV, EH, P2n. apply lc_scale; [apply bpow_gt_0|]. eapply lc_weak; [|exact Lr]. apply Rmult_le_compat_r; [lra|]. apply IZR_le. exact KB.
  - apply ends_ok. split; [|split; [clear - Lret HPO; lia|exact Iret]]. assert (n = 0) by (clear - Z0 Hn0; lia). subst n. replace (atan t) with (atan ax) in LR2 by (rewrite EH; cbn [Z.to_nat pow]; ring). eapply apx_weak; [|exact LR2]. exact KB.
Qed.
Theorem atan_series_ok g x P s : 128 <= P <= 2 ^ 20 -> wf x -> normal x -> ns x = s -> 64 * wlen x = P -> - 2 ^ 21 <= ne x <= 0 ->
  ends (atan_series g x RNone) (fun q => apx P s KT (atan (Rabs (value x))) q /\ P <= 64 * wlen q /\ ninexact q = true).
Proof.
  intros HP W N S L He. apply atan_series_one; try assumption; [lia|]. destruct (normal_range x W N) as [_ X2]. left. eapply Rlt_le_trans; [exact X2|]. change 1%R with (bpow radix2 0). apply bpow_le. lia.
Qed.

(** ** The loop *)
Lemma atan_sign_abs r : (Rabs r <= 1)%R -> r <> 0%R -> atan (Rabs r) = Rabs (atan r) /\ (forall s, has_sign s r -> has_sign s (atan r)) /\ (Rabs (atan r) <= 1)%R.
Proof.
  intros H N. assert (P : forall t, (0 < t <= 1)%R -> (0 < atan t <= 1)%R). { intros t T. split; [apply atan_pos; lra|]. pose proof (atan_le_id t ltac:(lra)). lra. }
  destruct (Rtotal_order r 0) as [R|[R|R]]; [|contradiction|].
  - rewrite Rabs_left in * by exact R. pose proof (P (- r)%R ltac:(lra)) as S. rewrite atan_opp in *. rewrite Rabs_left by lra. split; [reflexivity|]. split; [|lra]. intros s. unfold has_sign. destruct s; cbn [sgnZ]; intros; lra.
  - rewrite Rabs_pos_eq in * by lra. pose proof (P r ltac:(lra)) as S. rewrite (Rabs_pos_eq (atan r)) by lra. split; [reflexivity|]. split; [|lra]. intros s. unfold has_sign. destruct s; cbn [sgnZ]; intros; lra.
Qed.
Section Loop.
Context (x0 : num) (p : Z) (rm : rmode) (h g : nat) (c : pi_cache).
Hypotheses (W0 : wf x0) (N0 : nonzero x0) (Hp : 0 < p) (Hp64 : p mod 64 = 0) (He : - 2 ^ 21 <= ne x0 <= 0).

Definition atan_post (o : prun num) : Prop :=
  match o with
  | None => True
  | Some (c', res) => c' = c /\ exists q, res = Ok q /\ elem_result (atan (value x0)) p rm q
  end.
Theorem atan_loop_ok : forall f w i, p + 64 <= w -> w mod 64 = 0 -> 64 <= i -> i mod 64 = 0 -> 128 <= w -> 64 * wlen x0 <= w -> i <= 64 * (((w + i) / 5 + 63) / 64) ->
  work f w i + 64 <= 2 ^ 20 -> atan_post (atan_loop f g h c x0 p rm w i).
Proof.
  induction f as [|f IH]; intros w i Hpw Hw64 Hi Hi64 Hw HLx Hii HB; [exact I|].
  pose proof (work_ge (Datatypes.S f) w i ltac:(lia) ltac:(lia)) as HG.
  change (work (Datatypes.S f) w i) with (work f (w + i) (64 * (((w + i) / 5 + 63) / 64))) in HB, HG.
  pose proof (work_ge f (w + i) (64 * (((w + i) / 5 + 63) / 64)) ltac:(lia) ltac:(clear - Hw Hi; dlia)) as HG2.
  assert (PW : prec_up (w + 5) = w + 64) by (unfold prec_up; clear - Hw64; dlia). set (PX := prec_up (w + 5)) in *.
  assert (HPX : 128 <= PX <= 2 ^ 20) by (clear - PW HB HG HG2 Hw Hi; lia). assert (PL : PX < P_LIM) by (apply Z.le_lt_trans with (2 ^ 20); [apply HPX|vm_compute; reflexivity]).
  assert (HX : argument x0 w x0). { pose proof (argument_start x0 W0 N0 ltac:(apply Z.lt_le_trans with (- 2 ^ 21); [vm_compute; reflexivity|apply He])) as (_ & H2 & _). split; [exact W0|]. split; [exact H2|]. split; [reflexivity|]. split; [reflexivity|exact HLx]. }
  cbn [atan_loop]. cbv zeta. destruct (argument_len x0 w x0 (w + 5) ltac:(lia) PL ltac:(lia) HX) as (y & -> & HY & Sy & Ly). fold PX in HY, Ly. cbn [ppure pbind]. pose proof HY as (Wy & Ny & Vy & Ey & _).
  unfold atan_eval. rewrite Ey. replace (0 <? ne x0) with false by (symmetry; apply Z.ltb_ge; clear - He; lia).
  destruct (normal_range y Wy Ny) as [_ Y2]. rewrite Ey, Vy in Y2. assert (V1 : (Rabs (value x0) <= 1)%R) by (left; eapply Rlt_le_trans; [exact Y2|]; change 1%R with (bpow radix2 0); apply bpow_le; apply He).
  pose proof (value_has_sign x0 W0 N0) as VS. assert (V0 : value x0 <> 0%R) by (intros Z; unfold has_sign in VS; rewrite Z in VS; lra).
  destruct (atan_sign_abs (value x0) V1 V0) as (SA & SS & S1). specialize (SS _ VS).
  pose proof (atan_series_ok g y PX (ns x0) HPX Wy Ny Sy Ly ltac:(rewrite Ey; exact He)) as EV. destruct EV as [->|(ret & -> & A & L & Ir)]; [exact I|]. rewrite Vy, SA in A. cbn [ppure pbind].
  destruct A as (Wr & Nr & Sr & LCr).
  assert (KB : 0 <= KT <= 2 ^ 58) by (split; vm_compute; discriminate).
  assert (LC2 : lc (IZR KT * eps (w + 64)) (Rabs (atan (value x0))) (Rabs (value ret))) by (rewrite <- PW; exact LCr).
  pose proof (accept_elem (atan (value x0)) ret p rm w KT Wr Nr Ir ltac:(clear - L PW; lia) ltac:(rewrite Sr; exact SS) LC2 KB Hp Hp64 Hw64 Hpw) as AE.
  destruct (try_set_precision ret p rm w) as [[q [|]]|[t| | |]|]; try contradiction; cbn [ppure pbind].
  + split; [reflexivity|]. eexists. split; [reflexivity|]. now apply elem_mark.
  + rewrite round_step by (clear - HG HG2 HB Hw Hi; lia). apply IH; [lia| |clear - Hw Hi; dlia|rewrite Z.mul_comm; apply Z.mod_mul; lia|lia|lia| |exact HB].
    * clear - Hw64 Hi64. dlia.
    * assert (D : (w + i) / 5 <= (w + i + 64 * (((w + i) / 5 + 63) / 64)) / 5) by (apply Z.div_le_mono; [lia|]; clear - Hw Hi; dlia). assert ((((w + i) / 5 + 63) / 64) <= (((w + i + 64 * (((w + i) / 5 + 63) / 64)) / 5 + 63) / 64)) by (apply Z.div_le_mono; lia). lia.
  + exfalso. revert AE. now apply no_overflow.
Qed.
End Loop.

Theorem atan_ok f g h c x p rm : wf x -> nonzero x -> 0 < p -> (rm <> RNone \/ EMIN < ne x) -> ne x <= 0 ->
  work f (Z.max (prec_up p) (64 * wlen x) + 64) 64 + 64 <= 2 ^ 20 ->
  match f_atan f g h c x p rm with
  | None => True
  | Some (c', res) => c' = c /\ exists q, res = Ok q /\ (elem_result (atan (value x)) (prec_up p) rm q \/ rounded_to (prec_up p) rm (ns x) (atan (value x)) q)
  end.
Proof.
  intros W N Hp HN He HB. change (Z.max (prec_up p) (64 * wlen x)) with (max64 (prec_up p) x) in HB. assert (P64 : 64 <= prec_up p) by (unfold prec_up; clear - Hp; dlia). assert (M1 : prec_up p <= max64 (prec_up p) x) by (unfold max64; lia). assert (M2 : 64 * wlen x <= max64 (prec_up p) x) by (unfold max64; lia).
  pose proof (work_ge f (max64 (prec_up p) x + 64) 64 ltac:(lia) ltac:(lia)) as HG. assert (PL : max64 (prec_up p) x + 64 < P_LIM) by (eapply Z.le_lt_trans with (2 ^ 20); [lia|vm_compute; reflexivity]).
  unfold f_atan. destruct (Z_lt_le_dec (max64 (prec_up p) x + 1) (- (ne x * 2 - 1))) as [S|S].
  - match goal with |- context [@odd_in ?A ?ok ?rest 1 true x p rm] => rewrite (@odd_in_small A ok rest (fun _ _ _ => Panic) 1 true x p rm W N Hp ltac:(lia) S) end. cbv beta. split; [reflexivity|]. destruct (atan_small (fun _ _ _ => Panic) x p rm W N Hp PL HN S) as (q & E & Q). unfold n_atan in E. exists q. split; [exact E|now right].
  - match goal with |- context [@odd_in ?A ?ok ?rest 1 true x p rm] => rewrite (@odd_in_rest A ok rest 1 true x p rm W N Hp ltac:(lia) S) end. cbv beta. change (mantissa_max_bit_len x) with (64 * wlen x). change (Z.max (prec_up p) (64 * wlen x)) with (max64 (prec_up p) x).
    pose proof (atan_loop_ok x (prec_up p) rm h g c W N ltac:(lia) (prec_up_mod p) ltac:(lia) f (max64 (prec_up p) x + 64) 64 ltac:(lia) (max_mod p x) ltac:(lia) eq_refl ltac:(lia) ltac:(lia) ltac:(clear - M1 P64; dlia) ltac:(lia)) as O. unfold atan_post in O.
    destruct (atan_loop f g h c x _ _ _ _) as [[c' res]|]; [|exact I]. destruct O as (-> & q & -> & Q). split; [reflexivity|]. exists q. split; [reflexivity|now left].
Qed.
