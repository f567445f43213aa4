(** pow: the retry loop. *)

From Coq Require Import ZArith List Bool Lia Reals Lra.
From Flocq Require Import Core Relative.
From Verif Require Import ElemR Words IntModel Mantissa Num Pow Consts Elem Ctx Series Ln Exp RealPow SpecZ SpecOps SpecConst SpecReach SpecPow SpecElem WordsP Spec RealP RealP2 NumP CmpP AddP SetP AddNum MulNum DivNum ArithTop RoundableNum PowTop ConstTop ConstNum ConstReach SmallP PowExt IntNum ElemNum ElemDom ApproxR ConvNum Conv2Num CtxP ApproxNum SinhNum SinhTop ExpNum RetryNum ExpTop HypNum HypTop LnSharp LnTop LnUse SpecRealPow AsinhTop ElemInf.
Import ListNotations.
Open Scope Z_scope.
Ltac Zify.zify_post_hook ::= idtac.
Arguments Z.mul : simpl never.
Arguments Z.add : simpl never.
Arguments Z.pow : simpl never.
Arguments Z.sub : simpl never.
Arguments Z.of_nat : simpl never.
Ltac dlia := Z.div_mod_to_equations; lia.

Definition preach (c : pcache) : Prop := lreach (fst c) /\ reachable e_new e_for_prec (snd c).
(** Bound of the error of e^t in units of the working precision. *)
Definition KP : Z := 6 * 2 ^ 32 + 2.

Lemma widen x q : wf x -> 0 < q -> 64 * wlen x <= q -> prec_up q < P_LIM -> exists y, set_precision x q RNone = Ok y /\ wf y /\ 64 * wlen y = prec_up q /\ ns y = ns x /\ value y = value x.
Proof.
  intros W Hq HL HP. destruct (set_precision_spec x q RNone W Hq HP) as [_ S]. { right. right. exact HL. }
  assert (PP : q <= prec_up q) by (unfold prec_up; clear - Hq; dlia). rewrite rnd_grad_long in S by (auto; lia). destruct S as (y & E & Wy & Ly & Sy & Vy & _).
  { eapply Rlt_le_trans; [apply PowTop.value_lt_bpow; exact W|]. apply bpow_le. apply (wf_exp x W). }
  exists y. split; [exact E|]. split; [exact Wy|]. split; [unfold prec_up; rewrite Ly; reflexivity|]. split; [exact Sy|exact Vy].
Qed.

Lemma accept_not r v p rm w d y : wf v -> normal v -> ninexact v = true -> w + 64 <= 64 * wlen v -> has_sign (ns v) r -> lc d (Rabs r) (Rabs (value v)) ->
  (0 <= d <= 3 / 8 * bpow radix2 (- w))%R -> 0 < p -> p mod 64 = 0 -> w mod 64 = 0 -> p + 64 <= w -> nearest rm = false -> rm <> RNone -> try_set_precision v p rm w = Ok (y, true) -> value y <> r.
Proof.
  intros W N I L S C [D0 D2] Hp Hp64 Hw64 Hw D3 D4 T. pose proof (value_has_sign v W ltac:(apply N)) as SV.
  assert (E2 : (bpow radix2 (- w) <= / 16)%R) by (change (/ 16)%R with (bpow radix2 (-4)); apply bpow_le; lia).
  pose proof (lc_abs d _ _ ltac:(lra) C) as A. pose proof (Rabs_pos r) as R0.
  assert (R2 : (15 / 16 * Rabs r <= Rabs (value v))%R). { apply Rabs_le_inv in A. nra. }
  assert (ED : (Rabs (r - value v) < bpow radix2 (ne v - w))%R).
  { rewrite (signs_apart (ns v)) by assumption. eapply Rle_lt_trans; [exact A|]. pose proof (value_lt_bpow v W) as B. unfold Zminus. rewrite bpow_plus. pose proof (bpow_gt_0 radix2 (- w)) as G. pose proof (Rabs_pos (value v)).
    apply Rle_lt_trans with (8 / 3 * d * Rabs (value v))%R; [nra|]. apply Rle_lt_trans with (bpow radix2 (- w) * Rabs (value v))%R; [apply Rmult_le_compat_r; [assumption|lra]|]. rewrite Rmult_comm. apply Rmult_lt_compat_r; assumption. }
  refine (proj2 (accept_directed r v p rm w y W N I _ Hw64 _ ED D4 D3 T)); lia.
Qed.

Lemma exp_big u : (IZR (2 ^ 31) <= u)%R -> (bpow radix2 (EMAX + 1) <= exp u)%R.
Proof. intros H. eapply Rle_trans; [|apply exp_mono; exact H]. change (EMAX + 1) with (2 ^ 31). apply exp_two. lia. Qed.
Lemma emax_bpow : (bpow radix2 (EMAX + 1) = 2 * bpow radix2 EMAX)%R.
Proof. rewrite bpow_plus. change (bpow radix2 1) with 2%R. apply Rmult_comm. Qed.

(** e^m for an m close to t. *)
Lemma exp_shift W t m res : 128 <= W -> (0 < t)%R -> lc (IZR 3 * eps W) t m -> apx_or W Pos 2 (exp m) res -> apx_or W Pos KP (exp t) res.
Proof.
  intros HW T0 L A. pose proof (eps_pos W) as E0. assert (ES : (IZR 3 * eps W <= / 128)%R). { eapply Rle_trans; [apply eps_small; [exact HW|lia]|]. change (/ 128)%R with (bpow radix2 (-7)). apply bpow_le. lia. }
  assert (EB : (0 <= IZR 3 * eps W <= / 2)%R) by (set (e := eps W) in *; clearbody e; lra). pose proof (lc_abs _ _ _ EB L) as D. set (e := eps W) in *.
  destruct (Rle_or_lt t (IZR (2 ^ 32))) as [B|B].
  - assert (DB : (Rabs (m - t) <= IZR (6 * 2 ^ 32) * e)%R). { eapply Rle_trans; [exact D|]. rewrite mult_IZR. replace (2 * (3 * e) * t)%R with (6 * t * e)%R by ring. apply Rmult_le_compat_r; lra. }
    apply Rabs_le_inv in DB. assert (LE : lc (IZR (6 * 2 ^ 32) * e) (exp t) (exp m)). { split; [apply exp_pos|]. rewrite <- !exp_plus. split; apply exp_mono; lra. }
    destruct res as [v|[s| | |]|]; cbn [apx_or] in *; try contradiction.
    + destruct A as (A & X). split; [|exact X]. unfold KP. apply apx_trans with (exp m); [exact LE|exact A].
    + destruct A as (-> & O). split; [reflexivity|]. eapply Rle_trans; [exact O|]. fold e. unfold KP. rewrite plus_IZR, Rmult_plus_distr_r, exp_plus, <- Rmult_assoc. apply Rmult_le_compat_r; [left; apply exp_pos|]. apply LE.
  - assert (MB : (IZR (2 ^ 31) <= m)%R). { apply Rabs_le_inv in D. assert (2 * (3 * e) * t <= / 2 * t)%R by (apply Rmult_le_compat_r; lra). assert (IZR (2 ^ 32) = 2 * IZR (2 ^ 31))%R by (rewrite <- mult_IZR; reflexivity). lra. }
    assert (K0 : (0 <= IZR KP * e)%R) by (apply Rmult_le_pos; [apply IZR_le; vm_compute; discriminate|lra]).
    destruct res as [v|[s| | |]|]; cbn [apx_or] in *; try contradiction.
    + exfalso. destruct A as ((Wv & Nv & Sv & LC) & _). pose proof (exp_big m MB) as X. rewrite emax_bpow in X. pose proof (lc_two _ _ _ (eps_quarter W 2 HW ltac:(lia)) LC) as Q. pose proof (value_lt_bpow v Wv) as U.
      assert (U2 : (Rabs (value v) < bpow radix2 EMAX)%R) by (eapply Rlt_le_trans; [exact U|apply bpow_le; apply (wf_exp v Wv)]). lra.
    + destruct A as (-> & _). split; [reflexivity|]. assert (TB : (IZR (2 ^ 31) <= t)%R) by (eapply Rle_trans; [|left; exact B]; apply IZR_le; vm_compute; discriminate).
      pose proof (exp_big t TB) as X. rewrite emax_bpow in X. pose proof (bpow_gt_0 radix2 EMAX). pose proof (exp_ge1 _ K0) as Y. apply Rle_trans with (exp t * 1)%R; [lra|]. apply Rmult_le_compat_l; [left; apply exp_pos|exact Y].
Qed.

(** The zero that stands for a tiny power. *)
Definition tiny_zero (t : R) (p : Z) (q : num) : Prop := (t < 0)%R /\ wf q /\ 64 * wlen q = p /\ value q = 0%R /\ exists a, close p (exp (- t)) a /\ (bpow radix2 EMAX <= a)%R.
Lemma new_zero p s ix : 0 < p -> p mod 64 = 0 -> p < P_LIM -> exists q, n_new2 p s ix = Ok q /\ wf q /\ 64 * wlen q = p /\ value q = 0%R.
Proof.
  intros Hp Hp64 HL. assert (PU : prec_up p = p) by (unfold prec_up; clear - Hp64; dlia). pose proof (new2_exact p s ix Hp ltac:(rewrite PU; lia)) as (q & Eq & Wq & Lq & Sq & Vq & _). rewrite PU in Lq. rewrite round_p_eq in Eq by (rewrite ?PU; lia). change (64 * ((p + 63) / 64)) with (prec_up p) in Eq. rewrite PU in Eq. exists q. split; [exact Eq|]. split; [exact Wq|]. split; [exact Lq|exact Vq].
Qed.

(** ** One round *)
Section Round.
Context (w p : Z) (rm : rmode) (t : R) (h g : nat).
Hypotheses (Hp : 0 < p) (Hp64 : p mod 64 = 0) (Hpw : p + 64 <= w) (Hw64 : w mod 64 = 0) (HB : work h (w + 128) 64 <= 2 ^ 14).

Lemma w_lim : 128 <= w /\ w + 128 <= 2 ^ 14 /\ w + 64 < P_LIM /\ prec_up (w + 2) = w + 64.
Proof.
  assert (H1 : 128 <= w) by (clear - Hp Hp64 Hpw; dlia). pose proof (work_ge h (w + 128) 64 ltac:(lia) ltac:(lia)) as G. split; [exact H1|]. split; [lia|]. split; [eapply Z.lt_le_trans with (2 ^ 14); [lia|vm_compute; discriminate]|]. unfold prec_up. clear - Hw64. dlia.
Qed.
Definition exp_out (r : result (num + num)) : Prop :=
  match r with
  | Ok (inr v) => apx (w + 64) Pos (KP + 1) (exp t) v /\ 64 * wlen v = w + 64 /\ ninexact v = true
  | Ok (inl z) => tiny_zero t p z
  | Err (ExponentOverflow s) => elem_overflow (exp t) p rm s
  | _ => False
  end.
Lemma KP_bound : 0 <= KP + 1 <= 2 ^ 58 /\ 0 <= KP <= 2 ^ 58.
Proof. split; split; vm_compute; discriminate. Qed.

Lemma pow_exp_ok c m ix : preach c -> wf m -> normal m -> has_sign (ns m) t -> lc (IZR 3 * eps (w + 64)) (Rabs t) (Rabs (value m)) -> 64 * wlen m = w + 64 ->
  match pow_exp h g c m ix (w + 2) p with None => True | Some (c', r) => preach c' /\ exp_out r end.
Proof.
  intros [Hl He] W N S L Lm. destruct w_lim as (H1 & H2 & PL & PU). destruct KP_bound as [K1 K2]. assert (T0 : (0 < Rabs t)%R) by apply L.
  assert (HB2 : work h (w + 64 + 64) 64 + 64 <= 2 ^ 20) by (replace (w + 64 + 64) with (w + 128) by ring; change (2 ^ 20) with 1048576; change (2 ^ 14) with 16384 in HB; lia).
  unfold pow_exp. rewrite negative_sign. unfold p_exp. destruct (ns m) eqn:Sm.
  - assert (TN : (t < 0)%R) by (unfold has_sign in S; cbn [sgnZ] in S; lra). assert (TA : Rabs t = (- t)%R) by (apply Rabs_left; exact TN).
    assert (Wm : wf (set_sign m Pos)) by now apply wf_set_sign. assert (Nm : nonzero (set_sign m Pos)) by exact (proj2 N).
    assert (Vm : value (set_sign m Pos) = Rabs (value m)). { rewrite <- (abs_set_sign m Pos). symmetry. apply Rabs_pos_eq. pose proof (value_has_sign _ Wm Nm) as Q. unfold has_sign in Q. cbn [ns set_sign sgnZ] in Q. lra. }
    pose proof (exp_none h g (snd c) (set_sign m Pos) (w + 64) (w + 2) ltac:(lia) PU ltac:(lia) He Wm Nm eq_refl ltac:(change (wlen (set_sign m Pos)) with (wlen m); lia) HB2) as A.
    destruct (n_exp h g (snd c) (set_sign m Pos) (w + 2) RNone) as [[c' res]|]; [|exact I]. destruct A as [Hc' A]. rewrite Vm in A. pose proof (exp_shift (w + 64) _ _ res ltac:(lia) T0 L A) as B. rewrite TA in B. clear A.
    assert (PC : preach (fst c, c')) by (split; [exact Hl|exact Hc']). destruct res as [u|[s| | |]|]; cbn [apx_or] in B; try contradiction; unfold pure.
    + destruct B as (B & Lu & Iu). destruct (inv_wide (w + 64) (w + 2) RFromZero u _ KP ltac:(lia) ltac:(lia) PU PL B Iu ltac:(apply K2)) as [(v & -> & Av & Lv & Iv)|[-> O]]; cbn [bind]; (split; [exact PC|]); cbn [exp_out]; rewrite exp_Ropp, Rinv_inv in *.
      * split; [exact Av|]. split; [exact Lv|exact Iv].
      * apply (near_overflow _ p rm Pos w (KP + 1)); [exact K1|exact Hp|exact Hpw|apply pos_sign, exp_pos|]. rewrite Rabs_pos_eq by (left; apply exp_pos). exact O.
    + destruct B as [-> O]. destruct (new_zero p Pos ix Hp Hp64 ltac:(lia)) as (q & -> & Wq & Lq & Vq). cbn [bind]. split; [exact PC|]. cbn [exp_out]. split; [exact TN|]. split; [exact Wq|]. split; [exact Lq|]. split; [exact Vq|].
      exists (exp (- t) * exp (IZR KP * eps (w + 64)))%R. split; [|exact O]. apply near_close; [exact K2|exact Hp|exact Hpw].
  - assert (TP : (0 < t)%R) by (unfold has_sign in S; cbn [sgnZ] in S; lra). assert (TA : Rabs t = t) by (apply Rabs_pos_eq; lra). assert (Vm : value m = Rabs (value m)) by (symmetry; apply pos_value; [exact W|apply N|exact Sm]).
    pose proof (exp_none h g (snd c) m (w + 64) (w + 2) ltac:(lia) PU ltac:(lia) He W (proj2 N) Sm ltac:(lia) HB2) as A.
    destruct (n_exp h g (snd c) m (w + 2) RNone) as [[c' res]|]; [|exact I]. destruct A as [Hc' A]. rewrite Vm in A. pose proof (exp_shift (w + 64) _ _ res ltac:(lia) T0 L A) as B. rewrite TA in B. clear A.
    assert (PC : preach (fst c, c')) by (split; [exact Hl|exact Hc']). destruct res as [u|[s| | |]|]; cbn [apx_or] in B; try contradiction; cbn [pbind]; unfold pure; (split; [exact PC|]); cbn [exp_out].
    + destruct B as (B & Lu & Iu). split; [apply apx_weak with KP; [lia|exact B]|]. split; [exact Lu|exact Iu].
    + destruct B as [-> O]. apply (near_overflow _ p rm Pos w KP); [exact K2|exact Hp|exact Hpw|apply pos_sign, exp_pos|]. rewrite Rabs_pos_eq by (left; apply exp_pos). exact O.
Qed.

Lemma sign_product s1 s2 a b : has_sign s1 a -> has_sign s2 b -> has_sign (sign_mul s1 s2) (a * b).
Proof. unfold has_sign. intros A B. pose proof (Rmult_lt_0_compat _ _ A B). eapply Rlt_le_trans; [exact H|]. right. destruct s1, s2; unfold sign_mul; cbn; ring. Qed.
(** The exponent of the power. *)
Lemma pow_mul_ok y q v : wf y -> nonzero y -> (bpow radix2 (EMIN + 2 ^ 15) <= Rabs (value y))%R -> (bpow radix2 (- (2 ^ 15 - 8)) <= Rabs (ln v))%R -> ln_near (w + 64) v q -> t = (value y * ln v)%R ->
  (exists m, n_mul y q (w + 2) RNone = Ok m /\ wf m /\ normal m /\ has_sign (ns m) t /\ lc (IZR 3 * eps (w + 64)) (Rabs t) (Rabs (value m)) /\ 64 * wlen m = w + 64) \/
  (exists s, n_mul y q (w + 2) RNone = Err (ExponentOverflow s) /\ has_sign s t /\ (bpow radix2 (EMAX - 1) <= Rabs t)%R).
Proof.
  intros Wy Ny HY HL (Lq & Iq & Sq & (Wq & Nq & _ & LC) & _) Ht. destruct w_lim as (H1 & H2 & PL & PU). set (W := w + 64) in *. assert (HW : 128 <= W) by (unfold W; lia).
  pose proof (eps_pos W) as E0. assert (E2 : (2 * eta W <= IZR 2 * eps W)%R) by (rewrite eps_eta; pose proof (eta_pos W); lra).
  assert (LM : lc (IZR 2 * eps W) (Rabs t) (Rabs (value y * value q))). { rewrite Ht, !Rabs_mult. replace (IZR 2 * eps W)%R with (0 + IZR 2 * eps W)%R by ring. apply lc_mul; [apply lc_refl; apply Rabs_pos_lt; intros Z; apply Ny, value_zero_iff; exact Z|]. eapply lc_weak; [exact E2|exact LC]. }
  assert (ST : has_sign (sign_mul (ns y) (ns q)) t). { rewrite Ht. apply sign_product; [now apply value_has_sign|exact Sq]. }
  pose proof (lc_two _ _ _ (eps_quarter W 2 HW ltac:(vm_compute; discriminate)) LM) as Q.
  assert (TB : (bpow radix2 (EMIN + 8) <= Rabs t)%R). { rewrite Ht, Rabs_mult. replace (EMIN + 8) with ((EMIN + 2 ^ 15) + - (2 ^ 15 - 8)) by ring. apply low_mul; assumption. }
  assert (RB : (bpow radix2 EMIN <= Rabs (value y * value q))%R). { apply Rle_trans with (bpow radix2 (EMIN + 8) / 2)%R; [|lra]. replace (EMIN + 8) with ((EMIN + 7) + 1) by ring. rewrite (bpow_plus _ _ 1). change (bpow radix2 1) with 2%R. unfold Rdiv. rewrite Rmult_assoc, Rinv_r, Rmult_1_r by lra. apply bpow_le. lia. }
  pose proof (mul_nonzero y q (w + 2) RNone Wy Wq Ny (proj2 Nq) ltac:(lia) ltac:(rewrite PU; exact PL)) as C. rewrite PU in C. fold W in C. rewrite Iq, orb_true_r in C.
  destruct (cut_wide W W RNone _ _ _ _ C ltac:(lia) RB) as [(m & Em & Wm & Nm & Sm & Lm & LCm & Im)|[Em O]].
  - left. exists m. split; [exact Em|]. split; [exact Wm|]. split; [exact Nm|]. split; [rewrite Sm; exact ST|]. split; [|exact Lm]. replace (IZR 3 * eps W)%R with (IZR 2 * eps W + eps W)%R by ring. eapply lc_trans; [exact LM|exact LCm].
  - right. exists (sign_mul (ns y) (ns q)). split; [exact Em|]. split; [exact ST|].
    assert (O2 : (bpow radix2 EMAX <= Rabs t * exp (IZR 3 * eps W))%R). { eapply Rle_trans; [exact O|]. replace (IZR 3 * eps W)%R with (IZR 2 * eps W + eps W)%R by ring. rewrite exp_plus, <- Rmult_assoc. apply Rmult_le_compat_r; [left; apply exp_pos|]. apply LM. }
    assert (LT : lc (IZR 3 * eps W) (Rabs t) (Rabs t * exp (IZR 3 * eps W))). { assert (T0 : (0 < Rabs t)%R) by apply LM. split; [exact T0|]. split; [|lra]. apply Rmult_le_compat_l; [lra|]. apply exp_mono. lra. }
    pose proof (lc_two _ _ _ (eps_quarter W 3 HW ltac:(vm_compute; discriminate)) LT) as Q3. replace EMAX with ((EMAX - 1) + 1) in O2 by ring. rewrite bpow_plus in O2. change (bpow radix2 1) with 2%R in O2. lra.
Qed.
Lemma huge_exp : (bpow radix2 (EMAX - 1) <= Rabs t)%R -> (bpow radix2 EMAX <= exp (Rabs t))%R.
Proof.
  intros H. assert (B : (IZR (2 ^ 31) <= Rabs t)%R). { eapply Rle_trans; [|exact H]. change (IZR (2 ^ 31)) with (bpow radix2 31). apply bpow_le. vm_compute. discriminate. }
  pose proof (exp_big _ B) as X. rewrite emax_bpow in X. pose proof (bpow_gt_0 radix2 EMAX). lra.
Qed.
Lemma close_self r : close p r r.
Proof. unfold close. replace (r - r)%R with 0%R by ring. rewrite Rabs_R0. apply Rmult_le_pos; [apply Rabs_pos|apply bpow_ge_0]. Qed.
Definition mul_out (r : result (num + num)) : Prop :=
  match r with
  | Ok (inr m) => wf m /\ normal m /\ has_sign (ns m) t /\ lc (IZR 3 * eps (w + 64)) (Rabs t) (Rabs (value m)) /\ 64 * wlen m = w + 64
  | Ok (inl z) => tiny_zero t p z
  | Err (ExponentOverflow s) => elem_overflow (exp t) p rm s
  | _ => False
  end.
Lemma pow_product_ok y q v ix : wf y -> nonzero y -> (bpow radix2 (EMIN + 2 ^ 15) <= Rabs (value y))%R -> (bpow radix2 (- (2 ^ 15 - 8)) <= Rabs (ln v))%R -> ln_near (w + 64) v q -> t = (value y * ln v)%R ->
  mul_out (pow_product y q ix (w + 2) p).
Proof.
  intros Wy Ny HY HL HQ Ht. destruct w_lim as (H1 & H2 & PL & PU). unfold pow_product. destruct (pow_mul_ok y q v Wy Ny HY HL HQ Ht) as [(m & -> & M)|(s & -> & S & B)]; [exact M|]. apply huge_exp in B. destruct s; unfold has_sign in S; cbn [sgnZ] in S.
  - destruct (new_zero p Pos (ix || ninexact q) Hp Hp64 ltac:(lia)) as (z & -> & Wz & Lz & Vz). cbn [bind mul_out]. split; [lra|]. split; [exact Wz|]. split; [exact Lz|]. split; [exact Vz|]. exists (exp (- t)). split; [apply close_self|]. rewrite Rabs_left in B by lra. exact B.
  - cbn [mul_out]. split; [apply pos_sign, exp_pos|]. exists (exp t). split; [apply close_self|]. rewrite Rabs_pos_eq in B by lra. apply rnd_prec_big; [exact Hp|]. rewrite Rabs_pos_eq by (left; apply exp_pos). exact B.
Qed.

(** The result is not the exact power in the directed modes. *)
Definition apart (r : R) (q : num) : Prop := nearest rm = false -> rm <> RNone -> value q <> r.
Lemma small_power m : wf m -> normal m -> has_sign (ns m) t -> lc (IZR 3 * eps (w + 64)) (Rabs t) (Rabs (value m)) -> w + 2 + 1 < - ne m ->
  exists q, small_value ONE (is_negative m) p rm = Ok q /\ elem_result (exp t) p rm q /\ apart (exp t) q.
Proof.
  intros W N S L Hs. destruct w_lim as (H1 & H2 & PL & PU). assert (HW : 128 <= w + 64) by lia. pose proof (lc_two _ _ _ (eps_quarter (w + 64) 3 HW ltac:(vm_compute; discriminate)) L) as Q.
  assert (T0 : (0 < Rabs t)%R) by apply L. assert (T1 : (Rabs (value m) < bpow radix2 (ne m))%R) by (apply value_lt_bpow; exact W).
  assert (B : (2 * Rabs t < bpow radix2 (- p - 1))%R). { apply Rlt_le_trans with (bpow radix2 2 * bpow radix2 (ne m))%R; [change (bpow radix2 2) with 4%R; lra|]. rewrite <- bpow_plus. apply bpow_le. lia. }
  assert (B4 : (bpow radix2 (- p - 1) <= / 4)%R) by (change (/ 4)%R with (bpow radix2 (-2)); apply bpow_le; lia).
  assert (BS : beside (negb (is_negative m)) 1 (bpow radix2 (- p - 1)) (exp t)).
  { rewrite negative_sign. unfold has_sign in S. unfold beside. destruct (ns m); cbn [sgnZ] in S; cbn [negb].
    - rewrite Rabs_left in * by lra. pose proof (exp_near_neg (- t) ltac:(lra)) as E. rewrite Ropp_involutive in E. lra.
    - rewrite Rabs_pos_eq in * by lra. pose proof (exp_near_pos t ltac:(lra)) as E. lra. }
  assert (PL2 : Z.max p 128 + 64 < P_LIM) by (clear - PL H1 Hpw Hp; lia). destruct (one_small (is_negative m) p rm (exp t) Hp Hp64 PL2 BS) as (q & E & Qr). exists q. split; [exact E|].
  assert (X1 : (/ 2 <= exp t <= 2)%R) by (unfold beside in BS; destruct (negb _); lra). assert (ER : elem_result (exp t) p rm q).
  { apply (rounded_elem p rm Pos); [exact Hp|apply pos_sign, exp_pos| |exact Qr]. rewrite Rabs_pos_eq by lra. apply Rle_trans with (bpow radix2 (-1)); [apply bpow_le; vm_compute; discriminate|]. change (bpow radix2 (-1)) with (/ 2)%R. lra. }
  split; [exact ER|]. intros D1 D2 E3. destruct ER as (_ & _ & _ & _ & _ & D). specialize (D D1 D2). rewrite E3 in D.
  assert (V : Valid_exp (FLX_exp p)) by (apply flx_valid; exact Hp). assert (G : generic_format radix2 (FLX_exp p) (exp t)). { rewrite D. unfold rnd_prec. apply generic_format_round; [exact V|]. apply rnd_valid. }
  revert G. unfold beside in BS. destruct (negb _).
  - apply (generic_format_discrete radix2 (FLX_exp p) (exp t) (2 ^ (p - 1))). assert (MG : mag radix2 (exp t) = 1 :> Z). { apply mag_unique. rewrite Rabs_pos_eq by lra. change (bpow radix2 (1 - 1)) with 1%R. change (bpow radix2 1) with 2%R. lra. }
    unfold cexp, FLX_exp. rewrite MG. unfold F2R. cbn [Fnum Fexp]. rewrite plus_IZR. change (2 ^ (p - 1)) with (Zpower radix2 (p - 1)). rewrite IZR_Zpower by lia. rewrite Rmult_plus_distr_r, <- bpow_plus. replace (p - 1 + (1 - p)) with 0 by ring. change (bpow radix2 0) with 1%R.
    assert (bpow radix2 (- p - 1) <= bpow radix2 (1 - p))%R by (apply bpow_le; lia). lra.
  - apply (generic_format_discrete radix2 (FLX_exp p) (exp t) (2 ^ p - 1)). assert (MG : mag radix2 (exp t) = 0 :> Z). { apply mag_unique. rewrite Rabs_pos_eq by lra. change (bpow radix2 (0 - 1)) with (/ 2)%R. change (bpow radix2 0) with 1%R. lra. }
    unfold cexp, FLX_exp. rewrite MG. replace (2 ^ p - 1 + 1) with (2 ^ p) by ring. unfold F2R. cbn [Fnum Fexp]. rewrite minus_IZR. change (2 ^ p) with (Zpower radix2 p). rewrite IZR_Zpower by lia. rewrite Rmult_minus_distr_r, <- bpow_plus. replace (p + (0 - p)) with 0 by ring. change (bpow radix2 0) with 1%R.
    assert (bpow radix2 (- p - 1) <= bpow radix2 (0 - p))%R by (apply bpow_le; lia). lra.
Qed.
End Round.

(** ** The loop *)
Definition pow_out (t : R) (p : Z) (rm : rmode) (res : result num) : Prop :=
  match res with
  | Ok q => (elem_result (exp t) p rm q \/ tiny_zero t p q) /\ apart rm (exp t) q
  | Err (ExponentOverflow s) => elem_overflow (exp t) p rm s
  | _ => False
  end.
Lemma zero_apart t p rm q : tiny_zero t p q -> apart rm (exp t) q.
Proof. intros (_ & _ & _ & V & _) _ _. rewrite V. pose proof (exp_pos t). lra. Qed.
Theorem pow_loop_ok x0 n0 y p rm h g v B : wf y -> nonzero y -> (bpow radix2 (EMIN + 2 ^ 15) <= Rabs (value y))%R -> (0 < v)%R -> v <> 1%R -> 0 < p -> p mod 64 = 0 -> work h (B + 128) 64 <= 2 ^ 14 ->
  forall f c x w i, preach c -> wf x -> value x = v -> 64 * wlen x <= w -> p + 64 <= w -> w mod 64 = 0 -> 64 <= i -> i mod 64 = 0 -> work f w i <= B ->
  match pow_loop f h g c x0 n0 x y p rm w i with
  | None => True
  | Some (c', res) => preach c' /\ pow_out (value y * ln v) p rm res
  end.
Proof.
  intros Wy Ny HY V0 V1 Hp Hp64 HB0. induction f as [|f IH]; intros c x w i Hc W V L Hpw Hw64 Hi Hi64 HF; [exact I|].
  pose proof (work_ge (S f) w i ltac:(lia) ltac:(lia)) as HG. change (work (S f) w i) with (work f (w + i) (64 * (((w + i) / 5 + 63) / 64))) in HF, HG.
  pose proof (work_ge f (w + i) (64 * (((w + i) / 5 + 63) / 64)) ltac:(lia) ltac:(clear - Hp Hpw Hi; dlia)) as HG2.
  assert (HB : work h (w + 128) 64 <= 2 ^ 14) by (eapply Z.le_trans; [|exact HB0]; apply work_mono; lia).
  destruct (w_lim w p h Hp Hp64 Hpw Hw64 HB) as (H1 & H2 & PL & PU). pose proof (work_ge h (B + 128) 64 ltac:(lia) ltac:(lia)) as HH.
  assert (RI : round_p ((w + i) / 5) = 64 * (((w + i) / 5 + 63) / 64)) by (apply round_step; [lia|lia|change (2 ^ 20) with 1048576; change (2 ^ 14) with 16384 in HH; change (2 ^ 14) with 16384 in HB0; lia]).
  set (t := (value y * ln v)%R). cbn [pow_loop]. cbv zeta. destruct (widen x (w + 2) W ltac:(lia) ltac:(lia) ltac:(rewrite PU; exact PL)) as (z & -> & Wz & Lz & Sz & Vz). rewrite PU in Lz. unfold pure at 1. cbn [pbind].
  destruct Hc as [Hl He]. unfold p_ln. destruct (ln_close h g (fst c) z (w + 2) Hl Wz ltac:(rewrite Vz, V; exact V0) ltac:(rewrite Vz, V; exact V1) ltac:(rewrite PU; lia) ltac:(rewrite PU; lia) ltac:(rewrite PU; replace (w + 64 + 64) with (w + 128) by ring; exact HB)) as [->|(l' & q & -> & Hl' & NQ)]; [exact I|].
  rewrite PU, Vz, V in NQ. cbn [pbind]. set (c1 := (l', snd c)). assert (PC : preach c1) by (split; [exact Hl'|exact He]). clearbody c1. clear Hl' He Hl.
  assert (LB : (bpow radix2 (- (2 ^ 15 - 8)) <= Rabs (ln v))%R). { destruct (ln_size2 z Wz ltac:(rewrite Vz, V; exact V0) ltac:(rewrite Vz, V; exact V1) ltac:(rewrite Lz; change (2 ^ 20) with 1048576; change (2 ^ 14) with 16384 in H2; lia)) as [Q _]. rewrite Vz, V, Lz in Q. eapply Rle_trans; [|exact Q]. apply bpow_le. change (2 ^ 15) with 32768. change (2 ^ 14) with 16384 in H2. lia. }
  pose proof (pow_product_ok w p rm t h Hp Hp64 Hpw Hw64 HB y q v (ninexact n0) Wy Ny HY LB NQ eq_refl) as M. unfold pure at 1. destruct (pow_product y q (ninexact n0) (w + 2) p) as [[z0|m]|[s| | |]|]; cbn [mul_out] in M; try contradiction; cbn [pbind]; unfold pure.
  - split; [exact PC|]. split; [right; exact M|]. eapply zero_apart; exact M.
  - destruct M as (Wm & Nm & Sm & Lm & Wl). unfold small_exp. destruct (Z.ltb_spec (w + 2 + 1) (- ne m)) as [Hs|Hs].
    + destruct (small_power w p rm t h Hp Hp64 Hpw Hw64 HB m Wm Nm Sm Lm Hs) as (r & -> & R1 & R2). split; [exact PC|]. split; [left; exact R1|exact R2].
    + pose proof (pow_exp_ok w p rm t h g Hp Hp64 Hpw Hw64 HB c1 m (ninexact x0) PC Wm Nm Sm Lm Wl) as X. destruct (pow_exp h g c1 m (ninexact x0) (w + 2) p) as [[c2 [[z0|ret]|[s| | |]|]]|]; [| | | | | | |exact I]; destruct X as [PC2 X]; cbn [exp_out] in X; try contradiction; cbn [pbind].
      * split; [exact PC2|]. split; [right; exact X|]. eapply zero_apart; exact X.
      * destruct X as ((Wr & Nr & Sr & LCr) & Lr & Ir). destruct KP_bound as [KB _]. assert (SX : has_sign (ns ret) (exp t)) by (rewrite Sr; apply pos_sign, exp_pos). rewrite <- (Rabs_pos_eq (exp t)) in LCr by (left; apply exp_pos).
        pose proof (accept_elem (exp t) ret p rm w (KP + 1) Wr Nr Ir ltac:(lia) SX LCr KB Hp Hp64 Hw64 Hpw) as A.
        assert (DD : (0 <= IZR (KP + 1) * eps (w + 64) <= 3 / 8 * bpow radix2 (- w))%R). { destruct (eps_shift w p (KP + 1) KB Hpw) as [_ E2]. pose proof (eps_pos (w + 64)) as E0. assert (K0 : (0 <= IZR (KP + 1))%R) by (apply IZR_le; apply KB). pose proof (bpow_gt_0 radix2 (- w)). split; [apply Rmult_le_pos; lra|lra]. }
        pose proof (fun y => accept_not (exp t) ret p rm w _ y Wr Nr Ir ltac:(lia) SX LCr DD Hp Hp64 Hw64 Hpw) as AN.
        destruct (try_set_precision ret p rm w) as [[y0 [|]]|[s| | |]|]; try contradiction.
        -- split; [exact PC2|]. split; [left; rewrite <- orb_assoc; now apply elem_mark|]. intros D1 D2. exact (AN y0 D1 D2 eq_refl).
        -- rewrite RI. apply IH; [exact PC2|exact Wz|rewrite Vz; exact V|lia|lia| |clear - Hp Hpw Hi; dlia|rewrite Z.mul_comm; apply Z.mod_mul; lia|exact HF]. clear - Hw64 Hi64. dlia.
        -- split; [exact PC2|exact A].
      * split; [exact PC2|exact X].
  - split; [exact PC|exact M].
Qed.

(** ** The value of the power *)
Lemma minus_one_even j : powerRZ (-1) (2 * j) = 1%R.
Proof. replace (2 * j) with (j + j) by ring. rewrite powerRZ_add by lra. rewrite <- powerRZ_mult. replace (-1 * -1)%R with 1%R by ring. apply powerRZ_R1. Qed.
Lemma minus_one_odd j : powerRZ (-1) (2 * j + 1) = (-1)%R.
Proof. rewrite powerRZ_add, minus_one_even, powerRZ_1 by lra. ring. Qed.
Lemma power_value v y r : real_power v y r -> v <> 0%R -> (0 < v)%R \/ (v < 0)%R /\ ((odd_int y /\ r = (- exp (y * ln (Rabs v)))%R) \/ (~ odd_int y /\ r = exp (y * ln (Rabs v)))).
Proof.
  intros [[H _]|[_ (k & -> & ->)]] N; [left; exact H|]. destruct (Rtotal_order 0 v) as [H|[H|H]]; [left; exact H|congruence|]. right. split; [exact H|].
  assert (E : v = (-1 * Rabs v)%R) by (rewrite Rabs_left by exact H; ring). assert (A : (0 < Rabs v)%R) by (apply Rabs_pos_lt; exact N). assert (PV : powerRZ v k = (powerRZ (-1) k * exp (IZR k * ln (Rabs v)))%R) by (rewrite E at 1; rewrite powerRZ_mult, (powerRZ_Rpower (Rabs v)) by exact A; reflexivity). rewrite PV.
  pose proof (Z.div_mod k 2 ltac:(lia)) as D. pose proof (Z.mod_pos_bound k 2 ltac:(lia)) as B. assert (K : k mod 2 = 0 \/ k mod 2 = 1) by lia. destruct K as [K|K]; rewrite K in D.
  - right. split; [|replace (powerRZ (-1) k) with 1%R by (rewrite D, Z.add_0_r; symmetry; apply minus_one_even); ring]. intros (j & J). apply eq_IZR in J. lia.
  - left. split; [exists (k / 2); f_equal; exact D|]. replace (powerRZ (-1) k) with (-1)%R by (rewrite D; symmetry; apply minus_one_odd). ring.
Qed.
Lemma power_pos v y r : real_power v y r -> (0 < v)%R -> r = exp (y * ln (Rabs v)).
Proof. intros [[_ ->]|[_ (k & -> & ->)]] H; rewrite Rabs_pos_eq by lra; [reflexivity|]. rewrite powerRZ_Rpower by exact H. reflexivity. Qed.

Lemma overflow_neg r p rm : (0 < r)%R -> (exists s, elem_overflow r p (invert_rm_for_sign rm) s) -> elem_overflow (- r) p rm Neg.
Proof.
  intros R0 (s & _ & a & C & B). split; [unfold has_sign; cbn [sgnZ]; lra|]. exists (- a)%R. split; [unfold close in *; rewrite Rabs_Ropp; replace (- a - - r)%R with (- (a - r))%R by ring; rewrite Rabs_Ropp; exact C|]. rewrite rnd_prec_opp, Rabs_Ropp in B. exact B.
Qed.
Lemma overflow_pos r p rm : (0 < r)%R -> (exists s, elem_overflow r p rm s) -> elem_overflow r p rm Pos.
Proof. intros R0 (s & _ & X). split; [unfold has_sign; cbn [sgnZ]; lra|exact X]. Qed.
Definition finish (s : sign) (res : result num) : result num :=
  match res with Ok v => Ok (set_sign v s) | Err (ExponentOverflow _) => Err (ExponentOverflow s) | e => e end.
Definition away (r : R) (rm : rmode) (res : result num) : Prop := match res with Ok q => apart rm r q | _ => True end.
Lemma finish_pos t p rm res : pow_out t p rm res -> pow_post (exp t) p rm (finish Pos res) /\ away (exp t) rm (finish Pos res).
Proof.
  pose proof (exp_pos t) as E. destruct res as [q|[s| | |]|]; cbn [pow_out finish pow_post away]; try contradiction.
  - intros [[Q|(T & W & L & V & a & C & B)] A].
    + pose proof (elem_same _ _ _ _ E Q) as Q2. split; [left; exact Q2|]. intros D1 D2. assert (VV : value (set_sign q Pos) = value q); [|rewrite VV; now apply A]. rewrite value_set_sign. assert (SP : ns q = Pos). { destruct (ns q) eqn:SQ; [|reflexivity]. destruct Q as (_ & _ & S & _). unfold has_sign in S. rewrite SQ in S. cbn [sgnZ] in S. lra. } rewrite SP. cbn [sgnZ]. ring.
    + assert (V0 : value (set_sign q Pos) = 0%R) by (rewrite value_set_sign, V; ring). split; [|intros _ _; rewrite V0; lra]. right. split; [now apply wf_set_sign|]. split; [exact L|]. split; [exact V0|]. split; [apply pos_sign; exact E|]. exists a. rewrite Rabs_pos_eq by lra. rewrite <- exp_Ropp. auto.
  - intros O. split; [|exact I]. apply overflow_pos; [exact E|eexists; exact O].
Qed.
Lemma finish_neg t p rm res : pow_out t p (invert_rm_for_sign rm) res -> pow_post (- exp t) p rm (finish Neg res) /\ away (- exp t) rm (finish Neg res).
Proof.
  pose proof (exp_pos t) as E. destruct res as [q|[s| | |]|]; cbn [pow_out finish pow_post away]; try contradiction.
  - intros [[Q|(T & W & L & V & a & C & B)] A].
    + pose proof (elem_neg _ _ _ _ E Q) as Q2. split; [left; exact Q2|]. intros D1 D2. assert (VV : value (set_sign q Neg) = (- value q)%R). { rewrite value_set_sign. assert (SP : ns q = Pos). { destruct (ns q) eqn:SQ; [|reflexivity]. destruct Q as (_ & _ & S & _). unfold has_sign in S. rewrite SQ in S. cbn [sgnZ] in S. lra. } rewrite SP. cbn [sgnZ]. ring. }
      rewrite VV. assert (A2 : value q <> exp t) by (apply A; destruct rm; auto; discriminate). lra.
    + assert (V0 : value (set_sign q Neg) = 0%R) by (rewrite value_set_sign, V; ring). split; [|intros _ _; rewrite V0; lra]. right. split; [now apply wf_set_sign|]. split; [exact L|]. split; [exact V0|]. split; [unfold has_sign; cbn [set_sign ns sgnZ]; lra|]. exists a. rewrite Rabs_Ropp, Rabs_pos_eq by lra. rewrite <- exp_Ropp. auto.
  - intros O. split; [|exact I]. apply overflow_neg; [exact E|eexists; exact O].
Qed.

(** ** The whole function *)
Lemma not_special x n : wf x -> wf n -> nonzero x -> nonzero n -> Rabs (value x) <> 1%R -> Rabs (value n) <> 1%R -> (0 < value x)%R \/ (exists k, value n = IZR k) -> pow_special x n = false.
Proof.
  intros W Wn Nx N U V D. unfold pow_special. rewrite (is_zero_false n), (is_zero_false x) by auto.
  replace ((ne x =? 1) && (n_abs_cmp x ONE =? 0)) with false. 2:{ symmetry. destruct (_ && _) eqn:F; [|reflexivity]. apply (unit_iff x W) in F. contradiction. }
  replace ((ne n =? 1) && (n_abs_cmp n ONE =? 0)) with false. 2:{ symmetry. destruct (_ && _) eqn:F; [|reflexivity]. apply (unit_iff n Wn) in F. contradiction. }
  replace (is_negative x && negb (n_is_int n)) with false; [reflexivity|]. symmetry. rewrite neg_pos. destruct D as [D|D]; [apply (sign_pos x W Nx) in D; now rewrite D|]. apply (is_int_spec n Wn) in D. rewrite D. apply andb_false_r.
Qed.
Lemma special_general general x n p rm : pow_special x n = true -> n_pow general x n p rm = n_pow (fun _ _ _ _ => Panic) x n p rm.
Proof.
  unfold pow_special, n_pow. cbv zeta. destruct (is_zero n); [reflexivity|]. destruct (is_zero x); [reflexivity|]. destruct ((ne x =? 1) && (n_abs_cmp x ONE =? 0)); [reflexivity|]. destruct (is_negative x && negb (n_is_int n)); [reflexivity|]. cbn [orb]. intros ->. reflexivity.
Qed.
Theorem f_pow_all f h g c x n p rm r : preach c -> wf x -> wf n -> nonzero x -> nonzero n -> Rabs (value x) <> 1%R -> Rabs (value n) <> 1%R -> real_power (value x) (value n) r -> (bpow radix2 (EMIN + 2 ^ 15) <= Rabs (value n))%R -> 0 < p ->
  work h (work f (Z.max (prec_up p) (Z.max (64 * wlen x) (64 * wlen n)) + 64) 64 + 128) 64 <= 2 ^ 14 ->
  match f_pow f h g c x n p rm with
  | None => True
  | Some (c', res) => preach c' /\ pow_post r (prec_up p) rm res /\ away r rm res
  end.
Proof.
  intros Hc W Wn Nx N U V RP HY Hp HB. assert (X0 : value x <> 0%R) by (intros Z; apply Nx, value_zero_iff; exact Z).
  assert (D : (0 < value x)%R \/ (exists k, value n = IZR k)) by (destruct RP as [[H _]|[_ (k & H & _)]]; [left|right; exists k]; exact H).
  assert (PP : 0 < prec_up p /\ prec_up p mod 64 = 0) by (split; [unfold prec_up; clear - Hp; dlia|apply prec_up_mod]). destruct PP as [P0 P64].
  set (w0 := Z.max (prec_up p) (Z.max (64 * wlen x) (64 * wlen n)) + 64) in *. assert (W0 : 0 <= w0) by lia.
  pose proof (work_ge f w0 64 W0 ltac:(lia)) as G1. pose proof (work_ge h (work f w0 64 + 128) 64 ltac:(lia) ltac:(lia)) as G2.
  assert (PL : prec_up p < P_LIM). { eapply Z.lt_le_trans with (2 ^ 14); [lia|vm_compute; discriminate]. }
  unfold f_pow. rewrite not_special by assumption. cbv zeta. rewrite round_p_eq by lia. change (64 * ((p + 63) / 64)) with (prec_up p). change (mantissa_max_bit_len x) with (64 * wlen x). change (mantissa_max_bit_len n) with (64 * wlen n). fold w0.
  set (ret := if n_is_int n && n_is_odd_int n then ns x else Pos).
  set (x' := set_inexact (set_sign x Pos) false). set (y' := set_inexact n false).
  assert (Wx' : wf x') by (apply wf_inexact; now apply wf_set_sign). assert (Nx' : nonzero (set_sign x Pos)) by exact Nx.
  assert (Vx' : value x' = Rabs (value x)). { change (value x') with (value (set_sign x Pos)). rewrite <- (abs_set_sign x Pos). symmetry. apply Rabs_pos_eq. pose proof (value_has_sign _ (wf_set_sign x Pos W) Nx') as Q. unfold has_sign in Q. cbn [ns set_sign sgnZ] in Q. lra. }
  set (rm' := if is_pos ret then rm else match rm with RUp => RDown | RDown => RUp | v => v end).
  assert (M0 : w0 mod 64 = 0). { unfold w0. rewrite Z.add_mod, Z_mod_same_full, Z.add_0_r, Zmod_mod by lia. destruct (Z.max_spec (prec_up p) (Z.max (64 * wlen x) (64 * wlen n))) as [[_ ->]|[_ ->]]; [|exact P64]. destruct (Z.max_spec (64 * wlen x) (64 * wlen n)) as [[_ ->]|[_ ->]]; rewrite Z.mul_comm; apply Z.mod_mul; lia. }
  pose proof (pow_loop_ok x n y' (prec_up p) rm' h g (Rabs (value x)) (work f w0 64) (wf_inexact n false Wn) N HY ltac:(apply Rabs_pos_lt; exact X0) U P0 P64 HB f c x' w0 64 Hc Wx' Vx' ltac:(change (wlen x') with (wlen x); lia) ltac:(lia) M0 ltac:(lia) eq_refl ltac:(lia)) as L.
  change (value y') with (value n) in L.
  destruct (pow_loop f h g c x n x' y' (prec_up p) rm' w0 64) as [[c' res]|]; [|exact I]. destruct L as [PC L].
  assert (F : pow_post r (prec_up p) rm (finish ret res) /\ away r rm (finish ret res)).
  { destruct (power_value _ _ _ RP X0) as [XP|[XN [[O ->]|[O ->]]]].
    - rewrite (power_pos _ _ _ RP XP). assert (SX : ns x = Pos) by (apply value_pos_sign; assumption). assert (ret = Pos) by (unfold ret; rewrite SX; now destruct (_ && _)). unfold rm' in L. rewrite H in *. apply finish_pos. exact L.
    - assert (SX : ns x = Neg). { destruct (ns x) eqn:SX; [reflexivity|]. pose proof (value_has_sign x W Nx) as Q. rewrite SX in Q. unfold has_sign in Q. cbn [sgnZ] in Q. lra. }
      assert (ret = Neg). { unfold ret. rewrite (proj2 (odd_spec n Wn N) O). destruct O as (k & O). rewrite (proj2 (is_int_spec n Wn)) by (eexists; exact O). exact SX. } unfold rm' in L. rewrite H in *. apply finish_neg. exact L.
    - assert (ret = Pos). { unfold ret. destruct (n_is_odd_int n) eqn:OD; [exfalso; apply O, (odd_spec n Wn N); exact OD|]. rewrite andb_false_r. reflexivity. } unfold rm' in L. rewrite H in *. apply finish_pos. exact L. }
  destruct res as [q|[s| | |]|]; cbn [finish] in F; unfold pure; (split; [exact PC|exact F]).
Qed.
Theorem f_pow_ok f h g c x n p rm r : preach c -> wf x -> wf n -> nonzero x -> nonzero n -> Rabs (value x) <> 1%R -> Rabs (value n) <> 1%R -> real_power (value x) (value n) r -> (bpow radix2 (EMIN + 2 ^ 15) <= Rabs (value n))%R -> 0 < p ->
  work h (work f (Z.max (prec_up p) (Z.max (64 * wlen x) (64 * wlen n)) + 64) 64 + 128) 64 <= 2 ^ 14 ->
  match f_pow f h g c x n p rm with
  | None => True
  | Some (c', res) => preach c' /\ pow_post r (prec_up p) rm res
  end.
Proof.
  intros H1 H2 H3 H4 H5 H6 H7 H8 H9 H10 H11. pose proof (f_pow_all f h g c x n p rm r H1 H2 H3 H4 H5 H6 H7 H8 H9 H10 H11) as F. destruct (f_pow f h g c x n p rm) as [[c' res]|]; [|exact I]. destruct F as (A & B & _). split; [exact A|exact B].
Qed.

(** ** Exact powers *)
Lemma pow_nonzero v y r : real_power v y r -> v <> 0%R -> r <> 0%R.
Proof. intros P N. pose proof (exp_pos (y * ln (Rabs v))). destruct (power_value v y r P N) as [H0|[_ [[_ ->]|[_ ->]]]]; [rewrite (power_pos _ _ _ P H0)| |]; lra. Qed.
Lemma close_twice p r a : 0 < p -> close p r a -> (Rabs a <= 2 * Rabs r)%R.
Proof.
  intros Hp C. unfold close in C. assert (B : (bpow radix2 (- (p + 64)) <= 1)%R) by (change 1%R with (bpow radix2 0); apply bpow_le; lia). pose proof (Rabs_pos r). pose proof (Rabs_triang (a - r) r) as T. replace (a - r + r)%R with a in T by ring.
  set (b := bpow radix2 (- (p + 64))) in *. clearbody b. assert (Rabs r * b <= Rabs r * 1)%R by (apply Rmult_le_compat_l; assumption). lra.
Qed.
Lemma emax_out e : 1 + e < EMAX -> (bpow radix2 EMAX <= 2 * bpow radix2 e)%R -> False.
Proof. intros H L. change 2%R with (bpow radix2 1) in L. rewrite <- bpow_plus in L. apply le_bpow in L. lia. Qed.
Theorem f_pow_exact f h g c x n p rm r : preach c -> wf x -> wf n -> nonzero x -> nonzero n -> Rabs (value x) <> 1%R -> Rabs (value n) <> 1%R -> real_power (value x) (value n) r -> (bpow radix2 (EMIN + 2 ^ 15) <= Rabs (value n))%R -> 0 < p ->
  work h (work f (Z.max (prec_up p) (Z.max (64 * wlen x) (64 * wlen n)) + 64) 64 + 128) 64 <= 2 ^ 14 ->
  generic_format radix2 (FLX_exp (prec_up p)) r -> (bpow radix2 (EMIN + 8) <= Rabs r <= bpow radix2 (EMAX - 2))%R -> nearest rm = false -> rm <> RNone -> f_pow f h g c x n p rm = None.
Proof.
  intros H1 H2 H3 H4 H5 H6 H7 H8 H9 H10 H11 G [B1 B2] D1 D2. pose proof (f_pow_all f h g c x n p rm r H1 H2 H3 H4 H5 H6 H7 H8 H9 H10 H11) as F. destruct (f_pow f h g c x n p rm) as [[c' res]|]; [|reflexivity]. exfalso. destruct F as (_ & P & A).
  assert (P0 : 0 < prec_up p) by (unfold prec_up; clear - H10; dlia). assert (X0 : value x <> 0%R) by (intros Z; apply H4, value_zero_iff; exact Z). assert (R0 : (0 < Rabs r)%R) by (apply Rabs_pos_lt; eapply pow_nonzero; eassumption). pose proof (flx_valid _ P0) as VE.
  destruct res as [q|[s| | |]|]; cbn [pow_post away] in *; try contradiction.
  - destruct P as [(_ & _ & _ & _ & _ & Q)|(_ & _ & _ & _ & a & C & B)].
    + apply (A D1 D2). rewrite (Q D1 D2). unfold rnd_prec. apply round_generic; [apply rnd_valid|exact G].
    + pose proof (close_twice _ _ _ P0 C) as T. assert (IR : (Rabs (/ Rabs r) <= bpow radix2 (- (EMIN + 8)))%R). { rewrite Rabs_pos_eq by (left; apply Rinv_0_lt_compat; exact R0). rewrite bpow_opp. apply Rinv_le; [apply bpow_gt_0|exact B1]. }
      assert (LA : (bpow radix2 EMAX <= 2 * bpow radix2 (- (EMIN + 8)))%R) by (pose proof (Rle_abs a); lra). apply (emax_out (- (EMIN + 8))); [lia|exact LA].
  - destruct P as (_ & a & C & B). pose proof (close_twice _ _ _ P0 C) as T. assert (TA : (Rabs a <= bpow radix2 (EMAX - 1))%R). { replace (EMAX - 1) with (1 + (EMAX - 2)) by ring. rewrite bpow_plus. change (bpow radix2 1) with 2%R. lra. }
    assert (U : (Rabs (rnd_prec (prec_up p) rm a) <= bpow radix2 (EMAX - 1))%R). { unfold rnd_prec. apply abs_round_le_generic; [exact VE|apply rnd_valid| |exact TA]. apply generic_format_bpow. unfold FLX_exp. lia. }
    pose proof (Rle_trans _ _ _ B U) as LE. apply le_bpow in LE. lia.
Qed.
