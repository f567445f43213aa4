(** The exponential: the retry loop and the whole function. *)

From Coq Require Import ZArith List Bool Lia Reals Lra.
From Flocq Require Import Core.
From Verif Require Import Words IntModel Mantissa Num Pow Consts Elem Series Exp SpecZ SpecOps SpecConst SpecReach SpecPow SpecElem WordsP Spec RealP RealP2 NumP CmpP SetP AddNum DivNum ArithTop ConstNum ConstReach SmallP ElemNum ElemDom ApproxR ApproxNum SinhTop ExpNum RetryNum.
Import ListNotations.
Open Scope Z_scope.
Ltac Zify.zify_post_hook ::= idtac.
Arguments Z.mul : simpl never.
Arguments Z.add : simpl never.
Arguments Z.pow : simpl never.
Arguments Z.sub : simpl never.
Arguments Z.of_nat : simpl never.
Ltac dlia := Z.div_mod_to_equations; lia.

Lemma exp_abs_neg x : wf x -> nonzero x -> ns x = Neg -> (value x < 0)%R /\ exp (value x) = (/ exp (Rabs (value x)))%R.
Proof.
  intros W N S. pose proof (value_has_sign x W N) as V. rewrite S in V. unfold has_sign in V. cbn [sgnZ] in V. assert (V0 : (value x < 0)%R) by lra. split; [exact V0|].
  rewrite Rabs_left, exp_Ropp, Rinv_inv by exact V0. reflexivity.
Qed.
Lemma exp_abs_pos x : wf x -> nonzero x -> ns x = Pos -> exp (value x) = exp (Rabs (value x)).
Proof.
  intros W N S. pose proof (value_has_sign x W N) as V. rewrite S in V. unfold has_sign in V. cbn [sgnZ] in V. rewrite Rabs_pos_eq by lra. reflexivity.
Qed.
Lemma pos_sign r : (0 < r)%R -> has_sign Pos r.
Proof. intros H. unfold has_sign. cbn [sgnZ]. lra. Qed.

(** The reciprocal. *)
Lemma inv_wide P p rm y a k : 128 <= P -> 0 < p -> prec_up p = P -> P < P_LIM -> apx P Pos k a y -> ninexact y = true -> 0 <= k ->
  (exists v, n_div ONE y p rm = Ok v /\ apx P Pos (k + 1) (/ a) v /\ 64 * wlen v = P /\ ninexact v = true) \/
  (n_div ONE y p rm = Err (ExponentOverflow Pos) /\ (bpow radix2 EMAX <= / a * exp (IZR (k + 1) * eps P))%R).
Proof.
  intros HP Hp HPp HL Ay I Hk. pose proof (apx_nonzero _ _ _ _ _ Ay) as Ny. destruct Ay as (Wy & Nrm & Sy & Ly).
  pose proof (div_nonzero ONE y p rm ONE_wf Wy ONE_nonzero Ny Hp ltac:(lia)) as C. rewrite HPp, Sy in C. cbn [sign_mul ns ONE] in C.
  rewrite I, orb_true_r in C. change (sign_mul (ns ONE) Pos) with Pos in C. rewrite ONE_value in C. unfold Rdiv in C. rewrite Rmult_1_l in C.
  pose proof (lc_inv _ _ _ Ly) as LI. rewrite <- Rabs_inv in LI. pose proof (lc_pos _ _ _ Ly) as Yp.
  assert (RL : (bpow radix2 EMIN <= Rabs (/ value y))%R).
  { rewrite Rabs_inv. replace (bpow radix2 EMIN) with (/ bpow radix2 (- EMIN))%R by (rewrite <- bpow_opp, Z.opp_involutive; reflexivity). apply Rinv_le; [exact Yp|]. left. eapply Rlt_le_trans; [exact (proj2 (normal_range y Wy Nrm))|]. apply bpow_le. pose proof (wf_exp y Wy) as E. eapply Z.le_trans; [apply E|]. vm_compute. discriminate. }
  pose proof (cut_wide P P rm _ Pos true _ C ltac:(lia) RL) as [(v & Ev & Wv & Nv & Sv & Lv & LC & Iv)|[E O]].
  - left. exists v. split; [exact Ev|]. split; [|split; [exact Lv|exact (Iv eq_refl)]]. split; [exact Wv|]. split; [exact Nv|]. split; [exact Sv|].
    replace (IZR (k + 1) * eps P)%R with (IZR k * eps P + eps P)%R by (rewrite plus_IZR; ring). eapply lc_trans; [exact LI|exact LC].
  - right. split; [exact E|]. eapply Rle_trans; [exact O|]. replace (IZR (k + 1) * eps P)%R with (IZR k * eps P + eps P)%R by (rewrite plus_IZR; ring). rewrite exp_plus, <- Rmult_assoc. apply Rmult_le_compat_r; [left; apply exp_pos|]. apply LI.
Qed.

Lemma work_ge f : forall w i, 0 <= w -> 0 <= i -> w <= work f w i.
Proof.
  induction f as [|f IH]; intros w i Hw Hi; [reflexivity|]. change (work (S f) w i) with (work f (w + i) (64 * (((w + i) / 5 + 63) / 64))).
  eapply Z.le_trans; [|apply IH]; [lia|lia|clear - Hw Hi; dlia].
Qed.
Lemma negative_sign x : is_negative x = match ns x with Neg => true | Pos => false end.
Proof. unfold is_negative. destruct (ns x); reflexivity. Qed.

Theorem exp_loop_ok x p rm g : wf x -> nonzero x -> 0 < p -> p mod 64 = 0 -> forall f c w i, reachable e_new e_for_prec c ->
  p + 64 <= w -> 64 * wlen x + 64 <= w -> w mod 64 = 0 -> - w <= ne x -> 0 <= i -> i mod 64 = 0 -> work f w i + 64 <= 2 ^ 20 ->
  match exp_loop f g c x p rm w i with
  | None => True
  | Some (c', res) => reachable e_new e_for_prec c' /\ exp_post (value x) p rm res
  end.
Proof.
  intros W N Hp Hp64. induction f as [|f IH]; intros c w i Hc Hpw HLw Hw64 He Hi Hi64 HB; [exact I|].
  assert (Hw : 64 <= w) by lia. pose proof (work_ge (S f) w i ltac:(lia) Hi) as HG. change (work (S f) w i) with (work f (w + i) (64 * (((w + i) / 5 + 63) / 64))) in HB, HG.
  pose proof (work_ge f (w + i) (64 * (((w + i) / 5 + 63) / 64)) ltac:(lia) ltac:(clear - Hw Hi; dlia)) as HG2.
  assert (HwB : w + 64 <= 2 ^ 20) by lia. assert (P2 : prec_up (w + 2) = w + 64) by (unfold prec_up; clear - Hw64; dlia). assert (PL : w + 64 < P_LIM) by (eapply Z.le_lt_trans; [exact HwB|vm_compute; reflexivity]).
  assert (RI : round_p ((w + i) / 5) = 64 * (((w + i) / 5 + 63) / 64)). { assert (H : w + i <= 2 ^ 20) by lia. apply round_p_eq. { clear - Hw Hi; dlia. } apply Z.lt_trans with (2 ^ 21); [|vm_compute; reflexivity]. unfold prec_up. clear - Hw Hi H. change (2 ^ 20) with 1048576 in *. change (2 ^ 21) with 2097152. dlia. }
  assert (NX : forall c, reachable e_new e_for_prec c -> match exp_loop f g c x p rm (w + i) (round_p ((w + i) / 5)) with None => True | Some (c', res) => reachable e_new e_for_prec c' /\ exp_post (value x) p rm res end).
  { intros c0 H0. rewrite RI. apply IH; [exact H0|lia|lia| |lia|clear - Hw Hi; dlia|rewrite Z.mul_comm; apply Z.mod_mul; lia|exact HB]. clear - Hw64 Hi64. dlia. }
  assert (FIN : forall c ret K, reachable e_new e_for_prec c -> apx (w + 64) Pos K (exp (value x)) ret -> 64 * wlen ret = w + 64 -> ninexact ret = true -> 0 <= K <= 2 ^ 58 ->
    match (match try_set_precision ret p rm w with
        | Err e => Some (c, Err e)
        | Panic => Some (c, Panic)
        | Ok (ret, true) => Some (c, Ok (set_inexact ret (ninexact ret || ninexact x)))
        | Ok (_, false) => exp_loop f g c x p rm (w + i) (round_p ((w + i) / 5))
        end) with None => True | Some (c', res) => reachable e_new e_for_prec c' /\ exp_post (value x) p rm res end).
  { intros c0 ret K H0 (Wr & Nr & Sr & LCr) Lr Ir HK. assert (S0 : has_sign (ns ret) (exp (value x))) by (rewrite Sr; apply pos_sign, exp_pos). rewrite <- (Rabs_pos_eq (exp (value x))) in LCr by (left; apply exp_pos).
    pose proof (accept_elem (exp (value x)) ret p rm w K Wr Nr Ir ltac:(rewrite Lr; reflexivity) S0 LCr HK Hp Hp64 Hw64 Hpw) as A. destruct (try_set_precision ret p rm w) as [[y [|]]|[s| | |]|]; try contradiction.
    - split; [exact H0|]. left. now apply elem_mark.
    - apply NX, H0.
    - split; [exact H0|exact A]. }
  assert (KB : 0 <= KE <= 2 ^ 57) by (split; vm_compute; discriminate).
  cbn [exp_loop]. cbv zeta. destruct (exp_positive_ok g c x w Hw Hw64 HwB W N HLw He Hc) as [->|(c' & res & t & -> & Hc' & Ht & A)]; [exact I|].
  rewrite negative_sign. destruct (ns x) eqn:S.
  - destruct (exp_abs_neg x W N S) as [XN XE]. destruct res as [y|[s| | |]|]; cbn [apx_or] in A; try contradiction.
    + destruct A as (A & L & Iy). destruct (inv_wide (w + 64) (w + 2) RFromZero y _ KE ltac:(lia) ltac:(lia) P2 PL A Iy ltac:(apply KB)) as [(v & -> & Av & Lv & Iv)|[-> O]].
      * rewrite <- XE in Av. apply (FIN c' v (KE + 1)); [exact Hc'|exact Av|exact Lv|exact Iv|clear - KB; lia].
      * split; [exact Hc'|]. cbn [exp_post]. rewrite <- XE in O. apply (near_overflow _ p rm Pos w (KE + 1)); [clear - KB; lia|exact Hp|exact Hpw|apply pos_sign, exp_pos|]. rewrite Rabs_pos_eq by (left; apply exp_pos). exact O.
    + destruct A as [-> O]. split; [exact Hc'|]. assert (PU : prec_up p = p) by (unfold prec_up; clear - Hp64; dlia). pose proof (new2_exact p t (ninexact x) Hp ltac:(rewrite PU; lia)) as (q & Eq & Wq & Lq & Sq & Vq & _). rewrite PU in Lq. rewrite round_p_eq in Eq by (rewrite ?PU; lia). change (64 * ((p + 63) / 64)) with (prec_up p) in Eq. rewrite PU in Eq. rewrite Eq.
      cbn [exp_post]. right. split; [exact XN|]. split; [exact Wq|]. split; [exact Lq|]. split; [exact Vq|]. rewrite <- (Rabs_left _ XN).
      exists (exp (Rabs (value x)) * exp (IZR KE * eps (w + 64)))%R. split; [|exact O]. apply near_close; [clear - KB; lia|exact Hp|exact Hpw].
  - pose proof (exp_abs_pos x W N S) as XE. rewrite <- XE in A. destruct res as [y|[s| | |]|]; cbn [apx_or] in A; try contradiction.
    + destruct A as (A & L & Iy). apply (FIN c' y KE); [exact Hc'|exact A|exact L|exact Iy|clear - KB; lia].
    + destruct A as [-> O]. split; [exact Hc'|]. cbn [exp_post]. assert (Et : t = Pos) by (destruct Ht; assumption). rewrite Et. apply (near_overflow _ p rm Pos w KE); [clear - KB; lia|exact Hp|exact Hpw|apply pos_sign, exp_pos|]. rewrite Rabs_pos_eq by (left; apply exp_pos). exact O.
Qed.

Lemma rounded_elem p rm s r q : 0 < p -> has_sign s r -> (bpow radix2 (EMIN - 1) <= Rabs r)%R -> rounded_to p rm s r q -> elem_result r p rm q.
Proof.
  intros Hp S R1 (W & L & Sq & V & I). assert (G : rnd_grad p rm r = rnd_prec p rm r) by now apply grad_normal. rewrite G in V.
  split; [exact W|]. split; [exact L|]. split; [rewrite Sq; exact S|]. split; [exact I|]. split; [|intros _ _; exact V].
  exists r. split; [|exact V]. unfold close. replace (r - r)%R with 0%R by ring. rewrite Rabs_R0. apply Rmult_le_pos; [apply Rabs_pos|apply bpow_ge_0].
Qed.

Theorem exp_ok f g c x p rm : reachable e_new e_for_prec c -> wf x -> nonzero x -> 0 < p -> work f (Z.max (prec_up p) (64 * wlen x) + 64) 64 + 64 <= 2 ^ 20 ->
  match n_exp f g c x p rm with
  | None => True
  | Some (c', res) => reachable e_new e_for_prec c' /\ exp_post (value x) (prec_up p) rm res
  end.
Proof.
  intros Hc W N Hp HB. change (Z.max (prec_up p) (64 * wlen x)) with (max64 (prec_up p) x) in HB. assert (P64 : 64 <= prec_up p) by (unfold prec_up; clear - Hp; dlia). assert (M1 : prec_up p <= max64 (prec_up p) x) by (unfold max64; lia). assert (M2 : 64 * wlen x <= max64 (prec_up p) x) by (unfold max64; lia).
  pose proof (work_ge f (max64 (prec_up p) x + 64) 64 ltac:(lia) ltac:(lia)) as HG. assert (PL : Z.max (prec_up p) 128 + 64 < P_LIM) by (eapply Z.le_lt_trans with (2 ^ 20 + 256); [lia|vm_compute; reflexivity]).
  unfold n_exp. destruct (Z_lt_le_dec (max64 (prec_up p) x + 1) (- ne x)) as [S|S].
  - cbv zeta. match goal with |- context [@exp_top ?A ?ok ?rest x p rm] => destruct (@exp_small A ok rest x p rm W N Hp PL S) as (q & E & Q) end. rewrite E. cbv beta. split; [exact Hc|]. left. apply (rounded_elem _ _ Pos); [lia|apply pos_sign, exp_pos| |exact Q].
    rewrite Rabs_pos_eq by (left; apply exp_pos). assert (V1 : (Rabs (value x) <= 1)%R). { left. eapply Rlt_le_trans; [apply PowTop.value_lt_bpow, W|]. change 1%R with (bpow radix2 0). apply bpow_le. lia. }
    apply Rabs_le_inv in V1. pose proof (exp_mono (- (1)) (value x) ltac:(lra)) as E1. rewrite exp_Ropp in E1. pose proof exp_le_3 as E3. pose proof (exp_pos 1) as E0. assert (E4 : (/ 3 <= / exp 1)%R) by (apply Rinv_le; lra).
    apply Rle_trans with (bpow radix2 (-2)); [apply bpow_le; vm_compute; discriminate|]. change (bpow radix2 (-2)) with (/ 4)%R. lra.
  - unfold exp_top, small_exp. cbv zeta. rewrite (is_zero_false x W N), (p_wrk_eq x p ltac:(lia) Hp). replace (max64 (prec_up p) x + 1 <? - ne x) with false by (symmetry; apply Z.ltb_ge; lia).
    rewrite round_p_eq by lia. fold (prec_up p). apply exp_loop_ok; [exact W|exact N|lia|apply prec_up_mod|exact Hc|lia|lia| |lia|lia|reflexivity|exact HB].
    rewrite Z.add_mod, Z_mod_same_full, Z.add_0_r, Zmod_mod by lia. unfold max64. destruct (Z.max_spec (prec_up p) (64 * wlen x)) as [[_ ->]|[_ ->]]; [rewrite Z.mul_comm; apply Z.mod_mul; lia|apply prec_up_mod].
Qed.
