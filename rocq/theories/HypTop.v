(** The hyperbolic sine and cosine: the retry loops and the whole functions. *)

From Coq Require Import ZArith List Bool Lia Reals Lra.
From Flocq Require Import Core.
From Verif Require Import Words IntModel Mantissa Num Pow Consts Elem Series Exp Hyp SpecZ SpecOps SpecConst SpecReach SpecPow SpecElem WordsP Spec RealP RealP2 NumP CmpP SetP AddNum DivNum ArithTop ConvNum Conv2Num PowExt ConstNum ConstReach SmallP ElemNum ElemDom ApproxR ApproxNum SeriesNum SinhTop ExpNum RetryNum ExpTop HypNum.
Import ListNotations.
Open Scope Z_scope.
Ltac Zify.zify_post_hook ::= idtac.
Arguments Z.mul : simpl never.
Arguments Z.add : simpl never.
Arguments Z.pow : simpl never.
Arguments Z.sub : simpl never.
Arguments Z.of_nat : simpl never.
Ltac dlia := Z.div_mod_to_equations; lia.

(** ** Growth of the working precision *)
Lemma work_mono f : forall w w' i i', 0 <= w <= w' -> 0 <= i <= i' -> work f w i <= work f w' i'.
Proof.
  induction f as [|f IH]; intros w w' i i' H1 H2; cbn [work]; [lia|]. apply IH; [lia|]. split; [clear - H1 H2; dlia|].
  assert (D : (w + i) / 5 <= (w' + i') / 5) by (apply Z.div_le_mono; lia). assert ((((w + i) / 5 + 63) / 64) <= (((w' + i') / 5 + 63) / 64)) by (apply Z.div_le_mono; lia). lia.
Qed.
Lemma ne_value x y : wf x -> normal x -> wf y -> normal y -> Rabs (value x) = Rabs (value y) -> ne x = ne y.
Proof.
  intros Wx Nx Wy Ny E. destruct (normal_range x Wx Nx) as [X1 X2]. destruct (normal_range y Wy Ny) as [Y1 Y2]. rewrite E in X1, X2.
  assert (A : ne x - 1 < ne y) by (apply (lt_bpow radix2); eapply Rle_lt_trans; [exact X1|exact Y2]). assert (B : ne y - 1 < ne x) by (apply (lt_bpow radix2); eapply Rle_lt_trans; [exact Y1|exact X2]). clear - A B. lia.
Qed.
Lemma round_step w i : 0 <= w -> 0 <= i -> w + i <= 2 ^ 20 -> round_p ((w + i) / 5) = 64 * (((w + i) / 5 + 63) / 64).
Proof.
  intros Hw Hi H. apply round_p_eq. { clear - Hw Hi; dlia. } apply Z.lt_trans with (2 ^ 21); [|vm_compute; reflexivity]. unfold prec_up. clear - Hw Hi H. change (2 ^ 20) with 1048576 in *. change (2 ^ 21) with 2097152. dlia.
Qed.

Lemma abs_set_sign x s : Rabs (value (set_sign x s)) = Rabs (value x).
Proof. rewrite value_set_sign. rewrite !Rabs_mult. assert (H : forall t, Rabs (IZR (sgnZ t)) = 1%R) by (intros [|]; cbn [sgnZ]; [rewrite Rabs_left by lra; ring|apply Rabs_pos_eq; lra]). rewrite !H. ring. Qed.

(** ** The end of a round *)
Definition outcome (r : R) (p : Z) (rm : rmode) (o : crun num) : Prop :=
  match o with
  | None => True
  | Some (c', res) => reachable e_new e_for_prec c' /\ hyp_post r p rm res
  end.
Lemma reaches_lower r p rm s : elem_overflow r p rm s -> elem_reaches (EMAX - 1) r p rm s.
Proof. intros (S & a & C & B). split; [exact S|]. exists a. split; [exact C|]. eapply Rle_trans; [|exact B]. apply bpow_le. vm_compute. discriminate. Qed.
Lemma rnd_prec_reach p rm a e : 0 < p -> (bpow radix2 e <= Rabs a)%R -> (bpow radix2 e <= Rabs (rnd_prec p rm a))%R.
Proof.
  intros Hp H. pose proof (flx_valid p Hp) as V. unfold rnd_prec. destruct rm; cbn [rnd]; apply abs_round_ge_generic; auto; try typeclasses eauto;
    apply generic_format_bpow; unfold FLX_exp; lia.
Qed.
Lemma near_reaches r p rm s w K : 0 <= K <= 2 ^ 58 -> 0 < p -> p + 64 <= w -> has_sign s r -> (bpow radix2 EMAX <= 2 * Rabs r * exp (IZR K * eps (w + 64)))%R -> elem_reaches (EMAX - 1) r p rm s.
Proof.
  intros HK Hp Hw S O. split; [exact S|]. exists (r * exp (IZR K * eps (w + 64)))%R. split; [now apply near_close|].
  set (d := (IZR K * eps (w + 64))%R) in *. clearbody d. apply rnd_prec_reach; [exact Hp|]. rewrite Rabs_mult, (Rabs_pos_eq (exp d)) by (left; apply exp_pos). unfold Zminus. rewrite bpow_plus. change (bpow radix2 (-(1))) with (/ 2)%R. set (b := bpow radix2 EMAX) in *. clearbody b. lra.
Qed.
Lemma accept_ok c ret x0 p rm w again r s K : reachable e_new e_for_prec c -> has_sign s r -> apx (w + 64) Pos K (Rabs r) ret -> w + 64 <= 64 * wlen ret -> ninexact ret = true -> 0 <= K <= 2 ^ 58 ->
  0 < p -> p mod 64 = 0 -> w mod 64 = 0 -> p + 64 <= w -> outcome r p rm again -> outcome r p rm (accept c (set_sign ret s) x0 p rm w again).
Proof.
  intros Hc S (Wr & Nr & Sr & LCr) Lr Ir HK Hp Hp64 Hw64 Hpw HA. unfold accept.
  assert (Ws : wf (set_sign ret s)) by now apply wf_set_sign. assert (Vs : Rabs (value (set_sign ret s)) = Rabs (value ret)) by apply abs_set_sign.
  pose proof (accept_elem r (set_sign ret s) p rm w K Ws Nr Ir Lr S) as A. rewrite Vs in A. specialize (A LCr HK Hp Hp64 Hw64 Hpw).
  destruct (try_set_precision (set_sign ret s) p rm w) as [[y [|]]|[t| | |]|]; try contradiction; cbn [outcome].
  - split; [exact Hc|]. now apply elem_mark.
  - exact HA.
  - split; [exact Hc|]. now apply reaches_lower.
Qed.

Lemma same_sign_pos x : ns x = Pos -> set_sign x Pos = x.
Proof. destruct x as [m s e i]. cbn. intros ->. reflexivity. Qed.
Lemma sinh_sign s t : has_sign s t -> has_sign s (sinh t).
Proof.
  unfold has_sign. pose proof sinh_0 as Z. destruct s; cbn [sgnZ]; intros H.
  - assert (sinh t < sinh 0)%R by (apply sinh_lt; lra). lra.
  - assert (sinh 0 < sinh t)%R by (apply sinh_lt; lra). lra.
Qed.
Lemma cosh_ge1 t : (1 <= cosh t)%R.
Proof. unfold cosh. rewrite exp_Ropp. pose proof (exp_pos t) as E. set (y := exp t) in *. clearbody y. assert (Y : (y * / y = 1)%R) by (apply Rinv_r; lra). assert (I : (0 < / y)%R) by now apply Rinv_0_lt_compat. set (i := (/ y)%R) in *. clearbody i. assert (0 <= (y - i) * (y - i))%R by apply Rle_0_sqr. nra. Qed.
Lemma emin1_low r : (1 <= r)%R -> (bpow radix2 (EMIN - 1) <= r)%R.
Proof. intros H. eapply Rle_trans; [|exact H]. change 1%R with (bpow radix2 0). apply bpow_le. vm_compute. discriminate. Qed.

(** ** The loops *)
Section Loop.
Context (x0 : num) (p : Z) (rm : rmode) (h g : nat).
Hypotheses (W0 : wf x0) (N0 : nonzero x0) (Hp : 0 < p) (Hp64 : p mod 64 = 0).

(** The argument of a round. *)
Definition argument (w : Z) (x : num) : Prop := wf x /\ normal x /\ Rabs (value x) = Rabs (value x0) /\ ne x = ne x0 /\ 64 * wlen x <= w.
Lemma argument_len w x q : 0 < w -> prec_up q < P_LIM -> w <= q -> argument w x -> exists y, set_precision x q RNone = Ok y /\ argument (prec_up q) y /\ ns y = ns x /\ 64 * wlen y = prec_up q.
Proof.
  intros Hw HL Hq (W & N & V & E & L). destruct (apx_len 128 (ns x) 0 _ x q (apx_self 128 x W N) ltac:(lia) ltac:(lia) HL) as (y & Ey & (Wy & Ny & Sy & _) & Ly & Vy & _).
  exists y. split; [exact Ey|]. assert (VV : Rabs (value y) = Rabs (value x)) by now rewrite Vy. split; [|split; [exact Sy|exact Ly]]. split; [exact Wy|]. split; [exact Ny|]. split; [congruence|]. split; [|lia]. rewrite (ne_value y x Wy Ny W N VV). exact E.
Qed.

Theorem sinh_loop_ok ethres : - 2 ^ 21 <= ne x0 -> ethres = (Z.max (Z.abs (ne x0)) 1 - 1) * 2 -> forall f c x w i, reachable e_new e_for_prec c -> argument w x -> ns x = Pos ->
  p + 64 <= w -> w mod 64 = 0 -> 64 <= i -> i mod 64 = 0 -> 128 <= w -> work h (work f w i + 128) 64 + 64 <= 2 ^ 20 -> outcome (sinh (value x0)) p rm (sinh_loop f h g c x0 x ethres p rm w i).
Proof.
  intros He ET. induction f as [|f IH]; intros c x w i Hc HX S Hpw Hw64 Hi Hi64 Hw HB; [exact I|].
  pose proof (work_ge (Datatypes.S f) w i ltac:(lia) ltac:(lia)) as HG. pose proof (work_ge h (work (Datatypes.S f) w i + 128) 64 ltac:(lia) ltac:(lia)) as HH. change (work (Datatypes.S f) w i) with (work f (w + i) (64 * (((w + i) / 5 + 63) / 64))) in HB, HG, HH.
  pose proof (work_ge f (w + i) (64 * (((w + i) / 5 + 63) / 64)) ltac:(lia) ltac:(clear - Hw Hi; dlia)) as HG2.
  assert (P4 : prec_up (w + 4) = w + 64) by (unfold prec_up; clear - Hw64; dlia). assert (PL : w + 64 < P_LIM) by (apply Z.lt_le_trans with (2 ^ 21); [clear - HG HH HB; lia|vm_compute; discriminate]).
  assert (HBw : work h (w + 64 + 64) 64 + 64 <= 2 ^ 20). { eapply Z.le_trans; [|exact HB]. apply Z.add_le_mono_r. apply work_mono; lia. }
  cbn [sinh_loop]. cbv zeta. destruct (argument_len w x (w + 4) ltac:(lia) ltac:(rewrite P4; exact PL) ltac:(lia) HX) as (y & -> & HY & Sy & Ly). cbn [pure cbind]. rewrite P4 in HY, Ly. rewrite S in Sy. pose proof HY as (Wy & Ny & Vy & Ey & _).
  assert (V0 : has_sign (ns x0) (value x0)) by now apply value_has_sign.
  pose proof (value_has_sign y Wy (proj2 Ny)) as VP. rewrite Sy in VP. unfold has_sign in VP. cbn [sgnZ] in VP. rewrite (Rabs_pos_eq (value y)) in Vy by lra.
  assert (SH : sinh (value y) = Rabs (sinh (value x0))). { rewrite Vy. unfold has_sign in V0. destruct (ns x0); cbn [sgnZ] in V0.
    - rewrite (Rabs_left (value x0)) by lra. replace (sinh (- value x0)) with (- sinh (value x0))%R by (unfold sinh; rewrite Ropp_involutive; field). rewrite Rabs_left; [reflexivity|]. rewrite <- sinh_0. apply sinh_lt. lra.
    - rewrite (Rabs_pos_eq (value x0)) by lra. rewrite Rabs_pos_eq; [reflexivity|]. left. rewrite <- sinh_0. apply sinh_lt. lra. }
  assert (SS : has_sign (ns x0) (sinh (value x0))) by now apply sinh_sign.
  pose proof (sinh_eval_ok h g c (ns x0) ethres y (w + 64) (w + 4) ltac:(lia) ltac:(lia) P4 Hc Wy Ny Sy Ly ltac:(lia) HBw ltac:(rewrite Ey; exact ET)) as EV.
  assert (KB : 0 <= KS <= 2 ^ 58) by (split; vm_compute; discriminate).
  destruct (sinh_eval h g c (ns x0) ethres y (w + 4)) as [[c' res]|]; [|exact I]. destruct EV as [Hc' EV]. rewrite SH in EV. destruct res as [ret|[t| | |]|]; cbn [eval_post] in EV; try contradiction; cbn [cbind].
  - destruct EV as (A & L & Ir). eapply accept_ok; [exact Hc'|exact SS|exact A|exact L|exact Ir|exact KB|exact Hp|exact Hp64|exact Hw64|exact Hpw|].
    rewrite round_step by lia. apply IH; [exact Hc'| |exact Sy|lia| |clear - Hw Hi; dlia|rewrite Z.mul_comm; apply Z.mod_mul; lia|lia|exact HB].
    + destruct HY as (H1 & H2 & H3 & H4 & H5). split; [exact H1|]. split; [exact H2|]. split; [exact H3|]. split; [exact H4|lia].
    + clear - Hw64 Hi64. dlia.
  - destruct EV as [-> O]. split; [exact Hc'|]. cbn [hyp_post]. exact (near_reaches _ p rm _ w KS KB Hp Hpw SS O).
Qed.

Theorem cosh_loop_ok : forall f c x w i, reachable e_new e_for_prec c -> argument w x ->
  p + 64 <= w -> w mod 64 = 0 -> 64 <= i -> i mod 64 = 0 -> 128 <= w -> work h (work f w i + 128) 64 + 64 <= 2 ^ 20 -> outcome (cosh (value x0)) p rm (cosh_loop f h g c x0 x p rm w i).
Proof.
  induction f as [|f IH]; intros c x w i Hc HX Hpw Hw64 Hi Hi64 Hw HB; [exact I|].
  pose proof (work_ge (Datatypes.S f) w i ltac:(lia) ltac:(lia)) as HG. pose proof (work_ge h (work (Datatypes.S f) w i + 128) 64 ltac:(lia) ltac:(lia)) as HH. change (work (Datatypes.S f) w i) with (work f (w + i) (64 * (((w + i) / 5 + 63) / 64))) in HB, HG, HH.
  pose proof (work_ge f (w + i) (64 * (((w + i) / 5 + 63) / 64)) ltac:(lia) ltac:(clear - Hw Hi; dlia)) as HG2.
  assert (P4 : prec_up (w + 4) = w + 64) by (unfold prec_up; clear - Hw64; dlia). assert (PL : w + 64 < P_LIM) by (apply Z.lt_le_trans with (2 ^ 21); [clear - HG HH HB; lia|vm_compute; discriminate]).
  assert (HBw : work h (w + 64 + 64) 64 + 64 <= 2 ^ 20). { eapply Z.le_trans; [|exact HB]. apply Z.add_le_mono_r. apply work_mono; lia. }
  cbn [cosh_loop]. cbv zeta. destruct (argument_len w x (w + 4) ltac:(lia) ltac:(rewrite P4; exact PL) ltac:(lia) HX) as (y0 & -> & HY0 & _ & Ly0). cbn [pure cbind]. rewrite P4 in HY0, Ly0.
  set (y := set_sign y0 Pos). assert (HY : argument (w + 64) y) by (destruct HY0 as (H1 & H2 & H3 & H4 & H5); split; [now apply wf_set_sign|]; split; [exact H2|]; split; [unfold y; rewrite abs_set_sign; exact H3|]; split; [exact H4|exact H5]).
  pose proof HY as (Wy & Ny & Vy & Ey & _).
  pose proof (value_has_sign y Wy (proj2 Ny)) as VP. change (ns y) with Pos in VP. unfold has_sign in VP. cbn [sgnZ] in VP. rewrite (Rabs_pos_eq (value y)) in Vy by lra.
  assert (C0 : (0 < cosh (value x0))%R) by (pose proof (cosh_ge1 (value x0)); lra).
  assert (SH : cosh (value y) = Rabs (cosh (value x0))). { rewrite Vy, (Rabs_pos_eq (cosh _)) by lra. unfold Rabs. destruct (Rcase_abs (value x0)); [|reflexivity]. unfold cosh. rewrite Ropp_involutive. field. }
  assert (SS : has_sign Pos (cosh (value x0))) by now apply pos_sign.
  pose proof (cosh_eval_ok h g c y (w + 64) (w + 4) ltac:(lia) P4 ltac:(lia) Hc Wy (proj2 Ny) eq_refl Ly0 HBw) as EV.
  destruct (cosh_eval h g c y (w + 4)) as [[c' res]|]; [|exact I]. destruct EV as [Hc' EV]. rewrite SH in EV. destruct res as [ret|[t| | |]|]; cbn [eval_post] in EV; try contradiction; cbn [cbind].
  - destruct EV as (A & L & Ir). rewrite <- (same_sign_pos ret (proj1 (proj2 (proj2 A)))). eapply accept_ok; [exact Hc'|exact SS|exact A|exact L|exact Ir|clear; lia|exact Hp|exact Hp64|exact Hw64|exact Hpw|].
    rewrite round_step by lia. apply IH; [exact Hc'| |lia| |clear - Hw Hi; dlia|rewrite Z.mul_comm; apply Z.mod_mul; lia|lia|exact HB].
    + destruct HY as (H1 & H2 & H3 & H4 & H5). split; [exact H1|]. split; [exact H2|]. split; [exact H3|]. split; [exact H4|lia].
    + clear - Hw64 Hi64. dlia.
  - destruct EV as [-> O]. split; [exact Hc'|]. cbn [hyp_post]. exact (near_reaches _ p rm _ w 4 ltac:(clear; lia) Hp Hpw SS O).
Qed.
End Loop.

(** ** The whole functions *)
Lemma odd_in_small {A} (ok : result num -> A) rest rest' d inv x p rm : wf x -> nonzero x -> 0 < p -> prec_up p < P_LIM -> max64 (prec_up p) x + 1 < - (ne x * 2 - d) ->
  odd_in ok rest d inv x p rm = ok (odd_top rest' d inv x p rm).
Proof.
  intros W N Hp HP H. unfold odd_top, odd_in, small_exp. cbv zeta. rewrite (is_zero_false x W N), (p_wrk_eq x p HP Hp). replace (max64 (prec_up p) x + 1 <? - (ne x * 2 - d)) with true by (symmetry; apply Z.ltb_lt; exact H). reflexivity.
Qed.
Lemma odd_in_rest {A} (ok : result num -> A) rest d inv x p rm : wf x -> nonzero x -> 0 < p -> prec_up p < P_LIM -> - (ne x * 2 - d) <= max64 (prec_up p) x + 1 ->
  odd_in ok rest d inv x p rm = rest x (prec_up p) rm.
Proof.
  intros W N Hp HP H. unfold odd_in, small_exp. cbv zeta. rewrite (is_zero_false x W N), (p_wrk_eq x p HP Hp). replace (max64 (prec_up p) x + 1 <? - (ne x * 2 - d)) with false by (symmetry; apply Z.ltb_ge; exact H). rewrite round_p_eq by (try exact HP; lia). reflexivity.
Qed.
Lemma even_in_small {A} (ok : result num -> A) rest rest' inv x p rm : wf x -> nonzero x -> 0 < p -> prec_up p < P_LIM -> max64 (prec_up p) x + 1 < - (ne x * 2 - 1) ->
  even_in ok rest inv x p rm = ok (even_top rest' inv x p rm).
Proof.
  intros W N Hp HP H. unfold even_top, even_in, small_exp. cbv zeta. rewrite (is_zero_false x W N), (p_wrk_eq x p HP Hp). replace (max64 (prec_up p) x + 1 <? - (ne x * 2 - 1)) with true by (symmetry; apply Z.ltb_lt; exact H). reflexivity.
Qed.
Lemma even_in_rest {A} (ok : result num -> A) rest inv x p rm : wf x -> nonzero x -> 0 < p -> prec_up p < P_LIM -> - (ne x * 2 - 1) <= max64 (prec_up p) x + 1 ->
  even_in ok rest inv x p rm = rest x (prec_up p) rm.
Proof.
  intros W N Hp HP H. unfold even_in, small_exp. cbv zeta. rewrite (is_zero_false x W N), (p_wrk_eq x p HP Hp). replace (max64 (prec_up p) x + 1 <? - (ne x * 2 - 1)) with false by (symmetry; apply Z.ltb_ge; exact H). rewrite round_p_eq by (try exact HP; lia). reflexivity.
Qed.
Lemma argument_start x : wf x -> nonzero x -> EMIN < ne x -> argument x (64 * wlen x) (set_inexact x false).
Proof. intros W N He. split; [now apply wf_inexact|]. split; [|split; [reflexivity|split; [reflexivity|apply Z.le_refl]]]. split; [|exact N]. destruct (Z.lt_trichotomy (mn (nm x)) (64 * wlen x)) as [H|[H|H]]; [|exact H|]. - exfalso. destruct (nonzero_bits x W N) as (N1 & N2 & N3). pose proof (wf_sub x W ltac:(lia)). lia. - exfalso. destruct (nonzero_bits x W N) as (N1 & N2 & N3). lia. Qed.
Lemma argument_wide x0 w w' x : w <= w' -> argument x0 w x -> argument x0 w' x.
Proof. intros H (H1 & H2 & H3 & H4 & H5). repeat (split; [assumption|]). lia. Qed.
Lemma max_mod p x : (max64 (prec_up p) x + 64) mod 64 = 0.
Proof. rewrite Z.add_mod, Z_mod_same_full, Z.add_0_r, Zmod_mod by lia. unfold max64. destruct (Z.max_spec (prec_up p) (64 * wlen x)) as [[_ ->]|[_ ->]]; [rewrite Z.mul_comm; apply Z.mod_mul; lia|apply prec_up_mod]. Qed.

Theorem sinh_ok f h g c x p rm : reachable e_new e_for_prec c -> wf x -> nonzero x -> 0 < p -> (rm <> RNone \/ EMIN < ne x) ->
  work h (work f (Z.max (prec_up p) (64 * wlen x) + 64) 64 + 128) 64 + 64 <= 2 ^ 20 ->
  match f_sinh f h g c x p rm with
  | None => True
  | Some (c', res) => reachable e_new e_for_prec c' /\ (hyp_post (sinh (value x)) (prec_up p) rm res \/ exists q, res = Ok q /\ rounded_to (prec_up p) rm (ns x) (sinh (value x)) q)
  end.
Proof.
  intros Hc W N Hp HN HB. change (Z.max (prec_up p) (64 * wlen x)) with (max64 (prec_up p) x) in HB. assert (P64 : 64 <= prec_up p) by (unfold prec_up; clear - Hp; dlia). assert (M1 : prec_up p <= max64 (prec_up p) x) by (unfold max64; lia). assert (M2 : 64 * wlen x <= max64 (prec_up p) x) by (unfold max64; lia).
  pose proof (work_ge f (max64 (prec_up p) x + 64) 64 ltac:(lia) ltac:(lia)) as HG. pose proof (work_ge h (work f (max64 (prec_up p) x + 64) 64 + 128) 64 ltac:(lia) ltac:(lia)) as HH. assert (PL : max64 (prec_up p) x + 64 < P_LIM) by (eapply Z.le_lt_trans with (2 ^ 20); [lia|vm_compute; reflexivity]).
  unfold f_sinh. destruct (Z_lt_le_dec (max64 (prec_up p) x + 1) (- (ne x * 2 - 2))) as [S|S].
  - match goal with |- context [@odd_in ?A ?ok ?rest 2 false x p rm] => rewrite (@odd_in_small A ok rest (fun _ _ _ => Panic) 2 false x p rm W N Hp ltac:(lia) S) end. cbv beta. split; [exact Hc|]. right. exact (sinh_small (fun _ _ _ => Panic) x p rm W N Hp PL HN S).
  - match goal with |- context [@odd_in ?A ?ok ?rest 2 false x p rm] => rewrite (@odd_in_rest A ok rest 2 false x p rm W N Hp ltac:(lia) S) end. cbv beta. change (mantissa_max_bit_len x) with (64 * wlen x). change (Z.max (prec_up p) (64 * wlen x)) with (max64 (prec_up p) x).
    assert (He : - 2 ^ 21 <= ne x) by lia. assert (He2 : EMIN < ne x) by (apply Z.lt_le_trans with (- 2 ^ 21); [vm_compute; reflexivity|exact He]).
    pose proof (argument_start x W N He2) as HA. apply (argument_wide x _ (max64 (prec_up p) x + 64)) in HA; [|lia].
    assert (HA2 : argument x (max64 (prec_up p) x + 64) (set_sign (set_inexact x false) Pos)). { destruct HA as (H1 & H2 & H3 & H4 & H5). split; [now apply wf_set_sign|]. split; [exact H2|]. split; [rewrite abs_set_sign; exact H3|]. split; [exact H4|exact H5]. }
    pose proof (sinh_loop_ok x (prec_up p) rm h g W N ltac:(lia) (prec_up_mod p) _ He eq_refl f c _ (max64 (prec_up p) x + 64) 64 Hc HA2 eq_refl ltac:(lia) (max_mod p x) ltac:(lia) eq_refl ltac:(lia) HB) as O. unfold outcome in O.
    destruct (sinh_loop f h g c x _ _ (prec_up p) rm _ 64) as [[c' res]|]; [|exact I]. destruct O as [O1 O2]. split; [exact O1|now left].
Qed.
Theorem cosh_ok f h g c x p rm : reachable e_new e_for_prec c -> wf x -> nonzero x -> 0 < p ->
  work h (work f (Z.max (prec_up p) (64 * wlen x) + 64) 64 + 128) 64 + 64 <= 2 ^ 20 ->
  match f_cosh f h g c x p rm with
  | None => True
  | Some (c', res) => reachable e_new e_for_prec c' /\ hyp_post (cosh (value x)) (prec_up p) rm res
  end.
Proof.
  intros Hc W N Hp HB. change (Z.max (prec_up p) (64 * wlen x)) with (max64 (prec_up p) x) in HB. assert (P64 : 64 <= prec_up p) by (unfold prec_up; clear - Hp; dlia). assert (M1 : prec_up p <= max64 (prec_up p) x) by (unfold max64; lia). assert (M2 : 64 * wlen x <= max64 (prec_up p) x) by (unfold max64; lia).
  pose proof (work_ge f (max64 (prec_up p) x + 64) 64 ltac:(lia) ltac:(lia)) as HG. pose proof (work_ge h (work f (max64 (prec_up p) x + 64) 64 + 128) 64 ltac:(lia) ltac:(lia)) as HH. assert (PL : Z.max (prec_up p) 128 + 64 < P_LIM) by (eapply Z.le_lt_trans with (2 ^ 20 + 256); [lia|vm_compute; reflexivity]).
  unfold f_cosh. destruct (Z_lt_le_dec (max64 (prec_up p) x + 1) (- (ne x * 2 - 1))) as [S|S].
  - match goal with |- context [@even_in ?A ?ok ?rest false x p rm] => rewrite (@even_in_small A ok rest (fun _ _ _ => Panic) false x p rm W N Hp ltac:(lia) S) end. cbv beta. split; [exact Hc|]. destruct (cosh_small (fun _ _ _ => Panic) x p rm W N Hp PL S) as (q & E & Q). unfold n_cosh in E. rewrite E. cbn [hyp_post]. apply (rounded_elem _ _ Pos); [lia|apply pos_sign; pose proof (cosh_ge1 (value x)); lra| |exact Q].
    pose proof (cosh_ge1 (value x)) as C1. rewrite Rabs_pos_eq by lra. apply emin1_low. exact C1.
  - match goal with |- context [@even_in ?A ?ok ?rest false x p rm] => rewrite (@even_in_rest A ok rest false x p rm W N Hp ltac:(lia) S) end. cbv beta. change (mantissa_max_bit_len x) with (64 * wlen x). change (Z.max (prec_up p) (64 * wlen x)) with (max64 (prec_up p) x).
    assert (He2 : EMIN < ne x) by (apply Z.lt_le_trans with (- 2 ^ 21); [vm_compute; reflexivity|lia]).
    pose proof (argument_start x W N He2) as HA. apply (argument_wide x _ (max64 (prec_up p) x + 64)) in HA; [|lia].
    exact (cosh_loop_ok x (prec_up p) rm h g ltac:(lia) (prec_up_mod p) f c _ (max64 (prec_up p) x + 64) 64 Hc HA ltac:(lia) (max_mod p x) ltac:(lia) eq_refl ltac:(lia) HB).
Qed.

