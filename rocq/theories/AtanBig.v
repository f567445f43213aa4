(** The arctangent for arguments of magnitude one and more. *)

From Coq Require Import ZArith List Bool Lia Reals Lra.
From Flocq Require Import Core Relative.
From Verif Require Import Words IntModel Mantissa Num Pow Consts Elem Series Exp Ln Sin Atan SpecZ SpecOps SpecConst SpecPow SpecElem WordsP Spec RealP RealP2 NumP CmpP AddP SetP AddNum MulNum DivNum ArithTop ConvNum Conv2Num RootP ConstP ConstNum ExtP PowExt Refute1 ElemR ElemDom SmallP ElemNum ApproxR ApproxNum SeriesNum SinhR SinhNum SinhTop ExpNum LnR LnNum RetryNum ConstReach SpecReach ExpTop HypNum HypTop TanhNum LnMant AltNum AltDiv AtanR AtanTop PowTop PiNum PropsConst.
Import ListNotations.
Open Scope Z_scope.
Ltac Zify.zify_post_hook ::= idtac.
Arguments Z.mul : simpl never.
Arguments Z.add : simpl never.
Arguments Z.pow : simpl never.
Arguments Z.sub : simpl never.
Arguments Z.of_nat : simpl never.
Ltac dlia := Z.div_mod_to_equations; lia.

(** ** Pi *)
Definition overflowed {A} (r : result A) : Prop := match r with Err (ExponentOverflow _) => True | _ => False end.
Lemma pi_num_ok c p rm : reachable pi_new pi_for_prec c -> 0 < p -> prec_up p <= 2048 ->
  exists c' r, pi_num 31 c p rm = Some (c', r) /\ reachable pi_new pi_for_prec c' /\ match r with Ok y => is_pi (prec_up p) rm y | _ => overflowed r end.
Proof.
  intros R Hp HP. assert (HL : 2048 <= P_LIM) by (vm_compute; discriminate). assert (Hp2 : p <= prec_up p) by (unfold prec_up; clear; dlia). assert (P64 : 64 <= prec_up p) by (unfold prec_up; clear - Hp; dlia).
  destruct (proj2 C72_pi_partial c p rm R ltac:(lia)) as (c' & r & E & H). exists c', r. split; [exact E|]. split; [apply (reach_call pi_new pi_for_prec c p rm c' r R ltac:(lia) E)|].
  destruct r as [y|[s| | |]|]; try exact H. apply pi_result; [lia|apply prec_up_mod|exact H].
Qed.
Lemma trunc_le p r : 0 < p -> (Rabs (rnd_prec p RNone r) <= Rabs r)%R.
Proof.
  intros Hp. unfold rnd_prec. cbn [rnd]. assert (V : Valid_exp (FLX_exp p)) by (apply FLX_exp_valid; exact Hp). destruct (Rle_or_lt 0 r) as [H|H].
  - rewrite round_ZR_DN by exact H. assert (0 <= round radix2 (FLX_exp p) Zfloor r)%R by (rewrite <- (round_0 radix2 (FLX_exp p) Zfloor); apply round_le; auto with typeclass_instances). rewrite !Rabs_pos_eq by assumption. apply round_DN_pt; exact V.
  - rewrite round_ZR_UP by lra. assert (round radix2 (FLX_exp p) Zceil r <= 0)%R by (rewrite <- (round_0 radix2 (FLX_exp p) Zceil); apply round_le; auto with typeclass_instances; lra). rewrite !Rabs_left1 by lra. apply Ropp_le_contravar. apply round_UP_pt; exact V.
Qed.

(** ** The reciprocal *)
Lemma recip_ok x p : wf x -> normal x -> (1 <= Rabs (value x))%R -> ne x <= 2 ^ 21 -> 0 < p -> 128 <= prec_up p -> prec_up p < P_LIM ->
  exists q, n_reciprocal x p RNone = Ok q /\ apx (prec_up p) (ns x) 1 (/ Rabs (value x)) q /\ 64 * wlen q = prec_up p /\ - 2 ^ 21 <= ne q <= 1 /\ (Rabs (value q) <= 1)%R.
Proof.
  intros W N H1 He Hp HP HL. destruct (normal_range x W N) as [N1 N2].
  assert (E0 : 0 < ne x). { apply (lt_bpow radix2). change (bpow radix2 0) with 1%R. lra. }
  assert (RU : (/ Rabs (value x) <= 1)%R) by (rewrite <- Rinv_1; apply Rinv_le_contravar; lra).
  assert (RL : (bpow radix2 (- ne x) <= / Rabs (value x))%R) by (rewrite bpow_opp; apply Rinv_le; lra).
  pose proof (apx_self (prec_up p) x W N) as Ax.
  destruct (apx_recip (prec_up p) p RNone ltac:(lia) HL (ns x) 0 _ x Ax ltac:(lia)) as (q & E & A & L).
  { apply (mid_range (- ne x) 0); [unfold HX; clear - He; lia|vm_compute; discriminate|]. split; [exact RL|]. change (bpow radix2 0) with 1%R. lra. }
  exists q. split; [exact E|]. split; [exact A|]. split; [exact L|].
  pose proof (reciprocal_nonzero x p RNone W (proj2 N) Hp HL) as C. assert (AI : Rabs (/ value x) = (/ Rabs (value x))%R) by (apply Rabs_inv).
  pose proof (trunc_le (prec_up p) (/ value x) ltac:(lia)) as T. rewrite AI in T.
  assert (TL : (bpow radix2 (- ne x) <= Rabs (rnd_prec (prec_up p) RNone (/ value x)))%R).
  { unfold rnd_prec. apply abs_round_ge_generic; [apply FLX_exp_valid; red; lia|apply rnd_valid|apply generic_format_bpow; unfold FLX_exp; lia|rewrite AI; exact RL]. }
  destruct C as [_ C]. destruct C as (q' & E' & _ & _ & _ & V & _). { eapply Rle_lt_trans; [exact T|]. eapply Rle_lt_trans; [exact RU|]. change 1%R with (bpow radix2 0). apply bpow_lt. vm_compute. reflexivity. }
  rewrite E in E'. injection E' as <-. destruct V as [V NQ]. { eapply Rle_trans; [|exact TL]. apply bpow_le. change EMIN with (- 2 ^ 31). clear - He. lia. }
  rewrite <- V in T, TL. destruct A as (Wq & _). destruct (normal_range q Wq NQ) as [M1 M2]. split; [split|lra].
  - assert (- ne x < ne q); [apply (lt_bpow radix2); lra|lia].
  - assert (ne q - 1 <= 0); [apply (le_bpow radix2); change (bpow radix2 0) with 1%R; lra|lia].
Qed.

(** ** Half of pi *)
Lemma pi_exp P y : 128 <= P -> is_pi P RNone y -> ne y = 2.
Proof.
  intros HP (W & L & S & I & V & VN). pose proof PI_RGT_0 as P0. pose proof PI_4 as P4. assert (P2 : (2 < PI)%R) by (pose proof PI2_3_2; lra).
  assert (Hp0 : Prec_gt_0 P) by (red; lia).
  assert (G : (bpow radix2 1 <= Rabs (value y))%R). { rewrite V. unfold rnd_prec. apply abs_round_ge_generic; [apply FLX_exp_valid; exact Hp0|apply rnd_valid|apply generic_format_bpow; unfold FLX_exp; lia|]. rewrite Rabs_pos_eq by lra. change (bpow radix2 1) with 2%R. lra. }
  assert (U : (Rabs (value y) <= PI)%R) by (rewrite V; eapply Rle_trans; [apply trunc_le; lia|rewrite Rabs_pos_eq by lra; apply Rle_refl]).
  assert (N : normal y). { apply normal_iff; [exact W|]. eapply Rle_trans; [|exact G]. apply bpow_le. vm_compute. discriminate. }
  destruct (normal_range y W N) as [N1 N2].
  pose proof (value_has_sign y W (proj2 N)) as VS. rewrite S in VS. unfold has_sign in VS. cbn [sgnZ] in VS. rewrite Rmult_1_l in VS. rewrite Rabs_pos_eq in G, U, N1, N2 by lra.
  assert (ne y - 1 < 2); [apply (lt_bpow radix2); change (bpow radix2 2) with 4%R; assert (value y < PI)%R by (destruct U as [U|U]; [exact U|contradiction]); lra|]. assert (1 < ne y); [apply (lt_bpow radix2); lra|lia].
Qed.
Lemma half_pi P y s : 128 <= P -> is_pi P RNone y -> sab (eps P) (sr s * (PI / 2)) (set_sign (set_exponent y 1) s) /\ ninexact (set_sign (set_exponent y 1) s) = true.
Proof.
  intros HP (W & L & S & I & V & VN). pose proof PI_RGT_0 as P0. pose proof PI_4 as P4. assert (P2 : (2 < PI)%R) by (pose proof PI2_3_2; lra).
  assert (Hp0 : Prec_gt_0 P) by (red; lia).
  assert (G : (bpow radix2 1 <= Rabs (value y))%R). { rewrite V. unfold rnd_prec. apply abs_round_ge_generic; [apply FLX_exp_valid; exact Hp0|apply rnd_valid|apply generic_format_bpow; unfold FLX_exp; lia|]. rewrite Rabs_pos_eq by lra. change (bpow radix2 1) with 2%R. lra. }
  assert (U : (Rabs (value y) <= PI)%R) by (rewrite V; eapply Rle_trans; [apply trunc_le; lia|rewrite Rabs_pos_eq by lra; apply Rle_refl]).
  assert (N : normal y). { apply normal_iff; [exact W|]. eapply Rle_trans; [|exact G]. apply bpow_le. vm_compute. discriminate. }
  destruct (normal_range y W N) as [N1 N2].
  pose proof (value_has_sign y W (proj2 N)) as VS. rewrite S in VS. unfold has_sign in VS. cbn [sgnZ] in VS. rewrite Rmult_1_l in VS. rewrite Rabs_pos_eq in G, U, N1, N2 by lra.
  assert (E : ne y = 2). { assert (ne y - 1 < 2); [apply (lt_bpow radix2); change (bpow radix2 2) with 4%R; assert (value y < PI)%R by (destruct U as [U|U]; [exact U|contradiction]); lra|]. assert (1 < ne y); [apply (lt_bpow radix2); lra|lia]. }
  assert (D : (Rabs (value y - PI) <= 2 * eps P)%R).
  { rewrite V. unfold rnd_prec. pose proof (relative_error_FLX radix2 P Hp0 (rnd RNone) PI) as RE.
    assert (Q : (Rabs (round radix2 (FLX_exp P) (rnd RNone) PI - PI) < bpow radix2 (- P + 1) * Rabs PI)%R) by (apply RE; lra). rewrite (Rabs_pos_eq PI) in Q by lra. unfold eps. replace (2 - P) with (1 + (- P + 1)) by ring. rewrite bpow_plus. change (bpow radix2 1) with 2%R. pose proof (bpow_gt_0 radix2 (- P + 1)) as B. assert (bpow radix2 (- P + 1) * PI <= bpow radix2 (- P + 1) * 4)%R by (apply Rmult_le_compat_l; lra). lra. }
  destruct (set_exponent_spec y 1 W ltac:(vm_compute; split; discriminate)) as (W1 & L1 & S1 & I1 & V1). rewrite E in V1. change (bpow radix2 (1 - 2)) with (/ 2)%R in V1. set (q := set_exponent y 1) in *. clearbody q.
  assert (NQ : normal q). { apply normal_iff; [exact W1|]. rewrite V1. rewrite Rabs_pos_eq by lra. eapply Rle_trans with (bpow radix2 0); [apply bpow_le; vm_compute; discriminate|]. change (bpow radix2 0) with 1%R. change (bpow radix2 1) with 2%R in G. lra. }
  split; [|cbn [set_sign ninexact]; congruence]. split; [now apply wf_set_sign|]. split; [exact NQ|].
  assert (VQ : value (set_sign q s) = (sr s * value q)%R). { pose proof (value_has_sign (set_sign q s) ltac:(now apply wf_set_sign) (proj2 NQ)) as VS2. pose proof (abs_set_sign q s) as AB. unfold has_sign in VS2. cbn [set_sign ns] in VS2. rewrite (Rabs_pos_eq (value q)) in AB by (rewrite V1; lra). unfold sr. destruct s; cbn [sgnZ] in *; [rewrite Rabs_left in AB by lra|rewrite Rabs_pos_eq in AB by lra]; lra. }
  rewrite VQ, V1. replace (sr s * (value y * / 2) - sr s * (PI / 2))%R with (sr s * ((value y - PI) / 2))%R by (unfold Rdiv; ring). rewrite Rabs_mult. replace (Rabs (sr s)) with 1%R by (unfold sr; destruct s; cbn [sgnZ]; [rewrite Rabs_left by lra|rewrite Rabs_pos_eq by lra]; lra). unfold Rdiv. rewrite Rabs_mult, (Rabs_pos_eq (/ 2)) by lra. lra.
Qed.

(** ** One evaluation *)
Definition KB : Z := 4 * (KT + 1) + 10.
Definition big_eval (P : Z) (s : sign) (b : R) (o : prun num) : Prop :=
  match o with
  | None => True
  | Some (c, res) => reachable pi_new pi_for_prec c /\
      match res with Ok q => apx P s KB b q /\ 64 * wlen q = P /\ ninexact q = true | _ => overflowed res end
  end.
Lemma atan_big_eval g c s x p : reachable pi_new pi_for_prec c -> wf x -> normal x -> ns x = s -> (1 <= Rabs (value x))%R -> ne x <= 2 ^ 21 -> 0 < p -> 128 <= prec_up p <= 2048 ->
  big_eval (prec_up p) s (atan (Rabs (value x))) (atan_eval g 31 c s x p).
Proof.
  intros R W N S H1 He Hp HP. assert (HL : prec_up p < P_LIM) by (eapply Z.le_lt_trans; [apply HP|vm_compute; reflexivity]). set (P := prec_up p) in *.
  destruct (normal_range x W N) as [_ N2]. assert (E0 : 0 < ne x) by (apply (lt_bpow radix2); change (bpow radix2 0) with 1%R; lra).
  unfold atan_eval. replace (0 <? ne x) with true by (symmetry; apply Z.ltb_lt; exact E0).
  destruct (recip_ok x p W N H1 He Hp ltac:(apply HP) HL) as (y & -> & A & L & Ey & Y1). fold P in A, L. rewrite S in A. cbn [ppure pbind]. pose proof A as (Wy & Ny & Sy & LC).
  set (ax := Rabs (value x)) in *. set (b := atan ax).
  destruct (atan_series_one g y P s ltac:(clear - HP; lia) Wy Ny Sy L Ey Y1) as [->|(ret & -> & B & LR & IR)]; [exact I|]. cbn [ppure pbind].
  destruct (pi_num_ok c p RNone R Hp ltac:(apply HP)) as (c' & r & -> & R' & HR). fold P in HR.
  destruct r as [z|[t| | |]|]; try contradiction; cbn [ppure pbind]; [|split; [exact R'|exact I]].
  destruct (half_pi P z s ltac:(apply HP) HR) as [HS HI]. set (hp := set_sign (set_exponent z 1) s) in *. clearbody hp.
  assert (PB : (3 < PI <= 4)%R) by (pose proof PI2_3_2; pose proof PI_4; lra).
  assert (AB : atan (/ ax) = (PI / 2 - b)%R) by (apply atan_inv; lra).
  assert (B1 : (PI / 4 <= b)%R) by (rewrite <- atan_1; apply atan_mono; exact H1). assert (B2 : (b < PI / 2)%R) by apply atan_bound.
  pose proof (eps_pos P) as Ep.
  assert (BB : apx P s (1 + KT) (PI / 2 - b) ret). { rewrite <- AB. apply (apx_trans P s 1 KT _ (atan (Rabs (value y)))); [|exact B]. apply lc_atan; [lra|exact LC]. }
  assert (K0 : 0 <= 1 + KT <= 2 ^ 60) by (split; vm_compute; discriminate).
  pose proof (apx_sab P s (1 + KT) _ ret ltac:(apply HP) BB K0) as SR. replace (2 * IZR (1 + KT) * eps P * (PI / 2 - b))%R with (2 * (IZR (1 + KT) * eps P) * (PI / 2 - b))%R in SR by ring.
  assert (KS : (IZR (1 + KT) * eps P <= / 64)%R). { eapply Rle_trans; [apply eps_small; [apply HP|clear - K0; lia]|]. change (/ 64)%R with (bpow radix2 (-6)). apply bpow_le. clear. lia. }
  assert (KP : (0 <= IZR (1 + KT) * eps P)%R) by (apply Rmult_le_pos; [apply IZR_le; apply K0|lra]). assert (E64 : (eps P <= / 64)%R). { pose proof (eps_small P 1 ltac:(apply HP) ltac:(clear; lia)) as Q. rewrite Rmult_1_l in Q. eapply Rle_trans; [exact Q|]. change (/ 64)%R with (bpow radix2 (-6)). apply bpow_le. clear. lia. }
  assert (EKB : (IZR KB = 4 * IZR (1 + KT) + 10)%R) by (unfold KB; rewrite plus_IZR, mult_IZR, (Z.add_comm KT 1); reflexivity).
  set (kk := (IZR (1 + KT) * eps P)%R) in *. assert (SB : (sr s * (PI / 2) - sr s * (PI / 2 - b) = sr s * b)%R) by ring. assert (SA : Rabs (sr s * b) = b) by (apply sr_abs; lra).
  assert (F1 : (0 <= kk * (PI / 2 - b) <= kk * b)%R) by (split; [apply Rmult_le_pos; lra|apply Rmult_le_compat_l; lra]). assert (F2 : (kk * b <= / 64 * b)%R) by (apply Rmult_le_compat_r; lra).
  destruct (sab_sub P p RNone ltac:(fold P; lia) HL (eps P) (2 * kk * (PI / 2 - b)) (sr s * (PI / 2)) (sr s * (PI / 2 - b)) hp ret HS SR) as (q & -> & SQ & LQ & IQ).
  - rewrite SB, SA. lra.
  - rewrite SB, SA. apply (mid_range (-1) 1); [vm_compute; discriminate|vm_compute; discriminate|]. change (bpow radix2 (-1)) with (/ 2)%R. change (bpow radix2 1) with 2%R. lra.
  - split; [exact R'|]. rewrite SB, SA in SQ. split; [|split; [exact LQ|apply IQ; rewrite HI; reflexivity]].
    apply (sab_apx P s KB b _ q ltac:(apply HP) ltac:(lra) ltac:(split; vm_compute; discriminate) SQ). rewrite EKB. replace ((4 * IZR (1 + KT) + 10) * eps P * b)%R with (4 * (kk * b) + 10 * (eps P * b))%R by (unfold kk; ring). assert (eps P * / 2 <= eps P * b)%R by (apply Rmult_le_compat_l; lra). lra.
Qed.

(** ** The loop *)
Lemma atan_sign s r : has_sign s r -> has_sign s (atan r) /\ Rabs (atan r) = atan (Rabs r).
Proof.
  unfold has_sign. intros H. destruct s; cbn [sgnZ] in *.
  - pose proof (atan_pos (- r) ltac:(lra)) as Q. rewrite atan_opp in Q. split; [lra|]. rewrite (Rabs_left r) by lra. rewrite atan_opp. apply Rabs_left. lra.
  - pose proof (atan_pos r ltac:(lra)) as Q. split; [lra|]. rewrite (Rabs_pos_eq r) by lra. apply Rabs_pos_eq. lra.
Qed.
Section Loop.
Context (x0 : num) (p : Z) (rm : rmode) (g : nat).
Hypotheses (W0 : wf x0) (N0 : nonzero x0) (Hp : 0 < p) (Hp64 : p mod 64 = 0) (H1 : (1 <= Rabs (value x0))%R) (He : ne x0 <= 2 ^ 21).

Definition big_post (o : prun num) : Prop :=
  match o with
  | None => True
  | Some (c, res) => reachable pi_new pi_for_prec c /\ match res with Ok q => elem_result (atan (value x0)) p rm q | _ => overflowed res end
  end.
Theorem atan_big_loop_ok : forall f c w i, reachable pi_new pi_for_prec c -> p + 64 <= w -> w mod 64 = 0 -> 64 <= i -> i mod 64 = 0 -> 128 <= w -> 64 * wlen x0 <= w -> i <= 64 * (((w + i) / 5 + 63) / 64) ->
  work f w i + 64 <= 2048 -> big_post (atan_loop f g 31 c x0 p rm w i).
Proof.
  induction f as [|f IH]; intros c w i R Hpw Hw64 Hi Hi64 Hw HLx Hii HB; [exact I|].
  pose proof (work_ge (Datatypes.S f) w i ltac:(lia) ltac:(lia)) as HG.
  change (work (Datatypes.S f) w i) with (work f (w + i) (64 * (((w + i) / 5 + 63) / 64))) in HB, HG.
  pose proof (work_ge f (w + i) (64 * (((w + i) / 5 + 63) / 64)) ltac:(lia) ltac:(clear - Hw Hi; dlia)) as HG2.
  assert (PW : prec_up (w + 5) = w + 64) by (unfold prec_up; clear - Hw64; dlia).
  assert (HPX : 128 <= prec_up (w + 5) <= 2048) by (clear - PW HB HG HG2 Hw Hi; lia). assert (PL : prec_up (w + 5) < P_LIM) by (apply Z.le_lt_trans with 2048; [apply HPX|vm_compute; reflexivity]).
  destruct (Z_le_gt_dec (ne x0) 0) as [E0|E0].
  { exfalso. destruct (Rle_not_lt _ _ H1). eapply Rlt_le_trans; [apply value_lt_bpow; exact W0|]. change 1%R with (bpow radix2 0). apply bpow_le. exact E0. }
  assert (HX : argument x0 w x0). { pose proof (argument_start x0 W0 N0 ltac:(apply Z.lt_le_trans with 0; [vm_compute; reflexivity|clear - E0; lia])) as (_ & H2 & _). split; [exact W0|]. split; [exact H2|]. split; [reflexivity|]. split; [reflexivity|exact HLx]. }
  cbn [atan_loop]. cbv zeta. destruct (argument_len x0 w x0 (w + 5) ltac:(lia) PL ltac:(lia) HX) as (y & -> & HY & Sy & Ly). cbn [ppure pbind]. pose proof HY as (Wy & Ny & Vy & Ey & _).
  pose proof (value_has_sign x0 W0 N0) as VS. destruct (atan_sign _ _ VS) as [SS SA].
  pose proof (atan_big_eval g c (ns x0) y (w + 5) R Wy Ny Sy ltac:(rewrite Vy; exact H1) ltac:(rewrite Ey; exact He) ltac:(lia) HPX) as EV. unfold big_eval in EV.
  destruct (atan_eval g 31 c (ns x0) y (w + 5)) as [[c' res]|]; [|exact I]. destruct EV as [R' EV]. destruct res as [ret|[t| | |]|]; try contradiction; cbn [ppure pbind]; [|split; [exact R'|exact I]].
  destruct EV as ((Wr & Nr & Sr & LCr) & LR & IR). rewrite PW in LCr, LR. rewrite Vy, <- SA in LCr.
  assert (DB : (0 <= IZR KB * eps (w + 64) <= 3 / 8 * bpow radix2 (- w))%R).
  { split; [apply Rmult_le_pos; [apply IZR_le; vm_compute; discriminate|left; apply eps_pos]|]. apply Rle_trans with (bpow radix2 60 * eps (w + 64))%R; [apply Rmult_le_compat_r; [left; apply eps_pos|]; change (bpow radix2 60) with (IZR (2 ^ 60)); apply IZR_le; vm_compute; discriminate|]. unfold eps. rewrite <- bpow_plus. replace (60 + (2 - (w + 64))) with (-2 + - w) by ring. rewrite bpow_plus. change (bpow radix2 (-2)) with (/ 4)%R. pose proof (bpow_gt_0 radix2 (- w)). lra. }
  pose proof (accept_gen (atan (value x0)) ret p rm w _ Wr Nr IR ltac:(clear - LR; lia) ltac:(rewrite Sr; exact SS) LCr DB Hp Hp64 Hw64 Hpw) as AE.
  destruct (try_set_precision ret p rm w) as [[q [|]]|[t| | |]|]; try contradiction; cbn [ppure pbind].
  + split; [exact R'|]. now apply elem_mark.
  + rewrite round_step by (clear - HG HG2 HB Hw Hi; lia). apply IH; [exact R'|lia| |clear - Hw Hi; dlia|rewrite Z.mul_comm; apply Z.mod_mul; lia|lia|lia| |exact HB].
    * clear - Hw64 Hi64. dlia.
    * assert (D : (w + i) / 5 <= (w + i + 64 * (((w + i) / 5 + 63) / 64)) / 5) by (apply Z.div_le_mono; [lia|]; clear - Hw Hi; dlia). assert ((((w + i) / 5 + 63) / 64) <= (((w + i + 64 * (((w + i) / 5 + 63) / 64)) / 5 + 63) / 64)) by (apply Z.div_le_mono; lia). lia.
  + exfalso. revert AE. apply no_overflow; [exact Hp|]. rewrite SA. pose proof (atan_bound (Rabs (value x0))). pose proof PI_4. apply Rle_trans with (bpow radix2 1); [change (bpow radix2 1) with 2%R; lra|apply bpow_le; clear; lia].
Qed.
End Loop.

Theorem atan_big_ok f g c x p rm : reachable pi_new pi_for_prec c -> wf x -> nonzero x -> 0 < p -> (1 <= Rabs (value x))%R -> ne x <= 2 ^ 21 ->
  work f (Z.max (prec_up p) (64 * wlen x) + 64) 64 + 64 <= 2048 -> big_post x (prec_up p) rm (f_atan f g 31 c x p rm).
Proof.
  intros R W N Hp H1 He HB. change (Z.max (prec_up p) (64 * wlen x)) with (max64 (prec_up p) x) in HB. assert (P64 : 64 <= prec_up p) by (unfold prec_up; clear - Hp; dlia). assert (M1 : prec_up p <= max64 (prec_up p) x) by (unfold max64; lia). assert (M2 : 64 * wlen x <= max64 (prec_up p) x) by (unfold max64; lia).
  pose proof (work_ge f (max64 (prec_up p) x + 64) 64 ltac:(lia) ltac:(lia)) as HG. assert (PL : max64 (prec_up p) x + 64 < P_LIM) by (eapply Z.le_lt_trans with 2048; [lia|vm_compute; reflexivity]).
  assert (E0 : 0 < ne x). { apply (lt_bpow radix2). change (bpow radix2 0) with 1%R. eapply Rle_lt_trans; [exact H1|]. apply value_lt_bpow; exact W. }
  unfold f_atan. match goal with |- context [@odd_in ?A ?ok ?rest 1 true x p rm] => rewrite (@odd_in_rest A ok rest 1 true x p rm W N Hp ltac:(lia) ltac:(lia)) end. cbv beta. change (mantissa_max_bit_len x) with (64 * wlen x). change (Z.max (prec_up p) (64 * wlen x)) with (max64 (prec_up p) x).
  exact (atan_big_loop_ok x (prec_up p) rm g W N ltac:(lia) (prec_up_mod p) H1 He f c (max64 (prec_up p) x + 64) 64 R ltac:(lia) (max_mod p x) ltac:(lia) eq_refl ltac:(lia) ltac:(lia) ltac:(clear - M1 P64; dlia) ltac:(lia)).
Qed.
