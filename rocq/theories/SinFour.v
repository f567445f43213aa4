(** The sine for arguments between two and four in magnitude. *)

From Coq Require Import ZArith List Bool Lia Reals Lra.
From Flocq Require Import Core Relative.
From Verif Require Import Words IntModel Mantissa Num Pow Consts Elem Series Exp Sin SpecZ SpecOps SpecConst SpecPow SpecElem WordsP Spec RealP RealP2 NumP CmpP AddP SetP AddNum MulNum DivNum ArithTop ConvNum Conv2Num RootP ConstP ConstNum ExtP PowExt Refute1 ElemR ElemDom SmallP ElemNum ApproxR ApproxNum SeriesNum SinhR SinhNum SinhTop ExpNum RetryNum ConstReach SpecReach ExpTop HypNum HypTop TanhNum AltNum SinTop SinBig.
Import ListNotations.
Open Scope Z_scope.
Ltac Zify.zify_post_hook ::= idtac.
Arguments Z.mul : simpl never.
Arguments Z.add : simpl never.
Arguments Z.pow : simpl never.
Arguments Z.sub : simpl never.
Arguments Z.of_nat : simpl never.
Ltac dlia := Z.div_mod_to_equations; lia.

(** ** The number of reduction steps *)
Lemma optimize_loop_c f p m step B : -2 <= m -> 1 <= p -> 1 <= step -> forall times c1,
  0 <= times /\ 0 <= times + m -> match c1 with None => True | Some c => c <= B /\ step <= times /\ (times - step) * red_unit p <= c end ->
  (c1 = None -> series_cost (series_niter p (sinh_red_effect times m) / 2) p (sinh_iter_cost p) + sinh_red_cost times p <= B) ->
  (forall t, 0 <= t /\ 0 <= t + m -> 0 <= series_niter p (sinh_red_effect t m) / 2 < 2 ^ 32) ->
  forall n niter e, optimize_loop sinh_red_cost sinh_red_effect f p (sinh_iter_cost p) m 2 step times c1 = Some (n, niter, e) ->
  times - step <= n /\ (c1 = None -> times <= n) /\ n * red_unit p <= B /\ e = sinh_red_effect (n + step) m /\ niter = series_niter p e / 2.
Proof.
  intros Hm Hp Hs. induction f as [|f IH]; intros times c1 Ht Hc1 HB HN n niter e E; [discriminate E|]. cbn [optimize_loop] in E. cbv zeta in E.
  set (c2 := series_cost _ _ _ + sinh_red_cost times p) in E. pose proof (series_cost_le _ p (HN times Ht) Hp) as [R0 [R1 _]].
  assert (C2 : times * red_unit p <= c2). { unfold c2, sinh_red_cost. fold (red_unit p). lia. }
  destruct (match c1 with None => true | Some c => c2 <? c end) eqn:T.
  - apply IH in E; [|lia| |discriminate|exact HN].
    + destruct E as (E1 & _ & E3 & E4 & E5). split; [lia|]. split; [intros _; lia|]. auto.
    + split; [|split; [lia|replace (times + step - step) with times by ring; exact C2]]. destruct c1 as [c|]; [apply Z.ltb_lt in T; lia|]. apply HB. reflexivity.
  - destruct c1 as [c|]; [|discriminate T]. injection E as <- <- <-. destruct Hc1 as (Q1 & Q2 & Q3). split; [lia|]. split; [discriminate|]. split; [lia|]. replace (times - step + step) with times by ring. auto.
Qed.

Lemma optimize_c f p m n niter e : 128 <= p <= 2 ^ 22 -> -2 <= m -> series_cost_optimize sinh_red_cost sinh_red_effect f p (sinh_iter_cost p) m 2 = Some (n, niter, e) ->
  exists step, 3 <= step <= 11 /\ 0 <= n /\ step <= m + n /\ 10 * n <= 4 * p + 140 /\ e = sinh_red_effect (n + step) m /\ 0 <= niter /\ 2 * niter * (e + 2) <= p.
Proof.
  intros Hp Hm E. unfold series_cost_optimize in E. rewrite log2_floor_spec in E by lia. assert (L7 : 7 <= Z.log2 p) by (apply Z.log2_le_pow2; lia). assert (L22 : Z.log2 p <= 22). { change 22 with (Z.log2 (2 ^ 22)). apply Z.log2_le_mono. lia. }
  set (step := Z.log2 p / 2) in *. assert (HS : 3 <= step <= 11) by (unfold step; clear - L7 L22; dlia). clearbody step.
  set (r0 := if m <? step then step - m else 0) in *. assert (R0 : 0 <= r0 <= 13 /\ step <= m + r0) by (unfold r0; destruct (Z.ltb_spec m step); lia). clearbody r0.
  assert (EF : forall t, 0 <= t -> t + m <= sinh_red_effect t m). { intros t Ht. unfold sinh_red_effect. assert (t <= t * 1000 / 631) by (clear - Ht; dlia). lia. }
  assert (NI : forall t, 0 <= t /\ 0 <= t + m -> 0 <= series_niter p (sinh_red_effect t m) / 2 < 2 ^ 32 /\ 2 * (series_niter p (sinh_red_effect t m) / 2) * (sinh_red_effect t m + 2) <= p).
  { intros t Ht. specialize (EF t (proj1 Ht)). pose proof (niter_le p (sinh_red_effect t m) ltac:(lia) ltac:(lia)) as [N1 N2]. set (e0 := sinh_red_effect t m) in *. set (k := series_niter p e0) in *. clearbody k e0.
    assert (D : p / (e0 + 2) * (e0 + 2) <= p) by (rewrite Z.mul_comm; apply Z.mul_div_le; lia). set (d := p / (e0 + 2)) in *. clearbody d.
    assert (H2 : 0 <= 2 * (k / 2) <= k) by (clear - N1; dlia). set (h := k / 2) in *. clearbody h. split; nia. }
  pose proof (NI r0 ltac:(lia)) as [N0 N1]. set (it0 := series_niter p (sinh_red_effect r0 m) / 2) in *. pose proof (EF r0 ltac:(lia)) as E0.
  assert (IT : 10 * it0 <= p) by nia. pose proof (series_cost_le it0 p N0 ltac:(lia)) as [U0 [_ U1]].
  pose proof (optimize_loop_c f p m step ((4 * it0 + r0) * red_unit p) Hm ltac:(lia) ltac:(lia) r0 None ltac:(lia) I) as O.
  specialize (O ltac:(intros _; unfold sinh_red_cost; fold (red_unit p) it0; lia) (fun t Ht => proj1 (NI t Ht)) n niter e E). destruct O as (_ & O2 & O3 & O4 & O5). specialize (O2 eq_refl).
  assert (n <= 4 * it0 + r0) by (apply Zmult_le_reg_r with (red_unit p); lia).
  exists step. split; [exact HS|]. split; [lia|]. split; [lia|]. split; [lia|]. split; [exact O4|]. rewrite O5, O4. destruct (NI (n + step) ltac:(lia)) as [Q1 Q2]. split; [lia|exact Q2].
Qed.

(** ** Restoration *)
Section Last.
Variable PO : Z.
Hypothesis HPO : 192 <= PO <= 2 ^ 22.
Hypothesis HP64 : prec_up PO = PO.
Let HPP : 128 <= PO <= prec_up PO.
Proof. clear - HPO HP64. lia. Qed.
Let HL : prec_up PO < P_LIM.
Proof. rewrite HP64. eapply Z.le_lt_trans; [apply HPO|]. vm_compute. reflexivity. Qed.

(** A tripling that may meet a zero of the sine. *)
Lemma triple_abs e c u : (/ 5 <= c <= 1)%R -> (Rabs (u - c) <= e)%R -> (e <= / 1024)%R -> (Rabs ((3 * u - 4 * (u * u * u)) - (3 * c - 4 * (c * c * c))) <= 10 * e)%R.
Proof.
  intros Hc D He. assert (V : (/ 6 <= u <= 1025 / 1024)%R) by (apply Rabs_le_inv in D; lra).
  replace (3 * u - 4 * (u * u * u) - (3 * c - 4 * (c * c * c)))%R with ((3 - 4 * (u * u + u * c + c * c)) * (u - c))%R by ring. rewrite Rabs_mult.
  apply Rmult_le_compat; [apply Rabs_pos|apply Rabs_pos| |exact D]. apply Rabs_le. clear - V Hc. assert (0 <= u * u <= 11 / 10)%R by nra. assert (0 <= u * c <= 1025 / 1024)%R by nra. assert (0 <= c * c <= 1)%R by nra. lra.
Qed.
Lemma slast_ok s e y v : sab e (sr s * sin y) v -> (e <= bpow radix2 (-80))%R -> (/ 5 <= sin y <= 1)%R -> (bpow radix2 (-61) <= Rabs (sin (3 * y)))%R -> 64 * wlen v = PO -> ninexact v = true ->
  exists q, sin_restore_loop 1 PO RNone v = Ok q /\ sab (10 * e + 64 * eps PO) (sr s * sin (3 * y)) q /\ 64 * wlen q = PO /\ ninexact q = true.
Proof.
  intros Hv He Y FAR Lv Iv. pose proof (eps_pos PO) as Ep. assert (Es : (eps PO <= bpow radix2 (-80))%R) by (apply bpow_le; lia). assert (B80 : (bpow radix2 (-80) <= / 1048576)%R) by (change (/ 1048576)%R with (bpow radix2 (-20)); apply bpow_le; lia).
  assert (B61 : (1024 * bpow radix2 (-80) <= bpow radix2 (-61))%R). { change 1024%R with (bpow radix2 10). rewrite <- bpow_plus. apply bpow_le. lia. }
  assert (B62 : (bpow radix2 (-61) = 2 * bpow radix2 (-62))%R) by (change (-61) with (1 + -62); rewrite bpow_plus; reflexivity).
  cbn [sin_restore_loop]. rewrite sin_triple in *. set (c := sin y) in *. clearbody c. pose proof Hv as (W & N & D).
  assert (e0 : (0 <= e)%R) by (pose proof (Rabs_pos (value v - sr s * c)); lra).
  pose proof (value_has_sign v W (proj2 N)) as VS. set (u := Rabs (value v)).
  assert (SU : ns v = s /\ (Rabs (u - c) <= e)%R).
  { unfold u. apply Rabs_le_inv in D. unfold has_sign, sr in *. destruct (ns v), s; cbn [sgnZ] in *; try (exfalso; lra); (split; [reflexivity|]); [rewrite (Rabs_left (value v)) by lra|rewrite (Rabs_pos_eq (value v)) by lra]; apply Rabs_le; lra. }
  destruct SU as [Sv DU]. pose proof (apx_self PO v W N) as Av. rewrite Sv in Av. fold u in Av. clearbody u.
  pose proof (triple_abs e c u Y DU ltac:(lra)) as DT. assert (U1 : (/ 6 <= u <= 1025 / 1024)%R) by (apply Rabs_le_inv in DU; lra).
  assert (V2 : (/ 36 <= u * u <= 21 / 20)%R) by (clear - U1; nra). assert (V3 : (/ 216 <= u * u * u <= 11 / 10)%R) by (clear - U1 V2; nra).
  assert (MH : forall a, (/ 1024 <= a <= 1024)%R -> mid a) by (intros a J; apply (mid_range (-10) 10); [vm_compute; discriminate|vm_compute; discriminate|change (bpow radix2 (-10)) with (/ 1024)%R; change (bpow radix2 10) with 1024%R; exact J]).
  destruct (apx_mul PO PO RNone HPP HL _ _ _ _ _ _ _ _ Av Av ltac:(lia)) as (c1 & -> & A1 & _ & I1); [apply MH; lra|]. cbn [bind].
  replace (sign_mul s s) with Pos in A1 by (destruct s; reflexivity).
  destruct (apx_mul PO PO RNone HPP HL _ _ _ _ _ _ _ _ A1 Av ltac:(lia)) as (c2 & -> & A2 & _ & I2); [apply MH; lra|]. cbn [bind]. rewrite sign_mul_pos in A2.
  destruct (apx_mul PO PO RNone HPP HL _ _ _ _ _ _ _ _ Av (apx_THREE PO) ltac:(lia)) as (p1 & -> & A3 & _ & I3); [apply MH; lra|]. cbn [bind]. rewrite sign_mul_pos_r in A3.
  destruct (apx_mul PO PO RNone HPP HL _ _ _ _ _ _ _ _ A2 (apx_FOUR PO) ltac:(lia)) as (p2 & -> & A4 & _ & I4); [apply MH; lra|]. cbn [bind]. rewrite sign_mul_pos_r in A4.
  apply apx_sab in A3; [|lia|lia]. apply apx_sab in A4; [|lia|lia]. set (w := (3 * u - 4 * (u * u * u))%R) in *. set (w0 := (3 * c - 4 * (c * c * c))%R) in *.
  assert (EW : (sr s * (u * 3) - sr s * (u * u * u * 4) = sr s * w)%R) by (unfold w; ring).
  assert (SA : forall a, Rabs (sr s * a) = Rabs a). { intros a. rewrite Rabs_mult. replace (Rabs (sr s)) with 1%R; [ring|]. unfold sr. destruct s; cbn [sgnZ]; [rewrite Rabs_left by lra|rewrite Rabs_pos_eq by lra]; ring. }
  assert (EA : Rabs (sr s * (u * 3) - sr s * (u * u * u * 4)) = Rabs w) by (rewrite EW; apply SA).
  assert (E3 : (2 * IZR (0 + 0 + 1 + 0 + 1 + 0 + 1) * eps PO * (u * u * u * 4) <= 27 * eps PO)%R). { change (IZR (0 + 0 + 1 + 0 + 1 + 0 + 1)) with 3%R. assert (eps PO * (u * u * u) <= eps PO * (11 / 10))%R by (apply Rmult_le_compat_l; lra). lra. }
  change (IZR (0 + 0 + 1)) with 1%R in A3. assert (E4 : (2 * 1 * eps PO * (u * 3) <= 7 * eps PO)%R). { assert (eps PO * u <= eps PO * (1025 / 1024))%R by (apply Rmult_le_compat_l; lra). lra. }
  assert (WL : (bpow radix2 (-62) <= Rabs w)%R). { pose proof (Rabs_triang w (- (w - w0))) as T. rewrite Rabs_Ropp in T. replace (w + - (w - w0))%R with w0 in T by ring. lra. }
  assert (WU : (Rabs w <= 5)%R) by (apply Rabs_le; unfold w; lra).
  destruct (sab_sub PO PO RNone HPP HL _ _ _ _ _ _ A3 A4) as (q & -> & A5 & L5 & I5).
  { rewrite EA. lra. } { rewrite EA. apply (mid_range (-62) 3); [vm_compute; discriminate|vm_compute; discriminate|]. change (bpow radix2 3) with 8%R. lra. }
  rewrite EA, EW in A5. cbn [bind]. exists q. split; [reflexivity|]. split; [|split; [rewrite L5; exact HP64|apply I5; apply orb_true_iff; left; apply I3; apply orb_true_iff; left; exact Iv]].
  destruct A5 as (W5 & N5 & D5). split; [exact W5|]. split; [exact N5|]. pose proof (Rabs_triang (value q - sr s * w) (sr s * (w - w0))) as T. rewrite SA in T. replace (value q - sr s * w + sr s * (w - w0))%R with (value q - sr s * w0)%R in T by ring.
  assert (3 * eps PO * Rabs w <= 3 * eps PO * 5)%R by (apply Rmult_le_compat_l; lra). lra.
Qed.
End Last.

Section Arg.
Variables (P PO : Z).
Hypothesis HP : 128 <= P <= PO.
Hypothesis HPO : PO <= 2 ^ 22.
Hypothesis HP64 : prec_up PO = PO.
Let HPP : 128 <= P <= prec_up PO.
Proof. clear - HP HP64. lia. Qed.
Let HL : prec_up PO < P_LIM.
Proof. rewrite HP64. eapply Z.le_lt_trans; [exact HPO|]. vm_compute. reflexivity. Qed.

Lemma arg_four s x n a : apx P s 0 a x -> 64 * wlen x = PO -> 0 <= n <= 2 ^ 26 -> (1 <= a <= 4)%R ->
  exists q, (if 0 <? n then sinh_arg_reduce x n RNone else Ok x) = Ok q /\ apx P s 1 (a / IZR (3 ^ n)) q /\ 64 * wlen q = PO.
Proof.
  intros Hx Lx Hn [A1 A2]. destruct (Z.ltb_spec 0 n) as [N|N].
  - unfold sinh_arg_reduce. destruct (power_of_three_ok (Z.to_nat (n - 1)) 1 THREE) as (d & -> & Hd); [split; [exact THREE_wf|split; [reflexivity|exact THREE_value]]|lia|lia|]. cbn [bind].
    replace (1 + Z.of_nat (Z.to_nat (n - 1))) with n in Hd by lia. rewrite max_len, Lx. destruct Hd as (Wd & _ & Vd). pose proof (three_bounds n ltac:(lia)) as [T1 T2]. apply IZR_le in T1, T2. rewrite <- bpow_IZR in T1, T2 by lia.
    assert (D1 : (1 <= IZR (3 ^ n))%R). { eapply Rle_trans; [|exact T1]. change 1%R with (bpow radix2 0). apply bpow_le. lia. }
    assert (Nd : normal d). { apply normal_iff; [exact Wd|]. rewrite Vd, Rabs_pos_eq by lra. eapply Rle_trans; [|exact D1]. change 1%R with (bpow radix2 0). apply bpow_le. vm_compute. discriminate. }
    assert (Sd : ns d = Pos). { destruct Nd as [_ Nd]. pose proof (value_has_sign d Wd Nd) as V. rewrite Vd in V. unfold has_sign in V. destruct (ns d); [|reflexivity]. cbn [sgnZ] in V. exfalso. lra. }
    assert (Ad : apx P Pos 0 (IZR (3 ^ n)) d) by now apply apx_exact.
    destruct (apx_div P PO RNone HPP HL _ _ _ _ _ _ _ _ Hx Ad ltac:(lia)) as (q & E & Hq & Lq & _).
    { assert (I1 : (bpow radix2 (- (2 * n)) <= / IZR (3 ^ n))%R) by (rewrite bpow_opp; apply Rinv_le; lra). assert (I2 : (/ IZR (3 ^ n) <= 1)%R) by (rewrite <- Rinv_1; apply Rinv_le; lra).
      apply (mid_range (0 + - (2 * n)) 2); [unfold HX; lia|vm_compute; discriminate|]. split; [apply low_mul; [exact A1|exact I1]|]. change (bpow radix2 2) with 4%R. unfold Rdiv.  assert (0 < / IZR (3 ^ n))%R by (apply Rinv_0_lt_compat; lra). apply Rle_trans with (4 * 1)%R; [apply Rmult_le_compat; lra|lra]. }
    exists q. rewrite sign_mul_pos_r in Hq. split; [exact E|]. split; [|rewrite Lq; exact HP64]. eapply apx_weak; [|exact Hq]. lia.
  - exists x. split; [reflexivity|]. split; [|exact Lx]. replace n with 0 by lia. eapply apx_same; [|eapply apx_weak; [|exact Hx]; lia]. change (IZR (3 ^ 0)) with 1%R. unfold Rdiv. rewrite Rinv_1. ring.
Qed.
End Arg.

(** ** The series *)
Theorem sin_series_four g x P s : 192 <= P <= 2 ^ 20 -> wf x -> normal x -> ns x = s -> 64 * wlen x = P -> ne x = 2 -> (bpow radix2 (-61) <= Rabs (sin (Rabs (value x))))%R ->
  ends (sin_series g x RNone) (fun q => sab (bpow radix2 58 * eps P) (sr s * sin (Rabs (value x))) q /\ P <= 64 * wlen q /\ ninexact q = true).
Proof.
  intros HP W N S L He FAR. unfold sin_series. cbv zeta. rewrite max_len, L. assert (HP64 : prec_up P = P) by (unfold prec_up; clear - L; dlia). assert (HP22 : 128 <= P <= 2 ^ 22) by (clear - HP; lia).
  destruct (sin_new_ok P HP22 HP64) as (gen & -> & Hgen). cbn [done rbind].
  destruct (series_cost_optimize sinh_red_cost sinh_red_effect g P (sinh_iter_cost P) (- ne x) 2) as [[[n niter] e]|] eqn:EO; [|left; reflexivity].
  destruct (optimize_c g P (- ne x) n niter e ltac:(clear - HP22; lia) ltac:(clear - He; lia) EO) as (step & Hst & Hn0 & Hsn & Hn & Ee & Hni & Hnt). clear EO.
  assert (He1 : n + step - ne x <= e). { rewrite Ee. unfold sinh_red_effect. clear - Hn0 Hst. assert (n + step <= (n + step) * 1000 / 631) by dlia. lia. } clear Ee.
  set (m := - ne x) in *. assert (Hm : m = -2) by (unfold m; clear - He; lia).
  set (p_arg := P + (if 0 <? n * 6 + 9 - e then n * 6 + 9 - e else 0)). assert (Hpa : P <= p_arg <= 3 * P + 127). { unfold p_arg. clear - Hn He1 Hst Hn0 Hm m HP. destruct (Z.ltb_spec 0 (n * 6 + 9 - e)); unfold m in *; lia. }
  clearbody p_arg. set (PO := prec_up p_arg). assert (HPO : P <= PO <= 2 ^ 22) by (unfold PO; clear - Hpa HP HP64; rewrite <- HP64 at 1; unfold prec_up; dlia). assert (HPO64 : prec_up PO = PO) by (unfold PO, prec_up; clear; dlia).
  assert (HL : prec_up PO < P_LIM) by (rewrite HPO64; eapply Z.le_lt_trans; [apply HPO|]; vm_compute; reflexivity).
  assert (HPP : 128 <= P <= prec_up PO) by (clear - HPO64 HPO HP; lia).
  assert (EP : 0 < P /\ 0 < p_arg) by (clear - HP Hpa; lia).
  pose proof (apx_self P x W N) as Ax. rewrite S in Ax. destruct (normal_range x W N) as [X1 X2].
  destruct (apx_len_up P s 0 _ x p_arg Ax ltac:(fold PO; clear - L HPO; lia) ltac:(apply EP) ltac:(fold PO; rewrite <- HPO64; exact HL)) as (x1 & -> & Ax1 & L1 & _). fold PO in L1. cbn [done rbind].
  assert (Hn26 : 0 <= n <= 2 ^ 26) by (clear - Hn Hn0 HP; lia).
  set (ax := Rabs (value x)) in *. assert (AX1 : (bpow radix2 (- m - 1) <= ax)%R) by (unfold m; rewrite Z.opp_involutive; exact X1). assert (AX2 : (ax <= bpow radix2 (- m))%R) by (unfold m; rewrite Z.opp_involutive; left; exact X2).
  assert (AX3 : (2 <= ax <= 4)%R). { rewrite Hm in AX1, AX2. change (bpow radix2 (- -2 - 1)) with 2%R in AX1. change (bpow radix2 (- -2)) with 4%R in AX2. lra. }
  destruct (arg_four P PO ltac:(clear - HP HPO; lia) ltac:(apply HPO) HPO64 s x1 n ax Ax1 L1 Hn26) as (arg & -> & Harg & Larg).
  { lra. }
  cbn [done rbind]. set (t := (ax / IZR (3 ^ n))%R) in *.
  (* the reduced argument *)
  pose proof (three_bounds n Hn0) as [T1 T2]. apply IZR_le in T1, T2. rewrite <- bpow_IZR in T1, T2 by (clear - Hn0; lia).
  assert (D0 : (0 < IZR (3 ^ n))%R) by (eapply Rlt_le_trans; [apply bpow_gt_0|exact T1]). pose proof (bpow_gt_0 radix2 (- m - 1)) as B0.
  assert (TL : (bpow radix2 (- m - 1 + - (2 * n)) <= t)%R). { unfold t. apply low_mul; [exact AX1|]. rewrite bpow_opp. apply Rinv_le; [exact D0|exact T2]. }
  assert (TU : (t <= / 8)%R).
  { unfold t. assert (I1 : (/ IZR (3 ^ n) <= bpow radix2 (- n))%R) by (rewrite bpow_opp; apply Rinv_le; [apply bpow_gt_0|exact T1]). assert (I0 : (0 < / IZR (3 ^ n))%R) by now apply Rinv_0_lt_compat.
    change (/ 8)%R with (bpow radix2 (-3)). apply Rle_trans with (bpow radix2 (- m) * bpow radix2 (- n))%R; [apply Rmult_le_compat; [lra|lra|exact AX2|exact I1]|]. rewrite <- bpow_plus. apply bpow_le. unfold m in *. clear - Hsn Hst. lia. }
  assert (T0 : (0 < t)%R) by (eapply Rlt_le_trans; [apply bpow_gt_0|exact TL]).
  pose proof Harg as (Wa & Na & Sa & La). set (A := Rabs (value arg)) in *. pose proof (lc_two _ _ _ (eps_quarter P 1 ltac:(clear - HP; lia) ltac:(clear; lia)) La) as [A1 A2].
  assert (AA : apx P s 0 A arg) by (rewrite <- Sa; now apply apx_self).
  assert (AL : (bpow radix2 (- m - 2 - 2 * n) <= A)%R). { replace (- m - 2 - 2 * n) with (- m - 1 + - (2 * n) + -1) by ring. rewrite bpow_plus. change (bpow radix2 (-1)) with (/ 2)%R. lra. }
  assert (A0 : (0 < A)%R) by lra. assert (AM : - HX <= - m - 2 - 2 * n + (- m - 2 - 2 * n)) by (unfold HX; clear - Hm Hn26; lia).
  assert (AAL : (bpow radix2 (- m - 2 - 2 * n + (- m - 2 - 2 * n)) <= A * A)%R) by now apply low_mul.
  assert (EPM : prec_up p_arg = prec_up PO) by (fold PO; congruence).
  destruct (apx_mul P p_arg RNone ltac:(rewrite EPM; exact HPP) ltac:(rewrite EPM; exact HL) _ _ _ _ _ _ _ _ AA AA ltac:(clear; lia)) as (xs & -> & Hxs & Lxs & _).
  { apply (mid_range (- m - 2 - 2 * n + (- m - 2 - 2 * n)) 0); [exact AM|vm_compute; discriminate|]. split; [exact AAL|]. change (bpow radix2 0) with 1%R. clear - A0 A2 TU. nra. }
  cbn [done rbind]. replace (sign_mul s s) with Pos in Hxs by (destruct s; reflexivity). fold PO in Lxs. pose proof Hxs as (Ws & Ns & Ss & Ls). set (X := Rabs (value xs)) in *.
  pose proof (lc_two _ _ _ (eps_quarter P (0 + 0 + 1) ltac:(clear - HP; lia) ltac:(clear; lia)) Ls) as [XA XB].
  assert (XU : (X <= / 8)%R) by (clear - XB A0 A2 TU; nra).
  assert (AX : apx P Pos 0 X xs) by (rewrite <- Ss; now apply apx_self).
  destruct (normal_range xs Ws Ns) as [R1 R2]. fold X in R1, R2.
  assert (E1 : ne xs <= -2). { assert (ne xs - 1 <= -3); [|lia]. apply (le_bpow radix2). eapply Rle_trans; [exact R1|exact XU]. }
  assert (E2 : 1 - ne xs <= 2 * m + 4 * n + 5). { assert (EX : - m - 2 - 2 * n + (- m - 2 - 2 * n) + -1 < ne xs); [|clear - EX; lia]. apply (lt_bpow radix2). eapply Rle_lt_trans; [|exact R2]. rewrite bpow_plus. change (bpow radix2 (-1)) with (/ 2)%R. lra. }
  assert (X0 : (0 < X)%R) by (eapply Rlt_le_trans; [apply bpow_gt_0|exact R1]).
  assert (FL : (bpow radix2 (- m - 2 - 2 * n + (ne xs - 1)) <= A * X)%R) by now apply low_mul.
  assert (FU : (A * X <= A / 2)%R) by (clear - A0 X0 XU; nra).
  destruct (apx_mul P p_arg RNone ltac:(rewrite EPM; exact HPP) ltac:(rewrite EPM; exact HL) _ _ _ _ _ _ _ _ AA AX ltac:(clear; lia)) as (xf & -> & Hxf & Lxf & _).
  { apply (mid_range (- m - 2 - 2 * n + (ne xs - 1)) 0); [unfold HX; clear - Hm Hn26 E2; lia|vm_compute; discriminate|]. split; [exact FL|]. change (bpow radix2 0) with 1%R. lra. }
  cbn [done rbind]. rewrite sign_mul_pos_r in Hxf. fold PO in Lxf.
  (* the sum *)
  eapply ends_bind.
  { apply (alt_run_ok P PO sin_gen sin_next (sin_at P) sC JMAX (2 ^ 26) (2 ^ 29 - 4) ltac:(clear - HP HPO; lia) ltac:(apply HPO) HPO64 ltac:(clear; lia) ltac:(clear; lia) sC_range sC_ratio) with (s := s) (k := 1) (A := A) (F := (A * X)%R).
    - exact sC_low4.
    - intros j g0 Hj HJ. destruct (sin_next_ok P HP22 HP64 j g0 Hj HJ) as (c & g' & Q1 & Q2 & Q3 & Q4). exists c, g'. split; [exact Q1|]. split; [exact Q2|]. split; [exact Q3|]. clear - Q4 HPO. lia.
    - exact Ws. - exact Ns. - exact Ss. - exact Lxs. - clear - E1. lia.
    - eapply apx_weak; [|exact AA]. clear. lia.
    - eapply apx_weak; [|exact Hxf]. clear. lia.
    - exact Larg. - exact Lxf. - exact Hgen.
    - clear. lia.
    - split; [eapply low_weak; [|exact FL]; clear - Hm Hn HP E2; lia|exact FU].
    - lra.
    - clear - Hni Hnt HP He1 Hn0 Hst He m. nia.
    - assert (Q1 : 1 - ne xs <= 4 * (e + 2)) by (unfold m in *; clear - E2 He1 Hst He Hn0; lia). assert (Q2 : 2 * niter * (1 - ne xs) <= 4 * P) by (clear - Q1 Hnt Hni; nia). clear - Q2 E2 Hn Hm HP. lia.
    - rewrite JMAX_Z. unfold J22. unfold m in *. clear - Hni Hnt HP He1 Hn0 Hst He. nia. }
  intros ret [(M & HM & Hret & Lret & Tail) Iret]. fold X in Hret, Tail.
  (* back to the sine *)
  set (b := sqrt X). assert (Bb : (b * b = X)%R) by (apply sqrt_sqrt; lra). assert (b0 : (0 < b)%R) by now apply sqrt_lt_R0. assert (b1 : (b <= / 2)%R) by (clear - Bb b0 XU; nra).
  pose proof (eps_pos P) as Ep.
  assert (LB : lc (IZR 1 * eps P) b A). { apply lc_sym. pose proof (lc_sqrt _ _ _ Ls) as Q. rewrite sqrt_square in Q by lra. fold b in Q. eapply lc_weak; [|exact Q]. change (IZR (0 + 0 + 1)) with 1%R. lra. }
  set (ps := psum sC (- X) 0 M) in *. assert (PS0 : (0 <= ps <= 1)%R). { unfold ps. pose proof (alt_range sC X sC_range sC_ratio ltac:(split; [exact X0|lra]) M 0). pose proof (sC_range 0). lra. }
  pose proof (sin_taylor b M ltac:(lra) HM) as TS. rewrite Bb in TS. fold ps in TS. set (T := (b - b * X * ps)%R) in *.
  assert (XP : (0 <= X * ps <= / 8)%R) by (split; [apply Rmult_le_pos; lra|apply Rle_trans with (/ 8 * 1)%R; [apply Rmult_le_compat; lra|lra]]).
  assert (TB : (b / 2 <= T)%R). { unfold T. rewrite Rmult_assoc. assert (b * (X * ps) <= b * / 8)%R by (apply Rmult_le_compat_l; lra). lra. }
  assert (LT : lc (IZR 512 * eps P) T (sin b)).
  { replace (IZR 512 * eps P)%R with (2 * (256 * eps P))%R by ring. apply lc_round; [lra|split; [lra|]; pose proof (eps_quarter P 512 ltac:(clear - HP; lia) ltac:(clear; lia)); lra|]. eapply Rle_trans; [exact TS|].
    assert (Q1 : (X * X ^ M * sC M <= 128 * eps P)%R). { apply Rmult_le_reg_l with A; [exact A0|]. replace (A * (X * X ^ M * sC M))%R with (A * X * X ^ M * sC M)%R by ring. replace (A * (128 * eps P))%R with (128 * eps P * A)%R by ring. exact Tail. }
    replace (b * X * X ^ M * sC M)%R with (b * (X * X ^ M * sC M))%R by ring. apply Rle_trans with (b * (128 * eps P))%R; [apply Rmult_le_compat_l; lra|]. assert (128 * eps P * (b / 2) <= 128 * eps P * T)%R by (apply Rmult_le_compat_l; lra). lra. }
  set (k0 := 2 ^ 8 * 1 + 2 ^ 47) in *. assert (K0 : k0 = 2 ^ 8 + 2 ^ 47) by reflexivity. clearbody k0.
  assert (LR2 : apx P s (2 + (512 + (1 + k0))) (sin t) ret).
  { destruct Hret as (Wr & Nr & Sr & Lr). split; [exact Wr|]. split; [exact Nr|]. split; [exact Sr|]. rewrite (plus_IZR 2), Rmult_plus_distr_r. eapply lc_trans with (sin b).
    - apply lc_sin; [lra|exact T0| |].
      + pose proof (exp_upper (2 * eps P) ltac:(pose proof (eps_quarter P 2 ltac:(clear - HP; lia) ltac:(clear; lia)); lra)) as EU. pose proof (exp_pos (2 * eps P)). pose proof (eps_quarter P 2 ltac:(clear - HP; lia) ltac:(clear; lia)). apply Rle_trans with (/ 8 * 2)%R; [apply Rmult_le_compat; lra|lra].
      + replace (2 * eps P)%R with (IZR 1 * eps P + IZR 1 * eps P)%R by ring. eapply lc_trans; [exact La|apply lc_sym; exact LB].
    - rewrite (plus_IZR 512), Rmult_plus_distr_r. eapply lc_trans; [apply lc_sym; exact LT|]. rewrite (plus_IZR 1), Rmult_plus_distr_r. eapply lc_trans; [|exact Lr].
      replace T with ((1 - X * ps) * b)%R by (unfold T; ring). replace (A - A * X * ps)%R with ((1 - X * ps) * A)%R by ring. apply lc_scale; [lra|exact LB]. }
  replace (0 <? n) with true by (symmetry; apply Z.ltb_lt; clear - Hsn Hst Hm; lia). unfold sin_arg_restore. rewrite max_len, Lret. set (k := 2 + (512 + (1 + k0))) in *. assert (HK : 0 <= k <= 2 ^ 48) by (unfold k; rewrite K0; clear; lia). clearbody k.
  assert (Hn1 : n = 2 + Z.of_nat (Z.to_nat (n - 2))) by (clear - Hsn Hst Hm; lia). set (j := Z.to_nat (n - 2)) in *. clearbody j.
  assert (E3 : (3 * (3 * (IZR (3 ^ Z.of_nat j) * t)) = ax)%R). { assert (E : (IZR (3 ^ n) = 9 * IZR (3 ^ Z.of_nat j))%R) by (rewrite Hn1, Z.pow_add_r by lia; rewrite mult_IZR; reflexivity). replace (3 * (3 * (IZR (3 ^ Z.of_nat j) * t)))%R with (9 * IZR (3 ^ Z.of_nat j) * t)%R by ring. rewrite <- E. unfold t. field. lra. }
  replace (Z.to_nat n) with (Datatypes.S (Datatypes.S j)) by (clear - Hn1; lia). rewrite restore_last, restore_last.
  set (z := (IZR (3 ^ Z.of_nat j) * t)%R) in *. assert (Z1 : (2 / 9 <= z <= 4 / 9)%R) by lra.
  destruct (sin_restore_ok P PO ltac:(clear - HP HPO; lia) ltac:(apply HPO) HPO64 s j k t ret LR2) as (q & -> & Rq & Lq & Iq).
  + apply HK. + clear - HK Hn26 Hn1. lia. + eapply low_weak; [|exact TL]. clear - Hm Hn HP. lia. + fold z. lra. + exact Lret. + exact Iret.
  + fold z in Rq. cbn [bind]. assert (SZ : (/ 5 <= sin z <= / 2)%R).
    { pose proof (pre_sin_bound z 0 ltac:(lra) ltac:(lra)) as [Q1 Q2]. unfold sin_approx, sin_term in Q1, Q2. cbn in Q1, Q2. pose proof (sin_lt_x z ltac:(lra)) as Q3. split; [|lra]. clear - Z1 Q1. assert (z * z <= 16 / 81)%R by nra. assert (z * (z * z) <= z * (16 / 81))%R by (apply Rmult_le_compat_l; lra). lra. }
    assert (SZ3 : (/ 5 <= sin (3 * z) <= 1)%R). { pose proof PI2_3_2 as P3. pose proof PI_4 as P4. pose proof (SIN_bound (3 * z)). split; [|lra]. apply Rle_trans with (sin (2 / 3)); [|apply sin_incr_1; lra]. pose proof (pre_sin_bound (2 / 3) 0 ltac:(lra) ltac:(lra)) as [Q1 _]. unfold sin_approx, sin_term in Q1. cbn in Q1. lra. }
    assert (KB : 0 <= k + 64 * Z.of_nat j <= 2 ^ 49) by (clear - HK Hn26 Hn1; lia).
    apply apx_sab in Rq; [|clear - HP; lia|clear - KB; lia].
    assert (KE : (IZR (k + 64 * Z.of_nat j) * eps P <= bpow radix2 49 * eps P)%R). { apply Rmult_le_compat_r; [lra|]. change (bpow radix2 49) with (IZR (2 ^ 49)). apply IZR_le. apply KB. } assert (KE0 : (0 <= IZR (k + 64 * Z.of_nat j) * eps P)%R) by (apply Rmult_le_pos; [apply IZR_le; apply KB|lra]).
    set (e1 := (2 * IZR (k + 64 * Z.of_nat j) * eps P * sin z)%R) in *. assert (E1b : (0 <= e1 <= bpow radix2 49 * eps P)%R). { unfold e1. replace (2 * IZR (k + 64 * Z.of_nat j) * eps P * sin z)%R with (2 * (IZR (k + 64 * Z.of_nat j) * eps P * sin z))%R by ring. set (kk := (IZR (k + 64 * Z.of_nat j) * eps P)%R) in *. clear - KE KE0 SZ. split; [assert (0 <= kk * sin z)%R by (apply Rmult_le_pos; lra); lra|]. assert (kk * sin z <= kk * / 2)%R by (apply Rmult_le_compat_l; lra). lra. }
    clearbody e1. set (e2 := (bpow radix2 49 * eps P)%R) in *. assert (E2b : (e2 <= bpow radix2 (-100))%R) by (unfold e2, eps; rewrite <- bpow_plus; apply bpow_le; clear - HP; lia).
    assert (B100 : (1024 * bpow radix2 (-100) <= bpow radix2 (-80))%R). { change 1024%R with (bpow radix2 10). rewrite <- bpow_plus. apply bpow_le. lia. }
    assert (EPO : (eps PO <= eps P)%R) by (unfold eps; apply bpow_le; clear - HPO; lia). assert (EP2 : (1024 * eps P <= e2)%R). { unfold e2. apply Rmult_le_compat_r; [lra|]. change 1024%R with (bpow radix2 10). apply bpow_le. lia. }
    pose proof (eps_pos PO) as EpO. pose proof (bpow_gt_0 radix2 (-100)) as Q100.
    destruct (slast_ok PO ltac:(clear - HP HPO; lia) HPO64 s e1 z q Rq ltac:(lra) ltac:(lra)) as (q1 & -> & R1q & L1q & I1q).
    { rewrite Rabs_pos_eq by lra. eapply Rle_trans; [|exact (proj1 SZ3)]. apply Rle_trans with (bpow radix2 (-3)); [apply bpow_le; lia|change (bpow radix2 (-3)) with (/ 8)%R; lra]. } { exact Lq. } { exact Iq. }
    cbn [bind]. destruct (slast_ok PO ltac:(clear - HP HPO; lia) HPO64 s _ (3 * z)%R q1 R1q ltac:(lra) SZ3) as (q2 & -> & R2q & L2q & I2q).
    { rewrite E3. exact FAR. } { exact L1q. } { exact I1q. }
    rewrite E3 in R2q. apply ends_ok. split; [|split; [clear - L2q HPO; lia|exact I2q]]. eapply sab_weak; [|exact R2q]. replace (bpow radix2 58 * eps P)%R with (512 * e2)%R; [lra|]. unfold e2. change 58 with (9 + 49). rewrite bpow_plus. change (bpow radix2 9) with 512%R. ring.
Qed.

From Verif Require Import Ln AltDiv AtanR AtanTop PiNum IntNum WfTop AtanBig PropsConst CosBig.
(** ** The argument *)
Lemma whole_pi P y s : 128 <= P -> is_pi P RNone y -> sab (2 * eps P) (sr s * PI) (set_sign y s) /\ ne (set_sign y s) = 2.
Proof.
  intros HP H. split; [|exact (pi_exp P y HP H)]. destruct H as (W & L & S & I & V & VN). pose proof PI_RGT_0 as P0. pose proof PI_4 as P4. assert (P2 : (2 < PI)%R) by (pose proof PI2_3_2; lra).
  assert (Hp0 : Prec_gt_0 P) by (red; lia).
  assert (G : (bpow radix2 1 <= Rabs (value y))%R). { rewrite V. unfold rnd_prec. apply abs_round_ge_generic; [apply FLX_exp_valid; exact Hp0|apply rnd_valid|apply generic_format_bpow; unfold FLX_exp; lia|]. rewrite Rabs_pos_eq by lra. change (bpow radix2 1) with 2%R. lra. }
  assert (N : normal y). { apply normal_iff; [exact W|]. eapply Rle_trans; [|exact G]. apply bpow_le. vm_compute. discriminate. }
  assert (D : (Rabs (value y - PI) <= 2 * eps P)%R).
  { rewrite V. unfold rnd_prec. pose proof (relative_error_FLX radix2 P Hp0 (rnd RNone) PI) as RE.
    assert (Q : (Rabs (round radix2 (FLX_exp P) (rnd RNone) PI - PI) < bpow radix2 (- P + 1) * Rabs PI)%R) by (apply RE; lra). rewrite (Rabs_pos_eq PI) in Q by lra. unfold eps. replace (2 - P) with (1 + (- P + 1)) by ring. rewrite bpow_plus. change (bpow radix2 1) with 2%R. pose proof (bpow_gt_0 radix2 (- P + 1)) as B. assert (bpow radix2 (- P + 1) * PI <= bpow radix2 (- P + 1) * 4)%R by (apply Rmult_le_compat_l; lra). lra. }
  pose proof (value_has_sign y W (proj2 N)) as VS. rewrite S in VS. unfold has_sign in VS. cbn [sgnZ] in VS.
  split; [now apply wf_set_sign|]. split; [exact N|].
  assert (VQ : value (set_sign y s) = (sr s * value y)%R). { pose proof (value_has_sign (set_sign y s) ltac:(now apply wf_set_sign) (proj2 N)) as VS2. pose proof (abs_set_sign y s) as AB. unfold has_sign in VS2. cbn [set_sign ns] in VS2. rewrite (Rabs_pos_eq (value y)) in AB by lra. unfold sr. destruct s; cbn [sgnZ] in *; [rewrite Rabs_left in AB by lra|rewrite Rabs_pos_eq in AB by lra]; lra. }
  rewrite VQ.
  replace (sr s * value y - sr s * PI)%R with (sr s * (value y - PI))%R by ring. rewrite Rabs_mult. replace (Rabs (sr s)) with 1%R; [lra|]. unfold sr. destruct s; cbn [sgnZ]; [rewrite Rabs_left by lra|rewrite Rabs_pos_eq by lra]; ring.
Qed.

Lemma PI_high : (31 / 10 < PI)%R.
Proof.
  destruct (Rlt_le_dec (31 / 10) PI) as [L|L]; [exact L|exfalso]. pose proof (pre_cos_bound (31 / 20) 1 ltac:(lra) ltac:(lra)) as [B _]. unfold cos_approx, cos_term in B. cbn in B. pose proof PI2_3_2. pose proof (cos_le_0 (31 / 20) ltac:(lra) ltac:(lra)). lra.
Qed.
(** The proximity is to pi, an even multiple. *)
Definition prox_two (far : Prop) (o : prun (Z * Z)) : Prop :=
  match o with
  | None => False
  | Some (c, res) => reachable pi_new pi_for_prec c /\ match res with Ok (t, q) => q = 2 /\ (far -> t <= 62) | _ => overflowed res end
  end.
Lemma proximity_two c y P : reachable pi_new pi_for_prec c -> wf y -> normal y -> 64 * wlen y = P -> 128 <= P <= 1984 -> ne y = 2 -> prox_two (bpow radix2 (-60) <= Rabs (Rabs (value y) - PI))%R (trig_arg_pi_proximity 31 c y RNone).
Proof.
  intros R W N L HP He. unfold trig_arg_pi_proximity. rewrite He. change (0 <? 2) with true. change (2 <? 2) with false. cbn iota. rewrite max_len, L.
  assert (PU : prec_up (P + 2) = P + 64) by (unfold prec_up; clear - L; dlia). assert (PP : prec_up P = P) by (unfold prec_up; clear - L; dlia).
  destruct (pi_num_ok c (P + 2) RNone R ltac:(lia) ltac:(lia)) as (c1 & r & -> & R1 & Hr). destruct r as [pi|e|]; [|split; [exact R1|exact Hr]|contradiction]. rewrite PU in Hr. cbn [pbind].
  assert (H128 : 128 <= P + 64) by lia. destruct (whole_pi (P + 64) pi (ns y) H128 Hr) as [(Wh & Nh & Dh) EH]. set (hp := set_sign pi (ns y)) in *.
  clearbody hp. pose proof (eps_pos (P + 64)) as Ep. assert (ES2 : (4 * eps (P + 64) <= bpow radix2 (-61))%R). { change 4%R with (bpow radix2 2). unfold eps. rewrite <- bpow_plus. apply bpow_le. lia. } assert (ES : (bpow radix2 (-61) <= / 1024)%R) by (change (/ 1024)%R with (bpow radix2 (-10)); apply bpow_le; lia).
  destruct (normal_range y W N) as [Y1 Y2]. rewrite He in Y1, Y2. change (bpow radix2 (2 - 1)) with 2%R in Y1. change (bpow radix2 2) with 4%R in Y2.
  pose proof PI_low as PL. pose proof PI_high as P3.
  pose proof (value_has_sign y W (proj2 N)) as VS. unfold has_sign in VS.
  assert (YS : (2 <= sr (ns y) * value y < 4)%R) by (unfold sr; destruct (ns y); cbn [sgnZ] in *; [rewrite Rabs_left in Y1, Y2 by lra|rewrite Rabs_pos_eq in Y1, Y2 by lra]; lra).
  assert (HS : (sr (ns y) * value hp <= 15 / 4)%R /\ (49 / 16 <= sr (ns y) * value hp)%R) by (apply Rabs_le_inv in Dh; unfold sr in *; destruct (ns y); cbn [sgnZ] in *; lra).
  assert (HD : (Rabs (value y - value hp) <= 7 / 4)%R).
  { apply Rabs_le. unfold sr in *. destruct (ns y); cbn [sgnZ] in *; lra. }
  assert (PLIM : prec_up P < P_LIM) by (rewrite PP; eapply Z.le_lt_trans; [apply HP|vm_compute; reflexivity]).
  assert (Hp0 : Prec_gt_0 P) by (red; lia).
  assert (OV : (Rabs (rnd_prec P RNone (value y - value hp)) < bpow radix2 EMAX)%R).
  { eapply Rle_lt_trans with (bpow radix2 1); [|apply bpow_lt; vm_compute; reflexivity]. eapply Rle_trans; [apply trunc_le; lia|]. change (bpow radix2 1) with 2%R. lra. }
  destruct (sub_ov y hp P RNone W Wh ltac:(lia) PLIM) as [_ O]. rewrite PP in O. destruct (O OV) as (ret & E). rewrite E. cbn [ppure pbind].
  destruct (add_sub_wf y hp P (-1) RNone W Wh (or_intror eq_refl) ltac:(lia) PLIM) as [_ Wr]. specialize (Wr (or_intror (conj (proj2 N) (proj2 Nh)))). change (add_sub y hp P (-1) RNone false) with (n_sub y hp P RNone) in Wr. rewrite E in Wr. destruct Wr as [Wr _].
  pose proof (sub_directed y hp P RNone ret W Wh ltac:(lia) PLIM eq_refl E) as V. rewrite PP in V. unfold rnd_grad in V.
  assert (VE : Valid_exp (FLT_exp (EMIN - P) P)) by (apply FLT_exp_valid; exact Hp0).
  (* never beyond pi by one *)
  assert (G1 : forall k, -100 <= k <= 1 -> generic_format radix2 (FLT_exp (EMIN - P) P) (bpow radix2 k)) by (intros k Hk; apply generic_format_FLT_bpow; [exact Hp0|lia]).
  assert (F74 : (7 / 4 = F2R (Float radix2 7 (-2)))%R) by (unfold F2R; cbn [Fnum Fexp]; change (bpow radix2 (-2)) with (/ 4)%R; reflexivity).
  assert (VR : (Rabs (value ret) <= 7 / 4)%R).
  { rewrite V. apply abs_round_le_generic; [exact VE|apply rnd_valid| |exact HD]. rewrite F74. apply generic_format_FLT. exists (Float radix2 7 (-2)); [reflexivity| |]; cbn [Fnum Fexp]; [|lia]. apply Z.lt_le_trans with (radix2 ^ 3); [reflexivity|]. apply Z.pow_le_mono_r; [reflexivity|lia]. }
  assert (NB : ne ret <= 1).
  { destruct (Z_lt_le_dec 1 (ne ret)) as [G|G]; [exfalso|exact G].
    destruct (pos_exp_normal ret Wr ltac:(lia)) as (Nr & _). destruct (normal_range ret Wr Nr) as [Q _]. assert (bpow radix2 1 <= bpow radix2 (ne ret - 1))%R by (apply bpow_le; lia). change (bpow radix2 1) with 2%R in *. lra. }
  assert (NS : (0 <? ne ret) && sign_eqb (ns y) (ns ret) = false).
  { destruct (Z.ltb_spec 0 (ne ret)) as [G|G]; [|reflexivity]. cbn [andb]. destruct (pos_exp_normal ret Wr G) as (Nr & _). destruct (normal_range ret Wr Nr) as [Q _]. assert (Q1 : (bpow radix2 0 <= Rabs (value ret))%R) by (eapply Rle_trans; [apply bpow_le|exact Q]; lia). change (bpow radix2 0) with 1%R in Q1.
    assert (DF : (sr (ns y) * (value y - value hp) <= 15 / 16)%R) by lra.
    pose proof (value_has_sign ret Wr (proj2 Nr)) as VSr. unfold has_sign in VSr.
    set (d := (value y - value hp)%R) in *.
    assert (ND : (sr (ns y) * d <= 0)%R).
    { destruct (Rle_lt_dec (sr (ns y) * d) 0) as [Q0|Q0]; [exact Q0|exfalso]. assert (F15 : (15 / 16 = F2R (Float radix2 15 (-4)))%R) by (unfold F2R; cbn [Fnum Fexp]; change (bpow radix2 (-4)) with (/ 16)%R; reflexivity).
      assert (Q2 : (Rabs (value ret) <= 15 / 16)%R); [|lra]. rewrite V. apply abs_round_le_generic; [exact VE|apply rnd_valid| |].
      - rewrite F15. apply generic_format_FLT. exists (Float radix2 15 (-4)); [reflexivity| |]; cbn [Fnum Fexp]; [|lia]. apply Z.lt_le_trans with (radix2 ^ 4); [reflexivity|]. apply Z.pow_le_mono_r; [reflexivity|lia].
      - apply Rabs_le. unfold sr in *. destruct (ns y); cbn [sgnZ] in *; lra. }
    assert (RN : (sr (ns y) * value ret <= 0)%R).
    { rewrite V. pose proof (round_0 radix2 (FLT_exp (EMIN - P) P) (rnd RNone)) as Z0. unfold sr in *. destruct (ns y); cbn [sgnZ] in *; [assert (0 <= d)%R by lra|assert (d <= 0)%R by lra]; [assert (Q2 : (round radix2 (FLT_exp (EMIN - P) P) (rnd RNone) 0 <= round radix2 (FLT_exp (EMIN - P) P) (rnd RNone) d)%R) by (apply round_le; [exact VE|apply rnd_valid|assumption])|assert (Q2 : (round radix2 (FLT_exp (EMIN - P) P) (rnd RNone) d <= round radix2 (FLT_exp (EMIN - P) P) (rnd RNone) 0)%R) by (apply round_le; [exact VE|apply rnd_valid|assumption])]; rewrite Z0 in Q2; lra. }
    unfold sr in RN. destruct (ns y), (ns ret); cbn [sgnZ sign_eqb] in *; try reflexivity; exfalso; lra. }
  rewrite NS. cbn [ppure]. split; [exact R1|]. split; [exact EH|intros FAR].
  assert (LR : (bpow radix2 (-61) <= Rabs (value y - value hp))%R).
  { assert (B61 : (bpow radix2 (-60) = 2 * bpow radix2 (-61))%R) by (change (-60) with (1 + -61); rewrite bpow_plus; reflexivity).
    assert (FE : (Rabs (value y - sr (ns y) * PI) = Rabs (Rabs (value y) - PI))%R).
    { unfold sr. destruct (ns y); cbn [sgnZ] in *; [rewrite (Rabs_left (value y)) by lra; rewrite <- Rabs_Ropp; f_equal; ring|rewrite (Rabs_pos_eq (value y)) by lra; f_equal; ring]. }
    rewrite <- FE in FAR. pose proof (Rabs_triang (value y - value hp) (value hp - sr (ns y) * PI)) as T. replace (value y - value hp + (value hp - sr (ns y) * PI))%R with (value y - sr (ns y) * PI)%R in T by ring. lra. }
  assert (LR2 : (bpow radix2 (-61) <= Rabs (value ret))%R). { rewrite V. apply abs_round_ge_generic; [exact VE|apply rnd_valid|apply G1; lia|exact LR]. }
  assert (Nr : normal ret). { apply normal_iff; [exact Wr|]. eapply Rle_trans; [|exact LR2]. apply bpow_le. vm_compute. discriminate. }
  destruct (normal_range ret Wr Nr) as [_ Q]. assert (-61 < ne ret) by (apply (lt_bpow radix2); lra). lia.
Qed.

(** ** Distance from the zero *)
Lemma sin_far y d : (2 <= y <= 4)%R -> (0 <= d <= / 2)%R -> (d <= Rabs (y - PI))%R -> (d / 2 <= Rabs (sin y))%R.
Proof.
  intros Y D F. pose proof PI_high as P3. pose proof PI_low as PL.
  assert (E : Rabs (sin y) = sin (Rabs (PI - y))).
  { rewrite <- (sin_PI_x y). set (z := (PI - y)%R). assert (Z : (-1 <= z <= 3 / 2)%R) by (unfold z; lra). unfold Rabs at 2. destruct (Rcase_abs z) as [N|N].
    - assert (0 < sin (- z))%R by (apply sin_gt_0; lra). rewrite sin_neg in *. rewrite Rabs_left by lra. reflexivity.
    - assert (0 <= sin z)%R by (apply sin_ge_0; lra). apply Rabs_pos_eq. assumption. }
  rewrite E. rewrite Rabs_minus_sym in F. set (z := Rabs (PI - y)) in *. assert (Z : (d <= z <= 3 / 2)%R). { split; [exact F|]. unfold z. apply Rabs_le. lra. } clearbody z.
  apply Rle_trans with (sin d); [|apply sin_incr_1; lra]. pose proof (pre_sin_bound d 0 ltac:(lra) ltac:(lra)) as [B _]. unfold sin_approx, sin_term in B. cbn in B. nra.
Qed.
Lemma sr_sin s r : has_sign s r -> (sr s * sin (Rabs r) = sin r)%R.
Proof. unfold has_sign, sr. destruct s; cbn [sgnZ]; intros H; [rewrite Rabs_left by lra; rewrite sin_neg|rewrite Rabs_pos_eq by lra]; ring. Qed.

(** ** The loop *)
Section Loop.
Context (x0 : num) (p : Z) (rm : rmode) (g : nat).
Hypotheses (W0 : wf x0) (N0 : nonzero x0) (Hp : 0 < p) (Hp64 : p mod 64 = 0) (He : ne x0 = 2) (FAR : (bpow radix2 (-60) <= Rabs (Rabs (value x0) - PI))%R).

Theorem sin_loop_four : forall f c w i, reachable pi_new pi_for_prec c -> p + 64 <= w -> w mod 64 = 0 -> 64 <= i -> i mod 64 = 0 -> 128 <= w -> 64 * wlen x0 <= w -> i <= 64 * (((w + i) / 5 + 63) / 64) ->
  work f w i + 128 <= 1984 -> sin_big_post x0 p rm (sin_loop f g 31 c x0 p rm w i 67).
Proof.
  induction f as [|f IH]; intros c w i RC Hpw Hw64 Hi Hi64 Hw HLx Hii HB; [exact I|].
  pose proof (work_ge (Datatypes.S f) w i ltac:(lia) ltac:(lia)) as HG.
  change (work (Datatypes.S f) w i) with (work f (w + i) (64 * (((w + i) / 5 + 63) / 64))) in HB, HG.
  pose proof (work_ge f (w + i) (64 * (((w + i) / 5 + 63) / 64)) ltac:(lia) ltac:(clear - Hw Hi; dlia)) as HG2.
  assert (PW : prec_up (w + 67) = w + 128) by (unfold prec_up; clear - Hw64; dlia). assert (HPX : 192 <= w + 128 <= 1984) by (clear - HB HG HG2 Hw Hi; lia). assert (PL : prec_up (w + 67) < P_LIM) by (rewrite PW; apply Z.le_lt_trans with 1984; [apply HPX|vm_compute; reflexivity]).
  assert (HX : argument x0 w x0). { pose proof (argument_start x0 W0 N0 ltac:(rewrite He; vm_compute; reflexivity)) as (_ & H2 & _). split; [exact W0|]. split; [exact H2|]. split; [reflexivity|]. split; [reflexivity|exact HLx]. }
  cbn [sin_loop]. destruct (argument_len x0 w x0 (w + 67) ltac:(lia) PL ltac:(lia) HX) as (y & -> & HY & Sy & Ly). rewrite PW in HY, Ly. cbn [ppure pbind]. pose proof HY as (Wy & Ny & Vy & Ey & _). rewrite He in Ey.
  unfold reduce_trig_arg. rewrite Ey. change (2 <? 2) with false. cbn [ppure pbind].
  pose proof (proximity_two c y (w + 128) RC Wy Ny Ly ltac:(clear - HPX; lia) Ey) as PP. destruct (trig_arg_pi_proximity 31 c y RNone) as [[c1 [[t q]|e|]]|]; [|exact PP|exact PP|exact I]. destruct PP as (R1 & -> & PF). rewrite Vy in PF. specialize (PF FAR). cbn [pbind]. change (Z.even 2) with true. cbn [andb]. rewrite (proj2 (Z.ltb_ge 67 t)) by (clear - PF; lia).
  destruct (normal_range y Wy Ny) as [Y1 Y2]. rewrite Ey, Vy in Y1, Y2. change (bpow radix2 (2 - 1)) with 2%R in Y1. change (bpow radix2 2) with 4%R in Y2.
  assert (B60 : (0 <= bpow radix2 (-60) <= / 2)%R). { split; [apply bpow_ge_0|]. change (/ 2)%R with (bpow radix2 (-1)). apply bpow_le. lia. }
  pose proof (sin_far (Rabs (value x0)) _ ltac:(lra) B60 FAR) as CF. assert (CF2 : (bpow radix2 (-61) <= Rabs (sin (Rabs (value x0))))%R). { eapply Rle_trans; [|exact CF]. change (-60) with (1 + -61). rewrite bpow_plus. change (bpow radix2 1) with 2%R. lra. }
  pose proof (value_has_sign x0 W0 N0) as VS.
  pose proof (sin_series_four g y (w + 128) (ns x0) ltac:(clear - HPX; lia) Wy Ny Sy Ly Ey ltac:(rewrite Vy; exact CF2)) as EV. destruct EV as [->|(ret & -> & A & L & Ir)]; [exact I|]. rewrite Vy, (sr_sin _ _ VS) in A.
  assert (SAB : Rabs (sin (Rabs (value x0))) = Rabs (sin (value x0))). { unfold Rabs at 2. destruct (Rcase_abs (value x0)); [rewrite sin_neg, Rabs_Ropp|]; reflexivity. } rewrite SAB in CF2. set (r := sin (value x0)) in *. cbn [ppure pbind].
  pose proof (bpow_gt_0 radix2 (-61)) as B61. assert (R0 : r <> 0%R) by (intros Z; rewrite Z, Rabs_R0 in CF2; lra). destruct (sign_of r R0) as (s & HS & ER).
  assert (AP : apx (w + 64) s (2 ^ 58) (Rabs r) ret).
  { apply (sab_apx (w + 64) s (2 ^ 58) (Rabs r) (bpow radix2 58 * eps (w + 128)) ret ltac:(clear - Hw; lia) ltac:(lra) ltac:(clear; lia)); [rewrite <- ER; exact A|].
    apply Rle_trans with (IZR (2 ^ 58) * eps (w + 64) * bpow radix2 (-61))%R; [|apply Rmult_le_compat_l; [apply Rmult_le_pos; [apply IZR_le; lia|left; apply eps_pos]|exact CF2]]. change (IZR (2 ^ 58)) with (bpow radix2 58). change 2%R with (bpow radix2 1). unfold eps. rewrite <- !bpow_plus. apply bpow_le. lia. }
  destruct AP as (Wr & Nr & Sr & LCr).
  pose proof (accept_elem r ret p rm w (2 ^ 58) Wr Nr Ir ltac:(clear - L; lia) ltac:(rewrite Sr; exact HS) LCr ltac:(clear; lia) Hp Hp64 Hw64 Hpw) as AE.
  destruct (try_set_precision ret p rm w) as [[q [|]]|[tt| | |]|]; try contradiction; cbn [ppure pbind].
  - split; [exact R1|]. now apply elem_mark.
  - rewrite round_step by (clear - HG HG2 HB Hw Hi; lia). apply IH; [exact R1|lia| |clear - Hw Hi; dlia|rewrite Z.mul_comm; apply Z.mod_mul; lia|lia|lia| |exact HB].
    + clear - Hw64 Hi64. dlia.
    + assert (D : (w + i) / 5 <= (w + i + 64 * (((w + i) / 5 + 63) / 64)) / 5) by (apply Z.div_le_mono; [lia|]; clear - Hw Hi; dlia). assert ((((w + i) / 5 + 63) / 64) <= (((w + i + 64 * (((w + i) / 5 + 63) / 64)) / 5 + 63) / 64)) by (apply Z.div_le_mono; lia). lia.
  - split; [exact R1|exact I].
Qed.
End Loop.

Theorem sin_four_ok f g c x p rm : reachable pi_new pi_for_prec c -> wf x -> 0 < p -> (2 <= Rabs (value x) < 4)%R -> (bpow radix2 (-60) <= Rabs (Rabs (value x) - PI))%R ->
  work f (Z.max (prec_up p) (64 * wlen x) + 64) 64 + 128 <= 1984 ->
  sin_big_post x (prec_up p) rm (f_sin f g 31 c x p rm).
Proof.
  intros R W Hp HV FAR HB. assert (N : normal x). { apply normal_iff; [exact W|]. eapply Rle_trans with (bpow radix2 0); [apply bpow_le; vm_compute; discriminate|]. change (bpow radix2 0) with 1%R. lra. }
  assert (He : ne x = 2). { destruct (normal_range x W N) as [H1 H2]. assert (ne x - 1 < 2) by (apply (lt_bpow radix2); change (bpow radix2 2) with 4%R; lra). assert (1 < ne x) by (apply (lt_bpow radix2); change (bpow radix2 1) with 2%R; lra). lia. }
  change (Z.max (prec_up p) (64 * wlen x)) with (max64 (prec_up p) x) in HB. assert (P64 : 64 <= prec_up p) by (unfold prec_up; clear - Hp; dlia). assert (M1 : prec_up p <= max64 (prec_up p) x) by (unfold max64; lia). assert (M2 : 64 * wlen x <= max64 (prec_up p) x) by (unfold max64; lia).
  pose proof (work_ge f (max64 (prec_up p) x + 64) 64 ltac:(lia) ltac:(lia)) as HG. assert (PL : max64 (prec_up p) x + 64 < P_LIM) by (eapply Z.le_lt_trans with 1984; [lia|vm_compute; reflexivity]).
  unfold f_sin. match goal with |- context [@odd_in ?A ?ok ?rest 2 true x p rm] => rewrite (@odd_in_rest A ok rest 2 true x p rm W (proj2 N) Hp ltac:(lia) ltac:(lia)) end. cbv beta. change (mantissa_max_bit_len x) with (64 * wlen x). change (Z.max (prec_up p) (64 * wlen x)) with (max64 (prec_up p) x).
  apply sin_loop_four; [exact W|exact (proj2 N)|lia|apply prec_up_mod|exact He|exact FAR|exact R|lia|apply max_mod|lia|reflexivity|lia|lia|clear - M1 P64; dlia|exact HB].
Qed.
