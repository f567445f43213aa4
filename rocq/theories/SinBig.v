(** The sine for arguments between one and two in magnitude. *)

From Coq Require Import ZArith List Bool Lia Reals Lra.
From Flocq Require Import Core.
From Verif Require Import Words IntModel Mantissa Num Pow Consts Elem Series Exp Sin SpecZ SpecOps SpecConst SpecPow SpecElem WordsP Spec RealP RealP2 NumP CmpP AddP SetP AddNum MulNum DivNum ArithTop ConvNum Conv2Num RootP ConstP ConstNum ExtP PowExt Refute1 ElemR ElemDom SmallP ElemNum ApproxR ApproxNum SeriesNum SinhR SinhNum SinhTop ExpNum RetryNum ConstReach SpecReach ExpTop HypNum HypTop TanhNum AltNum SinTop.
Import ListNotations.
Open Scope Z_scope.
Ltac Zify.zify_post_hook ::= idtac.
Arguments Z.mul : simpl never.
Arguments Z.add : simpl never.
Arguments Z.pow : simpl never.
Arguments Z.sub : simpl never.
Arguments Z.of_nat : simpl never.
Ltac dlia := Z.div_mod_to_equations; lia.

(** ** Facts about the sine *)
Lemma sin_big y : (1 <= y <= 2)%R -> (4 / 5 <= sin y <= 1)%R.
Proof.
  intros H. pose proof PI2_3_2 as P3. pose proof PI_4 as P4. pose proof (SIN_bound y) as B. split; [|lra].
  assert (S1 : (4 / 5 <= sin 1)%R). { pose proof (pre_sin_bound 1 0 ltac:(lra) ltac:(lra)) as [Q _]. unfold sin_approx, sin_term in Q. cbn in Q. lra. }
  destruct (Rle_lt_dec y (PI / 2)) as [L|L].
  - eapply Rle_trans; [exact S1|]. apply sin_incr_1; lra.
  - replace (sin y) with (sin (PI - y)) by (apply sin_PI_x || (rewrite sin_minus, sin_PI, cos_PI; ring)). eapply Rle_trans; [exact S1|]. apply sin_incr_1; lra.
Qed.
Lemma lc_triple_big d a v : (0 <= d <= / 1024)%R -> (3 / 10 <= a <= 5 / 8)%R -> (4 / 5 <= 3 * a - 4 * (a * a * a))%R -> lc d a v ->
  lc (8 * d) (3 * a - 4 * (a * a * a)) (3 * v - 4 * (v * v * v)) /\ (/ 4 <= v <= 2 / 3)%R.
Proof.
  intros Hd Ha HW L. pose proof (lc_abs d a v ltac:(lra) L) as D.
  assert (D2 : (Rabs (v - a) <= 2 * d)%R) by nra. assert (V : (29 / 100 <= v <= 63 / 100)%R) by (apply Rabs_le_inv in D2; lra).
  split; [|lra]. replace (8 * d)%R with (2 * (4 * d))%R by ring. apply lc_round; [lra|lra|].
  replace (3 * v - 4 * (v * v * v) - (3 * a - 4 * (a * a * a)))%R with ((3 - 4 * (v * v + v * a + a * a)) * (v - a))%R by ring. rewrite Rabs_mult.
  assert (C : (Rabs (3 - 4 * (v * v + v * a + a * a)) <= 2)%R). { apply Rabs_le. clear - V Ha. split; nra. }
  set (w := (3 * a - 4 * (a * a * a))%R) in *. clearbody w.
  assert (D3 : (Rabs (v - a) <= 5 / 4 * d)%R) by (eapply Rle_trans; [exact D|]; clear - Ha Hd; nra).
  apply Rle_trans with (2 * (5 / 4 * d))%R; [apply Rmult_le_compat; [apply Rabs_pos|apply Rabs_pos|exact C|exact D3]|]. clear - HW Hd. nra.
Qed.

(** ** The number of reduction steps *)
Lemma optimize_loop_b f p m step B : -1 <= m -> 1 <= p -> 1 <= step -> forall times c1,
  0 <= times /\ 0 <= times + m -> match c1 with None => True | Some c => c <= B /\ step <= times /\ (times - step) * red_unit p <= c end ->
  (c1 = None -> series_cost (series_niter p (sinh_red_effect times m) / 2) p (sinh_iter_cost p) + sinh_red_cost times p <= B) ->
  (forall t, 0 <= t /\ 0 <= t + m -> 0 <= series_niter p (sinh_red_effect t m) / 2 < 2 ^ 32) ->
  forall n niter e, optimize_loop sinh_red_cost sinh_red_effect f p (sinh_iter_cost p) m 2 step times c1 = Some (n, niter, e) ->
  times - step <= n /\ (c1 = None -> times <= n) /\ n * red_unit p <= B /\ e = sinh_red_effect (n + step) m /\ niter = series_niter p e / 2.
Proof.
  intros Hm Hp Hs. induction f as [|f IH]; intros times c1 Ht Hc1 HB HN n niter e E; [discriminate E|]. cbn [optimize_loop] in E. cbv zeta in E.
  set (c2 := series_cost _ _ _ + sinh_red_cost times p) in E. pose proof (series_cost_le _ p (HN times Ht) Hp) as [R0 [R1 _]].
  assert (C2 : times * red_unit p <= c2). { unfold c2, sinh_red_cost. fold (red_unit p). lia. }
  destruct (match c1 with None => true | Some c => c2 <? c end) eqn:T.
  - apply IH in E; [|lia| |discriminate|exact HN].
    + destruct E as (E1 & _ & E3 & E4 & E5). split; [lia|]. split; [intros _; lia|]. auto.
    + split; [|split; [lia|replace (times + step - step) with times by ring; exact C2]]. destruct c1 as [c|]; [apply Z.ltb_lt in T; lia|]. apply HB. reflexivity.
  - destruct c1 as [c|]; [|discriminate T]. injection E as <- <- <-. destruct Hc1 as (Q1 & Q2 & Q3). split; [lia|]. split; [discriminate|]. split; [lia|]. replace (times - step + step) with times by ring. auto.
Qed.

Lemma optimize_b f p m n niter e : 128 <= p <= 2 ^ 22 -> -1 <= m -> series_cost_optimize sinh_red_cost sinh_red_effect f p (sinh_iter_cost p) m 2 = Some (n, niter, e) ->
  exists step, 3 <= step <= 11 /\ 0 <= n /\ step <= m + n /\ 10 * n <= 4 * p + 120 /\ e = sinh_red_effect (n + step) m /\ 0 <= niter /\ 2 * niter * (e + 2) <= p.
Proof.
  intros Hp Hm E. unfold series_cost_optimize in E. rewrite log2_floor_spec in E by lia. assert (L7 : 7 <= Z.log2 p) by (apply Z.log2_le_pow2; lia). assert (L22 : Z.log2 p <= 22). { change 22 with (Z.log2 (2 ^ 22)). apply Z.log2_le_mono. lia. }
  set (step := Z.log2 p / 2) in *. assert (HS : 3 <= step <= 11) by (unfold step; clear - L7 L22; dlia). clearbody step.
  set (r0 := if m <? step then step - m else 0) in *. assert (R0 : 0 <= r0 <= 12 /\ step <= m + r0) by (unfold r0; destruct (Z.ltb_spec m step); lia). clearbody r0.
  assert (EF : forall t, 0 <= t -> t + m <= sinh_red_effect t m). { intros t Ht. unfold sinh_red_effect. assert (t <= t * 1000 / 631) by (clear - Ht; dlia). lia. }
  assert (NI : forall t, 0 <= t /\ 0 <= t + m -> 0 <= series_niter p (sinh_red_effect t m) / 2 < 2 ^ 32 /\ 2 * (series_niter p (sinh_red_effect t m) / 2) * (sinh_red_effect t m + 2) <= p).
  { intros t Ht. specialize (EF t (proj1 Ht)). pose proof (niter_le p (sinh_red_effect t m) ltac:(lia) ltac:(lia)) as [N1 N2]. set (e0 := sinh_red_effect t m) in *. set (k := series_niter p e0) in *. clearbody k e0.
    assert (D : p / (e0 + 2) * (e0 + 2) <= p) by (rewrite Z.mul_comm; apply Z.mul_div_le; lia). set (d := p / (e0 + 2)) in *. clearbody d.
    assert (H2 : 0 <= 2 * (k / 2) <= k) by (clear - N1; dlia). set (h := k / 2) in *. clearbody h. split; nia. }
  pose proof (NI r0 ltac:(lia)) as [N0 N1]. set (it0 := series_niter p (sinh_red_effect r0 m) / 2) in *. pose proof (EF r0 ltac:(lia)) as E0.
  assert (IT : 10 * it0 <= p) by nia. pose proof (series_cost_le it0 p N0 ltac:(lia)) as [U0 [_ U1]].
  pose proof (optimize_loop_b f p m step ((4 * it0 + r0) * red_unit p) Hm ltac:(lia) ltac:(lia) r0 None ltac:(lia) I) as O.
  specialize (O ltac:(intros _; unfold sinh_red_cost; fold (red_unit p) it0; lia) (fun t Ht => proj1 (NI t Ht)) n niter e E). destruct O as (_ & O2 & O3 & O4 & O5). specialize (O2 eq_refl).
  assert (n <= 4 * it0 + r0) by (apply Zmult_le_reg_r with (red_unit p); lia).
  exists step. split; [exact HS|]. split; [lia|]. split; [lia|]. split; [lia|]. split; [exact O4|]. rewrite O5, O4. destruct (NI (n + step) ltac:(lia)) as [Q1 Q2]. split; [lia|exact Q2].
Qed.

(** ** Restoration *)
Lemma restore_last n : forall p rm v, sin_restore_loop (Datatypes.S n) p rm v = bind (sin_restore_loop n p rm v) (sin_restore_loop 1 p rm).
Proof.
  induction n as [|n IH]; intros p rm v; [reflexivity|].
  change (sin_restore_loop (Datatypes.S (Datatypes.S n)) p rm v) with (bind (n_mul v v p rm) (fun c => bind (n_mul c v p rm) (fun c => bind (n_mul v THREE p rm) (fun p1 => bind (n_mul c FOUR p rm) (fun p2 => bind (n_sub p1 p2 p rm) (fun s => sin_restore_loop (Datatypes.S n) p rm s)))))).
  change (sin_restore_loop (Datatypes.S n) p rm v) with (bind (n_mul v v p rm) (fun c => bind (n_mul c v p rm) (fun c => bind (n_mul v THREE p rm) (fun p1 => bind (n_mul c FOUR p rm) (fun p2 => bind (n_sub p1 p2 p rm) (fun s => sin_restore_loop n p rm s)))))).
  destruct (n_mul v v p rm) as [c| |]; [|reflexivity|reflexivity]. cbn [bind]. destruct (n_mul c v p rm) as [c1| |]; [|reflexivity|reflexivity]. cbn [bind]. destruct (n_mul v THREE p rm) as [p1| |]; [|reflexivity|reflexivity]. cbn [bind]. destruct (n_mul c1 FOUR p rm) as [p2| |]; [|reflexivity|reflexivity]. cbn [bind]. destruct (n_sub p1 p2 p rm) as [s| |]; [|reflexivity|reflexivity]. cbn [bind]. apply IH.
Qed.
Section Last.
Variables (P PO : Z).
Hypothesis HP : 128 <= P <= PO.
Hypothesis HPO : PO <= 2 ^ 22.
Hypothesis HP64 : prec_up PO = PO.
Let HPP : 128 <= P <= prec_up PO.
Proof. clear - HP HP64. lia. Qed.
Let HL : prec_up PO < P_LIM.
Proof. rewrite HP64. eapply Z.le_lt_trans; [exact HPO|]. vm_compute. reflexivity. Qed.

(** The last tripling, from between one third and two thirds. *)
Lemma last_ok s k y v : apx P s k (sin y) v -> 0 <= k <= 2 ^ 55 -> (/ 3 <= y <= 2 / 3)%R -> 64 * wlen v = PO -> ninexact v = true ->
  exists q, sin_restore_loop 1 PO RNone v = Ok q /\ apx P s (8 * k + 64) (sin (3 * y)) q /\ 64 * wlen q = PO /\ ninexact q = true.
Proof.
  intros Hv Hk Y Lv Iv. cbn [sin_restore_loop]. destruct Hv as (W & N & S & L). set (u := Rabs (value v)) in *.
    pose proof (eps_small P k ltac:(lia) ltac:(lia)) as KE. assert (KE2 : (bpow radix2 (-66) <= / 1024)%R) by (change (/ 1024)%R with (bpow radix2 (-10)); apply bpow_le; lia). pose proof (eps_pos P) as Ep. assert (D0 : (0 <= IZR k * eps P)%R) by (apply Rmult_le_pos; [apply IZR_le; lia|lra]).
    set (d := (IZR k * eps P)%R) in *. assert (D1 : (d <= / 1024)%R) by lra.
    pose proof (sin_big (3 * y) ltac:(lra)) as SB. rewrite sin_triple in SB.
    assert (SY : (3 / 10 <= sin y <= 5 / 8)%R).
    { pose proof (pre_sin_bound y 0 ltac:(lra) ltac:(lra)) as [B1 B2]. unfold sin_approx, sin_term in B1, B2. cbn in B1, B2. replace (y * (y * (y * 1)))%R with (y * (y * y))%R in * by ring. clear - B1 B2 Y. assert (C : (/ 9 <= y * y <= 4 / 9)%R) by nra. replace (y * (y * (y * (y * y))))%R with (y * ((y * y) * (y * y)))%R in B2 by ring. set (c := (y * y)%R) in *. assert (C2 : (y * (c * c) <= y * (4 / 9 * c))%R) by (apply Rmult_le_compat_l; [lra|]; nra).
      assert (M : (0 <= (2 / 3 - y) * (1 - 22 / 135 * (4 / 9 + 2 / 3 * y + c)))%R) by (apply Rmult_le_pos; lra). assert (E : ((2 / 3 - y) * (1 - 22 / 135 * (4 / 9 + 2 / 3 * y + c)) = 2 / 3 - 22 / 135 * (8 / 27) - (y - 22 / 135 * (y * c)))%R) by (unfold c; field). rewrite E in M. assert (YC : (y * c <= y * (4 / 9))%R) by (apply Rmult_le_compat_l; lra). split; lra. }
    pose proof (lc_triple_big d (sin y) u ltac:(lra) SY ltac:(lra) L) as [LT U1].
    assert (LW : (7 / 10 <= 3 * u - 4 * (u * u * u))%R). { assert (D8 : (8 * d <= / 128)%R) by lra. pose proof (lc_abs (8 * d) _ _ ltac:(lra) LT) as Q. apply Rabs_le_inv in Q. set (w := (3 * sin y - 4 * (sin y * sin y * sin y))%R) in *. clearbody w. clear - Q SB D8 D0. assert (8 * d * w <= / 128 * 1)%R by (apply Rmult_le_compat; lra). lra. }
    assert (Av : apx P s 0 u v) by (rewrite <- S; now apply apx_self).
    assert (V2 : (/ 16 <= u * u <= 4 / 9)%R) by (clear - U1; nra). assert (V3 : (/ 64 <= u * u * u <= 4 / 9 * u)%R) by (clear - U1 V2; nra).
    assert (MH : forall a, (/ 1024 <= a <= 1024)%R -> mid a) by (intros a J; apply (mid_range (-10) 10); [vm_compute; discriminate|vm_compute; discriminate|change (bpow radix2 (-10)) with (/ 1024)%R; change (bpow radix2 10) with 1024%R; exact J]).
    destruct (apx_mul P PO RNone HPP HL _ _ _ _ _ _ _ _ Av Av ltac:(lia)) as (c1 & -> & A1 & _ & I1); [apply MH; lra|]. cbn [bind].
    replace (sign_mul s s) with Pos in A1 by (destruct s; reflexivity).
    destruct (apx_mul P PO RNone HPP HL _ _ _ _ _ _ _ _ A1 Av ltac:(lia)) as (c2 & -> & A2 & _ & I2); [apply MH; lra|]. cbn [bind]. rewrite sign_mul_pos in A2.
    destruct (apx_mul P PO RNone HPP HL _ _ _ _ _ _ _ _ Av (apx_THREE P) ltac:(lia)) as (p1 & -> & A3 & _ & I3); [apply MH; lra|]. cbn [bind]. rewrite sign_mul_pos_r in A3.
    destruct (apx_mul P PO RNone HPP HL _ _ _ _ _ _ _ _ A2 (apx_FOUR P) ltac:(lia)) as (p2 & -> & A4 & _ & I4); [apply MH; lra|]. cbn [bind]. rewrite sign_mul_pos_r in A4.
    apply apx_sab in A3; [|lia|lia]. apply apx_sab in A4; [|lia|lia]. set (w := (u * 3 - u * u * u * 4)%R). assert (W1 : (7 / 10 <= w <= 2)%R) by (unfold w; lra).
    assert (EW : (sr s * (u * 3) - sr s * (u * u * u * 4) = sr s * w)%R) by (unfold w; ring). assert (EA : Rabs (sr s * (u * 3) - sr s * (u * u * u * 4)) = w) by (rewrite EW; apply sr_abs; lra).
    assert (ES : (eps P <= / 1024)%R). { change (/ 1024)%R with (bpow radix2 (-10)). unfold eps. apply bpow_le. lia. }
    assert (E3 : (2 * IZR (0 + 0 + 1 + 0 + 1 + 0 + 1) * eps P * (u * u * u * 4) <= 8 * eps P)%R). { change (IZR (0 + 0 + 1 + 0 + 1 + 0 + 1)) with 3%R. assert (eps P * (u * u * u) <= eps P * / 3)%R by (apply Rmult_le_compat_l; lra). lra. }
    change (IZR (0 + 0 + 1)) with 1%R in A3. assert (E4 : (2 * 1 * eps P * (u * 3) <= 4 * eps P)%R). { assert (eps P * u <= eps P * (2 / 3))%R by (apply Rmult_le_compat_l; lra). lra. }
    destruct (sab_sub P PO RNone HPP HL _ _ _ _ _ _ A3 A4) as (q & -> & A5 & L5 & I5).
    { rewrite EA. lra. } { rewrite EA. apply MH. lra. }
    rewrite EA, EW in A5. cbn [bind].
    assert (A6 : apx P s 64 w q). { apply (sab_apx P s 64 w _ q ltac:(lia) ltac:(lra) ltac:(lia) A5). assert (3 * eps P * w <= 3 * eps P * 2)%R by (apply Rmult_le_compat_l; lra). assert (64 * eps P * (7 / 10) <= 64 * eps P * w)%R by (apply Rmult_le_compat_l; lra). lra. }
    exists q. split; [reflexivity|]. split; [|split; [rewrite L5; exact HP64|apply I5; apply orb_true_iff; left; apply I3; apply orb_true_iff; left; exact Iv]].
    eapply apx_weak with (8 * k + 64); [lia|]. destruct A6 as (W6 & N6 & S6 & L6). split; [exact W6|]. split; [exact N6|]. split; [exact S6|]. rewrite plus_IZR, mult_IZR, Rmult_plus_distr_r. eapply lc_trans; [|exact L6]. rewrite sin_triple. replace w with (3 * u - 4 * (u * u * u))%R by (unfold w; ring). rewrite Rmult_assoc. exact LT.
Qed.
End Last.

Section Arg.
Variables (P PO : Z).
Hypothesis HP : 128 <= P <= PO.
Hypothesis HPO : PO <= 2 ^ 22.
Hypothesis HP64 : prec_up PO = PO.
Let HPP : 128 <= P <= prec_up PO.
Proof. clear - HP HP64. lia. Qed.
Let HL : prec_up PO < P_LIM.
Proof. rewrite HP64. eapply Z.le_lt_trans; [exact HPO|]. vm_compute. reflexivity. Qed.

Lemma arg_big s x n a : apx P s 0 a x -> 64 * wlen x = PO -> 0 <= n <= 2 ^ 26 -> (1 <= a <= 2)%R ->
  exists q, (if 0 <? n then sinh_arg_reduce x n RNone else Ok x) = Ok q /\ apx P s 1 (a / IZR (3 ^ n)) q /\ 64 * wlen q = PO.
Proof.
  intros Hx Lx Hn [A1 A2]. destruct (Z.ltb_spec 0 n) as [N|N].
  - unfold sinh_arg_reduce. destruct (power_of_three_ok (Z.to_nat (n - 1)) 1 THREE) as (d & -> & Hd); [split; [exact THREE_wf|split; [reflexivity|exact THREE_value]]|lia|lia|]. cbn [bind].
    replace (1 + Z.of_nat (Z.to_nat (n - 1))) with n in Hd by lia. rewrite max_len, Lx. destruct Hd as (Wd & _ & Vd). pose proof (three_bounds n ltac:(lia)) as [T1 T2]. apply IZR_le in T1, T2. rewrite <- bpow_IZR in T1, T2 by lia.
    assert (D1 : (1 <= IZR (3 ^ n))%R). { eapply Rle_trans; [|exact T1]. change 1%R with (bpow radix2 0). apply bpow_le. lia. }
    assert (Nd : normal d). { apply normal_iff; [exact Wd|]. rewrite Vd, Rabs_pos_eq by lra. eapply Rle_trans; [|exact D1]. change 1%R with (bpow radix2 0). apply bpow_le. vm_compute. discriminate. }
    assert (Sd : ns d = Pos). { destruct Nd as [_ Nd]. pose proof (value_has_sign d Wd Nd) as V. rewrite Vd in V. unfold has_sign in V. destruct (ns d); [|reflexivity]. cbn [sgnZ] in V. exfalso. lra. }
    assert (Ad : apx P Pos 0 (IZR (3 ^ n)) d) by now apply apx_exact.
    destruct (apx_div P PO RNone HPP HL _ _ _ _ _ _ _ _ Hx Ad ltac:(lia)) as (q & E & Hq & Lq & _).
    { assert (I1 : (bpow radix2 (- (2 * n)) <= / IZR (3 ^ n))%R) by (rewrite bpow_opp; apply Rinv_le; lra). assert (I2 : (/ IZR (3 ^ n) <= 1)%R) by (rewrite <- Rinv_1; apply Rinv_le; lra).
      apply (mid_range (0 + - (2 * n)) 1); [unfold HX; lia|vm_compute; discriminate|]. split; [apply low_mul; [exact A1|exact I1]|]. change (bpow radix2 1) with 2%R. unfold Rdiv.  assert (0 < / IZR (3 ^ n))%R by (apply Rinv_0_lt_compat; lra). apply Rle_trans with (2 * 1)%R; [apply Rmult_le_compat; lra|lra]. }
    exists q. rewrite sign_mul_pos_r in Hq. split; [exact E|]. split; [|rewrite Lq; exact HP64]. eapply apx_weak; [|exact Hq]. lia.
  - exists x. split; [reflexivity|]. split; [|exact Lx]. replace n with 0 by lia. eapply apx_same; [|eapply apx_weak; [|exact Hx]; lia]. change (IZR (3 ^ 0)) with 1%R. unfold Rdiv. rewrite Rinv_1. ring.
Qed.
End Arg.

(** ** The series *)
Definition KS : Z := 2 ^ 54.
Theorem sin_series_big g x P s : 128 <= P <= 2 ^ 20 -> wf x -> normal x -> ns x = s -> 64 * wlen x = P -> ne x = 1 ->
  ends (sin_series g x RNone) (fun q => apx P s KS (sin (Rabs (value x))) q /\ P <= 64 * wlen q /\ ninexact q = true).
Proof.
  intros HP W N S L He. unfold sin_series. cbv zeta. rewrite max_len, L. assert (HP64 : prec_up P = P) by (unfold prec_up; clear - L; dlia). assert (HP22 : 128 <= P <= 2 ^ 22) by (clear - HP; lia).
  destruct (sin_new_ok P HP22 HP64) as (gen & -> & Hgen). cbn [done rbind].
  destruct (series_cost_optimize sinh_red_cost sinh_red_effect g P (sinh_iter_cost P) (- ne x) 2) as [[[n niter] e]|] eqn:EO; [|left; reflexivity].
  destruct (optimize_b g P (- ne x) n niter e ltac:(clear - HP22; lia) ltac:(clear - He; lia) EO) as (step & Hst & Hn0 & Hsn & Hn & Ee & Hni & Hnt). clear EO.
  assert (He1 : n + step - ne x <= e). { rewrite Ee. unfold sinh_red_effect. clear - Hn0 Hst. assert (n + step <= (n + step) * 1000 / 631) by dlia. lia. } clear Ee.
  set (m := - ne x) in *. assert (Hm : m = -1) by (unfold m; clear - He; lia).
  set (p_arg := P + (if 0 <? n * 6 + 9 - e then n * 6 + 9 - e else 0)). assert (Hpa : P <= p_arg <= 3 * P + 127). { unfold p_arg. clear - Hn He1 Hst Hn0 Hm m HP. destruct (Z.ltb_spec 0 (n * 6 + 9 - e)); unfold m in *; lia. }
  clearbody p_arg. set (PO := prec_up p_arg). assert (HPO : P <= PO <= 2 ^ 22) by (unfold PO; clear - Hpa HP HP64; rewrite <- HP64 at 1; unfold prec_up; dlia). assert (HPO64 : prec_up PO = PO) by (unfold PO, prec_up; clear; dlia).
  assert (HL : prec_up PO < P_LIM) by (rewrite HPO64; eapply Z.le_lt_trans; [apply HPO|]; vm_compute; reflexivity).
  assert (HPP : 128 <= P <= prec_up PO) by (clear - HPO64 HPO HP; lia).
  assert (EP : 0 < P /\ 0 < p_arg) by (clear - HP Hpa; lia).
  pose proof (apx_self P x W N) as Ax. rewrite S in Ax. destruct (normal_range x W N) as [X1 X2].
  destruct (apx_len_up P s 0 _ x p_arg Ax ltac:(fold PO; clear - L HPO; lia) ltac:(apply EP) ltac:(fold PO; rewrite <- HPO64; exact HL)) as (x1 & -> & Ax1 & L1 & _). fold PO in L1. cbn [done rbind].
  assert (Hn26 : 0 <= n <= 2 ^ 26) by (clear - Hn Hn0 HP; lia).
  set (ax := Rabs (value x)) in *. assert (AX1 : (bpow radix2 (- m - 1) <= ax)%R) by (unfold m; rewrite Z.opp_involutive; exact X1). assert (AX2 : (ax <= bpow radix2 (- m))%R) by (unfold m; rewrite Z.opp_involutive; left; exact X2).
  assert (AX3 : (1 <= ax <= 2)%R). { rewrite Hm in AX1, AX2. change (bpow radix2 (- -1 - 1)) with 1%R in AX1. change (bpow radix2 (- -1)) with 2%R in AX2. lra. }
  destruct (arg_big P PO ltac:(clear - HP HPO; lia) ltac:(apply HPO) HPO64 s x1 n ax Ax1 L1 Hn26) as (arg & -> & Harg & Larg).
  { exact AX3. }
  cbn [done rbind]. set (t := (ax / IZR (3 ^ n))%R) in *.
  (* the reduced argument *)
  pose proof (three_bounds n Hn0) as [T1 T2]. apply IZR_le in T1, T2. rewrite <- bpow_IZR in T1, T2 by (clear - Hn0; lia).
  assert (D0 : (0 < IZR (3 ^ n))%R) by (eapply Rlt_le_trans; [apply bpow_gt_0|exact T1]). pose proof (bpow_gt_0 radix2 (- m - 1)) as B0.
  assert (TL : (bpow radix2 (- m - 1 + - (2 * n)) <= t)%R). { unfold t. apply low_mul; [exact AX1|]. rewrite bpow_opp. apply Rinv_le; [exact D0|exact T2]. }
  assert (TU : (t <= / 8)%R).
  { unfold t. assert (I1 : (/ IZR (3 ^ n) <= bpow radix2 (- n))%R) by (rewrite bpow_opp; apply Rinv_le; [apply bpow_gt_0|exact T1]). assert (I0 : (0 < / IZR (3 ^ n))%R) by now apply Rinv_0_lt_compat.
    change (/ 8)%R with (bpow radix2 (-3)). apply Rle_trans with (bpow radix2 (- m) * bpow radix2 (- n))%R; [apply Rmult_le_compat; [lra|lra|exact AX2|exact I1]|]. rewrite <- bpow_plus. apply bpow_le. unfold m in *. clear - Hsn Hst. lia. }
  assert (T0 : (0 < t)%R) by (eapply Rlt_le_trans; [apply bpow_gt_0|exact TL]).
  pose proof Harg as (Wa & Na & Sa & La). set (A := Rabs (value arg)) in *. pose proof (lc_two _ _ _ (eps_quarter P 1 ltac:(apply HP) ltac:(clear; lia)) La) as [A1 A2].
  assert (AA : apx P s 0 A arg) by (rewrite <- Sa; now apply apx_self).
  assert (AL : (bpow radix2 (- m - 2 - 2 * n) <= A)%R). { replace (- m - 2 - 2 * n) with (- m - 1 + - (2 * n) + -1) by ring. rewrite bpow_plus. change (bpow radix2 (-1)) with (/ 2)%R. lra. }
  assert (A0 : (0 < A)%R) by lra. assert (AM : - HX <= - m - 2 - 2 * n + (- m - 2 - 2 * n)) by (unfold HX; clear - Hm Hn26; lia).
  assert (AAL : (bpow radix2 (- m - 2 - 2 * n + (- m - 2 - 2 * n)) <= A * A)%R) by now apply low_mul.
  assert (EPM : prec_up p_arg = prec_up PO) by (fold PO; congruence).
  destruct (apx_mul P p_arg RNone ltac:(rewrite EPM; exact HPP) ltac:(rewrite EPM; exact HL) _ _ _ _ _ _ _ _ AA AA ltac:(clear; lia)) as (xs & -> & Hxs & Lxs & _).
  { apply (mid_range (- m - 2 - 2 * n + (- m - 2 - 2 * n)) 0); [exact AM|vm_compute; discriminate|]. split; [exact AAL|]. change (bpow radix2 0) with 1%R. clear - A0 A2 TU. nra. }
  cbn [done rbind]. replace (sign_mul s s) with Pos in Hxs by (destruct s; reflexivity). fold PO in Lxs. pose proof Hxs as (Ws & Ns & Ss & Ls). set (X := Rabs (value xs)) in *.
  pose proof (lc_two _ _ _ (eps_quarter P (0 + 0 + 1) ltac:(apply HP) ltac:(clear; lia)) Ls) as [XA XB].
  assert (XU : (X <= / 8)%R) by (clear - XB A0 A2 TU; nra).
  assert (AX : apx P Pos 0 X xs) by (rewrite <- Ss; now apply apx_self).
  destruct (normal_range xs Ws Ns) as [R1 R2]. fold X in R1, R2.
  assert (E1 : ne xs <= -2). { assert (ne xs - 1 <= -3); [|lia]. apply (le_bpow radix2). eapply Rle_trans; [exact R1|exact XU]. }
  assert (E2 : 1 - ne xs <= 2 * m + 4 * n + 5). { assert (EX : - m - 2 - 2 * n + (- m - 2 - 2 * n) + -1 < ne xs); [|clear - EX; lia]. apply (lt_bpow radix2). eapply Rle_lt_trans; [|exact R2]. rewrite bpow_plus. change (bpow radix2 (-1)) with (/ 2)%R. lra. }
  assert (X0 : (0 < X)%R) by (eapply Rlt_le_trans; [apply bpow_gt_0|exact R1]).
  assert (FL : (bpow radix2 (- m - 2 - 2 * n + (ne xs - 1)) <= A * X)%R) by now apply low_mul.
  assert (FU : (A * X <= A / 2)%R) by (clear - A0 X0 XU; nra).
  destruct (apx_mul P p_arg RNone ltac:(rewrite EPM; exact HPP) ltac:(rewrite EPM; exact HL) _ _ _ _ _ _ _ _ AA AX ltac:(clear; lia)) as (xf & -> & Hxf & Lxf & _).
  { apply (mid_range (- m - 2 - 2 * n + (ne xs - 1)) 0); [unfold HX; clear - Hm Hn26 E2; lia|vm_compute; discriminate|]. split; [exact FL|]. change (bpow radix2 0) with 1%R. lra. }
  cbn [done rbind]. rewrite sign_mul_pos_r in Hxf. fold PO in Lxf.
  (* the sum *)
  eapply ends_bind.
  { apply (alt_run_ok P PO sin_gen sin_next (sin_at P) sC JMAX (2 ^ 26) (2 ^ 29 - 4) ltac:(clear - HP HPO; lia) ltac:(apply HPO) HPO64 ltac:(clear; lia) ltac:(clear; lia) sC_range sC_ratio) with (s := s) (k := 1) (A := A) (F := (A * X)%R).
    - exact sC_low4.
    - intros j g0 Hj HJ. destruct (sin_next_ok P HP22 HP64 j g0 Hj HJ) as (c & g' & Q1 & Q2 & Q3 & Q4). exists c, g'. split; [exact Q1|]. split; [exact Q2|]. split; [exact Q3|]. clear - Q4 HPO. lia.
    - exact Ws. - exact Ns. - exact Ss. - exact Lxs. - clear - E1. lia.
    - eapply apx_weak; [|exact AA]. clear. lia.
    - eapply apx_weak; [|exact Hxf]. clear. lia.
    - exact Larg. - exact Lxf. - exact Hgen.
    - clear. lia.
    - split; [eapply low_weak; [|exact FL]; clear - Hm Hn HP E2; lia|exact FU].
    - lra.
    - clear - Hni Hnt HP He1 Hn0 Hst He m. nia.
    - assert (Q1 : 1 - ne xs <= 4 * (e + 2)) by (unfold m in *; clear - E2 He1 Hst He Hn0; lia). assert (Q2 : 2 * niter * (1 - ne xs) <= 4 * P) by (clear - Q1 Hnt Hni; nia). clear - Q2 E2 Hn Hm HP. lia.
    - rewrite JMAX_Z. unfold J22. unfold m in *. clear - Hni Hnt HP He1 Hn0 Hst He. nia. }
  intros ret [(M & HM & Hret & Lret & Tail) Iret]. fold X in Hret, Tail.
  (* back to the sine *)
  set (b := sqrt X). assert (Bb : (b * b = X)%R) by (apply sqrt_sqrt; lra). assert (b0 : (0 < b)%R) by now apply sqrt_lt_R0. assert (b1 : (b <= / 2)%R) by (clear - Bb b0 XU; nra).
  pose proof (eps_pos P) as Ep.
  assert (LB : lc (IZR 1 * eps P) b A). { apply lc_sym. pose proof (lc_sqrt _ _ _ Ls) as Q. rewrite sqrt_square in Q by lra. fold b in Q. eapply lc_weak; [|exact Q]. change (IZR (0 + 0 + 1)) with 1%R. lra. }
  set (ps := psum sC (- X) 0 M) in *. assert (PS0 : (0 <= ps <= 1)%R). { unfold ps. pose proof (alt_range sC X sC_range sC_ratio ltac:(split; [exact X0|lra]) M 0). pose proof (sC_range 0). lra. }
  pose proof (sin_taylor b M ltac:(lra) HM) as TS. rewrite Bb in TS. fold ps in TS. set (T := (b - b * X * ps)%R) in *.
  assert (XP : (0 <= X * ps <= / 8)%R) by (split; [apply Rmult_le_pos; lra|apply Rle_trans with (/ 8 * 1)%R; [apply Rmult_le_compat; lra|lra]]).
  assert (TB : (b / 2 <= T)%R). { unfold T. rewrite Rmult_assoc. assert (b * (X * ps) <= b * / 8)%R by (apply Rmult_le_compat_l; lra). lra. }
  assert (LT : lc (IZR 512 * eps P) T (sin b)).
  { replace (IZR 512 * eps P)%R with (2 * (256 * eps P))%R by ring. apply lc_round; [lra|split; [lra|]; pose proof (eps_quarter P 512 ltac:(apply HP) ltac:(clear; lia)); lra|]. eapply Rle_trans; [exact TS|].
    assert (Q1 : (X * X ^ M * sC M <= 128 * eps P)%R). { apply Rmult_le_reg_l with A; [exact A0|]. replace (A * (X * X ^ M * sC M))%R with (A * X * X ^ M * sC M)%R by ring. replace (A * (128 * eps P))%R with (128 * eps P * A)%R by ring. exact Tail. }
    replace (b * X * X ^ M * sC M)%R with (b * (X * X ^ M * sC M))%R by ring. apply Rle_trans with (b * (128 * eps P))%R; [apply Rmult_le_compat_l; lra|]. assert (128 * eps P * (b / 2) <= 128 * eps P * T)%R by (apply Rmult_le_compat_l; lra). lra. }
  set (k0 := 2 ^ 8 * 1 + 2 ^ 47) in *. assert (K0 : k0 = 2 ^ 8 + 2 ^ 47) by reflexivity. clearbody k0.
  assert (LR2 : apx P s (2 + (512 + (1 + k0))) (sin t) ret).
  { destruct Hret as (Wr & Nr & Sr & Lr). split; [exact Wr|]. split; [exact Nr|]. split; [exact Sr|]. rewrite (plus_IZR 2), Rmult_plus_distr_r. eapply lc_trans with (sin b).
    - apply lc_sin; [lra|exact T0| |].
      + pose proof (exp_upper (2 * eps P) ltac:(pose proof (eps_quarter P 2 ltac:(apply HP) ltac:(clear; lia)); lra)) as EU. pose proof (exp_pos (2 * eps P)). pose proof (eps_quarter P 2 ltac:(apply HP) ltac:(clear; lia)). apply Rle_trans with (/ 8 * 2)%R; [apply Rmult_le_compat; lra|lra].
      + replace (2 * eps P)%R with (IZR 1 * eps P + IZR 1 * eps P)%R by ring. eapply lc_trans; [exact La|apply lc_sym; exact LB].
    - rewrite (plus_IZR 512), Rmult_plus_distr_r. eapply lc_trans; [apply lc_sym; exact LT|]. rewrite (plus_IZR 1), Rmult_plus_distr_r. eapply lc_trans; [|exact Lr].
      replace T with ((1 - X * ps) * b)%R by (unfold T; ring). replace (A - A * X * ps)%R with ((1 - X * ps) * A)%R by ring. apply lc_scale; [lra|exact LB]. }
  replace (0 <? n) with true by (symmetry; apply Z.ltb_lt; clear - Hsn Hst Hm; lia). unfold sin_arg_restore. rewrite max_len, Lret. set (k := 2 + (512 + (1 + k0))) in *. assert (HK : 0 <= k <= 2 ^ 48) by (unfold k; rewrite K0; clear; lia). clearbody k.
  assert (Hn1 : n = 1 + Z.of_nat (Z.to_nat (n - 1))) by (clear - Hsn Hst Hm; lia). set (j := Z.to_nat (n - 1)) in *. clearbody j.
  assert (E3 : (3 * (IZR (3 ^ Z.of_nat j) * t) = ax)%R). { assert (E : (IZR (3 ^ n) = 3 * IZR (3 ^ Z.of_nat j))%R) by (rewrite Hn1, Z.pow_add_r by lia; rewrite mult_IZR; reflexivity). rewrite <- Rmult_assoc, <- E. unfold t. field. lra. }
  replace (Z.to_nat n) with (Datatypes.S j) by (clear - Hn1; lia). rewrite restore_last.
  destruct (sin_restore_ok P PO ltac:(clear - HP HPO; lia) ltac:(apply HPO) HPO64 s j k t ret LR2) as (q & -> & Rq & Lq & Iq).
  + apply HK. + clear - HK Hn26 Hn1. lia. + eapply low_weak; [|exact TL]. clear - Hm Hn HP. lia. + lra. + exact Lret. + exact Iret.
  + cbn [bind]. destruct (last_ok P PO ltac:(clear - HP HPO; lia) ltac:(apply HPO) HPO64 s _ _ q Rq ltac:(clear - HK Hn26 Hn1; lia) ltac:(lra) Lq Iq) as (q2 & -> & R2q & L2q & I2q).
    apply ends_ok. rewrite E3 in R2q. split; [eapply apx_weak; [|exact R2q]; unfold KS; clear - HK Hn26 Hn1; lia|]. split; [clear - L2q HPO; lia|exact I2q].
Qed.

From Verif Require Import Ln AltDiv AtanR AtanTop PiNum IntNum WfTop AtanBig PropsConst.
(** ** The argument *)
Lemma PI_low : (PI < 7 / 2)%R.
Proof.
  destruct (Rlt_le_dec PI (7 / 2)) as [L|L]; [exact L|exfalso]. pose proof (pre_cos_bound (7 / 4) 0 ltac:(lra) ltac:(lra)) as [_ B]. unfold cos_approx, cos_term in B. cbn in B. pose proof (cos_ge_0 (7 / 4) ltac:(lra) ltac:(lra)). lra.
Qed.
Lemma pi_swap P y s : 128 <= P -> is_pi P RNone y -> set_exponent (set_sign y s) 1 = set_sign (set_exponent y 1) s.
Proof. intros HP H. unfold set_exponent. change (is_zero (set_sign y s)) with (is_zero y). change (is_subnormal (set_sign y s)) with (is_subnormal y). destruct (is_zero y); [reflexivity|]. destruct (is_subnormal y && (EXPONENT_MIN <? 1)); [|reflexivity]. cbv zeta. change (mantissa_max_bit_len (set_sign y s)) with (mantissa_max_bit_len y). change (precision (set_sign y s)) with (precision y). destruct (1 - EXPONENT_MIN <=? mantissa_max_bit_len y - precision y); reflexivity. Qed.

(** The proximity is to half of pi, an odd multiple. *)
Definition prox_post (far : Prop) (o : prun (Z * Z)) : Prop :=
  match o with
  | None => False
  | Some (c, res) => reachable pi_new pi_for_prec c /\ match res with Ok (t, q) => q = 1 /\ (far -> t <= 62) | _ => overflowed res end
  end.
Lemma proximity_ok c y P : reachable pi_new pi_for_prec c -> wf y -> normal y -> 64 * wlen y = P -> 128 <= P <= 1984 -> ne y = 1 -> prox_post (bpow radix2 (-60) <= Rabs (Rabs (value y) - PI / 2))%R (trig_arg_pi_proximity 31 c y RNone).
Proof.
  intros R W N L HP He. unfold trig_arg_pi_proximity. rewrite He. change (0 <? 1) with true. change (1 <? 2) with true. cbn iota. rewrite max_len, L.
  assert (PU : prec_up (P + 1) = P + 64) by (unfold prec_up; clear - L; dlia). assert (PP : prec_up P = P) by (unfold prec_up; clear - L; dlia).
  destruct (pi_num_ok c (P + 1) RNone R ltac:(lia) ltac:(lia)) as (c1 & r & -> & R1 & Hr). destruct r as [pi|e|]; [|split; [exact R1|exact Hr]|contradiction]. rewrite PU in Hr. cbn [pbind].
  assert (H128 : 128 <= P + 64) by lia. rewrite (pi_swap _ _ (ns y) H128 Hr). destruct (half_pi (P + 64) pi (ns y) H128 Hr) as [(Wh & Nh & Dh) _]. set (hp := set_sign (set_exponent pi 1) (ns y)) in *.
  clearbody hp. pose proof (eps_pos (P + 64)) as Ep. assert (ES : (eps (P + 64) <= / 1024)%R) by (change (/ 1024)%R with (bpow radix2 (-10)); unfold eps; apply bpow_le; lia).
  destruct (normal_range y W N) as [Y1 Y2]. rewrite He in Y1, Y2. change (bpow radix2 (1 - 1)) with 1%R in Y1. change (bpow radix2 1) with 2%R in Y2.
  pose proof PI_low as PL. assert (P3 : (3 < PI)%R) by (pose proof PI2_3_2; lra).
  assert (HD : (Rabs (value y - value hp) <= 63 / 64 * (52 / 63) + / 64)%R).
  { pose proof (value_has_sign y W (proj2 N)) as VS. unfold has_sign in VS. apply Rabs_le_inv in Dh. unfold sr in Dh. apply Rabs_le. destruct (ns y); cbn [sgnZ] in *; [rewrite Rabs_left in Y1, Y2 by lra|rewrite Rabs_pos_eq in Y1, Y2 by lra]; lra. }
  assert (EH : ne hp = 1).
  { destruct (normal_range hp Wh Nh) as [H1 H2]. assert (AH : (1 < Rabs (value hp) < 2)%R). { apply Rabs_le_inv in Dh. unfold sr in Dh. destruct (ns y); cbn [sgnZ] in Dh; [rewrite Rabs_left by lra|rewrite Rabs_pos_eq by lra]; lra. }
    assert (ne hp - 1 < 1) by (apply (lt_bpow radix2); change (bpow radix2 1) with 2%R; lra). assert (0 < ne hp) by (apply (lt_bpow radix2); change (bpow radix2 0) with 1%R; lra). lia. }
  assert (PLIM : prec_up P < P_LIM) by (rewrite PP; eapply Z.le_lt_trans; [apply HP|vm_compute; reflexivity]).
  assert (Q78 : forall p ex, Valid_exp ex -> generic_format radix2 ex (7 / 8) -> (Rabs (round radix2 ex (rnd RNone) (value y - value hp)) <= 7 / 8)%R \/ p = 0).
  { intros p ex V G. left. apply abs_round_le_generic; [exact V|apply rnd_valid|exact G|lra]. }
  assert (F78 : (7 / 8 = F2R (Float radix2 7 (-3)))%R) by (unfold F2R; cbn [Fnum Fexp]; change (bpow radix2 (-3)) with (/ 8)%R; reflexivity).
  assert (Hp0 : Prec_gt_0 P) by (red; lia).
  assert (OV : (Rabs (rnd_prec P RNone (value y - value hp)) < bpow radix2 EMAX)%R).
  { eapply Rle_lt_trans with 1%R; [|change 1%R with (bpow radix2 0); apply bpow_lt; vm_compute; reflexivity]. eapply Rle_trans; [apply trunc_le; lia|]. lra. }
  destruct (sub_ov y hp P RNone W Wh ltac:(lia) PLIM) as [_ O]. rewrite PP in O. destruct (O OV) as (ret & E). rewrite E. cbn [ppure pbind].
  destruct (add_sub_wf y hp P (-1) RNone W Wh (or_intror eq_refl) ltac:(lia) PLIM) as [_ Wr]. specialize (Wr (or_intror (conj (proj2 N) (proj2 Nh)))). change (add_sub y hp P (-1) RNone false) with (n_sub y hp P RNone) in Wr. rewrite E in Wr. destruct Wr as [Wr _].
  pose proof (sub_directed y hp P RNone ret W Wh ltac:(lia) PLIM eq_refl E) as V. rewrite PP in V.
  assert (VR : (Rabs (value ret) <= 7 / 8)%R).
  { rewrite V. unfold rnd_grad. destruct (Q78 1 (FLT_exp (EMIN - P) P) ltac:(apply FLT_exp_valid; exact Hp0)) as [Q|Q]; [|exact Q|discriminate Q]. rewrite F78. apply generic_format_FLT. exists (Float radix2 7 (-3)); [reflexivity| |]; cbn [Fnum Fexp]; [|lia]. apply Z.lt_le_trans with (radix2 ^ 3); [reflexivity|]. apply Z.pow_le_mono_r; [reflexivity|lia]. }
  assert (NB : ne ret <= 0).
  { destruct (Z_lt_le_dec 0 (ne ret)) as [G|G]; [exfalso|exact G].
    destruct (pos_exp_normal ret Wr G) as (Nr & _). destruct (normal_range ret Wr Nr) as [Q _]. assert (bpow radix2 0 <= bpow radix2 (ne ret - 1))%R by (apply bpow_le; lia). change (bpow radix2 0) with 1%R in *. lra. }
  rewrite (proj2 (Z.ltb_ge _ _) NB). cbn [andb ppure]. split; [exact R1|]. split; [exact EH|intros FAR].
  assert (LR : (bpow radix2 (-61) <= Rabs (value y - value hp))%R).
  { assert (ES2 : (eps (P + 64) <= bpow radix2 (-61))%R) by (unfold eps; apply bpow_le; lia). assert (B61 : (bpow radix2 (-60) = 2 * bpow radix2 (-61))%R) by (change (-60) with (1 + -61); rewrite bpow_plus; reflexivity).
    assert (FE : (Rabs (value y - sr (ns y) * (PI / 2)) = Rabs (Rabs (value y) - PI / 2))%R).
    { pose proof (value_has_sign y W (proj2 N)) as VS. unfold has_sign in VS. unfold sr. destruct (ns y); cbn [sgnZ] in *; [rewrite (Rabs_left (value y)) by lra; rewrite <- Rabs_Ropp; f_equal; ring|rewrite (Rabs_pos_eq (value y)) by lra; f_equal; ring]. }
    rewrite <- FE in FAR. pose proof (Rabs_triang (value y - value hp) (value hp - sr (ns y) * (PI / 2))) as T. replace (value y - value hp + (value hp - sr (ns y) * (PI / 2)))%R with (value y - sr (ns y) * (PI / 2))%R in T by ring. lra. }
  assert (LR2 : (bpow radix2 (-61) <= Rabs (value ret))%R). { rewrite V. unfold rnd_grad. apply abs_round_ge_generic; [apply FLT_exp_valid; exact Hp0|apply rnd_valid|apply generic_format_FLT_bpow; [exact Hp0|lia]|exact LR]. }
  assert (Nr : normal ret). { apply normal_iff; [exact Wr|]. eapply Rle_trans; [|exact LR2]. apply bpow_le. vm_compute. discriminate. }
  destruct (normal_range ret Wr Nr) as [_ Q]. assert (-61 < ne ret) by (apply (lt_bpow radix2); lra). lia.
Qed.

(** ** The loop *)
Lemma sin_sign_big r : (1 <= Rabs r <= 2)%R -> sin (Rabs r) = Rabs (sin r) /\ (forall s, has_sign s r -> has_sign s (sin r)).
Proof.
  intros H. pose proof (sin_big (Rabs r) H) as B. split.
  - unfold Rabs in *. destruct (Rcase_abs r) as [R|R]; [rewrite sin_neg in *|]; destruct (Rcase_abs (sin r)); lra.
  - intros s. unfold has_sign. destruct s; cbn [sgnZ]; intros Q; [rewrite Rabs_left in B by lra; rewrite sin_neg in B|rewrite Rabs_pos_eq in B by lra]; lra.
Qed.
Section Loop.
Context (x0 : num) (p : Z) (rm : rmode) (g : nat).
Hypotheses (W0 : wf x0) (N0 : nonzero x0) (Hp : 0 < p) (Hp64 : p mod 64 = 0) (He : ne x0 = 1).

Definition sin_big_post (o : prun num) : Prop :=
  match o with
  | None => True
  | Some (c', res) => reachable pi_new pi_for_prec c' /\ match res with Ok q => elem_result (sin (value x0)) p rm q | _ => overflowed res end
  end.
Theorem sin_loop_big : forall f c w i, reachable pi_new pi_for_prec c -> p + 64 <= w -> w mod 64 = 0 -> 64 <= i -> i mod 64 = 0 -> 128 <= w -> 64 * wlen x0 <= w -> i <= 64 * (((w + i) / 5 + 63) / 64) ->
  work f w i + 128 <= 1984 -> sin_big_post (sin_loop f g 31 c x0 p rm w i 67).
Proof.
  induction f as [|f IH]; intros c w i RC Hpw Hw64 Hi Hi64 Hw HLx Hii HB; [exact I|].
  pose proof (work_ge (Datatypes.S f) w i ltac:(lia) ltac:(lia)) as HG.
  change (work (Datatypes.S f) w i) with (work f (w + i) (64 * (((w + i) / 5 + 63) / 64))) in HB, HG.
  pose proof (work_ge f (w + i) (64 * (((w + i) / 5 + 63) / 64)) ltac:(lia) ltac:(clear - Hw Hi; dlia)) as HG2.
  assert (PW : prec_up (w + 67) = w + 128) by (unfold prec_up; clear - Hw64; dlia). set (PX := prec_up (w + 67)) in *.
  assert (HPX : 128 <= PX <= 1984) by (clear - PW HB HG HG2 Hw Hi; lia). assert (PL : PX < P_LIM) by (apply Z.le_lt_trans with 1984; [apply HPX|vm_compute; reflexivity]).
  assert (HX : argument x0 w x0). { pose proof (argument_start x0 W0 N0 ltac:(rewrite He; vm_compute; reflexivity)) as (_ & H2 & _). split; [exact W0|]. split; [exact H2|]. split; [reflexivity|]. split; [reflexivity|exact HLx]. }
  cbn [sin_loop]. destruct (argument_len x0 w x0 (w + 67) ltac:(lia) PL ltac:(lia) HX) as (y & -> & HY & Sy & Ly). fold PX in HY, Ly. cbn [ppure pbind]. pose proof HY as (Wy & Ny & Vy & Ey & _). rewrite He in Ey.
  unfold reduce_trig_arg. rewrite Ey. change (2 <? 1) with false. cbn [ppure pbind].
  pose proof (proximity_ok c y PX RC Wy Ny Ly HPX Ey) as PP. destruct (trig_arg_pi_proximity 31 c y RNone) as [[c1 [[t q]|e|]]|]; [|exact PP|exact PP|exact I]. destruct PP as (R1 & -> & _). cbn [pbind]. change (Z.even 1) with false. cbn [andb].
  destruct (normal_range y Wy Ny) as [Y1 Y2]. rewrite Ey, Vy in Y1, Y2. change (bpow radix2 (1 - 1)) with 1%R in Y1. change (bpow radix2 1) with 2%R in Y2.
  pose proof (value_has_sign x0 W0 N0) as VS. destruct (sin_sign_big (value x0) ltac:(lra)) as (SA & SS). specialize (SS _ VS).
  pose proof (sin_series_big g y PX (ns x0) ltac:(clear - HPX; lia) Wy Ny Sy Ly Ey) as EV. destruct EV as [->|(ret & -> & A & L & Ir)]; [exact I|]. rewrite Vy, SA in A. cbn [ppure pbind].
  destruct A as (Wr & Nr & Sr & LCr).
  assert (KBB : 0 <= KS <= 2 ^ 58) by (split; vm_compute; discriminate).
  assert (LC2 : lc (IZR KS * eps (w + 64)) (Rabs (sin (value x0))) (Rabs (value ret))). { eapply lc_weak; [|exact LCr]. apply Rmult_le_compat_l; [apply IZR_le; apply KBB|]. unfold eps. apply bpow_le. clear - PW. lia. }
  pose proof (accept_elem (sin (value x0)) ret p rm w KS Wr Nr Ir ltac:(clear - L PW; lia) ltac:(rewrite Sr; exact SS) LC2 KBB Hp Hp64 Hw64 Hpw) as AE.
  destruct (try_set_precision ret p rm w) as [[q [|]]|[tt| | |]|]; try contradiction; cbn [ppure pbind].
  + split; [exact R1|]. now apply elem_mark.
  + rewrite round_step by (clear - HG HG2 HB Hw Hi; lia). apply IH; [exact R1|lia| |clear - Hw Hi; dlia|rewrite Z.mul_comm; apply Z.mod_mul; lia|lia|lia| |exact HB].
    * clear - Hw64 Hi64. dlia.
    * assert (D : (w + i) / 5 <= (w + i + 64 * (((w + i) / 5 + 63) / 64)) / 5) by (apply Z.div_le_mono; [lia|]; clear - Hw Hi; dlia). assert ((((w + i) / 5 + 63) / 64) <= (((w + i + 64 * (((w + i) / 5 + 63) / 64)) / 5 + 63) / 64)) by (apply Z.div_le_mono; lia). lia.
  + split; [exact R1|exact I].
Qed.
End Loop.

Theorem sin_big_ok f g c x p rm : reachable pi_new pi_for_prec c -> wf x -> nonzero x -> 0 < p -> ne x = 1 ->
  work f (Z.max (prec_up p) (64 * wlen x) + 64) 64 + 128 <= 1984 ->
  sin_big_post x (prec_up p) rm (f_sin f g 31 c x p rm).
Proof.
  intros R W N Hp He HB. change (Z.max (prec_up p) (64 * wlen x)) with (max64 (prec_up p) x) in HB. assert (P64 : 64 <= prec_up p) by (unfold prec_up; clear - Hp; dlia). assert (M1 : prec_up p <= max64 (prec_up p) x) by (unfold max64; lia). assert (M2 : 64 * wlen x <= max64 (prec_up p) x) by (unfold max64; lia).
  pose proof (work_ge f (max64 (prec_up p) x + 64) 64 ltac:(lia) ltac:(lia)) as HG. assert (PL : max64 (prec_up p) x + 64 < P_LIM) by (eapply Z.le_lt_trans with 1984; [lia|vm_compute; reflexivity]).
  unfold f_sin. match goal with |- context [@odd_in ?A ?ok ?rest 2 true x p rm] => rewrite (@odd_in_rest A ok rest 2 true x p rm W N Hp ltac:(lia) ltac:(lia)) end. cbv beta. change (mantissa_max_bit_len x) with (64 * wlen x). change (Z.max (prec_up p) (64 * wlen x)) with (max64 (prec_up p) x).
  apply sin_loop_big; [exact W|exact N|lia|apply prec_up_mod|exact He|exact R|lia|apply max_mod|lia|reflexivity|lia|lia|clear - M1 P64; dlia|exact HB].
Qed.
Theorem sin_big_val f g c x p rm : reachable pi_new pi_for_prec c -> wf x -> 0 < p -> (1 <= Rabs (value x) < 2)%R ->
  work f (Z.max (prec_up p) (64 * wlen x) + 64) 64 + 128 <= 1984 ->
  sin_big_post x (prec_up p) rm (f_sin f g 31 c x p rm).
Proof.
  intros R W Hp HV HB. assert (N : normal x). { apply normal_iff; [exact W|]. eapply Rle_trans with (bpow radix2 0); [apply bpow_le; vm_compute; discriminate|]. change (bpow radix2 0) with 1%R. lra. }
  apply sin_big_ok; [exact R|exact W|exact (proj2 N)|exact Hp| |exact HB]. destruct (normal_range x W N) as [H1 H2].
  assert (ne x - 1 < 1) by (apply (lt_bpow radix2); change (bpow radix2 1) with 2%R; lra). assert (0 < ne x) by (apply (lt_bpow radix2); change (bpow radix2 0) with 1%R; lra). lia.
Qed.
