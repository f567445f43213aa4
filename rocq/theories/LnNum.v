(** The series of the logarithm (log.rs) computes the logarithm of a number between one
    half and one. *)

From Coq Require Import ZArith List Bool Lia Reals Lra.
From Flocq Require Import Core.
From Verif Require Import Words IntModel Mantissa Num Pow Consts Elem Series Ln SpecZ SpecOps SpecConst WordsP Spec RealP RealP2 NumP CmpP AddP SetP AddNum MulNum DivNum RootNum ArithTop ConvNum Conv2Num RootP ConstP ConstNum ExtP PowExt Refute1 ElemR ElemDom ApproxR ApproxNum SeriesP SeriesNum SinhNum SinhTop ExpNum LnR.
Import ListNotations.
Open Scope Z_scope.
Ltac Zify.zify_post_hook ::= idtac.
Arguments Z.mul : simpl never.
Arguments Z.add : simpl never.
Arguments Z.pow : simpl never.
Arguments Z.sub : simpl never.
Arguments Z.of_nat : simpl never.
Ltac dlia := Z.div_mod_to_equations; lia.

Lemma TWO_wf : wf TWO. Proof. unfold TWO. wf_concrete. Qed.
Lemma TWO_value : value TWO = 2%R.
Proof. unfold value, TWO, magnitude, wlen. cbn [nm ns ne mm]. change (sgnZ Pos * val [0; WORD_SIG]) with (2 ^ 127). change (2 - 64 * zlen [0; WORD_SIG]) with (-126). unfold F2R. cbn [Fnum Fexp]. rewrite <- (bpow_IZR 127) by lia. rewrite <- bpow_plus. reflexivity. Qed.
Lemma TWO_nonzero : nonzero TWO. Proof. unfold nonzero, magnitude, TWO. cbn [nm mm]. change (val [0; WORD_SIG]) with (2 ^ 127). lia. Qed.

(** ** The generator *)
Section Gen.
Variables W P : Z.
Hypothesis HW : 128 <= W <= 2 ^ 22.
Hypothesis HW64 : prec_up W = W.
Hypothesis HP : 128 <= P <= W.
Let HPP : 128 <= P <= prec_up W.
Proof. clear - HP HW64. lia. Qed.
Let HL : prec_up W < P_LIM.
Proof. rewrite HW64. eapply Z.le_lt_trans; [apply HW|]. vm_compute. reflexivity. Qed.

Definition atanh_at (j : nat) (g : atanh_gen) : Prop :=
  counts (2 * Z.of_nat j + 1) (ag_acc g) /\ wf (ag_one g) /\ normal (ag_one g) /\ ns (ag_one g) = Pos /\ value (ag_one g) = 1%R /\ 64 * wlen (ag_one g) = W.

Lemma atanh_next_ok j g : atanh_at j g -> (j <= JMAX)%nat -> exists c g', atanh_next g = Ok (c, g') /\ atanh_at (S j) g' /\ apx P Pos 1 (aC j) c /\ 64 * wlen c <= W.
Proof.
  intros ((Wi & Ni & Si & Li & Vi) & W1 & N1 & S1 & V1 & L1) Hj. assert (HJ : Z.of_nat j <= 2 ^ 23) by (rewrite <- JMAX_Z; lia). unfold atanh_next. rewrite !max_len, Li, L1. set (m := 2 * Z.of_nat j + 1) in *.
  assert (Hadd : exists q, n_add (ag_acc g) TWO 64 RNone = Ok q /\ counts (m + 2) q).
  { pose proof (add_sub_nonzero (ag_acc g) TWO 64 1 RNone Wi TWO_wf ltac:(destruct Ni; assumption) TWO_nonzero (or_introl eq_refl) ltac:(lia) ltac:(vm_compute; reflexivity)) as [C _].
    rewrite Rmult_1_l, Vi, TWO_value in C. replace (IZR m + 2)%R with (IZR (m + 2)) in C by (rewrite plus_IZR; ring). change (prec_up 64) with 64 in C. assert (V0 : (0 < IZR (m + 2))%R) by (apply IZR_lt; unfold m; lia).
    destruct C as (sg & HS & C); [lra|]. assert (sg = Pos) by (destruct sg; [|reflexivity]; unfold has_sign in HS; cbn [sgnZ] in HS; exfalso; lra). subst sg.
    apply cut_exact in C; [|lia|apply int_format; unfold m; lia|rewrite Rabs_pos_eq by lra; apply mid_int; unfold m; lia]. destruct C as (q & E & Wq & N & S & L & V). exists q. split; [exact E|]. unfold counts. auto. }
  destruct Hadd as (inc & -> & Hi). cbn [bind]. assert (Hinc : apx P Pos 0 (IZR (m + 2)) inc) by (destruct Hi as (W0 & N & S & _ & V); now apply apx_exact).
  destruct (apx_div P W RNone HPP HL _ _ _ _ _ _ _ _ (apx_exact P _ _ W1 N1 S1 V1) Hinc ltac:(lia) ltac:(apply mid_inv_int; unfold m; lia)) as (inv & -> & Hinv & Linv & _). cbn [bind sign_mul] in *.
  eexists. eexists. split; [reflexivity|]. split; [|split; [|lia]].
  - unfold atanh_at. cbn [ag_acc ag_one]. replace (2 * Z.of_nat (S j) + 1) with (m + 2) by (unfold m; lia). auto 8.
  - eapply apx_same; [|exact Hinv]. unfold aC, Rdiv. rewrite Rmult_1_l, INR_IZR_INZ. do 2 f_equal. unfold m. lia.
Qed.
Lemma atanh_new_ok : exists g, atanh_new W = Ok g /\ atanh_at 0 g.
Proof.
  unfold atanh_new. destruct (from_word_spec 1 1 ltac:(lia) ltac:(lia) ltac:(vm_compute; reflexivity)) as (i & -> & Wi & Li & Si & _ & Vi).
  destruct (from_word_spec 1 W ltac:(lia) ltac:(lia) HL) as (o & -> & Wo & Lo & So & _ & Vo). cbn [bind].
  assert (N1 : forall v, wf v -> value v = IZR 1 -> normal v). { intros v Wv V. apply normal_iff; [exact Wv|]. rewrite V, Rabs_pos_eq by lra. change (IZR 1) with (bpow radix2 0). apply bpow_le. vm_compute. discriminate. }
  eexists. split; [reflexivity|]. unfold atanh_at, counts. cbn [ag_acc ag_one]. rewrite HW64 in Lo. auto 12.
Qed.
End Gen.
Lemma aC_low j : (j <= JMAX)%nat -> (bpow radix2 (- (26)) <= aC j)%R.
Proof.
  intros H. assert (HJ : Z.of_nat j <= 2 ^ 23) by (rewrite <- JMAX_Z; lia). unfold aC. rewrite bpow_opp. apply Rinv_le; [apply lt_0_INR; lia|]. rewrite INR_IZR_INZ, bpow_IZR by lia. apply IZR_le. lia.
Qed.

(** ** The number of reductions *)
Definition nmax (W : Z) : Z := if W <=? 2 ^ 15 then 21 else 40.
Definition ln_opt (f : nat) (W : Z) := series_cost_optimize ln_red_cost ln_red_effect f W (atanh_iter_cost W) 0 2.
Lemma optimize_mono rc re f : forall f' p ic m pw st t c r, (f <= f')%nat -> optimize_loop rc re f p ic m pw st t c = Some r -> optimize_loop rc re f' p ic m pw st t c = Some r.
Proof.
  induction f as [|f IH]; intros f' p ic m pw st t c r H E; [discriminate|]. destruct f' as [|f']; [lia|]. cbn [optimize_loop] in *. destruct (match c with None => _ | _ => _ end); [|exact E]. eapply IH; [|exact E]. lia.
Qed.
Definition opt_good (W : Z) : bool :=
  match ln_opt 40 W with
  | Some (n, niter, e) => (3 <=? n) && (n <=? nmax W) && (0 <=? niter) && (niter <=? 900) && (6 <=? e) && ((niter <? 108) || (6 <=? n) || ((5 <=? n) && (niter <=? 126)))
  | None => false
  end.
Lemma opt_table : forallb (fun i => opt_good (64 * Z.of_nat i)) (seq 2 (Z.to_nat 1023)) = true.
Proof. vm_compute. reflexivity. Qed.
Lemma ln_opt_spec g W n niter e : 128 <= W <= 2 ^ 16 -> prec_up W = W -> ln_opt g W = Some (n, niter, e) -> 3 <= n <= nmax W /\ 0 <= niter <= 900 /\ 6 <= e /\ (108 <= niter -> 6 <= n \/ 5 <= n /\ niter <= 126).
Proof.
  intros HW H64 E. pose proof opt_table as T. rewrite forallb_forall in T. specialize (T (Z.to_nat (W / 64))). assert (W = 64 * (W / 64)) by (clear - H64 HW; unfold prec_up in H64; dlia).
  rewrite Z2Nat.id in T by (clear - HW; dlia). rewrite <- H in T. assert (G : opt_good W = true). { apply T. apply in_seq. split; [|apply Nat2Z.inj_lt; rewrite Nat2Z.inj_add, !Z2Nat.id by (clear - HW; dlia)]; clear - HW H; [|dlia]. apply Nat2Z.inj_le. rewrite Z2Nat.id by dlia. dlia. }
  unfold opt_good in G. destruct (ln_opt 40 W) as [[[n' i'] e']|] eqn:E2; [|discriminate].
  assert (X : Some (n, niter, e) = Some (n', i', e')).
  { unfold ln_opt, series_cost_optimize in *. destruct (Nat.le_ge_cases g 40) as [C|C]; [apply (optimize_mono _ _ _ _ _ _ _ _ _ _ _ _ C) in E; congruence|apply (optimize_mono _ _ _ _ _ _ _ _ _ _ _ _ C) in E2; congruence]. }
  injection X as -> -> ->. rewrite !andb_true_iff, !orb_true_iff, !andb_true_iff in G. clear - G. lia.
Qed.

(** ** The argument reduction *)
Lemma apx_sqrt2 Q p rm a v : 128 <= Q <= prec_up p -> prec_up p < P_LIM -> apx Q Pos 2 a v -> (/ 2 <= a < 1)%R ->
  exists q, n_sqrt v p rm = Ok q /\ apx Q Pos 2 (sqrt a) q /\ 64 * wlen q = prec_up p.
Proof.
  intros HQ HL (Wv & Nv & Sv & Lv) HA. assert (Pp : 0 < p) by (clear - HQ; unfold prec_up in HQ; dlia).
  pose proof (sqrt_nonzero v p rm Wv ltac:(destruct Nv; assumption) Sv Pp HL) as C. apply lc_sqrt in Lv. assert (V0 : (0 <= value v)%R). { pose proof (value_has_sign v Wv ltac:(destruct Nv; assumption)) as H. rewrite Sv in H. unfold has_sign in H. cbn [sgnZ] in H. lra. }
  rewrite Rabs_pos_eq in Lv by exact V0. pose proof (eps_quarter Q 1 ltac:(apply HQ) ltac:(clear; lia)) as EQ. pose proof (sqrt_range a ltac:(lra)) as SR.
  replace (IZR 2 * eps Q / 2)%R with (IZR 1 * eps Q)%R in Lv by (cbn; field). pose proof (lc_two _ _ _ EQ Lv) as LT.
  destruct (cut_apx Q _ rm _ _ _ _ C HQ) as (q & E & Wq & N & S & Lq & Lw & _).
  { rewrite Rabs_pos_eq by apply sqrt_pos. split; [apply Rle_trans with (bpow radix2 (-2)); [apply bpow_le; vm_compute; discriminate|change (bpow radix2 (-2)) with (/ 4)%R; lra]|apply Rle_trans with (bpow radix2 1); [change (bpow radix2 1) with 2%R; lra|apply bpow_le; vm_compute; discriminate]]. }
  rewrite (Rabs_pos_eq (sqrt _)) in Lw by apply sqrt_pos. exists q. split; [exact E|]. split; [|exact Lq]. split; [exact Wq|]. split; [exact N|]. split; [exact S|]. eapply lc_weak; [|eapply lc_trans; [exact Lv|exact Lw]]. cbn. lra.
Qed.
Lemma reduce_ok Q n : forall a v, 128 <= Q <= 2 ^ 22 -> prec_up Q = Q -> apx Q Pos 2 a v -> (/ 2 <= a < 1)%R -> 64 * wlen v = Q ->
  exists q, ln_arg_reduce n v = Ok q /\ apx Q Pos 2 (roots n a) q /\ 64 * wlen q = Q.
Proof.
  induction n as [|n IH]; intros a v HQ H64 Av HA Lv; [exists v; auto|]. cbn [ln_arg_reduce roots]. rewrite max_len, Lv.
  destruct (apx_sqrt2 Q Q RUp a v ltac:(clear - HQ H64; lia) ltac:(rewrite H64; eapply Z.le_lt_trans; [apply HQ|]; vm_compute; reflexivity) Av HA) as (q & -> & Aq & Lq). cbn [bind].
  pose proof (sqrt_range a ltac:(lra)). apply IH; [exact HQ|exact H64|exact Aq|lra|lia].
Qed.
(** Subtracting one from a number close to [a] and close to one. *)
Lemma sub_one Q P p n L a v : 128 <= P <= prec_up p -> prec_up p < P_LIM -> apx Q Pos 2 a v -> (/ 2 <= a < 1)%R -> 0 <= n -> 0 <= L <= 2 ^ 18 -> n <= 64 -> (bpow radix2 (- (L + 1) - n) <= 1 - a)%R -> P + n + L + 4 <= Q ->
  exists q, n_sub v ONE p RNone = Ok q /\ apx P Neg 2 (1 - a) q /\ 64 * wlen q = prec_up p.
Proof.
  intros HP HL (Wv & Nv & Sv & Lv) HA Hn HL0 Hn64 G HQ. pose proof (value_has_sign v Wv ltac:(destruct Nv; assumption)) as V. rewrite Sv in V. unfold has_sign in V. cbn [sgnZ] in V. rewrite Rabs_pos_eq in Lv by lra. set (w := value v) in *.
  assert (Pp : 0 < p) by (clear - HP; unfold prec_up in HP; dlia). pose proof (eps_pos Q) as E0.
  apply lc_abs in Lv; [|split; [cbn; lra|]; pose proof (eps_quarter Q 2 ltac:(clear - HQ HP Hn HL0; lia) ltac:(clear; lia)); lra].
  assert (B : (Rabs (w - a) <= 4 * eps Q)%R). { eapply Rle_trans; [exact Lv|]. cbn. assert (2 * (2 * eps Q) * a <= 2 * (2 * eps Q) * 1)%R by (apply Rmult_le_compat_l; lra). lra. }
  (* relative to 1 - a *)
  assert (G2 : (4 * eps Q <= eps P / 2 * (1 - a))%R).
  { apply Rle_trans with (eps P / 2 * bpow radix2 (- (L + 1) - n))%R; [|apply Rmult_le_compat_l; [pose proof (eps_pos P); lra|exact G]]. change 4%R with (bpow radix2 2). replace (eps P / 2)%R with (bpow radix2 (1 - P)) by (unfold eps; replace (2 - P) with (1 - P + 1) by ring; rewrite bpow_plus; change (bpow radix2 1) with 2%R; field).
    unfold eps. rewrite <- !bpow_plus. apply bpow_le. lia. }
  assert (LC : lc (eps P) (1 - a) (1 - w)).
  { replace (eps P) with (2 * (eps P / 2))%R by field. apply lc_round; [lra|pose proof (eps_pos P); pose proof (eps_quarter P 1 ltac:(apply HP) ltac:(clear; lia)); lra|]. eapply Rle_trans; [|exact G2]. replace (1 - w - (1 - a))%R with (- (w - a))%R by ring. rewrite Rabs_Ropp. exact B. }
  pose proof (lc_pos _ _ _ LC) as W1.
  pose proof (add_sub_nonzero v ONE p (-1) RNone Wv ONE_wf ltac:(destruct Nv; assumption) ONE_nonzero (or_intror eq_refl) Pp HL) as [C _]. cbv zeta in C. rewrite ONE_value in C. fold w in C. change (IZR (-1)) with (-1)%R in C. replace (w + -1 * 1)%R with (w - 1)%R in C by ring.
  destruct C as (sg & HS & C); [lra|]. assert (sg = Neg) by (destruct sg; [reflexivity|]; unfold has_sign in HS; cbn [sgnZ] in HS; exfalso; lra). subst sg.
  destruct (apx_round P _ RNone _ _ _ _ 1 (1 - a) C HP) as (q & E & A & Lq & _).
  - rewrite Rmult_1_l, Rabs_left by lra. replace (- (w - 1))%R with (1 - w)%R by ring. exact LC.
  - clear; lia.
  - apply (mid_range (- (L + 1) - n) 0); [unfold HX; clear - HL0 Hn64; lia|vm_compute; discriminate|]. split; [exact G|change (bpow radix2 0) with 1%R; lra].
  - exists q. auto.
Qed.

(** ** The series *)
Definition KL : Z := 2 ^ 37.
Theorem ln_series_ok g x W P L : 128 <= P <= W -> W <= 2 ^ 16 -> prec_up W = W -> wf x -> normal x -> ns x = Pos -> 64 * wlen x = W -> ne x = 0 -> 0 <= L -> L <= 2 ^ 15 ->
  (bpow radix2 (- (L + 1)) <= 1 - value x)%R -> P + nmax W + L + 4 <= W + 64 ->
  ends (ln_series g x RNone) (fun q => apx P Neg KL (- ln (value x)) q /\ 64 * wlen q = W /\ ninexact q = true).
Proof.
  intros HP HW H64 Wx Nx Sx Lx Ex HL HL2 HG HPL. unfold ln_series. rewrite max_len, Lx. assert (HW22 : 128 <= W <= 2 ^ 22) by (clear - HP HW; lia).
  destruct (atanh_new_ok W HW22 H64) as (gen & -> & Hgen). cbn [done rbind].
  destruct (series_cost_optimize ln_red_cost ln_red_effect g W (atanh_iter_cost W) 0 2) as [[[n niter] e]|] eqn:EO; [|left; reflexivity].
  destruct (ln_opt_spec g W n niter e ltac:(clear - HP HW; lia) H64 EO) as (Hn & Hni & He & _). clear EO.
  replace (e <? 3) with false by (clear - He; lia). cbv zeta. replace (0 <? n) with true by (clear - Hn; lia).
  set (p_arg := W + (if 0 <? 7 - e then 7 - e else 5)). set (Q := W + 64). assert (Q64 : prec_up Q = Q) by (unfold Q; clear - H64; unfold prec_up in *; dlia).
  assert (HQ : 128 <= Q <= 2 ^ 22) by (unfold Q; clear - HP HW; lia). assert (EQ : prec_up p_arg = Q). { unfold p_arg, Q. clear - H64 He. unfold prec_up in *. destruct (Z.ltb_spec 0 (7 - e)); dlia. }
  assert (Hpa : W <= p_arg) by (unfold p_arg; clear - He; destruct (Z.ltb_spec 0 (7 - e)); lia). clearbody p_arg.
  assert (HLQ : Q < P_LIM) by (eapply Z.le_lt_trans; [apply HQ|]; vm_compute; reflexivity). assert (HLW : prec_up W < P_LIM) by (rewrite H64; unfold Q in HLQ; clear - HLQ; lia).
  assert (HPP : 128 <= P <= prec_up W) by (clear - HP H64; lia).
  set (a0 := value x) in *. pose proof (value_has_sign x Wx ltac:(destruct Nx; assumption)) as Vx. rewrite Sx in Vx. unfold has_sign in Vx. cbn [sgnZ] in Vx. fold a0 in Vx. destruct (normal_range x Wx Nx) as [X1 X2]. fold a0 in X1, X2. rewrite Ex, Rabs_pos_eq in X1 by lra. rewrite Ex, Rabs_pos_eq in X2 by lra. change (bpow radix2 (0 - 1)) with (/ 2)%R in X1. change (bpow radix2 0) with 1%R in X2.
  pose proof (apx_self Q x Wx Nx) as Ax. rewrite Sx in Ax. fold a0 in Ax. rewrite Rabs_pos_eq in Ax by lra.
  destruct (apx_len_up Q Pos 0 _ x p_arg Ax ltac:(rewrite EQ, Lx; unfold Q; clear; lia) ltac:(clear - HP Hpa; lia) ltac:(rewrite EQ; exact HLQ)) as (x1 & -> & Ax1 & L1 & _). cbn [done rbind]. rewrite EQ in L1.
  destruct (reduce_ok Q (Z.to_nat n) a0 x1 HQ Q64 ltac:(eapply apx_weak; [|exact Ax1]; clear; lia) ltac:(lra) L1) as (arg & -> & Aarg & Larg). cbn [done rbind].
  pose proof (roots_range (Z.to_nat n) a0 ltac:(lra)) as RR. pose proof (roots_gap (Z.to_nat n) a0 ltac:(lra)) as RG. pose proof (roots_ln (Z.to_nat n) a0 ltac:(lra)) as RL. set (a := roots (Z.to_nat n) a0) in *.
  assert (E2 : (2 ^ Z.to_nat n = bpow radix2 n)%R). { rewrite pow_IZR, Z2Nat.id by (clear - Hn; lia). symmetry. rewrite bpow_IZR by (clear - Hn; lia). reflexivity. }
  rewrite E2 in RG, RL. assert (Hn32 : 3 <= n <= 40) by (clear - Hn; unfold nmax in Hn; destruct (W <=? 2 ^ 15); lia).
  assert (GA : (bpow radix2 (- (L + 1) - n) <= 1 - a)%R). { apply Rmult_le_reg_l with (bpow radix2 n); [apply bpow_gt_0|]. rewrite <- bpow_plus. replace (n + (- (L + 1) - n)) with (- (L + 1)) by ring. lra. }
  destruct (sub_one Q P W n L a arg HPP HLW Aarg ltac:(lra) ltac:(clear - Hn; lia) ltac:(clear - HL HL2 HW; lia) ltac:(clear - Hn32; lia) GA ltac:(unfold Q; clear - HPL Hn; lia)) as (n1 & -> & A1 & _). cbn [done rbind].
  assert (AargP : apx P Pos 2 a arg). { destruct Aarg as (Wa & Na & Sa & La). split; [exact Wa|]. split; [exact Na|]. split; [exact Sa|]. eapply lc_weak; [|exact La]. apply Rmult_le_compat_l; [cbn; lra|]. apply eps_le. unfold Q. clear - HP. lia. }
  destruct (apx_add P W RNone HPP HLW Pos 2 a 1 arg ONE AargP ltac:(eapply apx_weak; [|apply apx_ONE]; clear; lia) ltac:(clear; lia)) as (n2 & -> & A2 & _).
  { apply (mid_range 0 1); [vm_compute; discriminate|vm_compute; discriminate|]. change (bpow radix2 0) with 1%R. change (bpow radix2 1) with 2%R. lra. }
  cbn [done rbind]. set (zt := ((1 - a) / (a + 1))%R). assert (ZL : (bpow radix2 (- (L + 1) - n - 1) <= zt)%R). { unfold zt. replace (- (L + 1) - n - 1) with (- (L + 1) - n + -1) by ring. apply low_mul; [exact GA|]. change (bpow radix2 (-1)) with (/ 2)%R. apply Rinv_le; lra. }
  assert (ZU : (zt <= / 3)%R). { unfold zt. apply Rmult_le_reg_r with (a + 1)%R; [lra|]. unfold Rdiv. rewrite Rmult_assoc, Rinv_l by lra. lra. }
  destruct (apx_div P W RNone HPP HLW _ _ _ _ _ _ _ _ A1 A2 ltac:(clear; lia)) as (z & -> & Az & Lz & _).
  { fold zt. apply (mid_range (- (L + 1) - n - 1) 0); [unfold HX; clear - HL HL2 HW Hn32; lia|vm_compute; discriminate|]. split; [exact ZL|change (bpow radix2 0) with 1%R; lra]. }
  fold zt in Az. cbn [done rbind sign_mul] in *. change (sign_mul Neg Pos) with Neg in Az. change (2 + (2 + 1) + 1) with 6 in Az. rewrite H64 in Lz.
  pose proof Az as (Wz & Nz & Sz & La). set (A := Rabs (value z)) in *. pose proof (eps_small P 6 ltac:(apply HP) ltac:(clear; lia)) as Es. assert (Es2 : (IZR 6 * eps P <= / 64)%R) by (eapply Rle_trans; [exact Es|]; change (/ 64)%R with (bpow radix2 (-6)); apply bpow_le; clear; lia). clear Es.
  pose proof (eps_pos P) as Ep. pose proof (lc_two (IZR 6 * eps P) zt A ltac:(lra) La) as [AA1 AA2]. assert (Z0 : (0 < zt)%R) by (eapply Rlt_le_trans; [apply bpow_gt_0|exact ZL]).
  assert (AU : (A <= 3 / 8)%R). { destruct La as (_ & _ & La). pose proof (exp_upper (IZR 6 * eps P) ltac:(lra)) as EU. assert (zt * exp (IZR 6 * eps P) <= / 3 * (1 + 2 * / 64))%R by (apply Rmult_le_compat; [lra|left; apply exp_pos|lra|lra]). lra. }
  set (m := L + 1 + n + 2). assert (AL : (bpow radix2 (- m) <= A)%R). { replace (- m) with (- (L + 1) - n - 1 + -1) by (unfold m; ring). rewrite bpow_plus. change (bpow radix2 (-1)) with (/ 2)%R. lra. }
  assert (Hm : 0 <= m <= 2 ^ 15 + 50) by (unfold m; clear - HL HL2 HW Hn32; lia). clearbody m.
  assert (A0 : (0 < A)%R) by lra. assert (AZ : apx P Neg 0 A z) by (rewrite <- Sz; now apply apx_self).
  assert (AAL : (bpow radix2 (- m + - m) <= A * A)%R) by now apply low_mul.
  destruct (apx_mul P W RNone HPP HLW _ _ _ _ _ _ _ _ AZ AZ ltac:(clear; lia)) as (xs & -> & Hxs & Lxs & _).
  { apply (mid_range (- m + - m) 0); [unfold HX; clear - Hm; lia|vm_compute; discriminate|]. split; [exact AAL|]. change (bpow radix2 0) with 1%R. clear - A0 AU. nra. }
  cbn [done rbind]. change (sign_mul Neg Neg) with Pos in Hxs. rewrite H64 in Lxs. pose proof Hxs as (Ws & Ns & Ss & Ls). set (X := Rabs (value xs)) in *.
  pose proof (lc_two _ _ _ (eps_quarter P (0 + 0 + 1) ltac:(apply HP) ltac:(clear; lia)) Ls) as [XA XB].
  set (b := sqrt X). assert (X0 : (0 < X)%R) by (clear - XA A0; nra). assert (Bb : (b * b = X)%R) by (apply sqrt_sqrt; lra). assert (b0 : (0 < b)%R) by now apply sqrt_lt_R0.
  assert (LB : lc (IZR 1 * eps P) b A). { apply lc_sym. pose proof (lc_sqrt _ _ _ Ls) as LQ. rewrite sqrt_square in LQ by lra. fold b in LQ. eapply lc_weak; [|exact LQ]. change (IZR (0 + 0 + 1)) with 1%R. lra. }
  assert (bU : (b <= 2 / 5)%R). { pose proof (lc_sym _ _ _ LB) as (_ & _ & LB3). change (IZR 1) with 1%R in LB3. change (IZR 6) with 6%R in Es2. pose proof (exp_upper (1 * eps P) ltac:(lra)) as EU. assert (A * exp (1 * eps P) <= 3 / 8 * (1 + 2 * / 64))%R by (apply Rmult_le_compat; [lra|left; apply exp_pos|lra|lra]). lra. }
  assert (XU : (X < / 4)%R) by (clear - Bb b0 bU; nra).
  assert (AXs : apx P Pos 0 X xs) by (rewrite <- Ss; now apply apx_self).
  destruct (normal_range xs Ws Ns) as [R1 R2]. fold X in R1, R2.
  assert (E1 : ne xs <= -1). { assert (ne xs - 1 < -2); [|lia]. apply (lt_bpow radix2). eapply Rle_lt_trans; [exact R1|exact XU]. }
  assert (E3 : 1 - ne xs <= 2 * m + 1). { assert (EX : - m + - m + -1 < ne xs); [|clear - EX; lia]. apply (lt_bpow radix2). eapply Rle_lt_trans; [|exact R2]. rewrite bpow_plus. change (bpow radix2 (-1)) with (/ 2)%R. lra. }
  assert (FL : (bpow radix2 (- m + (ne xs - 1)) <= A * X)%R) by now apply low_mul.
  assert (FU : (A * X <= A)%R) by (clear - A0 X0 XU; nra).
  destruct (apx_mul P W RNone HPP HLW _ _ _ _ _ _ _ _ AZ AXs ltac:(clear; lia)) as (xf & -> & Hxf & Lxf & _).
  { apply (mid_range (- m + (ne xs - 1)) 0); [unfold HX; clear - Hm E3; lia|vm_compute; discriminate|]. split; [exact FL|]. change (bpow radix2 0) with 1%R. lra. }
  cbn [done rbind]. rewrite sign_mul_pos_r in Hxf. rewrite H64 in Lxf.
  (* the sum *)
  eapply ends_bind.
  { apply (series_run_ok P W atanh_gen atanh_next (atanh_at W) aC JMAX 1 26 ltac:(clear - HP; lia) ltac:(apply HW22) H64 ltac:(clear; lia) ltac:(clear; lia) aC_range aC_decr aC_low) with (s := Neg) (k := 1) (A := A) (F := (A * X)%R).
    - intros j g0 Hj HJ. exact (atanh_next_ok W P HW22 H64 HP j g0 Hj HJ).
    - exact Ws. - exact Ns. - exact Ss. - exact Lxs. - exact E1.
    - eapply apx_weak; [|exact AZ]. clear. lia.
    - eapply apx_weak; [|exact Hxf]. clear. lia.
    - exact Lz. - exact Lxf. - exact Hgen.
    - clear. lia.
    - split; [eapply low_weak; [|exact FL]; clear - Hm E3; lia|exact FU].
    - lra.
    - clear - Hni. lia.
    - clear - Hni E3 Hm. nia.
    - rewrite JMAX_Z. unfold J22. clear - Hni. lia. }
  intros ret [(M & HM & Hret & Lret & Tail) Iret]. fold X in Hret, Tail.
  set (ps := psum aC X 0 M) in *. assert (PS0 : (0 <= ps)%R). { unfold ps. destruct M as [|M]; [cbn; lra|]. pose proof (psum_lower aC X aC_range ltac:(split; [exact X0|lra]) 0 M). pose proof (aC_range 0). lra. }
  assert (ET : (b + b * X * ps = atanh_sum b (S M))%R). { rewrite <- psum_atanh, Bb. reflexivity. }
  set (T := atanh_sum b (S M)) in *. assert (TB : (b <= T)%R) by (assert (0 <= b * X * ps)%R by (apply Rmult_le_pos; [apply Rmult_le_pos; lra|exact PS0]); lra).
  pose proof (atanh_bounds b (S M) ltac:(lra)) as [TS1 TS2]. fold T (dath b) in TS1, TS2.
  assert (LT : lc (IZR 512 * eps P) T (dath b / 2)).
  { apply lc_tail; [lra|apply Rmult_le_pos; [apply IZR_le; clear; lia|left; exact Ep]|]. split; [lra|]. change (IZR 512) with 512%R. assert (QQ : (b ^ (2 * S M + 1) / (INR (2 * S M + 1) * (1 - b ^ 2)) <= 512 * eps P * T)%R); [|lra].
    assert (Eb : (b ^ (2 * S M + 1) / INR (2 * S M + 1) = b * X * X ^ M * aC M)%R). { unfold aC, Rdiv. replace (2 * S M + 1)%nat with (2 * M + 3)%nat by lia. f_equal. rewrite pow_add, pow_mult. replace (b ^ 2)%R with X by (rewrite <- Bb; ring). rewrite <- Bb. ring. }
    assert (I0 : (0 < INR (2 * S M + 1))%R) by (apply lt_0_INR; lia). assert (D0 : (3 / 4 <= 1 - b ^ 2)%R) by (replace (b ^ 2)%R with X by (rewrite <- Bb; ring); lra).
    replace (b ^ (2 * S M + 1) / (INR (2 * S M + 1) * (1 - b ^ 2)))%R with (b ^ (2 * S M + 1) / INR (2 * S M + 1) * / (1 - b ^ 2))%R by (field; lra). rewrite Eb. clear Eb I0.
    assert (Q1 : (X * X ^ M * aC M <= 128 * eps P)%R). { apply Rmult_le_reg_l with A; [exact A0|]. replace (A * (X * X ^ M * aC M))%R with (A * X * X ^ M * aC M)%R by ring. replace (A * (128 * eps P))%R with (128 * eps P * A)%R by ring. exact Tail. }
    assert (Q0 : (0 <= X * X ^ M * aC M)%R). { apply Rmult_le_pos; [apply Rmult_le_pos; [lra|apply pow_le; lra]|pose proof (aC_range M); lra]. }
    assert (ID : (0 < / (1 - b ^ 2) <= 4 / 3)%R). { split; [apply Rinv_0_lt_compat; lra|]. replace (4 / 3)%R with (/ (3 / 4))%R by field. apply Rinv_le; lra. }
    replace (b * X * X ^ M * aC M * / (1 - b ^ 2))%R with (b * / (1 - b ^ 2) * (X * X ^ M * aC M))%R by ring.
    apply Rle_trans with (b * (4 / 3) * (128 * eps P))%R; [apply Rmult_le_compat; [apply Rmult_le_pos; lra|exact Q0|apply Rmult_le_compat_l; lra|exact Q1]|].
    assert (b * eps P <= T * eps P)%R by (apply Rmult_le_compat_r; lra). assert (0 < b * eps P)%R by (apply Rmult_lt_0_compat; lra). lra. }
  (* from the number to the root *)
  assert (LD : lc (IZR 28 * eps P) (dath zt / 2) (dath b / 2)).
  { apply lc_div with (e := 0%R) (b := 2%R) (w := 2%R) (d := (IZR 28 * eps P)%R) in LT || idtac. replace (IZR 28 * eps P)%R with (4 * (IZR 7 * eps P) + 0)%R by (cbn; ring). apply lc_div; [|apply lc_refl; lra]. apply lc_dath; [|lra|exact bU|].
    - pose proof (eps_small P 7 ltac:(apply HP) ltac:(clear; lia)) as Es. split; [cbn; lra|]. eapply Rle_trans; [exact Es|]. change (/ 8)%R with (bpow radix2 (-3)). apply bpow_le. clear. lia.
    - replace (IZR 7 * eps P)%R with (IZR 6 * eps P + IZR 1 * eps P)%R by (cbn; ring). eapply lc_trans; [exact La|apply lc_sym; exact LB]. }
  assert (DZ : dath zt = (- ln a)%R) by (unfold zt; rewrite (Rplus_comm a 1); apply dath_cayley; lra).
  assert (FIN : apx P Neg (28 + (512 + (1 + (1 + 2 * 1 + 2 ^ 35)))) (dath zt / 2) ret).
  { eapply apx_trans; [exact LD|]. eapply apx_trans; [apply lc_sym; exact LT|]. eapply apx_trans; [|exact Hret].
    assert (0 <= X * ps)%R by (apply Rmult_le_pos; lra). replace T with ((1 + X * ps) * b)%R by (rewrite <- ET; ring). replace (A + A * X * ps)%R with ((1 + X * ps) * A)%R by ring. apply lc_scale; [lra|exact LB]. }
  apply ends_ok. destruct FIN as (Wr & Nr & Sr & Lr).
  set (k := 28 + _) in *. assert (Hk : 0 <= k <= KL) by (unfold k, KL; clear; lia). clearbody k.
  pose proof (lc_two _ _ _ (eps_quarter P k ltac:(apply HP) ltac:(unfold KL in Hk; clear - Hk; lia)) Lr) as [U1 U2]. pose proof (dath_ge zt ltac:(lra)) as DG.
  assert (DU : (dath zt <= 1)%R). { rewrite DZ. assert (LA : (/ a <= 2)%R) by (replace 2%R with (/ / 2)%R by field; apply Rinv_le; lra). rewrite <- ln_Rinv by lra. assert (LE : (ln (/ a) <= / a - 1)%R) by (replace (/ a)%R with (1 + (/ a - 1))%R at 1 by ring; apply ln_1p; assert (0 < / a)%R by (apply Rinv_0_lt_compat; lra); lra). lra. }
  destruct (normal_range ret Wr Nr) as [V1 V2]. set (vr := Rabs (value ret)) in *.
  assert (NR : - m - 2 < ne ret). { apply (lt_bpow radix2). eapply Rle_lt_trans; [|exact V2]. apply Rle_trans with (/ 2 * zt)%R; [|lra]. replace (- m - 2) with (-1 + (- m - 1)) by ring. rewrite bpow_plus. change (bpow radix2 (-1)) with (/ 2)%R. apply Rmult_le_compat_l; [lra|]. apply Rle_trans with (A / 2)%R; [|lra]. replace (- m - 1) with (- m + -1) by ring. rewrite bpow_plus. change (bpow radix2 (-1)) with (/ 2)%R. lra. }
  assert (NR2 : ne ret <= 2). { assert (ne ret - 1 <= 0); [|lia]. apply (le_bpow radix2). eapply Rle_trans; [exact V1|]. change (bpow radix2 0) with 1%R. lra. }
  pose proof (set_exponent_spec ret (ne ret + (n + 1)) Wr ltac:(change EMIN with (-2147483648); change EMAX with 2147483647; clear - NR NR2 Hm Hn32; lia)) as SE. cbv zeta in SE. set (q := set_exponent ret _) in *. destruct SE as (Wq & Lq & Sq & Iq & Vq). replace (ne ret + (n + 1) - ne ret) with (n + 1) in Vq by ring.
  assert (AVq : Rabs (value q) = (bpow radix2 (n + 1) * vr)%R). { rewrite Vq, Rabs_mult, (Rabs_pos_eq (bpow _ _)) by apply bpow_ge_0. unfold vr. ring. }
  split; [|split; [congruence|congruence]]. split; [exact Wq|]. split; [|split; [congruence|]].
  - apply normal_iff; [exact Wq|]. rewrite AVq. apply Rle_trans with (bpow radix2 (n + 1) * bpow radix2 (ne ret - 1))%R; [|apply Rmult_le_compat_l; [apply bpow_ge_0|exact V1]]. rewrite <- bpow_plus. apply bpow_le. change EMIN with (-2147483648). clear - NR Hm Hn32. lia.
  - rewrite AVq. replace (- ln a0)%R with (bpow radix2 (n + 1) * (dath zt / 2))%R; [apply lc_scale; [apply bpow_gt_0|]; eapply lc_weak; [|exact Lr]; apply Rmult_le_compat_r; [lra|]; apply IZR_le; apply Hk|].
    rewrite DZ, RL, bpow_plus. change (bpow radix2 1) with 2%R. field.
Qed.
