(** The series of the hyperbolic sine (pow.rs) computes the hyperbolic sine. *)

From Coq Require Import ZArith List Bool Lia Reals Lra.
From Flocq Require Import Core.
From Verif Require Import Words IntModel Mantissa Num Pow Consts Elem Series Exp SpecZ SpecOps SpecConst WordsP Spec RealP RealP2 NumP CmpP AddP SetP AddNum MulNum DivNum ArithTop ConvNum RootP ConstP ConstNum ExtP PowExt Refute1 ElemR ElemDom ApproxR ApproxNum SeriesNum SinhR.
Import ListNotations.
Open Scope Z_scope.
Ltac Zify.zify_post_hook ::= idtac.
Arguments Z.mul : simpl never.
Arguments Z.add : simpl never.
Arguments Z.pow : simpl never.
Arguments Z.sub : simpl never.
Arguments Z.of_nat : simpl never.
Ltac dlia := Z.div_mod_to_equations; lia.

(** ** Exact results *)
Lemma cut_exact q rm r s ix res : correctly_rounded q rm r s ix res -> 0 < q -> generic_format radix2 (FLX_exp q) r -> mid (Rabs r) ->
  exists v, res = Ok v /\ wf v /\ normal v /\ ns v = s /\ 64 * wlen v = q /\ value v = r.
Proof.
  intros C Hq G [M1 M2]. unfold correctly_rounded in C. cbv zeta in C. unfold rnd_prec in C. rewrite (round_generic radix2 _ (rnd rm) r G) in C. destruct C as [_ C].
  assert (L1 : (bpow radix2 HX < bpow radix2 EMAX)%R) by (apply bpow_lt; vm_compute; reflexivity). assert (L2 : (bpow radix2 (EMIN - 1) <= bpow radix2 (- HX))%R) by (apply bpow_le; vm_compute; discriminate).
  destruct C as (v & E & W & L & S & N & _); [eapply Rle_lt_trans; [exact M2|exact L1]|]. destruct N as [V N]; [eapply Rle_trans; [exact L2|exact M1]|]. exists v. auto 7.
Qed.
Lemma int_format m : Z.abs m <= 2 ^ 64 -> generic_format radix2 (FLX_exp 64) (IZR m).
Proof.
  intros H. destruct (Z.eq_dec (Z.abs m) (2 ^ 64)) as [E|E].
  - assert (G : generic_format radix2 (FLX_exp 64) (IZR (Z.abs m))). { rewrite E. change (IZR (2 ^ 64)) with (bpow radix2 64). apply generic_format_bpow. unfold FLX_exp. lia. }
    destruct (Z.abs_eq_or_opp m) as [E2|E2]; rewrite E2 in G; [exact G|]. rewrite <- (Ropp_involutive (IZR m)), <- opp_IZR. apply generic_format_opp. exact G.
  - apply generic_format_FLX. exists (Float radix2 m 0); [unfold F2R; cbn; ring|]. cbn [Fnum]. change (Zpower radix2 64) with (2 ^ 64). lia.
Qed.
Lemma mid_int m : 1 <= m <= 2 ^ 64 -> mid (IZR m).
Proof. intros H. apply (mid_range 0 64); [vm_compute; discriminate|vm_compute; discriminate|]. change (bpow radix2 0) with (IZR 1). change (bpow radix2 64) with (IZR (2 ^ 64)). split; apply IZR_le; lia. Qed.
Lemma mid_inv_int m : 1 <= m <= 2 ^ 64 -> mid (1 / IZR m).
Proof.
  intros H. apply (mid_range (-64) 0); [vm_compute; discriminate|vm_compute; discriminate|]. assert (H1 : (1 <= IZR m <= bpow radix2 64)%R) by (change (bpow radix2 64) with (IZR (2 ^ 64)); split; apply IZR_le; lia).
  unfold Rdiv. rewrite Rmult_1_l. change (bpow radix2 (-64)) with (bpow radix2 (- (64))). rewrite (bpow_opp radix2 64). change (bpow radix2 0) with 1%R. split; [apply Rinv_le; lra|]. rewrite <- Rinv_1. apply Rinv_le; lra.
Qed.

(** ** The generator *)
Section Gen.
Variable P : Z.
Hypothesis HP : 128 <= P <= 2 ^ 22.
Hypothesis HP64 : prec_up P = P.
Let HPP : 128 <= P <= prec_up P.
Proof. clear - HP HP64. lia. Qed.
Let HL : prec_up P < P_LIM.
Proof. rewrite HP64. eapply Z.le_lt_trans; [apply HP|]. vm_compute. reflexivity. Qed.

Definition counts (m : Z) (v : num) : Prop := wf v /\ normal v /\ ns v = Pos /\ 64 * wlen v = 64 /\ value v = IZR m.
Definition gen_state (m k : Z) (c : R) (g : sinh_gen) : Prop :=
  counts m (sg_inc g) /\ apx P Pos 0 1 (sg_one g) /\ 64 * wlen (sg_one g) = P /\ apx P Pos k c (sg_fct g) /\ 64 * wlen (sg_fct g) = P.

Lemma half_ok m k c g : gen_state m k c g -> 1 <= m < 2 ^ 40 -> 0 <= k <= 2 ^ 50 -> mid (c * (1 / IZR (m + 1))) ->
  exists g', sinh_half g = Ok g' /\ gen_state (m + 1) (k + 2) (c * (1 / IZR (m + 1))) g'.
Proof.
  intros ((Wi & Ni & Si & Li & Vi) & H1 & L1 & Hf & Lf) Hm Hk M. unfold sinh_half. rewrite !max_len, Li, L1.
  assert (Hadd : exists q, n_add (sg_inc g) ONE 64 RNone = Ok q /\ counts (m + 1) q).
  { pose proof (add_sub_nonzero (sg_inc g) ONE 64 1 RNone Wi ONE_wf ltac:(destruct Ni; assumption) ONE_nonzero (or_introl eq_refl) ltac:(lia) ltac:(vm_compute; reflexivity)) as [C _].
    rewrite Rmult_1_l, Vi, ONE_value in C. replace (IZR m + 1)%R with (IZR (m + 1)) in C by (rewrite plus_IZR; ring). change (prec_up 64) with 64 in C. assert (V0 : (0 < IZR (m + 1))%R) by (apply IZR_lt; lia).
    destruct C as (sg & HS & C); [lra|]. assert (sg = Pos) by (destruct sg; [|reflexivity]; unfold has_sign in HS; cbn [sgnZ] in HS; exfalso; lra). subst sg.
    apply cut_exact in C; [|lia|apply int_format; lia|rewrite Rabs_pos_eq by lra; apply mid_int; lia]. destruct C as (q & E & W & N & S & L & V). exists q. split; [exact E|]. unfold counts. auto. }
  destruct Hadd as (inc & -> & Hi). cbn [bind]. assert (Hinc : apx P Pos 0 (IZR (m + 1)) inc) by (destruct Hi as (W & N & S & _ & V); now apply apx_exact).
  destruct (apx_div P P RNone HPP HL _ _ _ _ _ _ _ _ H1 Hinc ltac:(lia) ltac:(apply mid_inv_int; lia)) as (inv & -> & Hinv & Linv & _). cbn [bind sign_mul] in *.
  destruct (apx_mul P P RNone HPP HL _ _ _ _ _ _ _ _ Hf Hinv ltac:(lia) M) as (f & -> & Hfct & Lfct & _). cbn [bind sign_mul] in *.
  eexists. split; [reflexivity|]. unfold gen_state. cbn [sg_inc sg_one sg_fct]. split; [exact Hi|]. split; [exact H1|]. split; [exact L1|]. split; [|lia]. eapply apx_weak; [|exact Hfct]. lia.
Qed.

Definition sC (j : nat) : R := (/ INR (fact (2 * j + 3)))%R.
Definition sinh_at (j : nat) (g : sinh_gen) : Prop := gen_state (2 * Z.of_nat j + 1) (4 * Z.of_nat j) (/ INR (fact (2 * j + 1))) g.
Definition JMAX : nat := Z.to_nat (2 ^ 23).
Lemma JMAX_Z : Z.of_nat JMAX = 2 ^ 23.
Proof. unfold JMAX. apply Z2Nat.id. lia. Qed.

Lemma fact_pow L n : Z.of_nat n <= 2 ^ L -> 0 <= L -> (INR (fact n) <= bpow radix2 (Z.of_nat n * L))%R.
Proof.
  intros H HL0. induction n as [|n IH]; [cbn; rewrite Z.mul_0_l; right; reflexivity|]. replace (fact (S n)) with (S n * fact n)%nat by reflexivity. rewrite mult_INR. replace (Z.of_nat (S n) * L) with (L + Z.of_nat n * L) by lia. rewrite bpow_plus.
  apply Rmult_le_compat; [apply pos_INR|apply pos_INR| |apply IH; lia]. rewrite INR_IZR_INZ, bpow_IZR by exact HL0. now apply IZR_le.
Qed.
Definition QS := 2 ^ 29.
Lemma inv_fact_low n : Z.of_nat n <= 2 ^ 24 + 3 -> (bpow radix2 (- QS) <= / INR (fact n) <= 1)%R.
Proof.
  intros H. pose proof (INR_fact_pos n) as F0. split.
  - rewrite bpow_opp. apply Rinv_le; [exact F0|]. eapply Rle_trans; [apply (fact_pow 25)|]; [lia|lia|]. apply bpow_le. unfold QS. lia.
  - rewrite <- Rinv_1. apply Rinv_le; [lra|]. change 1%R with (INR 1). apply le_INR. pose proof (lt_O_fact n). lia.
Qed.
Lemma mid_fact n : Z.of_nat n <= 2 ^ 24 + 3 -> mid (/ INR (fact n)).
Proof. intros H. apply (mid_range (- QS) 0); [vm_compute; discriminate|vm_compute; discriminate|]. now apply inv_fact_low. Qed.
Lemma fact_next n : (/ INR (fact n) * (1 / IZR (Z.of_nat n + 1)) = / INR (fact (S n)))%R.
Proof.
  replace (fact (S n)) with (S n * fact n)%nat by reflexivity. rewrite mult_INR. replace (IZR (Z.of_nat n + 1)) with (INR (S n)) by (rewrite INR_IZR_INZ; f_equal; lia).
  pose proof (INR_fact_pos n). assert (0 < INR (S n))%R by (apply lt_0_INR; lia). field. lra.
Qed.
Lemma next_ok j g : sinh_at j g -> (j <= JMAX)%nat -> exists c g', sinh_next g = Ok (c, g') /\ sinh_at (S j) g' /\ apx P Pos (2 ^ 26) (sC j) c /\ 64 * wlen c <= P.
Proof.
  intros H Hj. assert (HJ : Z.of_nat j <= 2 ^ 23) by (rewrite <- JMAX_Z; lia). unfold sinh_at in H. unfold sinh_next.
  assert (E1 : 2 * Z.of_nat j + 1 = Z.of_nat (2 * j + 1)) by lia.
  destruct (half_ok _ _ _ _ H ltac:(lia) ltac:(lia)) as (g1 & -> & H1).
  { rewrite E1, fact_next. apply mid_fact. lia. }
  cbn [bind]. rewrite E1, fact_next in H1. replace (Z.of_nat (2 * j + 1) + 1) with (Z.of_nat (S (2 * j + 1))) in H1 by lia.
  destruct (half_ok _ _ _ _ H1 ltac:(lia) ltac:(lia)) as (g2 & -> & H2).
  { rewrite fact_next. apply mid_fact. lia. }
  cbn [bind]. rewrite fact_next in H2. exists (sg_fct g2), g2. split; [reflexivity|]. replace (S (S (2 * j + 1))) with (2 * j + 3)%nat in H2 by lia. split; [|split].
  - unfold sinh_at. replace (2 * S j + 1)%nat with (2 * j + 3)%nat by lia. replace (2 * Z.of_nat (S j) + 1) with (Z.of_nat (S (2 * j + 1)) + 1) by lia. replace (4 * Z.of_nat (S j)) with (4 * Z.of_nat j + 2 + 2) by lia. exact H2.
  - unfold sC. destruct H2 as (_ & _ & _ & H2 & _). eapply apx_weak; [|exact H2]. lia.
  - destruct H2 as (_ & _ & _ & _ & H2). lia.
Qed.
Lemma new_ok : exists g, sinh_new P = Ok g /\ sinh_at 0 g.
Proof.
  unfold sinh_new. destruct (from_word_spec 1 1 ltac:(lia) ltac:(lia) ltac:(vm_compute; reflexivity)) as (i & -> & Wi & Li & Si & _ & Vi).
  destruct (from_word_spec 1 P ltac:(lia) ltac:(lia) HL) as (o & -> & Wo & Lo & So & _ & Vo). cbn [bind].
  assert (N1 : forall v, wf v -> value v = IZR 1 -> normal v). { intros v W V. apply normal_iff; [exact W|]. rewrite V, Rabs_pos_eq by lra. change (IZR 1) with (bpow radix2 0). apply bpow_le. vm_compute. discriminate. }
  eexists. split; [reflexivity|]. unfold sinh_at, gen_state. cbn [sg_inc sg_one sg_fct]. assert (A1 : apx P Pos 0 1 o) by (apply apx_exact; auto).
  split; [|split; [exact A1|split; [lia|split; [|lia]]]].
  - unfold counts. split; [exact Wi|]. split; [now apply N1|]. split; [exact Si|]. split; [exact Li|exact Vi].
  - eapply apx_same; [|exact A1]. cbn. lra.
Qed.
Lemma sC_range j : (0 < sC j <= 1)%R.
Proof. unfold sC. pose proof (INR_fact_pos (2 * j + 3)). split; [now apply Rinv_0_lt_compat|]. rewrite <- Rinv_1. apply Rinv_le; [lra|]. change 1%R with (INR 1). apply le_INR. pose proof (lt_O_fact (2 * j + 3)). lia. Qed.
Lemma sC_decr j : (sC (S j) <= sC j)%R.
Proof. unfold sC. apply Rinv_le; [apply INR_fact_pos|]. apply le_INR. apply fact_le. lia. Qed.
Lemma sC_low j : (j <= JMAX)%nat -> (bpow radix2 (- QS) <= sC j)%R.
Proof. intros H. assert (HJ : Z.of_nat j <= 2 ^ 23) by (rewrite <- JMAX_Z; lia). unfold sC. assert (HN : Z.of_nat (2 * j + 3) <= 2 ^ 24 + 3) by lia. exact (proj1 (inv_fact_low _ HN)). Qed.
End Gen.

(** The sum and the Taylor polynomial. *)
Lemma psum_taylor b n : (b + b * (b * b) * psum sC (b * b) 0 n = tp (2 * n + 3) b)%R.
Proof.
  induction n as [|n IH]; [cbn [psum]; change (2 * 0 + 3)%nat with (S (S 1)); rewrite tp_step, tp1; cbn; lra|].
  replace (2 * S n + 3)%nat with (S (S (2 * n + 3))) by lia. rewrite tp_step, <- IH. cbn [psum]. rewrite Nat.add_0_l. unfold sC, Rdiv.
  replace (b ^ (2 * n + 3))%R with (b * (b * b) * (b * b) ^ n)%R; [ring|]. rewrite pow_add, pow_mult. replace (b ^ 2)%R with (b * b)%R by ring. cbn [pow]. ring.
Qed.

(** ** The number of reductions and of terms *)
Lemma mul_cost_nonneg p : 0 <= p -> 0 <= calc_mul_cost p.
Proof.
  intros H. unfold calc_mul_cost. assert (S0 : forall a, 0 <= sqrt_int a) by (intros a; unfold sqrt_int; apply Z.mod_pos_bound; lia).
  destruct (p <? 70); [nia|]. destruct (p <? 1625); [apply S0|]. pose proof (S0 p). nia.
Qed.
Lemma sqrt_int_le a : 0 <= a < 2 ^ 32 -> 0 <= sqrt_int a <= a.
Proof.
  intros H. unfold sqrt_int. rewrite (Z.mod_small a) by lia. destruct (Z.eq_dec a 0) as [->|N]; [vm_compute; split; discriminate|]. assert (H1 : 1 <= a) by lia. pose proof (sqrt_int_loop_range 20 a H1 a (conj H1 (Z.le_refl a))) as H2. rewrite Z.mod_small by lia. lia.
Qed.
Definition red_unit (p : Z) : Z := 2 * calc_mul_cost p + 3 * calc_add_cost p + calc_mul_cost 128.
Lemma series_cost_le niter p : 0 <= niter < 2 ^ 32 -> 1 <= p -> 0 < red_unit p /\ 0 <= series_cost niter p (sinh_iter_cost p) <= 4 * niter * red_unit p.
Proof.
  intros Hn Hp. pose proof (mul_cost_nonneg p ltac:(lia)) as M. pose proof (sqrt_int_le niter Hn) as S. unfold red_unit, series_cost, sinh_iter_cost, calc_add_cost. assert (M8 : 64 <= calc_mul_cost 128) by (vm_compute; discriminate).
  set (m := calc_mul_cost p) in *. set (m8 := calc_mul_cost 128) in *. clearbody m m8. split; [lia|]. set (sq := sqrt_int niter) in *. clearbody sq.
  assert (A : 0 <= niter * (m + p + (m + p + 64) * 2) <= 2 * niter * (2 * m + 3 * p + m8)) by nia.
  destruct (RECT_ITER_THRESHOLD <=? niter); [|nia].
  assert (B : 0 <= sq * m <= niter * (2 * m + 3 * p + m8)) by nia.
  assert (Q : 0 <= 10 * (niter / 10) <= niter) by (clear - Hn; dlia). set (q := niter / 10) in *. clearbody q.
  assert (E : 0 <= q * (2 * m + p + (m + p + 64) * 2) <= q * (2 * (2 * m + 3 * p + m8))) by nia. assert (10 * (q * (2 * (2 * m + 3 * p + m8))) <= niter * (2 * (2 * m + 3 * p + m8))) by nia. lia.
Qed.

Lemma optimize_loop_spec f p m step B : 0 <= m -> 1 <= p -> 1 <= step -> forall times c1,
  0 <= times -> match c1 with None => True | Some c => c <= B /\ step <= times /\ (times - step) * red_unit p <= c end ->
  (c1 = None -> series_cost (series_niter p (sinh_red_effect times m) / 2) p (sinh_iter_cost p) + sinh_red_cost times p <= B) ->
  (forall t, 0 <= t -> 0 <= series_niter p (sinh_red_effect t m) / 2 < 2 ^ 32) ->
  forall n niter e, optimize_loop sinh_red_cost sinh_red_effect f p (sinh_iter_cost p) m 2 step times c1 = Some (n, niter, e) ->
  times - step <= n /\ (c1 = None -> times <= n) /\ n * red_unit p <= B /\ e = sinh_red_effect (n + step) m /\ niter = series_niter p e / 2.
Proof.
  intros Hm Hp Hs. induction f as [|f IH]; intros times c1 Ht Hc1 HB HN n niter e E; [discriminate E|]. cbn [optimize_loop] in E. cbv zeta in E.
  set (c2 := series_cost _ _ _ + sinh_red_cost times p) in E. pose proof (series_cost_le _ p (HN times Ht) Hp) as [R0 [R1 _]].
  assert (C2 : times * red_unit p <= c2). { unfold c2, sinh_red_cost. fold (red_unit p). lia. }
  destruct (match c1 with None => true | Some c => c2 <? c end) eqn:T.
  - apply IH in E; [|lia| |discriminate|exact HN].
    + destruct E as (E1 & _ & E3 & E4 & E5). split; [lia|]. split; [intros _; lia|]. auto.
    + split; [|split; [lia|replace (times + step - step) with times by ring; exact C2]]. destruct c1 as [c|]; [apply Z.ltb_lt in T; lia|]. apply HB. reflexivity.
  - destruct c1 as [c|]; [|discriminate T]. injection E as <- <- <-. destruct Hc1 as (Q1 & Q2 & Q3). split; [lia|]. split; [discriminate|]. split; [lia|]. replace (times - step + step) with times by ring. auto.
Qed.

Lemma niter_le p m : 128 <= p < 2 ^ 63 -> 0 <= m -> 0 <= series_niter p m <= p / (m + 2).
Proof.
  intros Hp Hm. unfold series_niter. rewrite (log2_floor_spec p) by lia. assert (L7 : 7 <= Z.log2 p) by (apply Z.log2_le_pow2; lia). assert (L63 : Z.log2 p < 63) by (apply Z.log2_lt_pow2; lia).
  rewrite log2_floor_spec by lia. set (l := Z.log2 p) in *. assert (L2 : 2 ^ Z.log2 l <= l) by (apply Z.log2_spec; lia). assert (0 <= Z.log2 l) by apply Z.log2_nonneg.
  assert (HH : 2 * Z.log2 l <= 2 ^ Z.log2 l). { assert (2 <= Z.log2 l) by (apply Z.log2_le_pow2; lia). assert (Q : forall k, 0 <= k -> 2 * (2 + k) <= 2 ^ (2 + k)). { intros k K. pattern k. apply natlike_ind; [lia| |exact K]. intros x Hx IH. replace (2 + Z.succ x) with (Z.succ (2 + x)) by lia. rewrite Z.pow_succ_r by lia. lia. } specialize (Q (Z.log2 l - 2) ltac:(lia)). replace (2 + (Z.log2 l - 2)) with (Z.log2 l) in Q by ring. exact Q. }
  assert (D : m + 2 <= l - Z.log2 l + m - 2) by lia. split; [apply Z.div_pos; lia|]. apply Z.div_le_compat_l; lia.
Qed.

Lemma optimize_spec f p m n niter e : 128 <= p <= 2 ^ 22 -> 0 <= m -> series_cost_optimize sinh_red_cost sinh_red_effect f p (sinh_iter_cost p) m 2 = Some (n, niter, e) ->
  exists step, 3 <= step <= 11 /\ 0 <= n /\ step <= m + n /\ 10 * n <= 4 * p + 110 /\ e = sinh_red_effect (n + step) m /\ 0 <= niter /\ 2 * niter * (e + 2) <= p.
Proof.
  intros Hp Hm E. unfold series_cost_optimize in E. rewrite log2_floor_spec in E by lia. assert (L7 : 7 <= Z.log2 p) by (apply Z.log2_le_pow2; lia). assert (L22 : Z.log2 p <= 22). { change 22 with (Z.log2 (2 ^ 22)). apply Z.log2_le_mono. lia. }
  set (step := Z.log2 p / 2) in *. assert (HS : 3 <= step <= 11) by (unfold step; clear - L7 L22; dlia). clearbody step.
  set (r0 := if m <? step then step - m else 0) in *. assert (R0 : 0 <= r0 <= 11 /\ step <= m + r0) by (unfold r0; destruct (Z.ltb_spec m step); lia). clearbody r0.
  assert (EF : forall t, 0 <= t -> t + m <= sinh_red_effect t m). { intros t Ht. unfold sinh_red_effect. assert (t <= t * 1000 / 631) by (clear - Ht; dlia). lia. }
  assert (NI : forall t, 0 <= t -> 0 <= series_niter p (sinh_red_effect t m) / 2 < 2 ^ 32 /\ 2 * (series_niter p (sinh_red_effect t m) / 2) * (sinh_red_effect t m + 2) <= p).
  { intros t Ht. specialize (EF t Ht). pose proof (niter_le p (sinh_red_effect t m) ltac:(lia) ltac:(lia)) as [N1 N2]. set (e0 := sinh_red_effect t m) in *. set (k := series_niter p e0) in *. clearbody k e0.
    assert (D : p / (e0 + 2) * (e0 + 2) <= p) by (rewrite Z.mul_comm; apply Z.mul_div_le; lia). set (d := p / (e0 + 2)) in *. clearbody d.
    assert (H2 : 0 <= 2 * (k / 2) <= k) by (clear - N1; dlia). set (h := k / 2) in *. clearbody h. split; nia. }
  pose proof (NI r0 ltac:(lia)) as [N0 N1]. set (it0 := series_niter p (sinh_red_effect r0 m) / 2) in *. pose proof (EF r0 ltac:(lia)) as E0.
  assert (IT : 10 * it0 <= p) by nia. pose proof (series_cost_le it0 p N0 ltac:(lia)) as [U0 [_ U1]].
  pose proof (optimize_loop_spec f p m step ((4 * it0 + r0) * red_unit p) Hm ltac:(lia) ltac:(lia) r0 None ltac:(lia) I) as O.
  specialize (O ltac:(intros _; unfold sinh_red_cost; fold (red_unit p) it0; lia) (fun t Ht => proj1 (NI t Ht)) n niter e E). destruct O as (_ & O2 & O3 & O4 & O5). specialize (O2 eq_refl).
  assert (n <= 4 * it0 + r0) by (apply Zmult_le_reg_r with (red_unit p); lia).
  exists step. split; [exact HS|]. split; [lia|]. split; [lia|]. split; [lia|]. split; [exact O4|]. rewrite O5, O4. destruct (NI (n + step) ltac:(lia)) as [Q1 Q2]. split; [lia|exact Q2].
Qed.
