(** Integer powers: the retry loop and the result of powi. *)

From Coq Require Import ZArith List Bool Lia Reals Lra.
From Flocq Require Import Core Relative.
From Verif Require Import Words IntModel Mantissa Num Pow SpecZ WordsP WordsP2 Spec RoundP RealP RealP2 NumP CmpP AddP SetP AddNum MulNum ArithTop IntNum RoundableNum PowP.
Import ListNotations.
Open Scope Z_scope.
Ltac Zify.zify_post_hook ::= idtac.
Arguments Z.mul : simpl never.
Arguments Z.add : simpl never.
Arguments Z.pow : simpl never.
Arguments Z.sub : simpl never.
Arguments Z.of_nat : simpl never.

(** ** An accepted rounding is the rounding of the approximation *)
Lemma scan_rz l : forall td chk cc rz, exists chk' cc', fold_left (scan_word td) l (chk, cc, rz) = (chk', cc', rz && all_zero l).
Proof.
  induction l as [|v l IH]; intros td chk cc rz; cbn [fold_left].
  - exists chk, cc. cbn. now rewrite andb_true_r.
  - unfold scan_word at 2. destruct (chk && (0 <? cc)); [destruct (negb (v =? td))|];
      match goal with |- context [fold_left _ l (?a, ?b, ?c)] => destruct (IH td a b c) as (x1 & x2 & ->) end;
      exists x1, x2; rewrite all_zero_cons; destruct (v =? 0), rz; reflexivity.
Qed.

Lemma rm_peek_inside m i t cc : words_ok m -> 0 <= i < zlen m -> 0 < t < 64 ->
  exists chk cc' td, rm_peek m i t true cc = (chk, cc', znth i m mod 2 ^ t =? 0, td, i).
Proof.
  intros Hok Hi Ht. unfold rm_peek. pose proof (ok_znth m i Hok) as Hv. replace (0 <? t) with true by lia.
  assert (E : wshl (znth i m) (64 - t) = 2 ^ (64 - t) * (znth i m mod 2 ^ t)).
  { apply wshl_low; [lia|]. now rewrite Z.mod_small by lia. }
  rewrite E. pose proof (pow2_gt0 (64 - t) ltac:(lia)).
  destruct (Z.eqb_spec (znth i m mod 2 ^ t) 0) as [E0|E0].
  - rewrite E0, Z.mul_0_r. cbn [Z.eqb negb]. eauto.
  - replace (2 ^ (64 - t) * (znth i m mod 2 ^ t) =? 0) with false by (symmetry; apply Z.eqb_neq; nia). cbn [negb].
    destruct (_ =? _); [eauto|]. destruct (negb _); eauto.
Qed.

Lemma rm_unchecked m n rm pos s s0 ix : words_ok m -> 0 < n < 64 * zlen m ->
  round_mantissa m n rm pos false s ix = round_mantissa m n rm pos false s0 ix.
Proof.
  intros Hok Hn. unfold round_mantissa. cbv zeta. replace (0 <? n) with true by lia. replace (n <? 64 * zlen m) with true by lia. cbn [andb].
  set (c1 := (n - (64 * zlen m - s)) mod WORD_BASE / 64). set (c2 := (n - (64 * zlen m - s0)) mod WORD_BASE / 64). clearbody c1 c2.
  assert (PF : forall i t, 0 <= i < zlen m -> 0 <= t < 64 -> forall c, exists cc td, rm_peek m i t false c = (false, cc, znth i m mod 2 ^ t =? 0, td, i)).
  { intros i t Hi Ht c. exact (rm_peek_false m i t c Hok Hi Ht). }
  destruct (PF (n / 64) (n mod 64) ltac:(dlia) ltac:(dlia) c1) as (d1 & t1 & E1). destruct (PF (n / 64) (n mod 64) ltac:(dlia) ltac:(dlia) c2) as (d2 & t2 & E2).
  destruct (PF ((n - 1) / 64) ((n - 1) mod 64) ltac:(dlia) ltac:(dlia) c1) as (d3 & t3 & E3). destruct (PF ((n - 1) / 64) ((n - 1) mod 64) ltac:(dlia) ltac:(dlia) c2) as (d4 & t4 & E4).
  destruct rm; try reflexivity; rewrite ?E1, ?E2, ?E3, ?E4;
    repeat match goal with |- context [fold_left (scan_word ?td) ?l (false, ?cc, ?rz)] => destruct (scan_false l td cc rz) as (? & ->) end; reflexivity.
Qed.

Lemma near_any m n rm pos ix s s0 : words_ok m -> 0 < n < 64 * zlen m -> 0 < (n - 1) mod 64 -> nearest rm = true ->
  let o := round_mantissa m n rm pos true s ix in
  ro_chk o = false -> o = round_mantissa m n rm pos false s0 ix.
Proof.
  intros Hok Hn Ht Hrm o. unfold o, round_mantissa. cbv zeta. replace (0 <? n) with true by lia. replace (n <? 64 * zlen m) with true by lia. cbn [andb].
  set (c1 := (n - (64 * zlen m - s)) mod WORD_BASE / 64). set (c2 := (n - (64 * zlen m - s0)) mod WORD_BASE / 64). clearbody c1 c2.
  destruct (rm_peek_inside m ((n - 1) / 64) ((n - 1) mod 64) c1 Hok ltac:(dlia) ltac:(dlia)) as (k & cc & td & ->).
  destruct (rm_peek_false m ((n - 1) / 64) ((n - 1) mod 64) c2 Hok ltac:(dlia) ltac:(dlia)) as (cc2 & td2 & ->).
  destruct (scan_rz (ztake ((n - 1) / 64) m) td k cc (znth ((n - 1) / 64) m mod 2 ^ ((n - 1) mod 64) =? 0)) as (k1 & cc3 & ->).
  destruct (scan_false (ztake ((n - 1) / 64) m) td2 cc2 (znth ((n - 1) / 64) m mod 2 ^ ((n - 1) mod 64) =? 0)) as (cc4 & ->).
  destruct rm; try discriminate Hrm; destruct k1; cbn [ro_chk]; try discriminate; intros _; reflexivity.
Qed.

Lemma try_any x p rm s : wf x -> normal x -> 0 < p < 64 * wlen x -> p mod 64 = 0 -> s mod 64 = 0 -> p <= s <= 64 * wlen x ->
  match try_set_precision x p rm s with
  | Ok (y, true) => set_precision x p rm = Ok y
  | Ok (_, false) => ninexact x = true
  | Err e => set_precision x p rm = Err e
  | Panic => False
  end.
Proof.
  intros Wx Nx Hp Hp64 Hs Hps. pose proof (wf_words x Wx) as Hok. pose proof (wf_lim x Wx) as Hlen.
  destruct (Bool.bool_dec (ninexact x) true) as [Ix|Ix]; [destruct (nearest rm) eqn:Nr|].
  2:{ destruct rm; try discriminate Nr.
      { unfold try_set_precision, set_precision, set_precision_internal, p_assertion. replace (P_LIM <=? p) with false by lia. cbn [bind].
        unfold mantissa_max_bit_len, max_bit_len, mlen. fold (wlen x). replace (p <? 64 * wlen x) with true by lia. replace (0 <? p) with true by lia. cbn [andb].
        cbn [round_mantissa ro_chk ro_m ro_ovf ro_inexact andb]. cbv zeta.
        destruct (m_is_all_zero _); [reflexivity|]. destruct (m_is_subnormal _); reflexivity. }
      all: assert (Hj1 : 0 <= wlen x - s / 64) by dlia; assert (Hj2 : 64 * (wlen x - s / 64) + p <= 64 * wlen x) by dlia; assert (Es : 64 * (wlen x - (wlen x - s / 64)) = s) by dlia;
        match goal with |- context [try_set_precision ?a ?b ?r ?c] =>
          pose proof (try_accept a b r (wlen a - c / 64) Wx Nx Ix Hp Hj1 Hj2 ltac:(discriminate) ltac:(intros E; discriminate E)) as T;
          cbv zeta in T; rewrite Es in T; destruct (try_set_precision a b r c) as [[y [|]]|e|]; tauto end. }
  all: unfold try_set_precision, set_precision, set_precision_internal, p_assertion; replace (P_LIM <=? p) with false by lia; cbn [bind];
    unfold mantissa_max_bit_len, max_bit_len, mlen; fold (wlen x); replace (p <? 64 * wlen x) with true by lia; replace (0 <? p) with true by lia; cbn [andb]; cbv zeta.
  - rewrite Ix. pose proof (near_any (mm (nm x)) (64 * wlen x - p) rm (is_positive x) true s (64 * wlen x) Hok ltac:(fold (wlen x); lia) ltac:(dlia) Nr) as K. cbv zeta in K.
    destruct (ro_chk (round_mantissa (mm (nm x)) (64 * wlen x - p) rm (is_positive x) true s true)) eqn:C; [cbn [andb orb]; reflexivity|].
    specialize (K eq_refl). rewrite K in *. rewrite C. cbn [andb]. destruct (ro_ovf _); [destruct (_ =? _); reflexivity|].
    destruct (m_is_all_zero _); [reflexivity|]. destruct (m_is_subnormal _); reflexivity.
  - apply Bool.not_true_is_false in Ix. rewrite Ix. rewrite (rm_unchecked _ _ rm _ s (64 * wlen x) false Hok) by (fold (wlen x); lia).
    assert (C : ro_chk (round_mantissa (mm (nm x)) (64 * wlen x - p) rm (is_positive x) false (64 * wlen x) false) = false).
    { destruct rm; [reflexivity|..]; 
      match goal with |- ro_chk (round_mantissa ?a ?b ?r ?c _ ?d _) = _ =>
        assert (Hb : 0 < b < 64 * zlen a) by (fold (wlen x); lia); destruct (round_mantissa_spec a b r c d false Hok Hb ltac:(discriminate)) as (_ & C & _); exact C end. }
    rewrite C. cbn [andb]. destruct (ro_ovf _); [destruct (_ =? _); reflexivity|].
    destruct (m_is_all_zero _); [reflexivity|]. destruct (m_is_subnormal _); reflexivity.
Qed.

(** ** The topmost bit *)
Lemma land_sig_test w : 0 <= w < 2 ^ 64 -> (Z.land w WORD_SIG =? 0) = (w <? 2 ^ 63).
Proof.
  intros Hw. change WORD_SIG with (2 ^ 63). destruct (Z.ltb_spec w (2 ^ 63)) as [H|H].
  - apply Z.eqb_eq. apply Z.bits_inj'. intros i Hi. rewrite Z.land_spec, Z.pow2_bits_eqb, Z.bits_0 by lia. destruct (Z.eqb_spec 63 i) as [<-|]; [|apply andb_false_r].
    rewrite andb_true_r. apply Z.bits_above_log2; [lia|]. destruct (Z.eq_dec w 0) as [->|]; [reflexivity|]. apply Z.log2_lt_pow2; lia.
  - apply Z.eqb_neq. intros E. apply (f_equal (fun z => Z.testbit z 63)) in E. rewrite Z.land_spec, Z.pow2_bits_true, Z.bits_0, andb_true_r in E by lia.
    assert (L : Z.log2 w = 63). { assert (63 <= Z.log2 w) by (apply Z.log2_le_pow2; lia). assert (Z.log2 w < 64) by (apply Z.log2_lt_pow2; lia). lia. }
    rewrite <- L in E. rewrite Z.bit_log2 in E by lia. discriminate E.
Qed.

Lemma top_bit_spec f : forall n i, (f <= 64)%nat -> 0 < n < 2 ^ Z.of_nat f -> i = n * 2 ^ (64 - Z.of_nat f) ->
  top_bit_loop f i = (Z.log2 n, n * 2 ^ (64 - Z.log2 n) - 2 ^ 64).
Proof.
  induction f as [|f IH]; intros n i Hf Hn Hi; [change (Z.of_nat 0) with 0 in Hn; rewrite Z.pow_0_r in Hn; lia|]. cbn [top_bit_loop].
  rewrite Nat2Z.inj_succ in Hn, Hi. assert (P1 : 2 ^ 64 = 2 ^ Z.succ (Z.of_nat f) * 2 ^ (64 - Z.succ (Z.of_nat f))) by (rewrite <- Z.pow_add_r by lia; f_equal; lia).
  assert (G : 0 < 2 ^ (64 - Z.succ (Z.of_nat f))) by (apply Z.pow_pos_nonneg; lia).
  assert (Hi64 : 0 <= i < 2 ^ 64). { rewrite P1, Hi. split; [apply Z.mul_nonneg_nonneg; lia|apply Z.mul_lt_mono_pos_r; lia]. }
  rewrite land_sig_test by auto. assert (P2 : 2 ^ 63 = 2 ^ Z.of_nat f * 2 ^ (64 - Z.succ (Z.of_nat f))) by (rewrite <- Z.pow_add_r by lia; f_equal; lia).
  assert (P3 : 2 ^ (64 - Z.of_nat f) = 2 * 2 ^ (64 - Z.succ (Z.of_nat f))) by (rewrite <- Z.pow_succ_r by lia; f_equal; lia).
  destruct (Z.ltb_spec i (2 ^ 63)) as [H|H]; cbn [negb].
  - apply IH; [lia| |].
    + split; [lia|]. rewrite P2, Hi in H. apply Z.mul_lt_mono_pos_r in H; auto.
    + rewrite wshl_val by lia. change (2 ^ 1) with 2. rewrite Z.mod_small by (change (2 ^ 64) with (2 ^ 63 * 2); lia). rewrite P3, Hi. ring.
  - pose proof H as H0. rewrite P2, Hi in H. apply Z.mul_le_mono_pos_r in H; auto.
    assert (L : Z.log2 n = Z.of_nat f). { apply Z.log2_unique; lia. } rewrite L. f_equal.
    rewrite wshl_val by lia. change (2 ^ 1) with 2. rewrite P3. replace (n * (2 * 2 ^ (64 - Z.succ (Z.of_nat f)))) with (i * 2) by (rewrite Hi; ring).
    symmetry. apply Z.mod_unique with (q := 1); [left|]; change (2 ^ 64) with (2 ^ 63 * 2) in *; lia.
Qed.

(** ** Accumulated relative error *)
Lemma pow_1u u m : (0 <= u)%R -> (2 * INR m * u <= 1)%R -> ((1 + u) ^ m <= 1 + 2 * INR m * u)%R.
Proof.
  intros Hu. induction m as [|m IH]; intros H; [cbn; lra|]. rewrite S_INR in *. pose proof (pos_INR m) as I0. cbn [pow].
  assert (2 * INR m * u <= 1)%R by nra. specialize (IH H0). assert (0 <= (1 + u) ^ m)%R by (apply pow_le; lra). nra.
Qed.

Lemma INR_to_nat n : 0 <= n -> INR (Z.to_nat n) = IZR n.
Proof. intros. rewrite INR_IZR_INZ, Z2Nat.id by auto. reflexivity. Qed.

Lemma err_bound n P p_wrk : 2 <= n < 2 ^ 64 -> p_wrk + Z.log2 n + 4 <= P -> 0 <= p_wrk ->
  let u := bpow radix2 (1 - P) in
  ((1 + u) ^ (2 * Z.to_nat n - 2) <= 1 + bpow radix2 (- p_wrk))%R /\ ((1 + u) ^ (2 * Z.to_nat n) <= 2)%R.
Proof.
  intros Hn HP Hw u. assert (U0 : (0 <= u)%R) by apply bpow_ge_0.
  assert (K : (2 * INR (2 * Z.to_nat n) * u <= bpow radix2 (- p_wrk))%R).
  { rewrite mult_INR, INR_to_nat by lia. change (INR 2) with 2%R.
    assert (IZR n <= bpow radix2 (Z.log2 n + 1))%R. { rewrite bpow_IZR by (pose proof (Z.log2_nonneg n); lia). apply IZR_le. destruct (Z.log2_spec n ltac:(lia)). rewrite Z.add_1_r. lia. }
    assert (bpow radix2 (Z.log2 n + 4 - P) <= bpow radix2 (- p_wrk))%R by (apply bpow_le; lia).
    replace (Z.log2 n + 4 - P) with (2 + (Z.log2 n + 1) + (1 - P)) in H0 by lia. rewrite !bpow_plus in H0. fold u in H0. change (bpow radix2 2) with 4%R in H0.
    rewrite bpow_plus in H. nra. }
  assert (W1 : (bpow radix2 (- p_wrk) <= 1)%R) by (change 1%R with (bpow radix2 0); apply bpow_le; lia).
  assert (M : (INR (2 * Z.to_nat n - 2) <= INR (2 * Z.to_nat n))%R) by (apply le_INR; lia). pose proof (pos_INR (2 * Z.to_nat n - 2)) as M0. split.
  - eapply Rle_trans; [apply pow_1u; auto; nra|]. nra.
  - eapply Rle_trans; [apply pow_1u; auto; nra|]. nra.
Qed.

(** ** Signs *)
Lemma pow_signR s k : (sgnR s ^ k = sgnR (pow_sign s k))%R.
Proof.
  unfold pow_sign. rewrite <- Nat.negb_even. destruct s; unfold sgnR; cbn [sgnZ].
  - destruct (Nat.even k) eqn:E; cbn [negb].
    + apply Nat.even_spec in E as [j ->]. rewrite pow_mult. replace ((-1) ^ 2)%R with 1%R by (cbn; ring). apply pow1.
    + assert (O : Nat.odd k = true) by (rewrite <- Nat.negb_even, E; reflexivity). apply Nat.odd_spec in O as [j ->].
      rewrite pow_add, pow_mult. replace ((-1) ^ 2)%R with 1%R by (cbn; ring). rewrite pow1. cbn. ring.
  - rewrite pow1. destruct (Nat.even k); reflexivity.
Qed.

Lemma value_sgn x : wf x -> value x = (sgnR (ns x) * Rabs (value x))%R.
Proof.
  intros W. assert (0 <= IZR (magnitude x) * bpow radix2 (ne x - 64 * wlen x))%R.
  { apply Rmult_le_pos; [apply IZR_le; apply val_nonneg; apply (wf_words x W)|apply bpow_ge_0]. }
  rewrite (value_split x) at 2. rewrite sgnR_abs by auto. apply value_split.
Qed.

Lemma same_sign_dist s a b : (0 <= a)%R -> (a <= b)%R -> (Rabs (sgnR s * a - sgnR s * b) = b - a)%R.
Proof.
  intros. rewrite <- Rmult_minus_distr_l. rewrite Rabs_mult. destruct (sgnR_cases s) as [->| ->]; [rewrite Rabs_R1|replace (Rabs (-1)) with 1%R by (rewrite Rabs_left; lra)]; rewrite Rmult_1_l, Rabs_left1; lra.
Qed.

(** ** One approximation *)
Definition pow_real (x : num) (n : Z) : R := (value x ^ Z.to_nat n)%R.

Lemma pow_real_sgn x n : wf x -> pow_real x n = (sgnR (pow_sign (ns x) (Z.to_nat n)) * Rabs (value x) ^ Z.to_nat n)%R.
Proof. intros W. unfold pow_real. rewrite (value_sgn x W) at 1. rewrite Rpow_mult_distr, pow_signR. reflexivity. Qed.

Lemma prec_up_ge p : p <= prec_up p < p + 64.
Proof. unfold prec_up. dlia. Qed.

Lemma attempt_spec x n p_wrk : wf x -> nonzero x -> 2 <= n < 2 ^ 64 -> 64 * wlen x + 64 <= p_wrk -> p_wrk mod 64 = 0 ->
  let L := Z.log2 n in let p_x := p_wrk + L * 2 in let P := prec_up p_x in let r := pow_real x n in
  P < P_LIM -> (bpow radix2 (EMIN - 1) <= Rabs r)%R ->
  match powi_attempt x L (n * 2 ^ (64 - L) - 2 ^ 64) p_x with
  | Ok q => wf q /\ 64 * wlen q = P /\ normal q /\ ns q = pow_sign (ns x) (Z.to_nat n) /\
      (Rabs (r - value q) <= Rabs r * bpow radix2 (- p_wrk))%R /\ (Rabs r <= Rabs (value q))%R /\
      (ninexact q = false -> value q = r) /\ (n * (64 * wlen x) <= P -> ninexact q = false)
  | Err e => (exists s, e = ExponentOverflow s) /\ (bpow radix2 EMAX <= Rabs r * (1 + bpow radix2 (- p_wrk)))%R
  | Panic => False
  end.
Proof.
  intros Wx Nx Hn Hw Hw64 L p_x P r HP Hr.
  assert (L1 : 1 <= L) by (apply Z.log2_le_pow2; lia). assert (L63 : L < 64) by (apply Z.log2_lt_pow2; lia).
  pose proof (nonzero_bits x Wx Nx) as (M0 & _). assert (W0 : 0 < wlen x).
  { unfold wlen. pose proof (zlen_nonneg (mm (nm x))). destruct (Z.eq_dec (zlen (mm (nm x))) 0) as [E|]; [|lia]. exfalso. pose proof (val_bound _ (wf_words x Wx)) as B. rewrite E in B. change (2 ^ (64 * 0)) with 1 in B. fold (magnitude x) in B. lia. }
  set (x0 := set_inexact x false).
  assert (Wx0 : wf x0) by (destruct Wx; constructor; auto). assert (Vx0 : value x0 = value x) by reflexivity. assert (Nx0 : nonzero x0) by exact Nx.
  pose proof (prec_up_ge p_x) as PU. fold P in PU.
  assert (HPw : p_wrk + L + 4 <= P). { destruct (Z.le_gt_cases 4 L); [unfold p_x in PU; lia|]. unfold P, prec_up, p_x in *. clear - Hw64 L1 H. dlia. }
  destruct (err_bound n P p_wrk Hn HPw ltac:(lia)) as [EB HU]. set (u := bpow radix2 (1 - P)) in *.
  assert (Xr : (Rabs (value x) ^ Z.to_nat n = Rabs r)%R) by (unfold r, pow_real; now rewrite RPow_abs).
  unfold powi_attempt. replace (if ninexact x then set_inexact x false else x) with x0.
  2:{ unfold x0. destruct (ninexact x) eqn:E; auto. unfold set_inexact. rewrite <- E. destruct x; reflexivity. }
  fold x0. assert (wlen x0 = wlen x) as Wl by reflexivity.
  destruct (set_precision_spec x0 p_x RFromZero Wx0 ltac:(unfold p_x; lia) HP ltac:(right; right; rewrite Wl; unfold p_x; lia)) as [_ SP].
  rewrite rnd_grad_long in SP by (auto; rewrite ?Wl; unfold p_x; lia).
  destruct (SP (value_lt_max x0 Wx0)) as (y & -> & Wy & Ly & Sy & Vy & Iy). cbn [bind].
  assert (IY : ninexact y = false). { destruct (ninexact y); auto. destruct Iy as [Iy _]. destruct (Iy eq_refl) as [E|E]; [discriminate E|congruence]. }
  assert (X1 : (bpow radix2 (EMIN - 1) <= Rabs (value x) ^ 1)%R).
  { eapply (Xk_normal x0 Nx0 p_x (Z.to_nat n)); [rewrite Vx0, Xr; exact Hr|lia]. }
  assert (Ny : normal y) by (apply normal_iff; auto; rewrite Vy, Vx0; rewrite pow_1 in X1; exact X1).
  assert (I1 : inv x0 p_x (Z.to_nat n) 1 y).
  { constructor; auto.
    - rewrite Ly. reflexivity.
    - rewrite Vy. rewrite pow_1. apply Rle_refl.
    - rewrite Vy. rewrite pow_1. change (2 * 1 - 2)%nat with 0%nat. rewrite pow_O, Rmult_1_r. apply Rle_refl.
    - intros _. rewrite Vy, pow_1. reflexivity. }
  destruct (Z.log2_spec n ltac:(lia)) as [N1 N2]. fold L in N1, N2. rewrite <- Z.add_1_r, Z.pow_add_r in N2 by lia. change (2 ^ 1) with 2 in N2.
  assert (P64 : 2 ^ 64 = 2 ^ L * 2 ^ (64 - L)) by (rewrite <- Z.pow_add_r by lia; f_equal; lia). assert (G : 0 < 2 ^ (64 - L)) by (apply Z.pow_pos_nonneg; lia).
  assert (Ej : n * 2 ^ (64 - L) - 2 ^ 64 = (n - 2 ^ L) * 2 ^ (64 - L)) by (rewrite P64; ring).
  assert (B : (match powi_bits (Z.to_nat L) y x0 (n * 2 ^ (64 - L) - 2 ^ 64) p_x with
    | Ok q => inv x0 p_x (Z.to_nat n) (Z.to_nat n) q
    | Err e => (exists s, e = ExponentOverflow s) /\ (bpow radix2 EMAX <= Rabs (value x0) ^ Z.to_nat n * (1 + u) ^ (2 * Z.to_nat n - 2))%R
    | Panic => False end)).
  { apply (bits_spec x0 Wx0 Nx0 eq_refl p_x ltac:(unfold p_x; lia) HP (Z.to_nat n) ltac:(rewrite Vx0, Xr; exact Hr) HU (Z.to_nat L) y 1%nat); auto; try lia.
    - rewrite Ej. split; [apply Z.mul_nonneg_nonneg; lia|]. rewrite P64. apply Z.mul_lt_mono_pos_r; lia.
    - rewrite !Z2Nat.id by lia. change (Z.of_nat 1) with 1. rewrite Ej, Z.div_mul by lia. lia. }
  rewrite Vx0, Xr in B. destruct (powi_bits _ _ _ _ _) as [q|e|]; auto.
  2:{ destruct B as [B1 B2]. split; auto. eapply Rle_trans; [exact B2|]. apply Rmult_le_compat_l; [apply Rabs_pos|exact EB]. }
  assert (Iq : inv x0 p_x (Z.to_nat n) (Z.to_nat n) q) by exact B. clear B.
  split; [apply (i_wf _ _ _ _ _ Iq)|]. split; [apply (i_len _ _ _ _ _ Iq)|]. split; [apply (i_norm _ _ _ _ _ Iq)|]. split; [apply (i_sign _ _ _ _ _ Iq)|].
  pose proof (i_lo _ _ _ _ _ Iq) as Lo. pose proof (i_hi _ _ _ _ _ Iq) as Hi. rewrite Vx0, Xr in Lo, Hi. fold P u in Hi.
  split; [|split; [exact Lo|split; [intros E; rewrite (i_exact _ _ _ _ _ Iq E); reflexivity|]]].
  - rewrite (value_sgn q (i_wf _ _ _ _ _ Iq)), (i_sign _ _ _ _ _ Iq). unfold r at 1. rewrite (pow_real_sgn x n Wx). rewrite Xr. change (ns x0) with (ns x).
    rewrite same_sign_dist by (auto; apply Rabs_pos). assert (Rabs (value q) <= Rabs r * (1 + bpow radix2 (- p_wrk)))%R.
    { eapply Rle_trans; [exact Hi|]. apply Rmult_le_compat_l; [apply Rabs_pos|exact EB]. } lra.
  - intros F. apply (i_fit _ _ _ _ _ Iq). rewrite Z2Nat.id by lia. exact F.
Qed.
