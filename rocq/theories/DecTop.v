(** Reading decimal digits: the loop ends and its result is right. *)

From Coq Require Import ZArith List Bool Lia Reals Lra.
From Flocq Require Import Core Relative.
From Verif Require Import Words IntModel MulModel DivModel Mantissa Num Pow Conv Dec DecConv SpecZ WordsP WordsP2 Spec SpecPow SpecText SpecDec RoundP RealP RealP2 NumP CmpP AddP SetP AddNum MulNum DivNum ArithTop IntNum RoundableNum PowP PowNum PowTop IntP MulP MulP2 DivP DivP2 DecP DecRead DecScale DecStart.
Import ListNotations.
Open Scope Z_scope.
Ltac Zify.zify_post_hook ::= idtac.
Arguments Z.mul : simpl never.
Arguments Z.add : simpl never.
Arguments Z.pow : simpl never.
Arguments Z.sub : simpl never.
Arguments Z.of_nat : simpl never.
Ltac dlia := Z.div_mod_to_equations; lia.

Lemma ap_abs neg s D j : 0 < D -> 0 <= j -> Rabs (target neg s D j) = ap neg (IZR D) (IZR (10 ^ j)).
Proof.
  intros HD Hj. pose proof (ten_pos j Hj) as T. assert (E : Rabs (IZR (sgnZ s * D)) = IZR D) by (rewrite <- abs_IZR; f_equal; destruct s; cbn [sgnZ]; lia).
  assert (T2 : (0 < IZR (10 ^ j))%R) by (apply IZR_lt; exact T).
  unfold target, ap. destruct neg; unfold Rdiv; rewrite Rabs_mult, E; f_equal; apply Rabs_pos_eq; [left; now apply Rinv_0_lt_compat|lra].
Qed.

Lemma ten_mono j k : 0 <= j <= k -> (1 <= IZR (10 ^ j) <= IZR (10 ^ k))%R.
Proof. intros. split; apply IZR_le; [pose proof (ten_pos j ltac:(lia)); lia|]. apply Z.pow_le_mono_r; lia. Qed.

(** The scaled numbers along the way are not too small, and only the last one can be too large. *)
Lemma way_low neg s D k : 0 < D -> (bpow radix2 EMIN <= Rabs (target neg s D k))%R -> forall j, 0 <= j <= k -> (bpow radix2 EMIN <= Rabs (target neg s D j))%R.
Proof.
  intros HD H j Hj. rewrite ap_abs in * by lia. destruct (ten_mono j k Hj) as [A B]. assert (DR : (1 <= IZR D)%R) by (apply IZR_le; lia).
  unfold ap in *. destruct neg.
  - eapply Rle_trans; [exact H|]. unfold Rdiv. apply Rmult_le_compat_l; [lra|]. apply Rinv_le; lra.
  - apply Rle_trans with 1%R; [change 1%R with (bpow radix2 0); apply bpow_le; discriminate|]. 
    rewrite <- (Rmult_1_l 1). apply Rmult_le_compat; lra.
Qed.

Lemma way_high neg s D k : 0 < D -> (IZR D <= bpow radix2 (EMAX - 2))%R -> forall j, 0 <= j <= k ->
  (bpow radix2 EMAX <= Rabs (target neg s D j) * (1 + bpow radix2 (-64)))%R -> (Rabs (target neg s D j) <= Rabs (target neg s D k))%R.
Proof.
  intros HD HM j Hj. rewrite !ap_abs by lia. destruct (ten_mono j k Hj) as [A B]. assert (DR : (1 <= IZR D)%R) by (apply IZR_le; lia). unfold ap. destruct neg.
  - intros H. exfalso. assert (B1 : (bpow radix2 (-64) <= 1)%R) by (change 1%R with (bpow radix2 0); apply bpow_le; lia). pose proof (bpow_gt_0 radix2 (-64)) as B0.
    assert (X : (IZR D / IZR (10 ^ j) <= IZR D)%R). { unfold Rdiv. rewrite <- (Rmult_1_r (IZR D)) at 2. apply Rmult_le_compat_l; [lra|]. rewrite <- Rinv_1. apply Rinv_le; lra. }
    assert (Y : (0 <= IZR D / IZR (10 ^ j))%R). { apply Rmult_le_pos; [lra|]. left. apply Rinv_0_lt_compat. lra. }
    replace EMAX with (EMAX - 2 + 2) in H by reflexivity. rewrite bpow_plus in H. change (bpow radix2 2) with 4%R in H.
    pose proof (bpow_gt_0 radix2 (EMAX - 2)) as G. set (b := bpow radix2 (EMAX - 2)) in *. set (g := bpow radix2 (-64)) in *. set (z := (IZR D / IZR (10 ^ j))%R) in *. clearbody b g z. clear -HM H X Y B0 B1 G.
    assert (z * (1 + g) <= b * 2)%R by (apply Rmult_le_compat; lra). lra.
  - intros _. apply Rmult_le_compat_l; lra.
Qed.

Lemma format_scaled P c t : 0 < P -> Z.abs c <= 2 ^ P -> generic_format radix2 (FLX_exp P) (IZR c * bpow radix2 t).
Proof.
  intros HP H. pose proof (int_format P c HP H) as F. unfold generic_format, scaled_mantissa, cexp, FLX_exp, F2R in *. cbn [Fnum Fexp] in *.
  destruct (Z.eq_dec c 0) as [->|N]; [rewrite !Rmult_0_l, Ztrunc_IZR; ring|]. rewrite mag_mult_bpow by (apply IZR_neq; exact N).
  set (m := mag radix2 (IZR c) : Z) in *. replace (m + t - P) with ((m - P) + t) by lia. rewrite Z.opp_add_distr, !bpow_plus, (bpow_opp _ t).
  pose proof (bpow_gt_0 radix2 t). replace (IZR c * bpow radix2 t * (bpow radix2 (- (m - P)) * / bpow radix2 t))%R with (IZR c * bpow radix2 (- (m - P)))%R by (field; lra).
  rewrite F at 1. ring.
Qed.

Section Loop.
Variables (s : sign) (D n p : Z) (rm : rmode) (x : num).
Let k := Z.abs n.
Let neg := (n <? 0).
Let r := target neg s D k.
Let err := 3 * (k / TEN_PWR_MAX_FROM_DEC) + (if k mod TEN_PWR_MAX_FROM_DEC =? 0 then 0 else 3).
Hypothesis Hp : 0 < p <= 2 ^ 60.
Hypothesis Hp64 : p mod 64 = 0.
Hypothesis HD : 0 < D.
Hypothesis HM : (IZR D <= bpow radix2 (EMAX - 2))%R.
Variable b : Z.
Hypothesis Hb : 0 <= b <= 2147483645.
Hypothesis HMZ : D <= 2 ^ b.
Hypothesis Hk : k <= 2793940639.
Hypothesis Hr : (bpow radix2 EMIN <= Rabs r)%R.
Hypothesis Wx : wf x.
Hypothesis Nx : normal x.
Hypothesis Sx : ns x = s.
Hypothesis Ix : ninexact x = false.
Hypothesis Vx : value x = IZR (sgnZ s * D).

Let Q (w : Z) : Prop := p + 2 ^ 45 <= w /\ (neg = false \/ exists c t, Z.abs c <= 2 ^ (p + 65) /\ r = (IZR c * bpow radix2 t)%R).

Lemma k_nonneg : 0 <= k.
Proof. unfold k. lia. Qed.

Lemma err_ops : (ops k = 0 /\ err = 0) \/ (1 <= ops k <= 5 /\ 3 <= err <= 15).
Proof.
  pose proof MAXV as MV. pose proof k_nonneg as K0. unfold ops, err. destruct (zmod_bounds k TEN_PWR_MAX_FROM_DEC ltac:(lia) K0) as (A & B & C).
  rewrite MV in *. assert (k / 646456991 <= 4) by (clear -C B Hk; lia). destruct (Z.eqb_spec (k mod 646456991) 0); lia.
Qed.

Lemma plain_formats w : Q w -> forall P, p + 2 ^ 45 <= P -> forall j, 0 <= j <= k -> generic_format radix2 (FLX_exp P) (target neg s D j).
Proof.
  intros [_ HQ] P HP j Hj. pose proof k_nonneg as K0. change (2 ^ 45) with 35184372088832 in HP.
  destruct HQ as [Hn|(c & t & Hc & Er)].
  - unfold target, ap. rewrite Hn. rewrite <- mult_IZR. apply int_format; [lia|]. rewrite Z.abs_mul, (Z.abs_eq (10 ^ j)) by (pose proof (ten_pos j ltac:(lia)); lia).
    replace (Z.abs (sgnZ s * D)) with D by (destruct s; cbn [sgnZ]; lia). apply Z.le_trans with (2 ^ b * 2 ^ (4 * j)).
    + apply Z.mul_le_mono_nonneg; [lia|exact HMZ|pose proof (ten_pos j ltac:(lia)); lia|apply ten_bits; lia].
    + rewrite <- Z.pow_add_r by lia. apply Z.pow_le_mono_r; lia.
  - destruct (Bool.bool_dec neg true) as [Hn|Hn]; [|apply not_true_is_false in Hn].
    + assert (E : target neg s D j = (IZR (c * 10 ^ (k - j)) * bpow radix2 t)%R).
      { assert (TJ : (0 < IZR (10 ^ j))%R) by (apply IZR_lt, ten_pos; lia). assert (TK : (0 < IZR (10 ^ (k - j)))%R) by (apply IZR_lt, ten_pos; lia).
        rewrite mult_IZR. replace (IZR c * IZR (10 ^ (k - j)) * bpow radix2 t)%R with (r * IZR (10 ^ (k - j)))%R by (rewrite Er; ring).
        unfold r. replace k with (j + (k - j)) at 1 by lia. rewrite <- (target_step neg s D p j (k - j)) by lia. unfold ap. rewrite Hn. set (T := target _ _ _ _). clearbody T. field. lra. }
      rewrite E. apply format_scaled; [lia|]. rewrite Z.abs_mul, (Z.abs_eq (10 ^ (k - j))) by (pose proof (ten_pos (k - j) ltac:(lia)); lia).
      apply Z.le_trans with (2 ^ (p + 65) * 2 ^ (4 * (k - j))).
      * apply Z.mul_le_mono_nonneg; [lia|exact Hc|pose proof (ten_pos (k - j) ltac:(lia)); lia|apply ten_bits; lia].
      * rewrite <- Z.pow_add_r by lia. apply Z.pow_le_mono_r; lia.
    + unfold target, ap. rewrite Hn, <- mult_IZR. apply int_format; [lia|]. rewrite Z.abs_mul, (Z.abs_eq (10 ^ j)) by (pose proof (ten_pos j ltac:(lia)); lia).
      replace (Z.abs (sgnZ s * D)) with D by (destruct s; cbn [sgnZ]; lia). apply Z.le_trans with (2 ^ b * 2 ^ (4 * j)).
      * apply Z.mul_le_mono_nonneg; [lia|exact HMZ|pose proof (ten_pos j ltac:(lia)); lia|apply ten_bits; lia].
      * rewrite <- Z.pow_add_r by lia. apply Z.pow_le_mono_r; lia.
Qed.

Definition read_loop (f : nat) (w i : Z) : option (result num) := from_dec_loop f s x n p rm err w i.

Lemma near_close w a : p + 64 <= w -> (Rabs (a - r) <= Rabs r * bpow radix2 (- w))%R -> close p r a.
Proof. intros H E. unfold close. eapply Rle_trans; [exact E|]. apply Rmult_le_compat_l; [apply Rabs_pos|]. apply bpow_le. lia. Qed.

Lemma same_sign f : ns f = s -> set_sign f s = f.
Proof. intros <-. destruct f. reflexivity. Qed.

(** One evaluation. *)
Lemma one_eval w : p + 64 <= w -> w mod 64 = 0 -> w + 1024 < P_LIM ->
  exists f0 res, (forall f, (f0 <= f)%nat -> obind (scale_full f (k / TEN_PWR_MAX_FROM_DEC) x neg TEN_PWR_MAX_FROM_DEC (w + err)) (fun y => scale_rest f (k mod TEN_PWR_MAX_FROM_DEC) y neg (w + err)) = Some res) /\
  match res with
  | Ok q => wf q /\ normal q /\ ns q = s /\ (Rabs (value q - r) <= Rabs r * bpow radix2 (- w - 57))%R /\ (ninexact q = false -> value q = r) /\ (Q w -> ninexact q = false) /\ 
            (ninexact q = false \/ 64 * wlen q = w + 64)
  | Err e => e = ExponentOverflow s /\ (bpow radix2 EMAX <= Rabs r * (1 + bpow radix2 (- w - 57)))%R
  | Panic => False
  end.
Proof.
  intros H1 H2 H3. pose proof k_nonneg as K0. pose proof MAXV as MV. pose proof err_ops as EO.
  assert (PW : prec_up (w + err) = (if ops k =? 0 then w else w + 64)). { unfold prec_up. destruct EO as [[-> ->]|[EO1 EO2]]; [cbn [Z.eqb]|replace (ops k =? 0) with false by lia]; clear -H2 EO2 || clear -H2; dlia. }
  assert (PG : w <= prec_up (w + err) <= w + 64) by (rewrite PW; destruct (ops k =? 0); lia).
  assert (P128 : 128 <= w + err) by (clear -EO H1 Hp Hp64; dlia).
  assert (KD : k / TEN_PWR_MAX_FROM_DEC < 1000). { rewrite MV. clear -Hk K0. dlia. }
  assert (HQ' : Q w -> 128 * k <= w + err /\ forall j, 0 <= j <= k -> generic_format radix2 (FLX_exp (prec_up (w + err))) (target neg s D j)).
  { intros q. pose proof (plain_formats w q) as F. destruct q as [q _]. change (2 ^ 45) with 35184372088832 in *. split; [clear -q Hk EO Hp; lia|]. intros j Hj. apply F; lia. }
  assert (S0 : state neg s D (w + err) (Q w) 0 0 x).
  { constructor; [exact Wx|exact Nx|exact Sx| | |intros _; exact Ix|].
    - rewrite Vx. unfold target, ap. change (10 ^ 0) with 1. replace (if neg then (IZR (sgnZ s * D) / 1)%R else (IZR (sgnZ s * D) * 1)%R) with (IZR (sgnZ s * D)) by (destruct neg; field).
      rewrite Rminus_diag_eq, Rabs_R0 by reflexivity. rewrite Rmult_0_r, Rmult_0_l, Rmult_0_r. apply Rle_refl.
    - intros _. rewrite Vx. unfold target, ap. change (10 ^ 0) with 1. destruct neg; field.
    - lia. }
  destruct (eval_ok neg s D (w + err) k (Q w) P128 ltac:(lia) HD (way_low neg s D k HD Hr) HQ' (way_high neg s D k HD HM) x K0 KD S0) as (f0 & res & F & E).
  exists f0, res. split; [exact F|].
  assert (U : (4 * IZR (ops k) * bpow radix2 (2 - prec_up (w + err)) <= bpow radix2 (- w - 57))%R).
  { rewrite PW. destruct EO as [[-> _]|[O1 _]]; [cbn [Z.eqb]; rewrite Rmult_0_r, Rmult_0_l; apply bpow_ge_0|]. replace (ops k =? 0) with false by lia.
    apply Rle_trans with (bpow radix2 5 * bpow radix2 (2 - (w + 64)))%R; [|rewrite <- bpow_plus; apply bpow_le; lia]. apply Rmult_le_compat_r; [apply bpow_ge_0|].
    change (bpow radix2 5) with 32%R. rewrite <- mult_IZR. apply IZR_le. lia. }
  destruct res as [q|e|]; [| |exact E].
  - destruct E as [E1 E2 E3 E4 E5 E6 E7]. split; [exact E1|]. split; [exact E2|]. split; [exact E3|]. split; [eapply Rle_trans; [exact E4|]; apply Rmult_le_compat_l; [apply Rabs_pos|exact U]|].
    split; [exact E5|]. split; [exact E6|]. destruct EO as [[O1 O2]|[O1 O2]]; [|right; rewrite E7, PW by lia; replace (ops k =? 0) with false by lia; reflexivity].
    left. assert (KK : k / TEN_PWR_MAX_FROM_DEC = 0 /\ k mod TEN_PWR_MAX_FROM_DEC = 0).
    { destruct (zmod_bounds k TEN_PWR_MAX_FROM_DEC ltac:(lia) K0) as (A & B & C). unfold ops in O1. destruct (Z.eqb_spec (k mod TEN_PWR_MAX_FROM_DEC) 0); lia. }
    specialize (F f0 (Nat.le_refl _)). destruct KK as [-> KK2] in F. rewrite KK2 in F. cbn in F. injection F as <-. exact Ix.
  - destruct E as [-> E]. split; [reflexivity|]. eapply Rle_trans; [exact E|]. apply Rmult_le_compat_l; [apply Rabs_pos|]. apply Rplus_le_compat_l. exact U.
Qed.

(** A refused rounding, at a high working precision, means that the number is a
    short binary fraction. *)
Lemma refused_short w q y : p + 2 ^ 45 <= w -> w mod 64 = 0 -> neg = true -> wf q -> ns q = s -> 64 * wlen q = w + 64 ->
  (Rabs (value q - r) <= Rabs r * bpow radix2 (- w - 57))%R -> try_set_precision q p rm w = Ok (y, false) -> Q w.
Proof.
  intros Hw Hw64 Hn Wq Sq Lq Eq T. split; [exact Hw|right]. change (2 ^ 45) with 35184372088832 in Hw. pose proof k_nonneg as K0.
  destruct (refused q p rm w y Wq Hp64 Hw64 ltac:(lia) ltac:(lia) Lq T) as (c & Hc & Ec).
  exists (sgnZ s * c), (ne q - p - 64). split. { apply Z.le_trans with (2 ^ (p + 64)); [destruct s; cbn [sgnZ]; lia|]. apply Z.pow_le_mono_r; lia. }
  unfold r, target, ap. rewrite Hn. pose proof (wf_exp q Wq) as HE. apply (frac_equal _ _ k _ (ne q - w + 1)); [exact K0|lia|clear -HE Hw Hk K0 Hp; lia|].
  fold (ap true (IZR (sgnZ s * D)) (IZR (10 ^ k))). rewrite <- Hn. fold (target neg s D k). fold r.
  assert (V : (Rabs (value q - IZR (sgnZ s * c) * bpow radix2 (ne q - p - 64)) <= bpow radix2 (ne q - w))%R).
  { rewrite value_split, Lq, Sq. replace (ne q - p - 64) with ((w - p) + (ne q - (w + 64))) by lia. rewrite bpow_plus, (bpow_IZR (w - p)) by lia. unfold sgnR. rewrite (mult_IZR (sgnZ s) c).
    replace (IZR (sgnZ s) * (IZR (magnitude q) * bpow radix2 (ne q - (w + 64))) - IZR (sgnZ s) * IZR c * (IZR (2 ^ (w - p)) * bpow radix2 (ne q - (w + 64))))%R with (IZR (sgnZ s) * ((IZR (magnitude q) - IZR c * IZR (2 ^ (w - p))) * bpow radix2 (ne q - (w + 64))))%R by ring.
    rewrite <- mult_IZR, <- minus_IZR, !Rabs_mult, <- !abs_IZR, (Rabs_pos_eq (bpow _ _)) by apply bpow_ge_0.
    replace (Z.abs (sgnZ s)) with 1 by (destruct s; reflexivity). rewrite Rmult_1_l. replace (ne q - w) with (64 + (ne q - (w + 64))) by lia. rewrite bpow_plus, (bpow_IZR 64) by lia.
    apply Rmult_le_compat_r; [apply bpow_ge_0|]. apply IZR_le. exact Ec. }
  assert (B57 : (0 < bpow radix2 (- w - 57) <= / 2)%R). { split; [apply bpow_gt_0|]. change (/ 2)%R with (bpow radix2 (-1)). apply bpow_le. lia. }
  assert (R2 : (Rabs r <= bpow radix2 (ne q + 1))%R).
  { pose proof (value_lt_bpow q Wq) as VL. rewrite bpow_plus. change (bpow radix2 1) with 2%R. assert (Rabs r <= Rabs (value q) + Rabs (value q - r))%R. { replace r with (value q - (value q - r))%R at 1 by ring. unfold Rminus at 1. eapply Rle_trans; [apply Rabs_triang|]. rewrite Rabs_Ropp. apply Rle_refl. }
    assert (Rabs r * bpow radix2 (- w - 57) <= Rabs r * / 2)%R by (apply Rmult_le_compat_l; [apply Rabs_pos|lra]). set (bq := bpow radix2 (ne q)) in *. clearbody bq. lra. }
  replace (r - IZR (sgnZ s * c) * bpow radix2 (ne q - p - 64))%R with ((r - value q) + (value q - IZR (sgnZ s * c) * bpow radix2 (ne q - p - 64)))%R by ring.
  eapply Rle_trans; [apply Rabs_triang|]. rewrite Rabs_minus_sym in Eq.
  assert (X : (Rabs r * bpow radix2 (- w - 57) <= bpow radix2 (ne q - w))%R).
  { apply Rle_trans with (bpow radix2 (ne q + 1) * bpow radix2 (- w - 57))%R; [apply Rmult_le_compat_r; [lra|exact R2]|]. rewrite <- bpow_plus. apply bpow_le. lia. }
  rewrite (bpow_plus radix2 (ne q - w) 1). change (bpow radix2 1) with 2%R. lra.
Qed.

Lemma P_LIM_v : P_LIM = 4611686016279904255.
Proof. reflexivity. Qed.

(** One round of the loop. *)
Lemma read_step w i : p + 64 <= w -> w mod 64 = 0 -> w + 1024 < P_LIM ->
  (exists f0 res, read_post p rm r s res /\ forall f, (f0 <= f)%nat -> read_loop (S f) w i = Some res) \/
  (w < p + 2 ^ 45 /\ exists f0, forall f, (f0 <= f)%nat -> read_loop (S f) w i = read_loop f (w + i) (round_p ((w + i) / 5))).
Proof.
  intros H1 H2 H3. destruct (one_eval w H1 H2 H3) as (f0 & res & F & A).
  assert (ST : forall f, (f0 <= f)%nat -> read_loop (S f) w i = obind (Some res) (fun f1 => match try_set_precision (set_sign f1 s) p rm w with
     | Ok (r, true) => Some (Ok r) | Ok (_, false) => read_loop f (w + i) (round_p ((w + i) / 5)) | Err e => Some (Err e) | Panic => Some Panic end)).
  { intros f Hf. unfold read_loop at 1. cbn [from_dec_loop]. cbv zeta. specialize (F (S f) ltac:(lia)). fold k neg. 
    destruct (scale_full (S f) _ x neg _ (w + err)) as [[y|e|]|]; cbn [obind] in *; [|injection F as <-; reflexivity|injection F as <-; reflexivity|discriminate F].
    rewrite F. reflexivity. }
  clear F. destruct res as [q|e|]; [..|contradiction].
  2:{ left. destruct A as [-> A]. exists f0. eexists. split; [|intros f Hf; rewrite (ST f Hf); reflexivity]. cbn [read_post]. split; [reflexivity|].
      exists (r * (1 + bpow radix2 (- w - 57)))%R. split.
      - apply (near_close w); [lia|]. replace (r * (1 + bpow radix2 (- w - 57)) - r)%R with (r * bpow radix2 (- w - 57))%R by ring. rewrite Rabs_mult, (Rabs_pos_eq (bpow _ _)) by apply bpow_ge_0. apply Rmult_le_compat_l; [apply Rabs_pos|]. apply bpow_le. lia.
      - apply rnd_prec_big; [lia|]. rewrite Rabs_mult, (Rabs_pos_eq (1 + bpow radix2 (- w - 57))); [exact A|]. pose proof (bpow_ge_0 radix2 (- w - 57)) as G. clear - G. lra. }
  destruct A as (Wq & Nq & Sq & Eq & Xq & Fq & Lq). cbn [obind] in ST.
  assert (ST' : forall f, (f0 <= f)%nat -> read_loop (S f) w i = match try_set_precision q p rm w with
     | Ok (r, true) => Some (Ok r) | Ok (_, false) => read_loop f (w + i) (round_p ((w + i) / 5)) | Err e => Some (Err e) | Panic => Some Panic end).
  { intros f Hf. rewrite (ST f Hf), (same_sign q Sq). reflexivity. }
  clear ST. pose proof P_LIM_v as PL. assert (Hsp : prec_up p < P_LIM) by (unfold prec_up; clear - Hp64 Hp PL; dlia).
  assert (P0 : 0 < p) by lia.
  pose proof (set_precision_spec q p rm Wq P0 Hsp ltac:(right; left; auto)) as [SE SO].
  assert (GN : rnd_grad p rm (value q) = rnd_prec p rm (value q)) by (exact (grad_normal p rm (value q) (proj1 (normal_iff q Wq) Nq))). rewrite GN in SE, SO.
  assert (Clq : close p r (value q)). { apply (near_close w); [lia|]. eapply Rle_trans; [exact Eq|]. apply Rmult_le_compat_l; [apply Rabs_pos|]. apply bpow_le. lia. }
  assert (T : match try_set_precision q p rm w with Ok (y, true) => set_precision q p rm = Ok y | Ok (_, false) => ninexact q = true | Err e => set_precision q p rm = Err e | Panic => False end).
  { destruct (ninexact q) eqn:Iq.
    - destruct Lq as [Lq|Lq]; [discriminate Lq|]. pose proof (try_any q p rm w Wq Nq ltac:(lia) Hp64 H2 ltac:(lia)) as T. rewrite Iq in T. exact T.
    - rewrite (try_exact q p rm w Wq Iq P0). destruct (Rle_or_lt (bpow radix2 EMAX) (Rabs (rnd_prec p rm (value q)))) as [O|O]; [rewrite (SE O); reflexivity|].
      destruct (SO O) as (y & -> & _). reflexivity. }
  assert (SS : nearest rm = false -> rm <> RNone -> ninexact q = true -> 
    match try_set_precision q p rm w with
    | Ok (y, true) => ninexact y = true /\ value y = rnd_prec p rm r /\ value y <> r
    | _ => True end).
  { intros D1 D2 Iq. destruct Lq as [Lq|Lq]; [congruence|]. pose proof (try_sound q p rm w r Wq Nq Iq ltac:(lia) H2 ltac:(lia) D2 ltac:(intros E; congruence)) as TS.
    assert (ED : (Rabs (r - value q) < bpow radix2 (ne q - w))%R).
    { rewrite Rabs_minus_sym. eapply Rle_lt_trans; [exact Eq|]. pose proof (value_lt_bpow q Wq) as VL.
      assert (B57 : (0 < bpow radix2 (- w - 57) <= / 2)%R). { split; [apply bpow_gt_0|]. change (/ 2)%R with (bpow radix2 (-1)). apply bpow_le. lia. }
      assert (RR : (Rabs r <= 2 * Rabs (value q))%R).
      { assert (Rabs r <= Rabs (value q) + Rabs (value q - r))%R. { replace r with (value q - (value q - r))%R at 1 by ring. unfold Rminus at 1. eapply Rle_trans; [apply Rabs_triang|]. rewrite Rabs_Ropp. apply Rle_refl. }
        assert (Rabs r * bpow radix2 (- w - 57) <= Rabs r * / 2)%R by (apply Rmult_le_compat_l; [apply Rabs_pos|lra]). lra. }
      apply Rle_lt_trans with (2 * Rabs (value q) * bpow radix2 (- w - 57))%R; [apply Rmult_le_compat_r; lra|].
      apply Rlt_le_trans with (2 * bpow radix2 (ne q) * bpow radix2 (- w - 57))%R; [apply Rmult_lt_compat_r; [lra|]; apply Rmult_lt_compat_l; [lra|exact VL]|].
      change 2%R with (bpow radix2 1). rewrite <- !bpow_plus. apply bpow_le. lia. }
    specialize (TS ED). destruct (try_set_precision q p rm w) as [[y [|]]|e|]; try exact I. destruct TS as (_ & _ & _ & T1 & T2 & T3 & _). split; [exact T1|split; [exact T2|exact T3]]. }
  destruct (try_set_precision q p rm w) as [[y [|]]|e|] eqn:TE; [..|contradiction].
  - left. exists f0. eexists. split; [|intros f Hf; rewrite (ST' f Hf); reflexivity].
    destruct (Rle_or_lt (bpow radix2 EMAX) (Rabs (rnd_prec p rm (value q)))) as [O|O]; [rewrite (SE O) in T; discriminate T|].
    destruct (SO O) as (y' & Ey & Wy & Ly & Sy & Vy & Iy). rewrite T in Ey. injection Ey as <-. cbn [read_post].
    split; [exact Wy|]. split; [rewrite Ly; clear - Hp64; dlia|]. split; [rewrite Sy; exact Sq|]. split; [exists (value q); split; [exact Clq|exact Vy]|].
    split.
    + intros D1 D2. destruct (ninexact q) eqn:Iq.
      * destruct (SS D1 D2 eq_refl) as (S1 & S2 & S3). rewrite S1. split; [exact S2|]. split; [intros _; exact S3|reflexivity].
      * specialize (Xq eq_refl). rewrite Vy, Xq. split; [reflexivity|]. rewrite <- Xq. rewrite Iy. split; [intros [H|H]; [discriminate H|exact H]|auto].
    + intros E1. destruct (ninexact q) eqn:Iq.
      * exfalso. assert (ninexact y = true) by (apply Iy; left; reflexivity). congruence.
      * rewrite Vy. destruct (Req_dec (rnd_prec p rm (value q)) (value q)) as [Ev|Ev]; [rewrite Ev; exact (Xq eq_refl)|].
        exfalso. assert (ninexact y = true) by (apply Iy; right; exact Ev). congruence.
  - right. split; [|exists f0; intros f Hf; rewrite (ST' f Hf); reflexivity]. destruct (Z.lt_ge_cases w (p + 2 ^ 45)) as [H|H]; [exact H|]. exfalso.
    assert (QW : Q w). { destruct (Bool.bool_dec neg true) as [Hn|Hn]; [|apply not_true_is_false in Hn; split; [lia|left; exact Hn]]. destruct Lq as [Lq|Lq]; [congruence|]. eapply refused_short; [lia|exact H2|exact Hn|exact Wq|exact Sq|exact Lq|exact Eq|exact TE]. }
    rewrite (Fq QW) in T. discriminate T.
  - left. exists f0. eexists. split; [|intros f Hf; rewrite (ST' f Hf); reflexivity].
    destruct (Rle_or_lt (bpow radix2 EMAX) (Rabs (rnd_prec p rm (value q)))) as [O|O].
    + rewrite (SE O) in T. injection T as <-. cbn [read_post]. rewrite Sq. split; [reflexivity|]. exists (value q). split; [exact Clq|exact O].
    + destruct (SO O) as (y' & Ey & _). rewrite T in Ey. discriminate Ey.
Qed.

Lemma read_all (m : nat) : forall w i, (Z.to_nat (p + 2 ^ 45 - w) < m)%nat -> p + 64 <= w -> w mod 64 = 0 -> 
  0 < i -> i mod 64 = 0 -> i <= w / 5 + 64 -> w <= 2 ^ 61 ->
  exists f0 res, read_post p rm r s res /\ forall f, (f0 <= f)%nat -> read_loop f w i = Some res.
Proof.
  pose proof P_LIM_v as PL. change (2 ^ 45) with 35184372088832 in *. change (2 ^ 61) with 2305843009213693952. change (2 ^ 60) with 1152921504606846976 in Hp.
  induction m as [|m IH]; intros w i Hm H1 H3 H4 H5 H6 H7; [lia|].
  destruct (read_step w i H1 H3 ltac:(lia)) as [(f0 & res & R1 & R2)|(R1 & f0 & R2)].
  - exists (S f0), res. split; auto. intros f Hf. destruct f as [|f]; [lia|]. apply R2. lia.
  - change (2 ^ 45) with 35184372088832 in R1.
    assert (RP : round_p ((w + i) / 5) = 64 * (((w + i) / 5 + 63) / 64)). { apply round_p_eq; unfold prec_up; clear - H1 Hp H4 H6 R1 PL; dlia. }
    assert (Q0 : 0 < (w + i) / 5) by (clear - H1 Hp H4; dlia).
    destruct (IH (w + i) (round_p ((w + i) / 5))) as (f1 & res & F1 & F2'); rewrite ?RP; try lia.
    + clear - H3 H5. dlia.
    + clear - Q0. dlia.
    + clear. dlia.
    + clear - Q0. dlia.
    + clear - H6 R1 Hp. dlia.
    + exists (S (Nat.max f0 f1)), res. split; auto. intros f Hf. destruct f as [|f]; [lia|]. rewrite R2 by lia. apply F2'. lia.
Qed.

Theorem read_loop_ok : exists f0 res, read_post p rm r s res /\ forall f, (f0 <= f)%nat -> read_loop f (p + 64) 64 = Some res.
Proof.
  change (2 ^ 60) with 1152921504606846976 in Hp.
  apply (read_all (S (Z.to_nat (p + 2 ^ 45 - (p + 64))))); try lia; try reflexivity.
  - clear - Hp64. dlia.
  - clear - Hp. dlia.
Qed.
End Loop.

(** ** conv_from_dec *)
Lemma skip_zeros_spec ds : digits_ok 10 ds ->
  digits_ok 10 (skip_zeros ds) /\ dig_val 10 (skip_zeros ds) = dig_val 10 ds /\ zlen (skip_zeros ds) <= zlen ds /\ (skip_zeros ds = [] \/ hd 0 (skip_zeros ds) <> 0).
Proof.
  induction 1 as [|d ds Hd H IH]; [cbn [skip_zeros]; split; [constructor|]; split; [reflexivity|]; split; [apply Z.le_refl|left; reflexivity]|]. cbn [skip_zeros]. destruct IH as (A & B & C & E). destruct (Z.eqb_spec d 0) as [->|N].
  - split; [exact A|]. split; [rewrite B, dig_cons; lia|]. split; [rewrite zlen_cons; lia|exact E].
  - split; [constructor; assumption|]. split; [reflexivity|]. split; [apply Z.le_refl|right; exact N].
Qed.

Lemma digits_target s ds e : let n := e - zlen ds in digits_value Dec s ds e = target (n <? 0) s (dig_val 10 ds) (Z.abs n).
Proof.
  intros n. unfold digits_value, F2R. cbn [Fnum Fexp radix_of rdx_num]. fold (zlen ds). fold n. unfold target, ap. destruct (Z.ltb_spec n 0) as [H|H].
  - replace n with (- Z.abs n) at 1 by lia. rewrite bpow_opp. unfold Rdiv. f_equal. f_equal. rewrite <- IZR_Zpower by lia. reflexivity.
  - replace n with (Z.abs n) at 1 by lia. f_equal. rewrite <- IZR_Zpower by lia. reflexivity.
Qed.

Lemma dig_nonzero ds : digits_ok 10 ds -> dig_val 10 ds <> 0 -> skip_zeros ds <> [].
Proof. intros H N E. destruct (skip_zeros_spec ds H) as (_ & B & _). rewrite E in B. apply N. rewrite <- B. reflexivity. Qed.

Lemma bitlen_le D b : 0 < D <= 2 ^ b -> 0 <= b -> bitlen D <= b + 1.
Proof.
  intros H Hb. destruct (bitlen_spec D ltac:(lia)) as [B _]. pose proof (bitlen_pos D ltac:(lia)).
  destruct (Z_le_gt_dec (bitlen D) (b + 1)) as [L|L]; [exact L|exfalso]. assert (2 ^ (b + 1) <= 2 ^ (bitlen D - 1)) by (apply Z.pow_le_mono_r; lia). rewrite Z.pow_add_r in H1 by lia. change (2 ^ 1) with 2 in H1. lia.
Qed.

Theorem from_dec_spec tp s ds e p rm : tps_ok tp -> digits_ok 10 ds -> dig_val 10 ds <> 0 -> zlen ds <= 646456991 -> EMIN <= e <= EMAX ->
  0 < p <= 2 ^ 60 -> p mod 64 = 0 -> (bpow radix2 EMIN <= Rabs (digits_value Dec s ds e))%R ->
  exists f0 res, read_post p rm (digits_value Dec s ds e) s res /\ forall f, (f0 <= f)%nat -> n_conv_from_dec f tp s ds e p rm = Some res.
Proof.
  intros Htp Hds Hnz Hlen He Hp Hp64. rewrite digits_target. cbv zeta. intros Hr.
  destruct (skip_zeros_spec ds Hds) as (A & B & C & E). pose proof (dig_nonzero ds Hds Hnz) as N. destruct E as [E|E]; [contradiction|].
  unfold n_conv_from_dec. destruct (skip_zeros ds) as [|d l] eqn:SZ; [contradiction|]. set (L := d :: l) in *. clearbody L. clear SZ N.
  assert (Z1 : 1 <= zlen L). { destruct L as [|a L]; [rewrite <- B in Hnz; cbn in Hnz; congruence|]. rewrite zlen_cons. pose proof (zlen_nonneg L). lia. }
  destruct (log2_ceil_ok (zlen L) ltac:(change (2 ^ 64) with 18446744073709551616; lia)) as (L0 & L1 & _).
  destruct (cc_tenpowers_ok tp (log2_ceil (zlen L)) Htp) as (ex & -> & Hx & Lx). cbn [obind].
  destruct (from_dec_ok (tp ++ ex) L Hx A E) as (m & Em & Nm & Vm). { fold (zlen L). eapply Z.le_trans; [exact L1|]. apply Z.pow_le_mono_r; lia. }
  pose proof (from_dec_tight _ _ _ Hx A Em) as Tm. rewrite Em. cbn [obind]. rewrite B in Vm.
  destruct (dig_bound 10 ds ltac:(lia) Hds) as [D0 D1]. fold (zlen ds) in D1. set (D := dig_val 10 ds) in *. assert (HD : 0 < D) by lia.
  pose proof (zlen_nonneg ds) as Z0. destruct (ten_leR (zlen ds) ltac:(rewrite MAXV; lia)) as [_ T2].
  assert (HM : (IZR D <= bpow radix2 (EMAX - 2))%R). { eapply Rle_trans; [|exact T2]. apply IZR_le. lia. }
  assert (HMZ : D <= 2 ^ (EMAX - 2)). { apply le_IZR. rewrite <- (bpow_IZR (EMAX - 2) ltac:(discriminate)). exact HM. }
  assert (Eb : exists b, b = EMAX - 2) by (eexists; reflexivity). destruct Eb as (b & Eb). rewrite <- Eb in HMZ. 
  assert (BL : mn m <= EMAX). { rewrite (proj2 Nm), Vm. apply Z.le_trans with (b + 1); [apply bitlen_le; clear -HD HMZ Eb; [lia|rewrite Eb; discriminate]|rewrite Eb; discriminate]. }
  replace (EXPONENT_MAX <? mn m) with false by (symmetry; apply Z.ltb_ge; exact BL).
  destruct (start_ok m s Nm Tm ltac:(rewrite Vm; exact HD) BL) as (Wx & Nx & Sx & Ix & Vx). cbv zeta. rewrite Vm in Vx.
  unfold from_dec_p. replace (p <? USIZE_MAX) with true by (symmetry; apply Z.ltb_lt; eapply Z.le_lt_trans; [apply Hp|reflexivity]). cbn [obind].
  apply (read_loop_ok s D (e - zlen ds) p rm _ Hp Hp64 HD HM b ltac:(rewrite Eb; split; discriminate) HMZ ltac:(clear -He Hlen Z0; lia) Hr Wx Nx Sx Ix Vx).
Qed.
