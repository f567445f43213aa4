(** Integer powers: error analysis of square-and-multiply and the retry loop. *)

From Coq Require Import ZArith List Bool Lia Reals Lra.
From Flocq Require Import Core Relative.
From Verif Require Import Words Mantissa Num Pow SpecZ WordsP Spec RealP RealP2 NumP CmpP AddP SetP AddNum MulNum ArithTop RoundableNum.
Import ListNotations.
Open Scope Z_scope.
Ltac Zify.zify_post_hook ::= idtac.
Arguments Z.mul : simpl never.
Arguments Z.add : simpl never.
Arguments Z.pow : simpl never.
Arguments Z.sub : simpl never.
Arguments Z.of_nat : simpl never.

(** ** Rounding away from zero *)
Lemma away_bounds P r : 0 < P -> (Rabs r <= Rabs (rnd_prec P RFromZero r) <= Rabs r * (1 + bpow radix2 (1 - P)))%R.
Proof.
  intros HP. pose proof (flx_valid P HP) as VE. unfold rnd_prec. cbn [rnd]. split.
  - destruct (Rle_or_lt 0 r) as [H|H].
    + rewrite round_AW_UP by auto. pose proof (round_UP_pt radix2 (FLX_exp P) r) as (_ & U & _). rewrite !Rabs_pos_eq; lra.
    + rewrite round_AW_DN by lra. pose proof (round_DN_pt radix2 (FLX_exp P) r) as (_ & U & _). rewrite !Rabs_left1; lra.
  - destruct (Req_dec r 0) as [->|Nz].
    + rewrite round_0 by (apply valid_rnd_AW). rewrite Rabs_R0. lra.
    + assert (PG : Prec_gt_0 P) by (unfold Prec_gt_0; lia).
      pose proof (relative_error_FLX radix2 P ltac:(lia) Zaway r Nz) as E. replace (- P + 1) with (1 - P) in E by lia.
      replace (round radix2 (FLX_exp P) Zaway r) with ((round radix2 (FLX_exp P) Zaway r - r) + r)%R by ring.
      eapply Rle_trans; [apply Rabs_triang|]. lra.
Qed.

(** Products of powers of a short number are exact at a high precision. *)
Lemma pow_format x (k : nat) P : wf x -> 0 < P -> Z.of_nat k * (64 * wlen x) <= P -> generic_format radix2 (FLX_exp P) (value x ^ k).
Proof.
  intros W HP Hk. apply generic_format_FLX. 
  exists (Float radix2 ((sgnZ (ns x) * magnitude x) ^ Z.of_nat k) (Z.of_nat k * (ne x - 64 * wlen x))).
  - unfold value. clear. induction k as [|k IH].
    + change (Z.of_nat 0) with 0. rewrite Z.pow_0_r, Z.mul_0_l. unfold F2R. cbn. ring.
    + rewrite Nat2Z.inj_succ, Z.pow_succ_r by lia. cbn [pow]. rewrite IH. unfold F2R. cbn [Fnum Fexp]. rewrite (mult_IZR (sgnZ (ns x) * magnitude x) (_ ^ _)).
      replace (Z.succ (Z.of_nat k) * (ne x - 64 * wlen x)) with ((ne x - 64 * wlen x) + Z.of_nat k * (ne x - 64 * wlen x)) by lia. rewrite bpow_plus. ring.
  - cbn [Fnum]. rewrite Z.abs_pow. pose proof (val_nonneg _ (wf_words x W)) as M0. fold (magnitude x) in M0.
    rewrite sgnZ_abs by auto. pose proof (val_bound _ (wf_words x W)) as [_ M1]. fold (magnitude x) (wlen x) in M1.
    change (Z.pow (radix_val radix2) P) with (2 ^ P). destruct k as [|k]; [change (Z.of_nat 0) with 0; rewrite Z.pow_0_r; apply Z.pow_gt_1; lia|].
    eapply Z.lt_le_trans; [apply Z.pow_lt_mono_l with (b := 2 ^ (64 * wlen x)); lia|].
    rewrite <- Z.pow_mul_r by (try lia; unfold wlen; pose proof (zlen_nonneg (mm (nm x))); lia). apply Z.pow_le_mono_r; lia.
Qed.

Lemma mul_step y z p : wf y -> wf z -> nonzero y -> nonzero z -> 0 < p -> prec_up p < P_LIM ->
  (bpow radix2 (EMIN - 1) <= Rabs (value y * value z))%R ->
  let r := (value y * value z)%R in let P := prec_up p in
  match n_mul y z p RFromZero with
  | Ok q => wf q /\ 64 * wlen q = P /\ normal q /\ ns q = sign_mul (ns y) (ns z) /\ (Rabs r <= Rabs (value q) <= Rabs r * (1 + bpow radix2 (1 - P)))%R /\
            value q = rnd_prec P RFromZero r /\ (ninexact q = true <-> ninexact y || ninexact z = true \/ value q <> r)
  | Err e => e = ExponentOverflow (sign_mul (ns y) (ns z)) /\ (bpow radix2 EMAX <= Rabs r * (1 + bpow radix2 (1 - P)))%R
  | Panic => False
  end.
Proof.
  intros Wy Wz Ny Nz Hp HP Hr r P. destruct (mul_nonzero y z p RFromZero Wy Wz Ny Nz Hp HP) as [A B]. fold r P in A, B.
  pose proof (away_bounds P r ltac:(unfold P; now apply prec_up_pos)) as [L U].
  destruct (Rlt_or_le (Rabs (rnd_prec P RFromZero r)) (bpow radix2 EMAX)) as [H|H].
  - destruct (B H) as (q & -> & Wq & Lq & Sq & Vq & _ & _ & _ & Iq). destruct Vq as [Vq Nq]; [eapply Rle_trans; [exact Hr|exact L]|].
    repeat (split; [first [assumption | rewrite Vq; split; assumption]|]). exact Iq.
  - rewrite (A H). split; [reflexivity|]. eapply Rle_trans; [exact H|exact U].
Qed.

(** ** The invariant of square-and-multiply *)
Definition pow_sign (s : sign) (k : nat) : sign := if Nat.odd k then s else Pos.

Section Bits.
Variable x : num.
Hypothesis Wx : wf x.
Hypothesis Nx : nonzero x.
Hypothesis Ix : ninexact x = false.
Variable p : Z.
Hypothesis Hp : 0 < p.
Hypothesis HP : prec_up p < P_LIM.
Let P := prec_up p.
Let u := bpow radix2 (1 - P).
Let X := Rabs (value x).
Variable N : nat.
Hypothesis HN : (bpow radix2 (EMIN - 1) <= X ^ N)%R.
Hypothesis HU : ((1 + u) ^ (2 * N) <= 2)%R.

Lemma Xpos : (0 < X)%R.
Proof. unfold X. apply Rabs_pos_lt. intros E. apply Nx. now apply value_zero_iff. Qed.

Lemma u1 : (1 <= 1 + u)%R.
Proof. unfold u. pose proof (bpow_ge_0 radix2 (1 - P)). lra. Qed.

Lemma Xk_normal k : (k <= N)%nat -> (bpow radix2 (EMIN - 1) <= X ^ k)%R.
Proof.
  intros Hk. pose proof Xpos as X0. destruct (Rle_or_lt 1 X) as [H|H].
  - eapply Rle_trans; [|apply pow_R1_Rle; exact H]. change 1%R with (bpow radix2 0). apply bpow_le. vm_compute. discriminate.
  - eapply Rle_trans; [exact HN|]. replace N with (k + (N - k))%nat by lia. rewrite pow_add.
    assert (X ^ (N - k) <= 1)%R. { rewrite <- (pow1 (N - k)). apply pow_incr. lra. }
    assert (0 <= X ^ k)%R by (apply pow_le; lra). nra.
Qed.

Record inv (k : nat) (y : num) : Prop := {
  i_wf : wf y;
  i_len : 64 * wlen y = P;
  i_norm : normal y;
  i_sign : ns y = pow_sign (ns x) k;
  i_lo : (X ^ k <= Rabs (value y))%R;
  i_hi : (Rabs (value y) <= X ^ k * (1 + u) ^ (2 * k - 2))%R;
  i_exact : ninexact y = false -> value y = (value x ^ k)%R;
  i_fit : Z.of_nat N * (64 * wlen x) <= P -> ninexact y = false
}.

Lemma abs_pow k : Rabs (value x ^ k) = (X ^ k)%R.
Proof. unfold X. now rewrite RPow_abs. Qed.

Lemma pow_le_mono a b : (a <= b)%nat -> ((1 + u) ^ a <= (1 + u) ^ b)%R.
Proof. intros. apply Rle_pow; auto. apply u1. Qed.

(** Overflow can only happen to the advantage of the final result. *)
Lemma ov_final k v : (k <= N)%nat -> (bpow radix2 EMAX <= v)%R -> (v <= X ^ k * (1 + u) ^ (2 * k - 2))%R -> (bpow radix2 EMAX <= X ^ N * (1 + u) ^ (2 * N - 2))%R.
Proof.
  intros Hk Hv Hv2. pose proof Xpos as X0. pose proof u1 as U1.
  assert (A : ((1 + u) ^ (2 * k - 2) <= (1 + u) ^ (2 * N - 2))%R) by (apply pow_le_mono; lia).
  assert (A2 : ((1 + u) ^ (2 * k - 2) <= 2)%R) by (eapply Rle_trans; [apply pow_le_mono; instantiate (1 := (2 * N)%nat); lia|exact HU]).
  assert (A1 : (1 <= (1 + u) ^ (2 * k - 2))%R) by (apply pow_R1_Rle; exact U1).
  destruct (Rle_or_lt 1 X) as [H|H].
  - assert (X ^ k <= X ^ N)%R by (apply Rle_pow; auto). assert (1 <= X ^ k)%R by (apply pow_R1_Rle; auto). nra.
  - assert (X ^ k <= 1)%R. { rewrite <- (pow1 k). apply pow_incr. lra. } assert (0 <= X ^ k)%R by (apply pow_le; lra).
    assert (4 <= bpow radix2 EMAX)%R. { change 4%R with (bpow radix2 2). apply bpow_le. vm_compute. discriminate. } nra.
Qed.

Lemma sign_mul_pow s a b : sign_mul (pow_sign s a) (pow_sign s b) = pow_sign s (a + b).
Proof. unfold pow_sign. rewrite Nat.odd_add. destruct (Nat.odd a), (Nat.odd b), s; reflexivity. Qed.

(** Multiplying two approximate powers. *)
Lemma step_gen y z a b (ya yb : nat) : wf y -> wf z -> nonzero y -> nonzero z -> (a + b <= N)%nat ->
  ns y = pow_sign (ns x) a -> ns z = pow_sign (ns x) b ->
  (X ^ a <= Rabs (value y))%R -> (Rabs (value y) <= X ^ a * (1 + u) ^ ya)%R ->
  (X ^ b <= Rabs (value z))%R -> (Rabs (value z) <= X ^ b * (1 + u) ^ yb)%R ->
  (ya + yb + 1 <= 2 * (a + b) - 2)%nat ->
  (ninexact y = false -> value y = value x ^ a)%R -> (ninexact z = false -> value z = value x ^ b)%R ->
  (Z.of_nat N * (64 * wlen x) <= P -> ninexact y = false) -> (Z.of_nat N * (64 * wlen x) <= P -> ninexact z = false) ->
  match n_mul y z p RFromZero with
  | Ok q => wf q /\ 64 * wlen q = P /\ normal q /\ ns q = pow_sign (ns x) (a + b) /\ (X ^ (a + b) <= Rabs (value q))%R /\
            (Rabs (value q) <= X ^ (a + b) * (1 + u) ^ (ya + yb + 1))%R /\ (ninexact q = false -> value q = value x ^ (a + b))%R /\
            (Z.of_nat N * (64 * wlen x) <= P -> ninexact q = false)
  | Err e => (exists s, e = ExponentOverflow s) /\ (bpow radix2 EMAX <= X ^ N * (1 + u) ^ (2 * N - 2))%R
  | Panic => False
  end.
Proof.
  intros Wy Wz Ny Nz Hab Sy Sz Ly Uy Lz Uz Hyz Ey Ez Fy Fz.
  pose proof Xpos as X0. pose proof u1 as U1.
  assert (Pa : (0 < X ^ a)%R) by (apply pow_lt; auto). assert (Pb : (0 < X ^ b)%R) by (apply pow_lt; auto).
  assert (Pya : (1 <= (1 + u) ^ ya)%R) by (apply pow_R1_Rle; auto). assert (Pyb : (1 <= (1 + u) ^ yb)%R) by (apply pow_R1_Rle; auto).
  assert (L : (X ^ (a + b) <= Rabs (value y * value z))%R). { rewrite Rabs_mult, pow_add. apply Rmult_le_compat; lra. }
  assert (U : (Rabs (value y * value z) <= X ^ (a + b) * (1 + u) ^ (ya + yb))%R).
  { rewrite Rabs_mult, !pow_add. replace (X ^ a * X ^ b * ((1 + u) ^ ya * (1 + u) ^ yb))%R with ((X ^ a * (1 + u) ^ ya) * (X ^ b * (1 + u) ^ yb))%R by ring.
    apply Rmult_le_compat; try assumption; apply Rabs_pos. }
  assert (U' : (Rabs (value y * value z) * (1 + u) <= X ^ (a + b) * (1 + u) ^ (ya + yb + 1))%R).
  { rewrite (pow_add _ (ya + yb) 1), pow_1, <- Rmult_assoc. apply Rmult_le_compat_r; lra. }
  pose proof (mul_step y z p Wy Wz Ny Nz Hp HP ltac:(eapply Rle_trans; [apply (Xk_normal (a + b)); auto|exact L])) as M.
  cbv zeta in M. fold P u in M. destruct (n_mul y z p RFromZero) as [q|e|]; [|..].
  3: exact M.
  2:{ destruct M as [-> M]. split; [eauto|]. apply (ov_final (a + b) (Rabs (value y * value z) * (1 + u)) Hab M). eapply Rle_trans; [exact U'|].
      apply Rmult_le_compat_l; [apply pow_le; lra|]. apply pow_le_mono. exact Hyz. }
  destruct M as (Wq & Lq & Nq & Sq & [Bl Bu] & Vq & Fq).
  split; [exact Wq|]. split; [exact Lq|]. split; [exact Nq|]. split; [rewrite Sq, Sy, Sz; apply sign_mul_pow|].
  split; [eapply Rle_trans; eassumption|]. split; [eapply Rle_trans; eassumption|].
  assert (Fin : ninexact q = false -> ninexact y = false /\ ninexact z = false /\ value q = (value y * value z)%R).
  { intros F. destruct (Req_dec (value q) (value y * value z)) as [E|E]; [|exfalso; assert (ninexact q = true) by (apply Fq; auto); congruence].
    destruct (ninexact y) eqn:Iy; [exfalso; assert (ninexact q = true) by (apply Fq; left; reflexivity); congruence|].
    destruct (ninexact z) eqn:Iz; [exfalso; assert (ninexact q = true) by (apply Fq; left; reflexivity); congruence|]. auto. }
  split.
  { intros F. destruct (Fin F) as (F1 & F2 & F3). rewrite F3, (Ey F1), (Ez F2), pow_add. reflexivity. }
  intros Fit. specialize (Fy Fit). specialize (Fz Fit).
  destruct (ninexact q) eqn:Iq; auto. exfalso. destruct Fq as [Fq _]. destruct (Fq eq_refl) as [F|F]; [rewrite Fy, Fz in F; discriminate F|].
  apply F. rewrite Vq. rewrite (Ey Fy), (Ez Fz), <- pow_add. unfold rnd_prec. apply round_generic; [cbn [rnd]; apply valid_rnd_AW|].
  apply pow_format; auto; [unfold P; now apply prec_up_pos|]. eapply Z.le_trans; [|exact Fit]. apply Z.mul_le_mono_nonneg_r; [unfold wlen; pose proof (zlen_nonneg (mm (nm x))); lia|lia].
Qed.

Lemma inv_nz k y : inv k y -> nonzero y.
Proof. intros I. apply (i_norm k y I). Qed.

Lemma step_sq y k : inv k y -> (1 <= k)%nat -> (2 * k <= N)%nat ->
  match n_mul y y p RFromZero with
  | Ok q => inv (2 * k) q /\ (Rabs (value q) <= X ^ (2 * k) * (1 + u) ^ (2 * (2 * k) - 3))%R
  | Err e => (exists s, e = ExponentOverflow s) /\ (bpow radix2 EMAX <= X ^ N * (1 + u) ^ (2 * N - 2))%R
  | Panic => False
  end.
Proof.
  intros I Hk HkN. pose proof (step_gen y y k k (2 * k - 2) (2 * k - 2) (i_wf k y I) (i_wf k y I) (inv_nz k y I) (inv_nz k y I) ltac:(lia) (i_sign k y I) (i_sign k y I)
    (i_lo k y I) (i_hi k y I) (i_lo k y I) (i_hi k y I) ltac:(lia) (i_exact k y I) (i_exact k y I) (i_fit k y I) (i_fit k y I)) as S.
  destruct (n_mul y y p RFromZero) as [q|e|]; auto. destruct S as (A & B & C & D & E & F & G & H).
  replace (k + k)%nat with (2 * k)%nat in * by lia. replace (2 * k - 2 + (2 * k - 2) + 1)%nat with (2 * (2 * k) - 3)%nat in F by lia.
  split; [|exact F]. constructor; auto. eapply Rle_trans; [exact F|]. apply Rmult_le_compat_l; [apply pow_le; pose proof Xpos; lra|apply pow_le_mono; lia].
Qed.

Lemma step_arg y k : inv k y -> (2 <= k)%nat -> (k + 1 <= N)%nat -> (Rabs (value y) <= X ^ k * (1 + u) ^ (2 * k - 3))%R ->
  match n_mul y x p RFromZero with
  | Ok q => inv (k + 1) q
  | Err e => (exists s, e = ExponentOverflow s) /\ (bpow radix2 EMAX <= X ^ N * (1 + u) ^ (2 * N - 2))%R
  | Panic => False
  end.
Proof.
  intros I Hk HkN Hu. pose proof (step_gen y x k 1 (2 * k - 3) 0 (i_wf k y I) Wx (inv_nz k y I) Nx ltac:(lia) (i_sign k y I) eq_refl
    (i_lo k y I) Hu) as S. rewrite !pow_1, pow_O, Rmult_1_r in S. specialize (S (Rle_refl _) (Rle_refl _) ltac:(lia) (i_exact k y I) (fun _ => eq_refl) (i_fit k y I) (fun _ => Ix)).
  destruct (n_mul y x p RFromZero) as [q|e|]; auto. destruct S as (A & B & C & D & E & F & G & H).
  constructor; auto. eapply Rle_trans; [exact F|]. apply Rmult_le_compat_l; [apply pow_le; pose proof Xpos; lra|apply pow_le_mono; lia].
Qed.

Lemma bits_spec bp : forall y k j, inv k y -> (1 <= k)%nat -> 0 <= j < 2 ^ 64 -> (bp <= 64)%nat ->
  Z.of_nat N = Z.of_nat k * 2 ^ Z.of_nat bp + j / 2 ^ (64 - Z.of_nat bp) ->
  match powi_bits bp y x j p with
  | Ok q => inv N q
  | Err e => (exists s, e = ExponentOverflow s) /\ (bpow radix2 EMAX <= X ^ N * (1 + u) ^ (2 * N - 2))%R
  | Panic => False
  end.
Proof.
  induction bp as [|f IH]; intros y k j I Hk Hj Hbp HNk.
  { cbn [powi_bits]. replace N with k; auto. change (Z.of_nat 0) with 0 in HNk. rewrite Z.sub_0_r, Z.pow_0_r, Z.mul_1_r in HNk. rewrite Z.div_small in HNk by lia. lia. }
  cbn [powi_bits].
  assert (Bj : Z.land j WORD_SIG = (j / 2 ^ 63) * 2 ^ 63).
  { change WORD_SIG with (2 ^ 63). apply Z.bits_inj'. intros i Hi. rewrite Z.land_spec, Z.pow2_bits_eqb by lia.
    rewrite <- Z.shiftr_div_pow2, <- Z.shiftl_mul_pow2 by lia. rewrite Z.shiftl_spec by lia.
    destruct (Z.eqb_spec 63 i) as [<-|Ne].
    - rewrite andb_true_r. replace (63 - 63) with 0 by lia. rewrite Z.shiftr_spec by lia. reflexivity.
    - rewrite andb_false_r. symmetry. destruct (Z.lt_ge_cases i 63); [apply Z.testbit_neg_r; lia|]. rewrite Z.shiftr_spec by lia. replace (i - 63 + 63) with i by lia.
      destruct (Z.eq_dec j 0) as [->|]; [apply Z.bits_0|]. apply Z.bits_above_log2; [lia|]. apply Z.log2_lt_pow2; [lia|]. eapply Z.lt_le_trans; [apply Hj|]. apply Z.pow_le_mono_r; lia. }
  set (b := j / 2 ^ 63) in *. assert (Hb : b = 0 \/ b = 1).
  { assert (0 <= b) by (apply Z.div_pos; lia). assert (b < 2) by (apply Z.div_lt_upper_bound; [lia|change (2 ^ 63 * 2) with (2 ^ 64); lia]). lia. }
  assert (Jd : j = b * 2 ^ 63 + j mod 2 ^ 63) by (unfold b; pose proof (Z.div_mod j (2 ^ 63) ltac:(lia)); lia).
  assert (Jm : 0 <= j mod 2 ^ 63 < 2 ^ 63) by (apply Z.mod_pos_bound; lia).
  assert (Wj : wshl j 1 = 2 * (j mod 2 ^ 63)).
  { rewrite wshl_val by lia. change (2 ^ 1) with 2. symmetry. apply Z.mod_unique with (q := b). { left. change (2 ^ 64) with (2 ^ 63 * 2). lia. } change (2 ^ 64) with (2 ^ 63 * 2). lia. }
  (* the next prefix *)
  assert (Nn : Z.of_nat N = (2 * Z.of_nat k + b) * 2 ^ Z.of_nat f + (2 * (j mod 2 ^ 63)) / 2 ^ (64 - Z.of_nat f)).
  { rewrite HNk. rewrite Nat2Z.inj_succ, Z.pow_succ_r by lia. replace (64 - Z.succ (Z.of_nat f)) with (63 - Z.of_nat f) by lia.
    replace (2 ^ (64 - Z.of_nat f)) with (2 * 2 ^ (63 - Z.of_nat f)) by (rewrite <- Z.pow_succ_r by lia; f_equal; lia).
    rewrite Z.div_mul_cancel_l by (try lia; apply Z.pow_nonzero; lia).
    assert (JD : j / 2 ^ (63 - Z.of_nat f) = b * 2 ^ Z.of_nat f + j mod 2 ^ 63 / 2 ^ (63 - Z.of_nat f)).
    { transitivity ((j mod 2 ^ 63 + (b * 2 ^ Z.of_nat f) * 2 ^ (63 - Z.of_nat f)) / 2 ^ (63 - Z.of_nat f)).
      - f_equal. rewrite <- Z.mul_assoc, <- Z.pow_add_r by lia. replace (Z.of_nat f + (63 - Z.of_nat f)) with 63 by lia. lia.
      - rewrite Z.div_add by (apply Z.pow_nonzero; lia). lia. }
    rewrite JD. ring. }
  assert (R0 : 0 <= (2 * (j mod 2 ^ 63)) / 2 ^ (64 - Z.of_nat f)) by (apply Z.div_pos; [lia|apply Z.pow_pos_nonneg; lia]).
  assert (Fp : 1 <= 2 ^ Z.of_nat f) by (pose proof (Z.pow_pos_nonneg 2 (Z.of_nat f)); lia).
  assert (KN : 2 * Z.of_nat k + b <= Z.of_nat N).
  { rewrite Nn. assert ((2 * Z.of_nat k + b) * 1 <= (2 * Z.of_nat k + b) * 2 ^ Z.of_nat f) by (apply Z.mul_le_mono_nonneg_l; lia). lia. }
  pose proof (step_sq y k I Hk ltac:(lia)) as S. destruct (n_mul y y p RFromZero) as [q|e|]; cbn [bind]; auto. destruct S as [I2 B2].
  rewrite Bj, Wj. destruct Hb as [Hb|Hb]; rewrite Hb in *.
  - change (0 * 2 ^ 63 =? 0) with true. cbn [negb bind]. apply (IH q (2 * k)%nat); auto; try lia.
  - change (1 * 2 ^ 63 =? 0) with false. cbn [negb]. pose proof (step_arg q (2 * k) I2 ltac:(lia) ltac:(lia) B2) as S2.
    destruct (n_mul q x p RFromZero) as [q2|e|]; cbn [bind]; auto. apply (IH q2 (2 * k + 1)%nat); auto; try lia.
Qed.

End Bits.
