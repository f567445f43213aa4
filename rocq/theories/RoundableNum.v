(** try_set_precision: what an accepted rounding says about the number that is
    only known through an approximation. *)

From Coq Require Import ZArith List Bool Lia Reals Lra.
From Flocq Require Import Core.
From Verif Require Import Words IntModel Mantissa Num SpecZ WordsP WordsP2 RoundP Spec RealP RealP2 NumP CmpP AddP SetP Roundable.
Import ListNotations.
Open Scope Z_scope.
Ltac Zify.zify_post_hook ::= idtac.
Arguments Z.mul : simpl never.
Arguments Z.add : simpl never.
Arguments Z.pow : simpl never.
Arguments Z.sub : simpl never.
Arguments Z.of_nat : simpl never.
Ltac dlia := Z.div_mod_to_equations; lia.

(** ** Real numbers *)
Lemma dir_rnd_same rm (k : Z) (a b : R) : nearest rm = false -> (IZR k < a < IZR (k + 1))%R -> (IZR k < b < IZR (k + 1))%R -> rnd rm a = rnd rm b.
Proof.
  intros Hd Ha Hb.
  assert (Fa : Zfloor a = k) by (apply Zfloor_imp; lra). assert (Fb : Zfloor b = k) by (apply Zfloor_imp; lra).
  assert (Ca : Zceil a = k + 1) by (apply Zceil_imp; replace (k + 1 - 1) with k by lia; lra). assert (Cb : Zceil b = k + 1) by (apply Zceil_imp; replace (k + 1 - 1) with k by lia; lra).
  assert (Ta : Ztrunc a = Ztrunc b).
  { destruct (Z_lt_le_dec k 0) as [H|H].
    - assert (IZR (k + 1) <= 0)%R by (apply IZR_le; lia). rewrite !Ztrunc_ceil by lra. congruence.
    - assert (0 <= IZR k)%R by (apply IZR_le; lia). rewrite !Ztrunc_floor by lra. congruence. }
  assert (Aa : Zaway a = Zaway b).
  { destruct (Z_lt_le_dec k 0) as [H|H].
    - assert (IZR (k + 1) <= 0)%R by (apply IZR_le; lia). rewrite !Zaway_floor by lra. congruence.
    - assert (0 <= IZR k)%R by (apply IZR_le; lia). rewrite !Zaway_ceil by lra. congruence. }
  destruct rm; cbn [nearest] in Hd; try discriminate Hd; cbn [rnd]; congruence.
Qed.

Lemma near_rnd_same rm (k : Z) (a b : R) : nearest rm = true ->
  (IZR k < a * 2 < IZR (k + 1))%R -> (IZR k < b * 2 < IZR (k + 1))%R -> rnd rm a = rnd rm b.
Proof.
  intros Hd Ha Hb. set (q := k / 2). pose proof (Z.div_mod k 2 ltac:(lia)) as Ek. pose proof (Z.mod_pos_bound k 2 ltac:(lia)) as Bk. fold q in Ek.
  rewrite plus_IZR in Ha, Hb. rewrite Ek in Ha, Hb. rewrite plus_IZR, mult_IZR in Ha, Hb.
  assert (G : forall c, Znearest c a = Znearest c b).
  { intros c. destruct (Z.eq_dec (k mod 2) 0) as [E|E].
    - rewrite E in *. transitivity q; [|symmetry]; apply Znearest_imp; apply Rabs_def1; lra.
    - replace (k mod 2) with 1 in * by lia. transitivity (q + 1); [|symmetry]; apply Znearest_imp; rewrite plus_IZR; apply Rabs_def1; lra. }
  destruct rm; cbn [nearest] in Hd; try discriminate Hd; cbn [rnd]; apply G.
Qed.

(** The approximation and every real number within the error bound lie strictly
    inside one cell of width 2^d (in units of the last place of the mantissa). *)
Lemma cell x r j d : wf x -> normal x -> 0 <= j -> 64 * j <= d <= 64 * wlen x - 1 ->
  let W := (magnitude x / 2 ^ (64 * j)) mod 2 ^ (d - 64 * j) in
  1 <= W <= 2 ^ (d - 64 * j) - 2 -> (Rabs (r - value x) < bpow radix2 (ne x - 64 * (wlen x - j)))%R ->
  exists k, (forall v, v = value x \/ v = r ->
    (IZR k < v * bpow radix2 (64 * wlen x - ne x - d) < IZR (k + 1))%R /\ (bpow radix2 (ne x - 1) <= Rabs v < bpow radix2 (ne x))%R).
Proof.
  intros Wx [Hn Hnz] Hj Hd W HW Hr. pose proof (wf_words x Wx) as Hok. pose proof (val_bound _ Hok) as HM. fold (magnitude x) (wlen x) in HM.
  set (M := magnitude x) in *. set (L := wlen x) in *. set (e := ne x) in *.
  assert (HM1 : 2 ^ (64 * L - 1) <= M).
  { pose proof (wf_bits x Wx) as Hb. rewrite Hn in Hb. fold M in Hb. pose proof (bitlen_spec M ltac:(unfold nonzero in Hnz; fold M in Hnz; lia)) as [B _]. rewrite <- Hb in B. exact B. }
  pose proof (pow2_gt0 d ltac:(lia)) as Pd. pose proof (pow2_gt0 (64 * j) ltac:(lia)) as Pj. set (q := M / 2 ^ d).
  assert (Pdj : 2 ^ d = 2 ^ (64 * j) * 2 ^ (d - 64 * j)) by (rewrite <- Z.pow_add_r by lia; f_equal; lia).
  assert (EM : M = q * 2 ^ d + W * 2 ^ (64 * j) + M mod 2 ^ (64 * j)).
  { pose proof (Z.div_mod M (2 ^ (64 * j)) ltac:(lia)) as E1. pose proof (Z.div_mod (M / 2 ^ (64 * j)) (2 ^ (d - 64 * j)) ltac:(pose proof (pow2_gt0 (d - 64 * j)); lia)) as E2.
    fold W in E2. rewrite Z.div_div in E2 by (pose proof (pow2_gt0 (d - 64 * j) ltac:(lia)); lia). rewrite <- Pdj in E2. fold q in E2. rewrite E2 in E1 at 1. rewrite Pdj. eapply eq_trans; [exact E1|ring]. }
  pose proof (Z.mod_pos_bound M (2 ^ (64 * j)) Pj) as Blow. set (low := M mod 2 ^ (64 * j)) in *.
  assert (Q1 : q * 2 ^ d + 2 ^ (64 * j) <= M).
  { assert (1 * 2 ^ (64 * j) <= W * 2 ^ (64 * j)) by (apply Z.mul_le_mono_nonneg_r; lia). lia. }
  assert (Q2 : M + 2 ^ (64 * j) <= (q + 1) * 2 ^ d).
  { assert (W * 2 ^ (64 * j) <= (2 ^ (d - 64 * j) - 2) * 2 ^ (64 * j)) by (apply Z.mul_le_mono_nonneg_r; lia). rewrite Z.mul_sub_distr_r in H. rewrite Z.mul_add_distr_r, Z.mul_1_l. lia. }
  assert (Q3 : 2 ^ (64 * L - 1) <= q * 2 ^ d).
  { assert (2 ^ (64 * L - 1) = 2 ^ (64 * L - 1 - d) * 2 ^ d) as -> by (rewrite <- Z.pow_add_r by lia; f_equal; lia). apply Z.mul_le_mono_nonneg_r; [lia|].
    apply Z.div_le_lower_bound; [lia|]. rewrite <- Z.pow_add_r by lia. replace (d + (64 * L - 1 - d)) with (64 * L - 1) by lia. auto. }
  assert (Q4 : (q + 1) * 2 ^ d <= 2 ^ (64 * L)).
  { assert (2 ^ (64 * L) = 2 ^ (64 * L - d) * 2 ^ d) as -> by (rewrite <- Z.pow_add_r by lia; f_equal; lia). apply Z.mul_le_mono_nonneg_r; [lia|].
    assert (q < 2 ^ (64 * L - d)); [|lia]. apply Z.div_lt_upper_bound; [lia|]. rewrite <- Z.pow_add_r by lia. replace (d + (64 * L - d)) with (64 * L) by lia. lia. }
  clearbody q low W. clear EM.
  (* scale everything by 2^(64 L - e) *)
  set (c := bpow radix2 (64 * L - e)). pose proof (bpow_gt_0 radix2 (64 * L - e)) as Pc. fold c in Pc.
  assert (Ev : (value x * c = IZR (sgnZ (ns x) * M))%R).
  { unfold value, F2R. cbn [Fnum Fexp]. fold M L e. unfold c. rewrite Rmult_assoc, <- bpow_plus. replace (e - 64 * L + (64 * L - e)) with 0 by lia. cbn [bpow]. ring. }
  assert (Er : (Rabs (r * c - IZR (sgnZ (ns x) * M)) < IZR (2 ^ (64 * j)))%R).
  { rewrite <- Ev. replace (r * c - value x * c)%R with ((r - value x) * c)%R by ring. rewrite Rabs_mult, (Rabs_pos_eq c) by lra.
    replace (IZR (2 ^ (64 * j))) with (bpow radix2 (e - 64 * (L - j)) * c)%R.
    - apply Rmult_lt_compat_r; auto.
    - unfold c. rewrite <- bpow_IZR, <- bpow_plus by lia. f_equal. lia. }
  assert (Sc : forall v, (v * bpow radix2 (64 * L - e - d) = v * c / IZR (2 ^ d))%R).
  { intros v. unfold c. unfold Rdiv. rewrite Rmult_assoc. f_equal. rewrite <- bpow_IZR by lia. rewrite <- bpow_opp, <- bpow_plus. f_equal. }
  assert (Pdr : (0 < IZR (2 ^ d))%R) by now apply IZR_lt.
  apply IZR_le in Q1, Q2, Q3, Q4. rewrite plus_IZR in Q1, Q2. apply IZR_lt in Pj. rewrite !mult_IZR in Q1, Q2, Q3, Q4. rewrite plus_IZR in Q2, Q4.
  assert (B1 : (IZR (2 ^ (64 * L - 1)) = bpow radix2 (e - 1) * c)%R) by (unfold c; rewrite <- bpow_IZR, <- bpow_plus by lia; f_equal; lia).
  assert (B2 : (IZR (2 ^ (64 * L)) = bpow radix2 e * c)%R) by (unfold c; rewrite <- bpow_IZR, <- bpow_plus by lia; f_equal; lia).
  assert (G : forall v, v = value x \/ v = r ->
     if is_pos (ns x) then (IZR q * IZR (2 ^ d) < v * c < (IZR q + 1) * IZR (2 ^ d))%R else (- (IZR q + 1) * IZR (2 ^ d) < v * c < - IZR q * IZR (2 ^ d))%R).
  { apply Rabs_def2 in Er. intros v [-> | ->].
    - rewrite Ev. rewrite mult_IZR. destruct (ns x); cbn [is_pos sgnZ]; lra.
    - rewrite mult_IZR in Er. destruct (ns x); cbn [is_pos sgnZ] in *; lra. }
  clear Er Ev. exists (if is_pos (ns x) then q else - (q + 1)). intros v Hv. specialize (G v Hv). rewrite Sc. split.
  - split.
    + apply Rmult_lt_reg_r with (IZR (2 ^ d)); auto. unfold Rdiv. rewrite Rmult_assoc, Rinv_l, Rmult_1_r by lra. destruct (is_pos (ns x)); [lra|]. rewrite opp_IZR, plus_IZR. lra.
    + apply Rmult_lt_reg_r with (IZR (2 ^ d)); auto. unfold Rdiv. rewrite Rmult_assoc, Rinv_l, Rmult_1_r by lra. destruct (is_pos (ns x)); [rewrite plus_IZR; lra|].
      replace (- (q + 1) + 1) with (- q) by lia. rewrite opp_IZR. lra.
  - assert (Av : (Rabs v * c = Rabs (v * c))%R) by (rewrite Rabs_mult, (Rabs_pos_eq c) by lra; reflexivity).
    split; [apply Rmult_le_reg_r with c|apply Rmult_lt_reg_r with c]; auto; rewrite Av; rewrite <- ?B1, <- ?B2.
    + destruct (is_pos (ns x)); [rewrite Rabs_pos_eq|rewrite Rabs_left1]; try lra.
      all: assert (0 <= IZR (2 ^ (64 * L - 1)))%R by (apply IZR_le, Z.pow_nonneg; lia); try lra.
    + assert (0 <= IZR (2 ^ (64 * L - 1)))%R by (apply IZR_le, Z.pow_nonneg; lia). destruct (is_pos (ns x)); [rewrite Rabs_pos_eq|rewrite Rabs_left1]; lra.
Qed.

Lemma round_cell fexp rm e v p : (bpow radix2 (e - 1) <= Rabs v < bpow radix2 e)%R -> fexp e = e - p ->
  round radix2 fexp (rnd rm) v = F2R (Float radix2 (rnd rm (v * bpow radix2 (p - e))) (e - p)).
Proof.
  intros Hv Hf. unfold round, scaled_mantissa, cexp. rewrite (mag_unique radix2 v e Hv), Hf. replace (- (e - p)) with (p - e) by lia. reflexivity.
Qed.

Lemma flt_at p e : EMIN <= e -> FLT_exp (EMIN - p) p e = e - p.
Proof. intros. unfold FLT_exp. lia. Qed.

(** Rounding the approximation and rounding the number coincide. *)
Theorem same_rounding x r j d p rm : wf x -> normal x -> 0 < p < 64 * wlen x -> 0 <= j ->
  d = (64 * wlen x - p - Z.b2z (nearest rm)) -> 64 * j <= d ->
  let W := (magnitude x / 2 ^ (64 * j)) mod 2 ^ (d - 64 * j) in
  1 <= W <= 2 ^ (d - 64 * j) - 2 -> (Rabs (r - value x) < bpow radix2 (ne x - 64 * (wlen x - j)))%R ->
  rnd_grad p rm (value x) = rnd_prec p rm r /\ rnd_grad p rm (value x) = rnd_grad p rm r /\ rnd_prec p rm r <> r.
Proof.
  intros Wx Nx Hp Hj Ed Hd W HW Hr. destruct (cell x r j d Wx Nx Hj ltac:(destruct (nearest rm); cbn [Z.b2z] in Ed; lia) HW Hr) as (k & Hk).
  pose proof (wf_exp x Wx) as He. destruct (Hk (value x) (or_introl eq_refl)) as [K1 K2]. destruct (Hk r (or_intror eq_refl)) as [K3 K4]. clear Hk.
  unfold rnd_grad, rnd_prec. rewrite (round_cell _ rm (ne x) (value x) p K2), !(round_cell _ rm (ne x) r p K4) by (try reflexivity; apply flt_at; lia).
  assert (E : rnd rm (value x * bpow radix2 (p - ne x)) = rnd rm (r * bpow radix2 (p - ne x))).
  { destruct (nearest rm) eqn:Nr; cbn [Z.b2z] in Ed.
    - apply (near_rnd_same rm k); auto; rewrite Rmult_assoc; change 2%R with (bpow radix2 1); rewrite <- bpow_plus; replace (p - ne x + 1) with (64 * wlen x - ne x - d) by lia; auto.
    - apply (dir_rnd_same rm k); auto; replace (p - ne x) with (64 * wlen x - ne x - d) by lia; auto. }
  rewrite E. repeat split; auto. intros F. apply (f_equal (fun z => (z * bpow radix2 (64 * wlen x - ne x - d))%R)) in F. rewrite <- F in K3.
  unfold F2R in K3. cbn [Fnum Fexp] in K3. rewrite Rmult_assoc, <- bpow_plus in K3. destruct (nearest rm); cbn [Z.b2z] in Ed.
  - replace (ne x - p + (64 * wlen x - ne x - d)) with 1 in K3 by lia. change (bpow radix2 1) with 2%R in K3. rewrite <- mult_IZR in K3. destruct K3 as [K3 K5]. apply lt_IZR in K3, K5. lia.
  - replace (ne x - p + (64 * wlen x - ne x - d)) with 0 in K3 by lia. change (bpow radix2 0) with 1%R in K3. rewrite Rmult_1_r in K3. destruct K3 as [K3 K5]. apply lt_IZR in K3, K5. lia.
Qed.

(** ** try_set_precision *)
Lemma set_length_high a b n p : words_ok a -> words_ok b -> zlen a = zlen b -> 0 <= p -> (p + 63) / 64 <= zlen a ->
  zdrop (zlen a - (p + 63) / 64) a = zdrop (zlen a - (p + 63) / 64) b -> m_set_length (mk_m a n) p = m_set_length (mk_m b n) p.
Proof.
  intros Ha Hb Hl Hp HP E. unfold m_set_length, mlen. cbn [mm mn]. rewrite wlen_of_bits_eq by auto. rewrite <- Hl. set (P := (p + 63) / 64) in *.
  destruct (Z.ltb_spec P (zlen a)) as [H|H].
  - f_equal. destruct (trunc_to_spec a p Ha Hp ltac:(fold P; lia)) as (T1 & T2 & T3). destruct (trunc_to_spec b p Hb Hp ltac:(fold P; lia)) as (U1 & U2 & U3). fold P in T1, T3, U1, U3.
    apply val_inj; auto; [lia|]. rewrite T1, U1, <- Hl. rewrite <- !val_zdrop by (auto; unfold P; dlia). now rewrite E.
  - assert (P = zlen a) by lia. destruct (Z.ltb_spec (zlen a) P); [lia|]. replace (zlen a - P) with 0 in E by lia. f_equal. exact E.
Qed.

Definition test_bits (x : num) (p j : Z) (rm : rmode) : Z :=
  let d := 64 * wlen x - p - Z.b2z (nearest rm) in (magnitude x / 2 ^ (64 * j)) mod 2 ^ (d - 64 * j).

Lemma try_accept x p rm j : wf x -> normal x -> ninexact x = true -> 0 < p < 64 * wlen x -> 0 <= j -> 64 * j + p <= 64 * wlen x ->
  rm <> RNone -> (nearest rm = true -> j = 0) ->
  let b := let d := 64 * wlen x - p - Z.b2z (nearest rm) in 1 <= test_bits x p j rm <= 2 ^ (d - 64 * j) - 2 /\ 64 * j <= d in
  match try_set_precision x p rm (64 * (wlen x - j)) with
  | Ok (y, true) => set_precision x p rm = Ok y /\ b
  | Ok (_, false) => True
  | Err e => set_precision x p rm = Err e /\ b
  | Panic => False
  end.
Proof.
  intros Wx [Nx Nz] Ix Hp Hj Hjp Hrm Hnr b. pose proof (wf_words x Wx) as Hok. pose proof (wf_lim x Wx) as Hlen.
  assert (Hl64 : 64 * wlen x < 2 ^ 64) by (eapply Z.lt_trans; [exact Hlen|vm_compute; reflexivity]).
  unfold try_set_precision, set_precision, set_precision_internal, p_assertion. replace (P_LIM <=? p) with false by lia. cbn [bind].
  unfold mantissa_max_bit_len, max_bit_len, mlen. fold (wlen x). replace (p <? 64 * wlen x) with true by lia. replace (0 <? p) with true by lia. cbn [andb]. rewrite Ix. cbv zeta. cbn [orb].
  set (n := 64 * wlen x - p) in *. 
  assert (Hn : 0 < n < 64 * zlen (mm (nm x))) by (fold (wlen x); unfold n; lia).
  destruct (round_mantissa_spec (mm (nm x)) n rm (is_positive x) (64 * wlen x) true Hok Hn Hrm) as (R0 & C0 & _).
  assert (K : let o := round_mantissa (mm (nm x)) n rm (is_positive x) true (64 * (wlen x - j)) true in
              let o0 := round_mantissa (mm (nm x)) n rm (is_positive x) false (64 * wlen x) true in
              ro_chk o = false -> b /\ ro_ovf o = ro_ovf o0 /\ words_ok (ro_m o) /\ zlen (ro_m o) = wlen x /\ zdrop (n / 64) (ro_m o) = zdrop (n / 64) (ro_m o0)).
  { cbv zeta. intros Hc. destruct (nearest rm) eqn:Nr.
    - rewrite (Hnr eq_refl) in *. rewrite Z.sub_0_r in *. 
      destruct (near_accept (mm (nm x)) n rm (is_positive x) true (64 * wlen x) Hok Hn Hl64 ltac:(destruct rm; cbn in Nr; try discriminate; auto) Hc) as (A & B).
      change (64 * zlen (mm (nm x))) with (64 * wlen x) in B. rewrite B. split.
      + unfold b, test_bits. rewrite Nr. cbn [Z.b2z]. fold n. rewrite (Hnr eq_refl). change (64 * 0) with 0. rewrite Z.sub_0_r. change (2 ^ 0) with 1. rewrite Z.div_1_r. split; [exact A|lia].
      + destruct R0 as (X1 & X2 & _). repeat split; auto.
    - destruct (dir_accept (mm (nm x)) n rm (is_positive x) (64 * (wlen x - j)) j true (64 * wlen x) Hok Hn Hl64 eq_refl Hj ltac:(unfold n; lia) ltac:(destruct rm; cbn in Nr; try discriminate; try congruence; reflexivity) Hc) as (A & B & C & D & E & F).
      split; [|repeat split; auto]. unfold b, test_bits. rewrite Nr. cbn [Z.b2z]. rewrite !Z.sub_0_r. fold n. rewrite ?Z.sub_0_r. split; [exact A|unfold n; lia]. }
  set (o := round_mantissa (mm (nm x)) n rm (is_positive x) true (64 * (wlen x - j)) true) in *.
  set (o0 := round_mantissa (mm (nm x)) n rm (is_positive x) false (64 * wlen x) true) in *. cbv zeta in K. rewrite C0. cbn [andb]. rewrite andb_true_r.
  destruct (ro_chk o) eqn:Co; [exact I|]. destruct (K eq_refl) as (B & Ov & Ow & Ol & Oz). clear K. destruct R0 as (W0 & L0 & V0). fold (wlen x) in L0.
  assert (Ei : n / 64 = wlen x - (p + 63) / 64) by (unfold n; dlia).
  assert (SL : m_set_length (mk_m (ro_m o) (mn (nm x))) p = m_set_length (mk_m (ro_m o0) (mn (nm x))) p).
  { apply set_length_high; auto; try lia; rewrite Ol; [dlia|]. rewrite <- Ei. exact Oz. }
  rewrite Ov. destruct (ro_ovf o0) eqn:Eo.
  { destruct (ne x =? EXPONENT_MAX); [split; auto|]. cbn [bind nm ns ne ninexact]. rewrite SL. split; auto. }
  assert (Nz0 : val (zdrop (n / 64) (ro_m o0)) <> 0).
  { destruct V0 as [(_ & V0 & _)|(V0 & _)]; [|discriminate V0]. rewrite val_zdrop by (auto; dlia). rewrite V0.
    pose proof (rndN_bounds rm (is_positive x) (magnitude x) n ltac:(lia) ltac:(apply val_nonneg; auto)) as BN. fold (magnitude x).
    assert (HM1 : 2 ^ n <= magnitude x).
    { pose proof (wf_bits x Wx) as Hb. rewrite Nx in Hb. pose proof (bitlen_spec (magnitude x) ltac:(unfold nonzero in Nz; pose proof (val_nonneg _ Hok); fold (magnitude x) in *; lia)) as [B1 _]. rewrite <- Hb in B1.
      eapply Z.le_trans; [|exact B1]. apply Z.pow_le_mono_r; unfold n; lia. }
    pose proof (pow2_gt0 n ltac:(lia)) as Pn. assert (1 <= magnitude x / 2 ^ n) by (apply Z.div_le_lower_bound; lia).
    set (N := rndN rm (is_positive x) (magnitude x) n) in *. assert (1 <= N) by lia.
    assert (1 <= N * 2 ^ n / 2 ^ (64 * (n / 64))); [|lia]. apply Z.div_le_lower_bound; [apply pow2_gt0; dlia|].
    assert (2 ^ (64 * (n / 64)) <= 2 ^ n) by (apply Z.pow_le_mono_r; dlia). assert (1 * 2 ^ n <= N * 2 ^ n) by (apply Z.mul_le_mono_nonneg_r; lia). lia. }
  assert (AZ : forall w, words_ok w -> zlen w = wlen x -> zdrop (n / 64) w = zdrop (n / 64) (ro_m o0) -> all_zero w = false).
  { intros w Hw Hlw Hz. rewrite all_zero_spec by auto. apply Z.eqb_neq. intros E. apply Nz0. rewrite <- Hz, val_zdrop by (auto; unfold n; dlia). rewrite E. apply Z.div_0_l. pose proof (pow2_gt0 (64 * (n / 64)) ltac:(dlia)). lia. }
  unfold m_is_all_zero, m_is_subnormal, max_bit_len, mlen. cbn [mm mn]. rewrite (AZ _ Ow Ol Oz), (AZ _ W0 L0 eq_refl), Ol, L0, Nx. rewrite Z.ltb_irrefl. cbn [bind nm ns ne ninexact].
  rewrite Nx in SL. rewrite SL. split; auto.
Qed.

(** The accepted result is the correct rounding of every real within the error. *)
Theorem try_sound x p rm s r : wf x -> normal x -> ninexact x = true -> 0 < p < 64 * wlen x -> s mod 64 = 0 -> p <= s <= 64 * wlen x ->
  rm <> RNone -> (nearest rm = true -> s = 64 * wlen x) -> (Rabs (r - value x) < bpow radix2 (ne x - s))%R ->
  match try_set_precision x p rm s with
  | Ok (y, true) => wf y /\ wlen y = (p + 63) / 64 /\ ns y = ns x /\ ninexact y = true /\ value y = rnd_prec p rm r /\ value y <> r /\ (Rabs (rnd_prec p rm r) < bpow radix2 EMAX)%R
  | Ok (_, false) => True
  | Err e => e = ExponentOverflow (ns x) /\ (bpow radix2 EMAX <= Rabs (rnd_prec p rm r))%R
  | Panic => False
  end.
Proof.
  intros Wx Nx Ix Hp Hs Hps Hrm Hnr Hr. set (j := wlen x - s / 64). assert (Es : s = 64 * (wlen x - j)) by (unfold j; dlia).
  assert (Hj : 0 <= j) by (unfold j; dlia).
  pose proof (try_accept x p rm j Wx Nx Ix Hp Hj ltac:(lia) Hrm ltac:(intros H; specialize (Hnr H); lia)) as T. cbv zeta in T. rewrite <- Es in T.
  assert (HP : prec_up p < P_LIM) by (pose proof (wf_lim x Wx); unfold prec_up; dlia).
  destruct (set_precision_spec x p rm Wx ltac:(lia) HP (or_introl Hrm)) as (SE & SO).
  assert (K : (1 <= test_bits x p j rm <= 2 ^ (64 * wlen x - p - Z.b2z (nearest rm) - 64 * j) - 2 /\ 64 * j <= 64 * wlen x - p - Z.b2z (nearest rm)) ->
    rnd_grad p rm (value x) = rnd_prec p rm r /\ rnd_grad p rm (value x) = rnd_grad p rm r /\ rnd_prec p rm r <> r).
  { intros [B1 B2]. rewrite Es in Hr. exact (same_rounding x r j _ p rm Wx Nx Hp Hj eq_refl B2 B1 Hr). }
  destruct (try_set_precision x p rm s) as [[y [|]]|e|]; auto; destruct T as [T B]; destruct (K B) as (K1 & _ & K3); rewrite K1 in SE, SO; rewrite T in SE, SO.
  - destruct (Rlt_or_le (Rabs (rnd_prec p rm r)) (bpow radix2 EMAX)) as [H|H]; [|specialize (SE H); discriminate SE].
    destruct (SO H) as (q & Eq & Wq & Lq & Sq & Vq & Iq). injection Eq as <-. split; [exact Wq|]. split; [exact Lq|]. split; [exact Sq|]. split; [apply Iq; auto|]. split; [exact Vq|].
    rewrite Vq. split; [exact K3|exact H].
  - destruct (Rlt_or_le (Rabs (rnd_prec p rm r)) (bpow radix2 EMAX)) as [H|H].
    + destruct (SO H) as (q & Eq & _). discriminate Eq.
    + specialize (SE H). injection SE as ->. auto.
Qed.

(** The test accepts whenever the whole words between the rounding position and
    the last correct bit are neither all zeros nor all ones. *)
Theorem try_succeeds x p rm s : wf x -> 0 < p < 64 * wlen x -> s mod 64 = 0 -> p <= s <= 64 * wlen x ->
  rm <> RNone -> (nearest rm = true -> s = 64 * wlen x) ->
  (let q := (s - p - Z.b2z (nearest rm)) / 64 in 1 <= (magnitude x / 2 ^ (64 * wlen x - s)) mod 2 ^ (64 * q) <= 2 ^ (64 * q) - 2) ->
  match try_set_precision x p rm s with Ok (_, b) => b = true | Err e => e = ExponentOverflow (ns x) | Panic => False end.
Proof.
  intros Wx Hp Hs Hps Hrm Hnr HW. pose proof (wf_words x Wx) as Hok. pose proof (wf_lim x Wx) as Hlen.
  assert (Hl64 : 64 * wlen x < 2 ^ 64) by (eapply Z.lt_trans; [exact Hlen|vm_compute; reflexivity]).
  unfold try_set_precision, set_precision_internal, p_assertion. replace (P_LIM <=? p) with false by lia. cbn [bind].
  unfold mantissa_max_bit_len, max_bit_len, mlen. fold (wlen x). replace (p <? 64 * wlen x) with true by lia. replace (0 <? p) with true by lia. cbn [andb]. cbv zeta.
  set (n := 64 * wlen x - p) in *. set (j := wlen x - s / 64). assert (Es : s = 64 * (wlen x - j)) by (unfold j; dlia).
  assert (Hn : 0 < n < 64 * zlen (mm (nm x))) by (fold (wlen x); unfold n; lia). assert (Hj : 0 <= j) by (unfold j; dlia).
  set (o := round_mantissa (mm (nm x)) n rm (is_positive x) (ninexact x) s (ninexact x)).
  assert (K : ro_chk o = false).
  { unfold o. destruct (ninexact x) eqn:Ix; [|destruct (round_mantissa_spec (mm (nm x)) n rm (is_positive x) s false Hok Hn Hrm) as (_ & C & _); exact C].
    cbv zeta in HW. replace (64 * wlen x - s) with (64 * j) in HW by lia. destruct (nearest rm) eqn:Nr; cbn [Z.b2z] in HW.
    - assert (Ej : j = 0) by (specialize (Hnr eq_refl); lia). rewrite Ej in HW. change (2 ^ (64 * 0)) with 1 in HW. rewrite Z.div_1_r in HW. rewrite (Hnr eq_refl) in *. fold n in HW.
      apply (near_accepts (mm (nm x)) n rm (is_positive x) true Hok Hn Hl64 ltac:(destruct rm; cbn in Nr; try discriminate; auto)). exact HW.
    - apply (dir_accepts (mm (nm x)) n rm (is_positive x) s j true Hok Hn Hl64 Es Hj ltac:(unfold n; lia) ltac:(destruct rm; cbn in Nr; try discriminate; try congruence; reflexivity)).
      replace (n / 64 - j) with ((s - p - 0) / 64); [exact HW|]. unfold n. clear - Es. dlia. }
  rewrite K. cbn [andb]. destruct (ro_ovf o); [destruct (_ =? _); auto|]. destruct (m_is_all_zero _); [auto|]. destruct (m_is_subnormal _); auto.
Qed.
