(** add, sub and their full-precision variants on BigFloatNumber. *)

From Coq Require Import ZArith Reals List Bool Lia Lra.
From Flocq Require Import Core.
From Verif Require Import Words IntModel Mantissa Num SpecZ WordsP WordsP2 RoundP Spec RealP RealP2 NumP CmpP AddP SetP.
Import ListNotations.
Open Scope Z_scope.
Ltac Zify.zify_post_hook ::= idtac.
Arguments Z.mul : simpl never.
Arguments Z.add : simpl never.
Arguments Z.pow : simpl never.
Arguments Z.sub : simpl never.
Arguments Z.of_nat : simpl never.

Lemma round_p_eq p : 0 <= p -> prec_up p < P_LIM -> round_p p = 64 * ((p + 63) / 64).
Proof. intros. unfold round_p, prec_up in *. rewrite Z.min_l by dlia. ring. Qed.

Lemma as_usize_id z : 0 <= z < 2 ^ 64 -> as_usize z = z.
Proof. intros. unfold as_usize. now apply Z.mod_small. Qed.

Lemma F2_invert s M e : F2 (sign_invert s) M e = (- F2 s M e)%R.
Proof. rewrite !F2R_sgn. unfold sgnR. destruct s; cbn [sign_invert sgnZ]; ring. Qed.

Lemma F2_abs_sign s s' M e : Rabs (F2 s M e) = Rabs (F2 s' M e).
Proof. destruct s, s'; auto; change (F2 Neg M e) with (F2 (sign_invert Pos) M e); rewrite F2_invert; now rewrite ?Rabs_Ropp. Qed.

Definition eff_sign (op : Z) (s : sign) : sign := if op <? 0 then sign_invert s else s.

(** [s] is the sign of the real [r]. *)
Lemma F2_has_sign s M e : 0 < M -> has_sign s (F2 s M e).
Proof.
  intros. unfold has_sign. rewrite F2R_sgn. unfold sgnR. apply IZR_lt in H. pose proof (bpow_gt_0 radix2 e).
  replace (IZR (sgnZ s) * (IZR (sgnZ s) * IZR M * bpow radix2 e))%R with (IZR M * bpow radix2 e)%R by (destruct s; cbn [sgnZ]; ring).
  now apply Rmult_lt_0_compat.
Qed.

(** The exact result of the full-precision operations. *)
Lemma trunc_top_set m s e : words_ok m -> 0 < zlen m -> top_set m ->
  let m' := trunc_trailing_zeroes m in
  words_ok m' /\ 0 < zlen m' /\ top_set m' /\ val m' mod 2 ^ 64 <> 0 /\ F2 s (val m') (e - 64 * zlen m') = F2 s (val m) (e - 64 * zlen m).
Proof.
  intros Hok Hl Ht m'. destruct (trunc_trailing_zeroes_spec m Hok) as (T1 & T2 & T3). fold m' in T1, T2, T3.
  pose proof (top_set_pos m Hl Ht) as Hv. set (g := 64 * (zlen m - zlen m')) in *.
  assert (Hl' : 0 < zlen m').
  { pose proof (zlen_nonneg m'). destruct (Z.eq_dec (zlen m') 0) as [E|]; [|lia]. apply zlen_0_nil in E. rewrite E in T2. rewrite val_nil in T2. lia. }
  split; [auto|]. split; [auto|]. split.
  - unfold top_set in *. rewrite T2 in Ht. replace (64 * zlen m - 1) with (64 * zlen m' - 1 + g) in Ht by (unfold g; lia).
    rewrite Z.pow_add_r in Ht by (unfold g; lia). apply Z.mul_le_mono_pos_r in Ht; auto. apply pow2_gt0. unfold g; lia.
  - split; [apply trunc_trailing_low; [exact Hok|lia]|]. rewrite T2, F2R_shift by (unfold g; lia). f2eq.
Qed.

Lemma finish_exact m s e ix rm r : words_ok (mm m) -> 0 < zlen (mm m) -> mn m = 64 * zlen (mm m) -> top_set (mm m) -> val (mm m) mod 2 ^ 64 <> 0 ->
  F2 s (val (mm m)) (e - 64 * zlen (mm m)) = r -> exact_result r s ix (finish_num m s e ix rm).
Proof.
  intros Hok Hl Hmn Ht Hlow <-. pose proof (top_set_bitlen _ Hok Hl Ht) as Hb. pose proof (top_set_pos _ Hl Ht) as Hp.
  unfold exact_result. split.
  - intros H. apply (F2_ge _ _ _ _ _ Hp Hb) in H. unfold finish_num. replace (EMAX <? e) with true by lia. reflexivity.
  - intros [H1 H2]. apply (F2_ge _ _ _ _ _ Hp Hb) in H1. apply (F2_lt _ _ _ _ _ Hp Hb) in H2.
    unfold finish_num. replace (EMAX <? e) with false by lia. replace (e <? EMIN) with false by lia.
    eexists. split; [reflexivity|]. unfold value, normal, nonzero, magnitude, wlen. cbn [nm ns ne ninexact]. repeat split; auto; lia.
Qed.

Lemma m_abs_add_full m1 m2 sh rm s ix e : words_ok (mm m1) -> words_ok (mm m2) -> 0 < zlen (mm m1) -> 0 < zlen (mm m2) ->
  top_set (mm m1) -> top_set (mm m2) -> 0 <= sh ->
  let r := (F2 s (val (mm m1)) (e - 64 * zlen (mm m1)) + F2 s (val (mm m2)) (e - sh - 64 * zlen (mm m2)))%R in
  let '(c, m3, ix') := m_abs_add m1 m2 0 sh rm (is_pos s) true ix in
  words_ok (mm m3) /\ 0 < zlen (mm m3) /\ mn m3 = 64 * zlen (mm m3) /\ top_set (mm m3) /\ val (mm m3) mod 2 ^ 64 <> 0 /\ ix' = ix /\
  F2 s (val (mm m3)) (e - c - 64 * zlen (mm m3)) = r.
Proof.
  intros Ho1 Ho2 Hl1 Hl2 Ht1 Ht2 Hsh r. rewrite m_abs_add_unfold. change (wlen_of_bits 0) with 0.
  pose proof (abs_add_exact (mm m1) (mm m2) 0 sh true ix s e Ho1 Ho2 Hl1 Hl2 Ht1 Ht2 Hsh) as H.
  assert (Est : sticky_cond 0 sh (zlen (mm m1)) true = false) by (unfold sticky_cond; apply andb_false_r).
  specialize (H (or_intror Est)). fold r in H. destruct (abs_add_core _ _ _ _ _ _) as [[m3 c] ix']. destruct H as (A & B & C & -> & Hc & D).
  unfold fit_words. cbn [mm mn]. destruct (trunc_top_set m3 s (e + c) A B C) as (T1 & T2 & T3 & T5 & T4).
  repeat (split; [auto|]). rewrite <- D, <- T4. f2eq.
Qed.

Lemma m_abs_sub_full m1 m2 sh rm s ix e : words_ok (mm m1) -> words_ok (mm m2) -> 0 < zlen (mm m1) -> 0 < zlen (mm m2) ->
  0 <= sh ->
  (Rabs (F2 s (val (mm m2)) (e - sh - 64 * zlen (mm m2))) < Rabs (F2 s (val (mm m1)) (e - 64 * zlen (mm m1))))%R ->
  let r := (F2 s (val (mm m1)) (e - 64 * zlen (mm m1)) - F2 s (val (mm m2)) (e - sh - 64 * zlen (mm m2)))%R in
  let '(c, m3, ix') := m_abs_sub m1 m2 0 sh rm (is_pos s) true ix in
  words_ok (mm m3) /\ 0 < zlen (mm m3) /\ mn m3 = 64 * zlen (mm m3) /\ top_set (mm m3) /\ val (mm m3) mod 2 ^ 64 <> 0 /\ ix' = ix /\
  F2 s (val (mm m3)) (e - c - 64 * zlen (mm m3)) = r.
Proof.
  intros Ho1 Ho2 Hl1 Hl2 Hsh Hlt r. rewrite m_abs_sub_unfold. change (wlen_of_bits 0) with 0.
  assert (Est : sticky_cond 0 sh (zlen (mm m1)) true = false) by (unfold sticky_cond; apply andb_false_r).
  pose proof (abs_sub_exact (mm m1) (mm m2) 0 sh true ix s e Ho1 Ho2 Hl1 Hl2 Hsh Est Hlt) as H.
  fold r in H. destruct (abs_sub_core _ _ _ _ _ _) as [m3 ix']. destruct H as (A & B & C & -> & D).
  destruct (maximize_spec m3 A C) as (m' & M1 & M2 & M3 & M4 & M5 & M6). rewrite M1.
  unfold fit_words. cbn [mm mn].
  destruct (trunc_top_set m' s (e - (64 * zlen m3 - bitlen (val m3))) M4 ltac:(lia) ltac:(unfold top_set; rewrite M5; apply M6)) as (T1 & T2 & T3 & T5 & T4).
  repeat (split; [auto|]). rewrite T4, M3, F2R_shift, <- D by auto. f2eq.
Qed.

(** The sign bookkeeping shared by the rounded and the full-precision operation. *)
Section Scheme.
Variables (x y : num) (op : Z) (rm : rmode) (p : Z) (full : bool).
Hypothesis (Wx : wf x) (Wy : wf y) (Nx : nonzero x) (Ny : nonzero y).
Hypothesis Hop : op = 1 \/ op = -1.
Hypothesis Hpl : round_p p = p /\ p < P_LIM.
Variable good : R -> sign -> result num -> Prop.
Let ix := ninexact x || ninexact y.
Hypothesis Hadd : forall m1 m2 sh s e, words_ok (mm m1) -> words_ok (mm m2) -> 0 < zlen (mm m1) -> 0 < zlen (mm m2) ->
  top_set (mm m1) -> top_set (mm m2) -> 0 <= sh ->
  let r := (F2 s (val (mm m1)) (e - 64 * zlen (mm m1)) + F2 s (val (mm m2)) (e - sh - 64 * zlen (mm m2)))%R in
  let '(c, m3, ix') := m_abs_add m1 m2 p sh rm (is_pos s) full ix in good r s (finish_num m3 s (e - c) ix' rm).
Hypothesis Hsub : forall m1 m2 sh s e, words_ok (mm m1) -> words_ok (mm m2) -> 0 < zlen (mm m1) -> 0 < zlen (mm m2) ->
  top_set (mm m1) -> top_set (mm m2) -> 0 <= sh ->
  (Rabs (F2 s (val (mm m2)) (e - sh - 64 * zlen (mm m2))) < Rabs (F2 s (val (mm m1)) (e - 64 * zlen (mm m1))))%R ->
  let r := (F2 s (val (mm m1)) (e - 64 * zlen (mm m1)) - F2 s (val (mm m2)) (e - sh - 64 * zlen (mm m2)))%R in
  let '(c, m3, ix') := m_abs_sub m1 m2 p sh rm (is_pos s) full ix in good r s (finish_num m3 s (e - c) ix' rm).

Lemma add_sub_scheme :
  let r := (value x + IZR op * value y)%R in
  (r <> 0%R -> exists s, has_sign s r /\ good r s (add_sub x y p op rm full)) /\
  (r = 0%R -> add_sub x y p op rm full = Ok (mk_num (m_new p) Pos 0 ix)).
Proof.
  intros r. unfold add_sub. destruct Hpl as [-> Hlim]. unfold p_assertion. replace (P_LIM <=? p) with false by lia. cbn [bind].
  rewrite !is_zero_false by auto.
  destruct (normalize_spec x Wx Nx) as (m1 & -> & Ho1 & Hz1 & Hm1 & Ht1 & V1).
  destruct (normalize_spec y Wy Ny) as (m2 & -> & Ho2 & Hz2 & Hm2 & Ht2 & V2). cbn [bind]. fold ix.
  set (e1 := norm_exp x) in *. set (e2 := norm_exp y) in *.
  pose proof (norm_exp_range x Wx Nx) as E1. pose proof (norm_exp_range y Wy Ny) as E2. fold e1 in E1. fold e2 in E2.
  destruct (nonzero_bits x Wx Nx) as (_ & _ & L1). destruct (nonzero_bits y Wy Ny) as (_ & _ & L2).
  pose proof (n_abs_cmp_spec x y Wx Wy Nx Ny) as Hcmp.
  pose proof (norm_bounds x Wx Nx) as B1. pose proof (norm_bounds y Wy Ny) as B2. fold e1 in B1. fold e2 in B2.
  assert (Hl1 : 0 < zlen (mm m1)) by lia. assert (Hl2 : 0 < zlen (mm m2)) by lia.
  assert (P1 : 0 < val (mm m1)) by now apply top_set_pos. assert (P2 : 0 < val (mm m2)) by now apply top_set_pos.
  assert (Hy : (IZR op * value y)%R = F2 (eff_sign op (ns y)) (val (mm m2)) (e2 - 64 * wlen y)).
  { rewrite V2. unfold eff_sign. destruct Hop as [-> | ->]; cbn [Z.ltb Z.compare]; [|rewrite F2_invert]; ring. }
  set (sy := eff_sign op (ns y)) in *.
  assert (Hneg : (negb (sign_eqb (ns x) (ns y)) && (0 <=? op)) || ((op <? 0) && sign_eqb (ns x) (ns y)) = negb (sign_eqb (ns x) sy)).
  { unfold sy, eff_sign. destruct Hop as [-> | ->], (ns x), (ns y); reflexivity. }
  rewrite Hneg. destruct (sign_eqb (ns x) sy) eqn:Es; cbn [negb].
  - (* addition of magnitudes *)
    assert (Hs : sy = ns x) by (destruct sy, (ns x); cbn in Es; congruence).
    assert (Hr : r = (F2 (ns x) (val (mm m1)) (e1 - 64 * wlen x) + F2 (ns x) (val (mm m2)) (e2 - 64 * wlen y))%R).
    { unfold r. rewrite Hy, Hs, V1. reflexivity. }
    assert (Hsgn : has_sign (ns x) r).
    { rewrite Hr. unfold has_sign. rewrite Rmult_plus_distr_l.
      pose proof (F2_has_sign (ns x) (val (mm m1)) (e1 - 64 * wlen x) P1). pose proof (F2_has_sign (ns x) (val (mm m2)) (e2 - 64 * wlen y) P2).
      unfold has_sign in *. lra. }
    split; [|intros H0; exfalso; unfold has_sign in Hsgn; rewrite H0 in Hsgn; lra].
    intros _. exists (ns x). split; [auto|].
    destruct (Z.leb_spec e2 e1) as [Hle|Hle].
    + rewrite as_usize_id by lia. pose proof (Hadd m1 m2 (e1 - e2) (ns x) e1 Ho1 Ho2 Hl1 Hl2 Ht1 Ht2 ltac:(lia)) as G. cbv zeta in G.
      replace (e1 - (e1 - e2)) with e2 in G by lia. rewrite Hz1, Hz2, <- Hr in G.
      destruct (m_abs_add _ _ _ _ _ _ _ _) as [[c m3] ix']. exact G.
    + rewrite as_usize_id by lia. pose proof (Hadd m2 m1 (e2 - e1) (ns x) e2 Ho2 Ho1 Hl2 Hl1 Ht2 Ht1 ltac:(lia)) as G. cbv zeta in G.
      replace (e2 - (e2 - e1)) with e1 in G by lia. rewrite Hz1, Hz2, Rplus_comm, <- Hr in G.
      destruct (m_abs_add _ _ _ _ _ _ _ _) as [[c m3] ix']. exact G.
  - assert (Hs : sy = sign_invert (ns x)) by (destruct sy, (ns x); cbn in Es |- *; congruence).
    assert (Hs' : ns x = sign_invert sy) by (rewrite Hs; destruct (ns x); reflexivity).
    assert (Hr1 : r = (F2 (ns x) (val (mm m1)) (e1 - 64 * wlen x) - F2 (ns x) (val (mm m2)) (e2 - 64 * wlen y))%R).
    { unfold r. rewrite Hy, Hs, V1, F2_invert. ring. }
    assert (Hr2 : r = (F2 sy (val (mm m2)) (e2 - 64 * wlen y) - F2 sy (val (mm m1)) (e1 - 64 * wlen x))%R).
    { unfold r. rewrite Hy, V1, Hs', F2_invert. ring. }
    assert (Ay : forall s, Rabs (value y) = Rabs (F2 s (val (mm m2)) (e2 - 64 * wlen y))) by (intros; rewrite V2; apply F2_abs_sign).
    assert (Ax : forall s, Rabs (value x) = Rabs (F2 s (val (mm m1)) (e1 - 64 * wlen x))) by (intros; rewrite V1; apply F2_abs_sign).
    assert (Hsy : (if 0 <=? op then ns y else sign_invert (ns y)) = sy) by (unfold sy, eff_sign; destruct Hop as [-> | ->]; reflexivity).
    assert (Hsgn : forall s a b e e', (Rabs (F2 s b e') < Rabs (F2 s a e))%R -> 0 < a -> 0 < b -> has_sign s (F2 s a e - F2 s b e')%R).
    { intros s a b e e' H HA HB. pose proof (F2_has_sign s a e HA) as Q1. pose proof (F2_has_sign s b e' HB) as Q2. unfold has_sign in *.
      rewrite !F2_abs in H by lia. rewrite !F2R_sgn in *. unfold sgnR in *. destruct s; cbn [sgnZ] in *; lra. }
    destruct (Rcompare_spec (Rabs (value x)) (Rabs (value y))) as [Hc|Hc|Hc]; cbn [sgn_of] in Hcmp.
    + (* |x| < |y| *)
      replace (0 <? n_abs_cmp x y) with false by lia. replace (n_abs_cmp x y <? 0) with true by lia. rewrite Hsy.
      assert (Hle : e1 <= e2).
      { assert (bpow radix2 (e1 - 1) < bpow radix2 e2)%R by lra. apply lt_bpow in H. lia. }
      rewrite (Ay sy), (Ax sy) in Hc.
      pose proof (Hsgn sy _ _ _ _ Hc P2 P1) as Hsg. rewrite <- Hr2 in Hsg.
      split; [|intros H0; exfalso; unfold has_sign in Hsg; rewrite H0 in Hsg; lra]. intros _. exists sy. split; [auto|].
      rewrite as_usize_id by lia. pose proof (Hsub m2 m1 (e2 - e1) sy e2 Ho2 Ho1 Hl2 Hl1 Ht2 Ht1 ltac:(lia)) as G. cbv zeta in G.
      replace (e2 - (e2 - e1)) with e1 in G by lia. rewrite Hz1, Hz2, <- Hr2 in G. specialize (G Hc).
      destruct (m_abs_sub _ _ _ _ _ _ _ _) as [[c m3] ix']. exact G.
    + replace (0 <? n_abs_cmp x y) with false by lia. replace (n_abs_cmp x y <? 0) with false by lia.
      assert (r = 0%R).
      { rewrite Hr1. rewrite V1, V2, (F2_abs_sign (ns y) (ns x)), !F2_abs in Hc by lia. rewrite !F2R_sgn, !Rmult_assoc, Hc. ring. }
      split; [intros H0; contradiction|]. intros _. unfold n_new, p_assertion. replace (P_LIM <=? p) with false by lia. reflexivity.
    + replace (0 <? n_abs_cmp x y) with true by lia.
      assert (Hle : e2 <= e1).
      { assert (bpow radix2 (e2 - 1) < bpow radix2 e1)%R by lra. apply lt_bpow in H. lia. }
      rewrite (Ay (ns x)), (Ax (ns x)) in Hc.
      pose proof (Hsgn (ns x) _ _ _ _ Hc P1 P2) as Hsg. rewrite <- Hr1 in Hsg.
      split; [|intros H0; exfalso; unfold has_sign in Hsg; rewrite H0 in Hsg; lra]. intros _. exists (ns x). split; [auto|].
      rewrite as_usize_id by lia. pose proof (Hsub m1 m2 (e1 - e2) (ns x) e1 Ho1 Ho2 Hl1 Hl2 Ht1 Ht2 ltac:(lia)) as G. cbv zeta in G.
      replace (e1 - (e1 - e2)) with e2 in G by lia. rewrite Hz1, Hz2, <- Hr1 in G. specialize (G Hc).
      destruct (m_abs_sub _ _ _ _ _ _ _ _) as [[c m3] ix']. exact G.
Qed.
End Scheme.

Lemma round_p_idem P : 0 <= P -> 64 * P < P_LIM -> round_p (64 * P) = 64 * P.
Proof. intros. rewrite round_p_eq; unfold prec_up; dlia. Qed.

Lemma add_sub_round_p x y p op rm full : 0 <= p -> prec_up p < P_LIM ->
  add_sub x y p op rm full = add_sub x y (prec_up p) op rm full.
Proof.
  intros. unfold add_sub. assert (E : round_p (prec_up p) = round_p p).
  { rewrite (round_p_eq p) by auto. apply round_p_idem; auto. unfold prec_up in *. dlia. }
  rewrite E. reflexivity.
Qed.

Theorem add_sub_nonzero x y p op rm : wf x -> wf y -> nonzero x -> nonzero y -> op = 1 \/ op = -1 -> 0 < p -> prec_up p < P_LIM ->
  let r := (value x + IZR op * value y)%R in
  let ix := ninexact x || ninexact y in
  (r <> 0%R -> exists s, has_sign s r /\ correctly_rounded (prec_up p) rm r s ix (add_sub x y p op rm false)) /\
  (r = 0%R -> add_sub x y p op rm false = Ok (mk_num (m_new (prec_up p)) Pos 0 ix)).
Proof.
  intros Wx Wy Nx Ny Hop Hp Hlim. cbv zeta. rewrite add_sub_round_p by lia. unfold prec_up in *. set (P := (p + 63) / 64) in *.
  assert (HP : 0 < P) by (unfold P; dlia). clearbody P.
  apply (add_sub_scheme x y op rm (64 * P) false Wx Wy Nx Ny Hop) with
    (good := fun r s res => correctly_rounded (64 * P) rm r s (ninexact x || ninexact y) res).
  - split; [apply round_p_idem; lia|lia].
  - intros m1 m2 sh s e Ho1 Ho2 Hl1 Hl2 Ht1 Ht2 Hsh. pose proof (m_abs_add_spec m1 m2 P sh rm s (ninexact x || ninexact y) e Ho1 Ho2 Hl1 Hl2 Ht1 Ht2 Hsh HP) as G.
    cbv zeta in G. destruct (m_abs_add _ _ _ _ _ _ _ _) as [[c m3] ix']. destruct G as (G1 & G2 & G3 & G4 & G5 & G6).
    destruct m3 as [w n]. cbn [mm mn] in *. subst n. apply finish_num_spec; auto.
  - intros m1 m2 sh s e Ho1 Ho2 Hl1 Hl2 Ht1 Ht2 Hsh Hlt. pose proof (m_abs_sub_spec m1 m2 P sh rm s (ninexact x || ninexact y) e Ho1 Ho2 Hl1 Hl2 Ht1 Ht2 Hsh HP Hlt) as G.
    cbv zeta in G. destruct (m_abs_sub _ _ _ _ _ _ _ _) as [[c m3] ix']. destruct G as (G1 & G2 & G3 & G4 & G5 & G6).
    destruct m3 as [w n]. cbn [mm mn] in *. subst n. apply finish_num_spec; auto.
Qed.

Theorem add_sub_full x y op : wf x -> wf y -> nonzero x -> nonzero y -> op = 1 \/ op = -1 ->
  let r := (value x + IZR op * value y)%R in
  let ix := ninexact x || ninexact y in
  (r <> 0%R -> exists s, has_sign s r /\ exact_result r s ix (add_sub x y 0 op RNone true)) /\
  (r = 0%R -> add_sub x y 0 op RNone true = Ok (mk_num (m_new 0) Pos 0 ix)).
Proof.
  intros Wx Wy Nx Ny Hop. cbv zeta.
  apply (add_sub_scheme x y op RNone 0 true Wx Wy Nx Ny Hop) with
    (good := fun r s res => exact_result r s (ninexact x || ninexact y) res).
  - split; [reflexivity|lia].
  - intros m1 m2 sh s e Ho1 Ho2 Hl1 Hl2 Ht1 Ht2 Hsh. pose proof (m_abs_add_full m1 m2 sh RNone s (ninexact x || ninexact y) e Ho1 Ho2 Hl1 Hl2 Ht1 Ht2 Hsh) as G.
    cbv zeta in G. destruct (m_abs_add _ _ _ _ _ _ _ _) as [[c m3] ix']. destruct G as (G1 & G2 & G3 & G4 & G5 & -> & G6).
    apply finish_exact; auto.
  - intros m1 m2 sh s e Ho1 Ho2 Hl1 Hl2 Ht1 Ht2 Hsh Hlt. pose proof (m_abs_sub_full m1 m2 sh RNone s (ninexact x || ninexact y) e Ho1 Ho2 Hl1 Hl2 Hsh Hlt) as G.
    cbv zeta in G. destruct (m_abs_sub _ _ _ _ _ _ _ _) as [[c m3] ix']. destruct G as (G1 & G2 & G3 & G4 & G5 & -> & G6).
    apply finish_exact; auto.
Qed.

(** A zero operand: the other one is rounded to the target precision. *)
Lemma n_neg_wf x : wf x -> wf (n_neg x).
Proof. intros [A B C D E F]. constructor; auto. Qed.
Lemma n_neg_value x : value (n_neg x) = (- value x)%R.
Proof. unfold value, n_neg, set_sign, magnitude, wlen. cbn [nm ns ne]. apply F2_invert. Qed.

Theorem add_sub_zero_l x y p op rm : wf x -> magnitude x = 0 -> 0 < p -> prec_up p < P_LIM ->
  add_sub x y p op rm false = set_precision (if op <? 0 then n_neg y else y) (prec_up p) rm.
Proof.
  intros W H Hp Hlim. unfold add_sub. rewrite round_p_eq by (auto; lia). unfold p_assertion. unfold prec_up in *.
  replace (P_LIM <=? 64 * ((p + 63) / 64)) with false by lia. cbn [bind]. rewrite is_zero_spec, H by auto. reflexivity.
Qed.
Theorem add_sub_zero_r x y p op rm : wf x -> wf y -> nonzero x -> magnitude y = 0 -> 0 < p -> prec_up p < P_LIM ->
  add_sub x y p op rm false = set_precision x (prec_up p) rm.
Proof.
  intros Wx W Nx H Hp Hlim. unfold add_sub. rewrite round_p_eq by (auto; lia). unfold p_assertion. unfold prec_up in *.
  replace (P_LIM <=? 64 * ((p + 63) / 64)) with false by lia. cbn [bind]. rewrite is_zero_false by auto. rewrite is_zero_spec, H by auto. reflexivity.
Qed.

(** Rounding to p bits into the normal range leaves nothing for the gradual rounding. *)
Lemma normal_iff x : wf x -> (normal x <-> (bpow radix2 (EMIN - 1) <= Rabs (value x))%R).
Proof.
  intros W. split.
  - intros [H N]. destruct (norm_bounds x W N) as [B _]. eapply Rle_trans; [|exact B]. apply bpow_le.
    unfold norm_exp. pose proof (wf_exp x W). lia.
  - intros H. assert (N : nonzero x).
    { intros E. rewrite value_zero, Rabs_R0 in H by auto. pose proof (bpow_gt_0 radix2 (EMIN - 1)). lra. }
    split; auto. destruct (nonzero_bits x W N) as (_ & Hb & _). destruct (Z.eq_dec (mn (nm x)) (64 * wlen x)); auto. exfalso.
    pose proof (wf_sub x W ltac:(lia)) as He. destruct (norm_bounds x W N) as [_ B].
    assert (bpow radix2 (EMIN - 1) < bpow radix2 (norm_exp x))%R by lra. apply lt_bpow in H0. unfold norm_exp in H0. lia.
Qed.

Lemma grad_of_prec p rm r : 0 < p -> (bpow radix2 (EMIN - 1) <= Rabs (rnd_prec p rm r))%R -> rnd_grad p rm r = rnd_prec p rm r.
Proof.
  intros Hp H. destruct (Rle_or_lt (bpow radix2 (EMIN - 1)) (Rabs r)) as [Hr|Hr]; [now apply grad_normal|].
  assert (HpX : Prec_gt_0 p) by exact Hp.
  set (z := rnd_prec p rm r) in *. 
  assert (Hz : Rabs z = bpow radix2 (EMIN - 1)).
  { apply Rle_antisym; auto. apply Rlt_le in Hr. unfold z, rnd_prec. apply abs_round_le_generic; auto.
    - apply FLX_exp_valid; exact Hp.
    - apply rnd_valid.
    - apply generic_format_bpow. unfold FLX_exp. lia. }
  destruct (is_nearest rm) eqn:En.
  - (* nearest *)
    assert (Hr0 : r <> 0%R).
    { intros E. unfold z in Hz. rewrite E in Hz. unfold rnd_prec in Hz. rewrite round_0, Rabs_R0 in Hz by apply rnd_valid. pose proof (bpow_gt_0 radix2 (EMIN - 1)). lra. }
    assert (Hmag : (mag radix2 r <= EMIN - 1)) by (apply mag_le_bpow; auto).
    assert (Herr : (Rabs (z - r) <= / 2 * bpow radix2 (EMIN - 1 - p))%R).
    { unfold z, rnd_prec. assert (exists c, rnd rm = Znearest c) as [c ->] by (destruct rm; try discriminate En; eexists; reflexivity).
      eapply Rle_trans; [apply error_le_half_ulp; apply FLX_exp_valid; exact Hp|].
      apply Rmult_le_compat_l; [lra|]. rewrite ulp_neq_0 by auto. apply bpow_le. unfold cexp, FLX_exp. lia. }
    unfold rnd_grad, round, scaled_mantissa.
    assert (Hc : cexp radix2 (FLT_exp (EMIN - p) p) r = EMIN - p) by (unfold cexp, FLT_exp; lia).
    rewrite Hc. set (u := (r * bpow radix2 (- (EMIN - p)))%R).
    assert (Hzs : exists s, z = F2 s (2 ^ (p - 1)) (EMIN - p)).
    { exists (if Rle_dec 0 z then Pos else Neg). rewrite F2R_sgn, <- bpow_IZR, Rmult_assoc, <- bpow_plus by lia.
      replace (p - 1 + (EMIN - p)) with (EMIN - 1) by lia. rewrite <- Hz. unfold sgnR. destruct (Rle_dec 0 z); cbn [sgnZ].
      - rewrite Rabs_pos_eq; lra.
      - rewrite Rabs_left; lra. }
    destruct Hzs as [s Hzs].
    assert (Hu : (Rabs (u - IZR (sgnZ s * 2 ^ (p - 1))) < / 2)%R).
    { assert (Ez : IZR (sgnZ s * 2 ^ (p - 1)) = (z * bpow radix2 (- (EMIN - p)))%R).
      { rewrite Hzs. unfold F2R. cbn [Fnum Fexp]. rewrite Rmult_assoc, <- bpow_plus. replace (EMIN - p + - (EMIN - p)) with 0 by lia.
        cbn [bpow]. ring. }
      rewrite Ez. unfold u. rewrite <- Rmult_minus_distr_r, Rabs_mult, (Rabs_pos_eq (bpow _ _)) by apply bpow_ge_0.
      rewrite Rabs_minus_sym. pose proof (bpow_gt_0 radix2 (- (EMIN - p))) as Hb.
      apply Rle_lt_trans with ((/ 2 * bpow radix2 (EMIN - 1 - p)) * bpow radix2 (- (EMIN - p)))%R; [apply Rmult_le_compat_r; lra|].
      rewrite Rmult_assoc, <- bpow_plus. replace (EMIN - 1 - p + - (EMIN - p)) with (-1) by lia.
      change (bpow radix2 (-1)) with (/ 2)%R. lra. }
    assert (Hn : rnd rm u = sgnZ s * 2 ^ (p - 1)).
    { assert (exists c, rnd rm = Znearest c) as [c ->] by (destruct rm; try discriminate En; eexists; reflexivity).
      apply Znearest_imp. exact Hu. }
    rewrite Hn. symmetry. exact Hzs.
  - rewrite <- grad_prec_directed by auto. fold z. rewrite grad_normal by (auto; lra). apply prec_id; auto.
    unfold z, rnd_prec. apply generic_format_round; [apply FLX_exp_valid; exact Hp|apply rnd_valid].
Qed.

Lemma grad_lt_normal p rm r e : 0 < p -> EMIN - 1 < e -> ((bpow radix2 e <= Rabs (rnd_grad p rm r))%R <-> (bpow radix2 e <= Rabs (rnd_prec p rm r))%R).
Proof.
  intros Hp He. assert (Hb : (bpow radix2 (EMIN - 1) < bpow radix2 e)%R) by (apply bpow_lt; lia). split; intros H.
  - destruct (Rle_or_lt (bpow radix2 (EMIN - 1)) (Rabs r)) as [Hr|Hr].
    + rewrite <- grad_normal by auto. auto.
    + exfalso. assert (Rabs (rnd_grad p rm r) <= bpow radix2 (EMIN - 1))%R; [|lra].
      apply Rlt_le in Hr. unfold rnd_grad. apply abs_round_le_generic; auto.
      * apply FLT_exp_valid; exact Hp.
      * apply rnd_valid.
      * apply generic_format_bpow. unfold FLT_exp. lia.
  - rewrite grad_of_prec by (auto; lra). auto.
Qed.

Lemma rnone_le p r : 0 < p -> (Rabs (rnd_prec p RNone r) <= Rabs r)%R.
Proof.
  intros Hp. unfold rnd_prec. cbn [rnd]. pose proof (FLX_exp_valid p (prec_gt_0_ := Hp)) as V.
  destruct (Rle_or_lt 0 r) as [H|H].
  - rewrite round_ZR_DN by auto. destruct (round_DN_pt radix2 (FLX_exp p) r) as (_ & A & _).
    assert (0 <= round radix2 (FLX_exp p) Zfloor r)%R by (apply round_ge_generic; auto; [apply valid_rnd_DN|apply generic_format_0]).
    rewrite !Rabs_pos_eq; auto.
  - rewrite round_ZR_UP by lra. destruct (round_UP_pt radix2 (FLX_exp p) r) as (_ & A & _).
    assert (round radix2 (FLX_exp p) Zceil r <= 0)%R by (apply round_le_generic; auto; [apply valid_rnd_UP|apply generic_format_0|lra]).
    rewrite !Rabs_left1; lra.
Qed.

(** set_precision of a number that rounds into the normal range. *)
Lemma set_precision_normal x P rm : wf x -> 0 < P -> 64 * P < P_LIM ->
  let z := rnd_prec (64 * P) rm (value x) in
  (bpow radix2 (EMIN - 1) <= Rabs z)%R ->
  ((bpow radix2 EMAX <= Rabs z)%R -> set_precision x (64 * P) rm = Err (ExponentOverflow (ns x))) /\
  ((Rabs z < bpow radix2 EMAX)%R -> exists q, set_precision x (64 * P) rm = Ok q /\ wf q /\ wlen q = P /\ ns q = ns x /\
     value q = z /\ normal q /\ (ninexact q = true <-> ninexact x = true \/ value q <> value x)).
Proof.
  intros W HP Hlim z Hz. assert (Hpu : prec_up (64 * P) < P_LIM) by (unfold prec_up; dlia).
  assert (Hw : word_prec_ok (64 * P) rm x).
  { destruct rm; try (left; discriminate). right; left. split; [dlia|]. apply normal_iff; auto.
    eapply Rle_trans; [exact Hz|]. apply rnone_le. lia. }
  destruct (set_precision_spec x (64 * P) rm W ltac:(lia) Hpu Hw) as [A B].
  rewrite (grad_of_prec (64 * P) rm (value x)) in * by (auto; lia). fold z in A, B.
  split; [exact A|]. intros H. destruct (B H) as (q & Q1 & Q2 & Q3 & Q4 & Q5 & Q6). exists q. rewrite Q5.
  split; [exact Q1|]. split; [auto|]. split; [clear -Q3; dlia|]. split; [exact Q4|]. split; [reflexivity|]. split; [|exact Q6]. apply normal_iff; auto. now rewrite Q5.
Qed.
