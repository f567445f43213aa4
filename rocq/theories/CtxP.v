(** Context, exponent range check, error estimate near one. *)

From Coq Require Import ZArith List Bool Lia Reals Lra.
From Flocq Require Import Core.
From Verif Require Import Words IntModel Mantissa Num Ext Ctx SpecZ WordsP WordsP2 Spec SpecExt RealP RealP2 NumP CmpP AddP SetP ConvNum Conv2Num ExtP.
Import ListNotations.
Open Scope Z_scope.
Ltac Zify.zify_post_hook ::= idtac.
Arguments Z.mul : simpl never.
Arguments Z.add : simpl never.
Arguments Z.pow : simpl never.
Arguments Z.sub : simpl never.
Arguments Z.of_nat : simpl never.

Lemma clamp_spec v lo hi : lo <= hi -> lo <= clamp v lo hi <= hi /\ (lo <= v <= hi -> clamp v lo hi = v) /\ (v < lo -> clamp v lo hi = lo) /\ (hi < v -> clamp v lo hi = hi).
Proof. intros H. unfold clamp. destruct (Z.ltb_spec v lo), (Z.ltb_spec hi v); repeat split; intros; lia. Qed.

(** ** Leading zeros and ones *)
Lemma land_sig w : 0 <= w < 2 ^ 64 -> (Z.land w WORD_SIG =? 0) = (w <? 2 ^ 63).
Proof.
  intros Hw. change WORD_SIG with (2 ^ 63). destruct (Z.ltb_spec w (2 ^ 63)) as [H|H].
  - apply Z.eqb_eq. apply Z.bits_inj'. intros i Hi. rewrite Z.land_spec, Z.pow2_bits_eqb, Z.bits_0 by lia. destruct (Z.eqb_spec 63 i) as [<-|]; [|apply andb_false_r].
    rewrite andb_true_r. apply Z.bits_above_log2; [lia|]. destruct (Z.eq_dec w 0) as [->|]; [reflexivity|]. apply Z.log2_lt_pow2; lia.
  - apply Z.eqb_neq. intros E. apply (f_equal (fun z => Z.testbit z 63)) in E. rewrite Z.land_spec, Z.pow2_bits_true, Z.bits_0, andb_true_r in E by lia.
    assert (L : Z.log2 w = 63). { assert (63 <= Z.log2 w) by (apply Z.log2_le_pow2; lia). assert (Z.log2 w < 64) by (apply Z.log2_lt_pow2; lia). lia. }
    rewrite <- L in E. rewrite Z.bit_log2 in E by lia. discriminate E.
Qed.

Lemma bitlen_lt63 w : 0 <= w < 2 ^ 64 -> (w <? 2 ^ 63) = (bitlen w <? 64).
Proof.
  intros Hw. destruct (Z.ltb_spec w (2 ^ 63)) as [H|H]; symmetry.
  - apply Z.ltb_lt. pose proof (bitlen_le w 63 ltac:(lia) ltac:(lia)). lia.
  - apply Z.ltb_ge. rewrite (bitlen_unique w 64); lia.
Qed.

Lemma wshl1 w : 0 <= w < 2 ^ 63 -> wshl w 1 = w * 2 ^ 1.
Proof. intros. rewrite wshl_val by lia. rewrite Z.mod_small; [reflexivity|]. change (2 ^ 1) with 2. change (2 ^ 64) with (2 ^ 63 * 2). lia. Qed.

Lemma clo_word_spec k : forall w, 0 <= w < 2 ^ 64 - 1 -> 64 - bitlen (2 ^ 64 - 1 - w) < Z.of_nat k -> Words.clo_loop k w = 64 - bitlen (2 ^ 64 - 1 - w).
Proof.
  induction k as [|k IH]; intros w Hw Hk. { pose proof (bitlen_le (2 ^ 64 - 1 - w) 64 ltac:(lia) ltac:(lia)). change (Z.of_nat 0) with 0 in Hk. lia. }
  cbn [Words.clo_loop]. rewrite land_sig by lia. destruct (Z.ltb_spec w (2 ^ 63)) as [H|H].
  - rewrite (bitlen_unique (2 ^ 64 - 1 - w) 64); lia.
  - assert (E : wshl w 1 = 2 * w - 2 ^ 64). { rewrite wshl_val by lia. symmetry. apply Z.mod_unique with 1; change (2 ^ 1) with 2; lia. }
    assert (B : bitlen (2 ^ 64 - 1 - (2 * w - 2 ^ 64)) = bitlen (2 ^ 64 - 1 - w) + 1).
    { pose proof (bitlen_spec (2 ^ 64 - 1 - w) ltac:(lia)) as [B1 B2]. set (b := bitlen (2 ^ 64 - 1 - w)) in *. pose proof (bitlen_pos (2 ^ 64 - 1 - w) ltac:(lia)) as Pb. fold b in Pb.
      apply bitlen_unique; [lia|]. replace (b + 1 - 1) with b by lia. rewrite (Z.pow_add_r 2 b 1) by lia. change (2 ^ 1) with 2.
      replace b with (b - 1 + 1) in B1 at 1 |- * at 1 by lia. rewrite (Z.pow_add_r 2 (b - 1) 1) by lia. change (2 ^ 1) with 2. replace (b - 1 + 1 - 1) with (b - 1) in B1 by lia. lia. }
    rewrite E, IH; rewrite ?B; try lia.
Qed.

Lemma bitlen_top A w k : 0 <= k -> 0 <= A < 2 ^ k -> 0 < w -> bitlen (A + 2 ^ k * w) = bitlen w + k.
Proof.
  intros Hk HA Hw. pose proof (bitlen_spec w Hw) as [B1 B2]. pose proof (bitlen_pos w Hw) as Pb. set (b := bitlen w) in *. pose proof (Z.pow_pos_nonneg 2 k ltac:(lia) Hk) as P.
  apply bitlen_unique; [lia|]. replace (b + k - 1) with (k + (b - 1)) by lia. rewrite (Z.add_comm b k), !Z.pow_add_r by lia. nia.
Qed.

Lemma lead_ones_spec l : words_ok l -> lead_ones l = 64 * zlen l - bitlen (2 ^ (64 * zlen l) - 1 - val (rev l)).
Proof.
  induction l as [|v l IH]; intros Hl; [reflexivity|]. apply ok_cons in Hl as [Hv Hl]. pose proof (zlen_nonneg l) as P. cbn [lead_ones]. rewrite val_rev_cons, zlen_cons.
  replace (2 ^ (64 * (1 + zlen l))) with (2 ^ 64 * 2 ^ (64 * zlen l)) by (rewrite <- Z.pow_add_r by lia; f_equal; lia).
  pose proof (val_bound (rev l) ltac:(now apply ok_rev)) as B. rewrite zlen_rev in B. set (K := 2 ^ (64 * zlen l)) in *. change WORD_MAX with (2 ^ 64 - 1).
  destruct (Z.eqb_spec v (2 ^ 64 - 1)) as [->|N].
  - rewrite IH by auto. replace (2 ^ 64 * K - 1 - (val (rev l) + K * (2 ^ 64 - 1))) with (K - 1 - val (rev l)) by ring. lia.
  - replace (2 ^ 64 * K - 1 - (val (rev l) + K * v)) with ((K - 1 - val (rev l)) + K * (2 ^ 64 - 1 - v)) by ring.
    pose proof (bitlen_top (K - 1 - val (rev l)) (2 ^ 64 - 1 - v) (64 * zlen l) ltac:(lia) ltac:(fold K; lia) ltac:(lia)) as BT. fold K in BT. rewrite BT. rewrite clo_word_spec; [lia|lia|]. pose proof (bitlen_pos (2 ^ 64 - 1 - v) ltac:(lia)). change (Z.of_nat 64) with 64. lia.
Qed.

Theorem clz_skip_spec m : words_ok m -> 0 < zlen m -> count_leading_zeroes_skip_first m = 64 * zlen m - bitlen (val m mod 2 ^ (64 * zlen m - 1)).
Proof.
  intros Hok Hl. unfold count_leading_zeroes_skip_first. pose proof (rev_involutive m) as E. pose proof (zlen_rev m) as L. pose proof (ok_rev m Hok) as Or. destruct (rev m) as [|v t]; [cbn in L; change (zlen []) with 0 in L; lia|].
  apply ok_cons in Or as [Hv Ht]. rewrite zlen_cons in L. pose proof (zlen_nonneg t) as Pt.
  assert (Ew : Z.land v (wshr WORD_MAX 1) = v mod 2 ^ 63) by (change (wshr WORD_MAX 1) with (Z.ones 63); apply Z.land_ones; lia).
  pose proof (Z.mod_pos_bound v (2 ^ 63) ltac:(lia)) as Bm. pose proof (val_bound (rev t) ltac:(now apply ok_rev)) as B. rewrite zlen_rev in B.
  assert (EV : val m mod 2 ^ (64 * zlen m - 1) = val (rev t) + 2 ^ (64 * zlen t) * (v mod 2 ^ 63)).
  { rewrite <- E at 1. rewrite val_rev_cons, <- L. replace (64 * (1 + zlen t) - 1) with (64 * zlen t + 63) by lia. rewrite Z.pow_add_r, Z.rem_mul_r by lia.
    rewrite (Z.mul_comm (2 ^ (64 * zlen t)) v), Z_mod_plus_full, Z.mod_small, Z_div_plus_full, (Z.div_small (val (rev t))) by lia. rewrite Z.add_0_l. reflexivity. }
  rewrite EV, <- L, Ew. destruct (Z.eqb_spec (v mod 2 ^ 63) 0) as [H|H].
  - rewrite H, Z.mul_0_r, Z.add_0_r. rewrite lead_zeros_spec by auto. unfold bitlen. destruct (val (rev t) =? 0); lia.
  - rewrite bitlen_top by lia. rewrite clz_spec by lia. unfold bitlen. rewrite (proj2 (Z.eqb_neq _ _) H). lia.
Qed.

Theorem clo_spec m : words_ok m -> count_leading_ones m = 64 * zlen m - bitlen (2 ^ (64 * zlen m) - 1 - val m).
Proof. intros Hok. unfold count_leading_ones. rewrite lead_ones_spec by now apply ok_rev. now rewrite zlen_rev, rev_involutive. Qed.

(** ** The error estimate near one *)
(** With [2^(-n)] the distance of |x| to one up to a factor of two. *)
Theorem near_one_spec x emin : wf x -> normal x ->
  let n := compute_added_err_near_one (Value x) emin in
  let v := Rabs (value x) in
  (ne x = 1 -> v <> 1%R -> 0 <= n /\ (n <> 0 -> (bpow radix2 (- n) <= v - 1 < bpow radix2 (1 - n))%R) /\ (n = 0 -> (v - 1 < bpow radix2 (- Z.abs emin))%R)) /\
  (ne x = 0 -> 0 <= n /\ (n <> 0 -> (bpow radix2 (- n - 1) < 1 - v <= bpow radix2 (- n))%R) /\ (n = 0 -> (1 - v < bpow radix2 (- Z.abs emin))%R)) /\
  (ne x <> 0 -> ne x <> 1 -> n = 0).
Proof.
  intros Wx [Nx Nz] n v. pose proof (wf_words x Wx) as Hok. pose proof (val_bound _ Hok) as HM. fold (magnitude x) (wlen x) in HM.
  assert (Hv : v = (IZR (magnitude x) * bpow radix2 (ne x - 64 * wlen x))%R) by (unfold v, value; apply F2_abs; lia).
  assert (Z0 : x_is_zero (Value x) = false).
  { cbn [x_is_zero]. unfold is_zero, m_is_zero. apply Z.eqb_neq. intros E. apply Nz. rewrite (wf_bits x Wx) in E. destruct (Z.eq_dec (magnitude x) 0); auto. pose proof (bitlen_pos (magnitude x) ltac:(lia)). lia. }
  unfold n, compute_added_err_near_one. rewrite Z0. cbn [x_exponent]. clear n Z0 Hok. clearbody v.
  assert (HL : 0 < wlen x). { pose proof (zlen_nonneg (mm (nm x))) as P. fold (wlen x) in P. destruct (Z.eq_dec (wlen x) 0) as [E|]; [|lia]. exfalso. apply Nz. rewrite E in HM. change (2 ^ (64 * 0)) with 1 in HM. lia. }
  assert (HM1 : 2 ^ (64 * wlen x - 1) <= magnitude x).
  { pose proof (wf_bits x Wx) as Hb. rewrite Nx in Hb. pose proof (bitlen_spec (magnitude x) ltac:(unfold nonzero in Nz; lia)) as [B _]. rewrite <- Hb in B. exact B. }
  assert (H2 : 2 ^ (64 * wlen x) = 2 ^ (64 * wlen x - 1) + 2 ^ (64 * wlen x - 1)).
  { replace (64 * wlen x) with (64 * wlen x - 1 + 1) at 1 by lia. rewrite Z.pow_add_r by lia. change (2 ^ 1) with 2. lia. }
  split; [|split].
  - intros E1 Hne. rewrite E1 in *. cbn [Z.eqb Pos.eqb]. rewrite clz_skip_spec by (try apply (wf_words x Wx); exact HL). fold (wlen x) (magnitude x).
    assert (EF : magnitude x mod 2 ^ (64 * wlen x - 1) = magnitude x - 2 ^ (64 * wlen x - 1)) by (symmetry; apply Z.mod_unique with 1; lia). rewrite EF. set (F := magnitude x - 2 ^ (64 * wlen x - 1)) in *.
    assert (Ev : (v - 1 = IZR F * bpow radix2 (1 - 64 * wlen x))%R).
    { rewrite Hv. unfold F. rewrite minus_IZR, <- bpow_IZR by lia. rewrite Rmult_minus_distr_r, <- bpow_plus. replace (64 * wlen x - 1 + (1 - 64 * wlen x)) with 0 by lia. cbn [bpow]. ring. }
    rewrite Ev. assert (NF : 0 < F). { destruct (Z.eq_dec F 0) as [E|]; [|lia]. exfalso. apply Hne. rewrite E in Ev. lra. }
    pose proof (bitlen_spec F NF) as [B1 B2]. pose proof (bitlen_pos F NF) as Bp. pose proof (bitlen_le F (64 * wlen x - 1) ltac:(lia) ltac:(lia)) as Bl. set (b := bitlen F) in *.
    assert (R1 : (bpow radix2 (- (64 * wlen x - b)) <= IZR F * bpow radix2 (1 - 64 * wlen x))%R).
    { replace (- (64 * wlen x - b)) with (b - 1 + (1 - 64 * wlen x)) by lia. rewrite bpow_plus. apply Rmult_le_compat_r; [apply bpow_ge_0|]. rewrite (bpow_IZR (b - 1)) by lia. apply IZR_le. lia. }
    assert (R2 : (IZR F * bpow radix2 (1 - 64 * wlen x) < bpow radix2 (1 - (64 * wlen x - b)))%R).
    { replace (1 - (64 * wlen x - b)) with (b + (1 - 64 * wlen x)) by lia. rewrite bpow_plus. apply Rmult_lt_compat_r; [apply bpow_gt_0|]. rewrite bpow_IZR by lia. apply IZR_lt. lia. }
    destruct (Z.ltb_spec (Z.abs emin) (64 * wlen x - b)); (split; [lia|split; [|]]); intros; try lia.
    + eapply Rlt_le_trans; [exact R2|]. apply bpow_le. lia.
    + split; auto.
  - intros E0. rewrite E0 in *. cbn [Z.eqb]. rewrite clo_spec by apply (wf_words x Wx). fold (wlen x) (magnitude x).
    set (F := 2 ^ (64 * wlen x) - 1 - magnitude x) in *.
    assert (Ev : (1 - v = IZR (F + 1) * bpow radix2 (- (64 * wlen x)))%R).
    { rewrite Hv. unfold F. replace (2 ^ (64 * wlen x) - 1 - magnitude x + 1) with (2 ^ (64 * wlen x) - magnitude x) by lia. rewrite minus_IZR, <- bpow_IZR by lia. rewrite Rmult_minus_distr_r, <- bpow_plus.
      replace (64 * wlen x + - (64 * wlen x)) with 0 by lia. cbn [bpow]. rewrite Z.sub_0_l. ring. }
    rewrite Ev. pose proof (bitlen_le F (64 * wlen x - 1) ltac:(lia) ltac:(unfold F; lia)) as Bl. assert (F0 : 0 <= F) by (unfold F; lia).
    assert (B : 0 <= bitlen F /\ F < 2 ^ bitlen F /\ (F <> 0 -> 2 ^ (bitlen F - 1) <= F) /\ (F = 0 -> bitlen F = 0) /\ (F <> 0 -> 0 < bitlen F)).
    { destruct (Z.eq_dec F 0) as [E|E]; [rewrite E; change (bitlen 0) with 0; change (2 ^ 0) with 1; repeat split; lia|]. pose proof (bitlen_spec F ltac:(lia)). pose proof (bitlen_pos F ltac:(lia)). repeat split; lia. }
    set (b := bitlen F) in *. destruct B as (B0 & B1 & B2 & B3 & B4).
    assert (R1 : (bpow radix2 (- (64 * wlen x - b) - 1) < IZR (F + 1) * bpow radix2 (- (64 * wlen x)))%R).
    { replace (- (64 * wlen x - b) - 1) with (b - 1 + - (64 * wlen x)) by lia. rewrite bpow_plus. apply Rmult_lt_compat_r; [apply bpow_gt_0|].
      destruct (Z.eq_dec F 0) as [E|E]. { rewrite (B3 E), E. change (0 - 1) with (-1). change (bpow radix2 (-1)) with (/ 2)%R. change (IZR (0 + 1)) with 1%R. lra. }
      rewrite (bpow_IZR (b - 1)) by (specialize (B4 E); lia). apply IZR_lt. specialize (B2 E). lia. }
    assert (R2 : (IZR (F + 1) * bpow radix2 (- (64 * wlen x)) <= bpow radix2 (- (64 * wlen x - b)))%R).
    { replace (- (64 * wlen x - b)) with (b + - (64 * wlen x)) by lia. rewrite bpow_plus. apply Rmult_le_compat_r; [apply bpow_ge_0|]. rewrite bpow_IZR by lia. apply IZR_le. lia. }
    destruct (Z.ltb_spec (Z.abs emin) (64 * wlen x - b)); (split; [lia|split; [|]]); intros; try lia.
    + eapply Rle_lt_trans; [exact R2|]. apply bpow_lt. lia.
    + split; auto.
  - intros H0 H1. rewrite (proj2 (Z.eqb_neq _ _) H0), (proj2 (Z.eqb_neq _ _) H1). destruct (_ <? 0); reflexivity.
Qed.

(** ** Context *)
(** The operations that change a context. *)
Inductive setter (C : Type) :=
| SPrec (p : Z) | SMode (rm : rmode) | SConsts (cc : C) | SEmin (e : Z) | SEmax (e : Z).
Arguments SPrec {C}. Arguments SMode {C}. Arguments SConsts {C}. Arguments SEmin {C}. Arguments SEmax {C}.
Definition apply_setter {C} (c : context C) (s : setter C) : context C :=
  match s with
  | SPrec p => c_set_precision c p | SMode rm => c_set_rounding_mode c rm | SConsts cc => c_set_consts c cc
  | SEmin e => c_set_emin c e | SEmax e => c_set_emax c e
  end.
Definition run_setters {C} (c : context C) (l : list (setter C)) : context C := fold_left apply_setter l c.

Definition range_ok {C} (c : context C) : Prop := EMIN <= c_emin c <= 0 /\ 0 <= c_emax c <= EMAX.

(** The last value given to a field, or the initial one. *)
Fixpoint last_of {C A} (pick : setter C -> option A) (init : A) (l : list (setter C)) : A :=
  match l with [] => init | s :: t => last_of pick (match pick s with Some a => a | None => init end) t end.

Lemma new_range {C} p rm (cc : C) emin emax : range_ok (c_new p rm cc emin emax).
Proof. split; apply clamp_spec; lia. Qed.

Lemma setters_range {C} (l : list (setter C)) : forall c, range_ok c -> range_ok (run_setters c l).
Proof.
  induction l as [|s l IH]; intros c H; [exact H|]. cbn [run_setters fold_left]. apply IH. destruct H as [H1 H2]. destruct s; split; cbn; auto; apply clamp_spec; lia.
Qed.

Lemma setters_last {C} (l : list (setter C)) : forall c,
  c_p (run_setters c l) = last_of (fun s => match s with SPrec p => Some p | _ => None end) (c_p c) l /\
  c_rm (run_setters c l) = last_of (fun s => match s with SMode m => Some m | _ => None end) (c_rm c) l /\
  c_cc (run_setters c l) = last_of (fun s => match s with SConsts m => Some m | _ => None end) (c_cc c) l /\
  c_emin (run_setters c l) = last_of (fun s => match s with SEmin e => Some (Z.max EMIN (Z.min e 0)) | _ => None end) (c_emin c) l /\
  c_emax (run_setters c l) = last_of (fun s => match s with SEmax e => Some (Z.max 0 (Z.min e EMAX)) | _ => None end) (c_emax c) l.
Proof.
  induction l as [|s l IH]; intros c; [repeat split|]. cbn [run_setters fold_left last_of]. fold (run_setters (apply_setter c s) l).
  destruct (IH (apply_setter c s)) as (A & B & D & E & F). rewrite A, B, D, E, F.
  assert (K1 : forall e, clamp e EMIN 0 = Z.max EMIN (Z.min e 0)) by (intros e; unfold clamp; destruct (Z.ltb_spec e EMIN), (Z.ltb_spec 0 e); lia).
  assert (K2 : forall e, clamp e 0 EMAX = Z.max 0 (Z.min e EMAX)) by (intros e; unfold clamp; destruct (Z.ltb_spec e 0), (Z.ltb_spec EMAX e); lia).
  destruct s; cbn; rewrite ?K1, ?K2; auto.
Qed.

(** ** Exponent range *)
Theorem range_check a emin emax : EMIN <= emin <= 0 -> 0 <= emax <= EMAX -> xwf a ->
  match a with
  | Value x =>
      (emax < ne x -> check_exponent_range a emin emax = Ok (Inf (ns x))) /\
      (ne x < emin -> exists z, check_exponent_range a emin emax = Ok (Value z) /\ wf z /\ value z = 0%R /\ wlen z = wlen x) /\
      (emin <= ne x <= emax -> check_exponent_range a emin emax = Ok a)
  | _ => check_exponent_range a emin emax = Ok a
  end.
Proof.
  intros H1 H2 Hx. destruct a as [x| |]; try reflexivity. cbn [xwf] in Hx. unfold check_exponent_range. cbn [x_exponent x_is_positive x_max_bit_len]. split; [|split].
  - intros H. replace (emax <? ne x) with true by lia. unfold is_positive. destruct (ns x); reflexivity.
  - intros H. replace (emax <? ne x) with false by lia. replace (ne x <? emin) with true by lia. change (mantissa_max_bit_len x) with (64 * wlen x).
    pose proof (wf_lim x Hx) as L. pose proof (zlen_nonneg (mm (nm x))) as P. fold (wlen x) in P.
    assert (E : (64 * wlen x + 63) / 64 = wlen x) by (Z.div_mod_to_equations; lia).
    unfold x_new. destruct (zero_wf_value (64 * wlen x)) as (q & A & A2 & B & D & _); [lia|unfold prec_up; lia|]. rewrite A. exists q. split; [reflexivity|]. split; [exact A2|]. split; [exact D|lia].
  - intros H. replace (emax <? ne x) with false by lia. replace (ne x <? emin) with false by lia. reflexivity.
Qed.

Lemma fields_last (C : Type) p rm (cc : C) emin emax (l : list (setter C)) :
  c_to_raw_parts (run_setters (c_new p rm cc emin emax) l) =
  (last_of (fun s => match s with SPrec p => Some p | _ => None end) p l,
   last_of (fun s => match s with SMode m => Some m | _ => None end) rm l,
   last_of (fun s => match s with SConsts m => Some m | _ => None end) cc l,
   last_of (fun s => match s with SEmin e => Some (Z.max EMIN (Z.min e 0)) | _ => None end) (Z.max EMIN (Z.min emin 0)) l,
   last_of (fun s => match s with SEmax e => Some (Z.max 0 (Z.min e EMAX)) | _ => None end) (Z.max 0 (Z.min emax EMAX)) l).
Proof.
  unfold c_to_raw_parts. destruct (setters_last l (c_new p rm cc emin emax)) as (A & B & D & E & F). rewrite A, B, D, E, F. cbn [c_new c_p c_rm c_cc c_emin c_emax].
  replace (clamp emin EMIN 0) with (Z.max EMIN (Z.min emin 0)) by (unfold clamp; destruct (Z.ltb_spec emin EMIN), (Z.ltb_spec 0 emin); lia).
  replace (clamp emax 0 EMAX) with (Z.max 0 (Z.min emax EMAX)) by (unfold clamp; destruct (Z.ltb_spec emax 0), (Z.ltb_spec EMAX emax); lia). reflexivity.
Qed.

Lemma tuple_ranges : (EMIN <= t3_emin <= 0 /\ 0 <= t3_emax <= EMAX) /\ forall e, EMIN <= t5_emin e <= 0 /\ 0 <= t5_emax e <= EMAX.
Proof. split; [split; unfold t3_emin, t3_emax; lia|]. intros e. split; apply clamp_spec; lia. Qed.
