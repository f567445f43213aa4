(** Raw parts, words, exponent access and the extreme values of a precision. *)

From Coq Require Import ZArith Reals List Bool Lia Lra.
From Flocq Require Import Core.
From Verif Require Import Words IntModel MulModel DivModel Mantissa Num SpecZ WordsP WordsP2 RoundP Spec SpecOps RealP RealP2 NumP CmpP AddP SetP AddNum IntP MulP MulP2 MulNum DivP DivP2 DivNum ArithTop RemNum IntNum ConvNum.
Import ListNotations.
Open Scope Z_scope.
Ltac Zify.zify_post_hook ::= idtac.
Arguments Z.mul : simpl never.
Arguments Z.add : simpl never.
Arguments Z.pow : simpl never.
Arguments Z.sub : simpl never.
Arguments Z.of_nat : simpl never.

Lemma m_from_words_full m : words_ok m -> m_from_words (zlen m * 64) m = Ok (mk_m m (bitlen (val m))).
Proof.
  intros Hm. unfold m_from_words. rewrite Z.mul_comm, wlen_of_bits_64. rewrite Z.ltb_irrefl, Z.sub_diag. change (zeros 0) with (@nil Z).
  cbn [app]. now rewrite find_bit_len_spec.
Qed.

Lemma bitlen_words m : words_ok m -> 0 <= bitlen (val m) <= 64 * zlen m /\ (bitlen (val m) = 0 <-> val m = 0).
Proof.
  intros Hm. pose proof (val_bound m Hm). pose proof (zlen_nonneg m). split; [|apply bitlen_0_iff; lia].
  unfold bitlen. destruct (Z.eqb_spec (val m) 0); [lia|]. pose proof (Z.log2_nonneg (val m)).
  assert (Z.log2 (val m) < 64 * zlen m) by (apply Z.log2_lt_pow2; lia). lia.
Qed.

Theorem from_raw_parts_spec m n s e b : words_ok m -> 0 <= n -> EMIN <= e <= EMAX ->
  (valid_parts m n e -> exists q, from_raw_parts m n s e b = Ok q /\ wf q /\ q = mk_num (mk_m m n) s (if n =? 0 then 0 else e) b) /\
  (~ valid_parts m n e -> from_raw_parts m n s e b = Err InvalidArgument).
Proof.
  intros Hm Hn He. unfold from_raw_parts, valid_parts. destruct (bitlen_words m Hm) as [B1 B2]. assert (E1 : EMIN = - 2147483648) by reflexivity.
  assert (E2 : EMAX = 2147483647) by reflexivity. split.
  - intros (V1 & V2 & V3). cbv zeta. rewrite p_assertion_ok by lia. cbn [bind]. replace (zlen m * 64 <? n) with false by lia.
    rewrite m_from_words_full by auto. cbn [bind mn]. rewrite <- V2, Z.eqb_refl. cbn [negb].
    replace ((0 <? n) && (n <? zlen m * 64) && (EXPONENT_MIN <? e)) with false.
    2:{ symmetry. destruct ((0 <? n) && (n <? zlen m * 64)) eqn:Q; [|auto]. cbn [andb]. apply Z.ltb_ge. apply andb_prop in Q as [Q1 Q2]. specialize (V3 ltac:(lia)). lia. }
    eexists. split; [reflexivity|]. split; [|reflexivity].
    constructor; unfold magnitude, wlen; cbn [nm mm mn ne]; auto; intros; destruct (Z.eqb_spec n 0); lia.
  - intros NV. cbv zeta. unfold p_assertion. destruct (Z.leb_spec P_LIM (zlen m * 64)) as [H|H]; [reflexivity|]. cbn [bind].
    destruct (Z.ltb_spec (zlen m * 64) n) as [H1|H1]; [reflexivity|]. rewrite m_from_words_full by auto. cbn [bind mn].
    destruct (Z.eqb_spec (bitlen (val m)) n) as [H2|H2]; [|reflexivity]. cbn [negb].
    destruct ((0 <? n) && (n <? zlen m * 64) && (EXPONENT_MIN <? e)) eqn:Q; [reflexivity|]. exfalso. apply NV. split; [lia|]. split; [auto|].
    intros Hr. replace ((0 <? n) && (n <? zlen m * 64)) with true in Q by (symmetry; apply andb_true_intro; lia). cbn [andb] in Q. lia.
Qed.

Theorem raw_round_trip x : wf x -> from_raw_parts (mm (nm x)) (mn (nm x)) (ns x) (ne x) (ninexact x) = Ok x.
Proof.
  intros W. destruct W as [A B C D E F]. unfold magnitude, wlen in *. pose proof (bitlen_words _ A) as [L1 L2].
  destruct (from_raw_parts_spec (mm (nm x)) (mn (nm x)) (ns x) (ne x) (ninexact x) A ltac:(lia) D) as [P _].
  destruct P as (q & -> & _ & ->). { repeat split; auto. } f_equal. destruct x as [[w n] s e b]. cbn [nm mm mn ns ne ninexact] in *. f_equal.
  destruct (Z.eqb_spec n 0); [|auto]. symmetry. apply E. lia.
Qed.

(** ** from_words *)

Theorem from_words_spec m s e : words_ok m -> 64 * zlen m < P_LIM -> EMIN <= e <= EMAX ->
  exists q, from_words m s e = Ok q /\ wf q /\ wlen q = zlen m /\ ns q = s /\ ninexact q = false /\
    value q = F2R (Float radix2 (sgnZ s * val m) (e - 64 * zlen m)).
Proof.
  intros Hm Lim He. destruct (bitlen_words m Hm) as [B1 B2]. unfold from_words. cbv zeta. rewrite p_assertion_ok by lia. cbn [bind].
  rewrite m_from_words_full by auto. cbn [bind mn mm]. unfold m_is_zero. cbn [mn]. assert (E1 : EMIN = - 2147483648) by reflexivity. assert (E2 : EMAX = 2147483647) by reflexivity.
  pose proof (val_bound m Hm) as VB.
  destruct (Z.eqb_spec (bitlen (val m)) 0) as [Z0|NZ].
  - assert (V0 : val m = 0) by tauto. eexists. split; [reflexivity|]. split. { constructor; unfold magnitude, wlen; cbn [nm mm mn ne]; auto; lia. }
    split; [reflexivity|]. split; [auto|]. split; [auto|]. rewrite value_zero by auto. rewrite V0, Z.mul_0_r. now rewrite F2R_0.
  - assert (VP : 0 < val m) by lia. destruct (Z.ltb_spec (bitlen (val m)) (zlen m * 64)) as [H|H].
    + set (p := zlen m * 64) in *. set (bl := bitlen (val m)) in *.
      assert (G : exists sh e', (if e <? EXPONENT_MIN + (p - bl) then (e - EXPONENT_MIN, EXPONENT_MIN) else (p - bl, e - (p - bl))) = (sh, e') /\
        0 <= sh <= p - bl /\ e' = e - sh /\ EMIN <= e' <= EMAX /\ (sh < p - bl -> e' = EMIN)).
      { destruct (Z.ltb_spec e (EXPONENT_MIN + (p - bl))); eexists; eexists; (split; [reflexivity|]); repeat split; lia. }
      destruct G as (sh & e' & -> & G1 & G2 & G3 & G4). destruct (shift_slice_left_spec m sh Hm ltac:(lia)) as (V1 & V2 & V3).
      assert (VV : val (shift_slice_left m sh) = val m * 2 ^ sh).
      { rewrite V1. apply Z.mod_small. split; [pose proof (pow2_gt0 sh ltac:(lia)); nia|]. pose proof (bitlen_spec (val m) VP) as [_ U]. fold bl in U.
        apply Z.lt_le_trans with (2 ^ bl * 2 ^ sh); [apply Z.mul_lt_mono_pos_r; auto; apply pow2_gt0; lia|]. rewrite <- Z.pow_add_r by lia. apply Z.pow_le_mono_r; lia. }
      eexists. split; [reflexivity|]. split. { constructor; unfold magnitude, wlen; cbn [nm mm mn ne]; rewrite ?V3, ?VV; auto; try lia;
        try (rewrite bitlen_mul_pow2 by lia; reflexivity). }
      unfold wlen. cbn [nm mm ns ninexact]. split; [auto|]. split; [auto|]. split; [auto|]. unfold value, magnitude, wlen. cbn [nm mm ns ne]. rewrite VV, V3, F2R_shift by lia.
      do 2 f_equal. lia.
    + eexists. split; [reflexivity|]. split. { constructor; unfold magnitude, wlen; cbn [nm mm mn ne]; auto; lia. }
      unfold wlen. cbn [nm mm ns ninexact]. repeat split; auto.
Qed.

(** ** set_exponent *)

Theorem set_exponent_spec x e : wf x -> EMIN <= e <= EMAX ->
  let q := set_exponent x e in
  wf q /\ wlen q = wlen x /\ ns q = ns x /\ ninexact q = ninexact x /\ value q = (value x * bpow radix2 (e - ne x))%R.
Proof.
  intros W He. cbv zeta. unfold set_exponent. rewrite (is_zero_spec x W). destruct (Z.eqb_spec (magnitude x) 0) as [Z0|NZ].
  - split; [auto|]. split; [auto|]. split; [auto|]. split; [auto|]. rewrite (value_zero x Z0). ring.
  - destruct (nonzero_bits x W NZ) as (M0 & N0 & L0). unfold is_subnormal, m_is_subnormal, mantissa_max_bit_len, max_bit_len, mlen, precision.
    fold (wlen x). assert (E1 : EMIN = - 2147483648) by reflexivity.
    assert (Val : forall w n e', val w = magnitude x * 2 ^ n -> 0 <= n -> zlen w = wlen x -> e' + n = e -> forall k b,
       value (mk_num (mk_m w k) (ns x) e' b) = (value x * bpow radix2 (e - ne x))%R).
    { intros w n e' A B C D k b. unfold value at 1. unfold magnitude at 1, wlen at 1. cbn [nm mm ns ne]. rewrite A, C, F2R_shift by lia. unfold value. rewrite !F2R_sgn.
      replace (e' - 64 * wlen x + n) with (ne x - 64 * wlen x + (e - ne x)) by lia. rewrite bpow_plus. ring. }
    match goal with |- context [if ?c then _ else _] => destruct c eqn:Q end.
    + apply andb_prop in Q as [Q Q3]. assert (Sub : 0 < mn (nm x) < 64 * wlen x) by lia. pose proof (wf_sub x W Sub) as Ex. apply Z.ltb_lt in Q3.
      destruct W as [A B C D E F]. fold (wlen x) (magnitude x) in *. rewrite B in *. pose proof (bitlen_spec (magnitude x) M0) as [_ U].
      assert (Sh : forall sh, 0 <= sh <= 64 * wlen x - bitlen (magnitude x) ->
         let w := shift_slice_left (mm (nm x)) sh in words_ok w /\ zlen w = wlen x /\ val w = magnitude x * 2 ^ sh).
      { intros sh Hs. destruct (shift_slice_left_spec (mm (nm x)) sh A ltac:(lia)) as (V1 & V2 & V3). fold (wlen x) (magnitude x) in *. cbv zeta. split; [auto|]. split; [auto|].
        rewrite V1. apply Z.mod_small. split; [pose proof (pow2_gt0 sh ltac:(lia)); nia|].
        apply Z.lt_le_trans with (2 ^ bitlen (magnitude x) * 2 ^ sh); [apply Z.mul_lt_mono_pos_r; auto; apply pow2_gt0; lia|]. rewrite <- Z.pow_add_r by lia. apply Z.pow_le_mono_r; lia. }
      destruct (Z.leb_spec (e - EXPONENT_MIN) (64 * wlen x - bitlen (magnitude x))) as [H|H].
      * destruct (Sh (e - EXPONENT_MIN) ltac:(lia)) as (S1 & S2 & S3). set (w := shift_slice_left (mm (nm x)) (e - EXPONENT_MIN)) in *. clearbody w.
        split. { constructor; unfold magnitude, wlen; cbn [nm mm mn ne]; auto; try lia; fold (magnitude x); rewrite S3, bitlen_mul_pow2 by lia; lia. }

        split; [exact S2|]. split; [auto|]. split; [auto|]. eapply Val; eauto; lia.
      * destruct (Sh (64 * wlen x - bitlen (magnitude x)) ltac:(lia)) as (S1 & S2 & S3). set (n := 64 * wlen x - bitlen (magnitude x)) in *.
        set (w := shift_slice_left (mm (nm x)) n) in *. clearbody w.
        split. { constructor; unfold magnitude, wlen; cbn [nm mm mn ne]; fold (wlen x); auto; try lia; try (rewrite S3, bitlen_mul_pow2 by lia; lia);
          rewrite S3; pose proof (pow2_gt0 n ltac:(lia)); intros; nia. }
        split; [exact S2|]. split; [auto|]. split; [auto|]. eapply Val; eauto; lia.
    + split. { destruct W as [A B C D E F]. constructor; unfold magnitude, wlen in *; cbn [nm mm mn ne]; auto; try lia. }
      split; [reflexivity|]. split; [auto|]. split; [auto|]. destruct x as [[w n] s e0 b]. cbn [nm ns ninexact].
      apply (Val w 0 e); unfold magnitude; cbn [nm mm]; try reflexivity; try lia; change (2 ^ 0) with 1; lia.
Qed.

(** ** Extremes *)

Lemma val_repeat_max n : val (repeat WORD_MAX n) = 2 ^ (64 * Z.of_nat n) - 1 /\ words_ok (repeat WORD_MAX n) /\ zlen (repeat WORD_MAX n) = Z.of_nat n.
Proof.
  induction n as [|n (A & B & C)]; [repeat split; constructor|]. cbn [repeat]. rewrite val_cons, zlen_cons, A, C.
  replace (64 * Z.of_nat (S n)) with (64 + 64 * Z.of_nat n) by lia. rewrite Z.pow_add_r by lia. change WORD_MAX with (2 ^ 64 - 1).
  split; [ring|]. split; [|lia]. apply ok_cons. split; [lia|exact B].
Qed.

Lemma F2R_le_exp a b j k : 0 <= j -> 0 <= a -> a * 2 ^ j <= b -> k - j <= 0 + (k - j) -> (F2R (Float radix2 a k) <= F2R (Float radix2 b (k - j)))%R.
Proof.
  intros Hj Ha H _. unfold F2R. cbn [Fnum Fexp]. replace k with (j + (k - j)) at 1 by lia. rewrite bpow_plus, bpow_IZR by lia. rewrite <- Rmult_assoc, <- mult_IZR.
  apply Rmult_le_compat_r; [apply bpow_ge_0|]. now apply IZR_le.
Qed.

Lemma abs_value_le_max y : wf y -> (Rabs (value y) <= F2R (Float radix2 (2 ^ (64 * wlen y) - 1) (EMAX - 64 * wlen y)))%R.
Proof.
  intros W. rewrite (abs_value y W). pose proof (val_bound _ (wf_words y W)) as VB. fold (magnitude y) (wlen y) in VB. pose proof (wf_exp y W).
  unfold F2R. cbn [Fnum Fexp]. apply Rmult_le_compat; [apply IZR_le; lia|apply bpow_ge_0|apply IZR_le; lia|]. apply bpow_le. lia.
Qed.

Theorem max_value_spec p : 0 < p -> prec_up p < P_LIM -> exists q q',
  max_value p = Ok q /\ min_value p = Ok q' /\ wf q /\ wf q' /\ 64 * wlen q = prec_up p /\ 64 * wlen q' = prec_up p /\ normal q /\ normal q' /\
  ns q = Pos /\ ns q' = Neg /\ value q' = (- value q)%R /\
  value q = F2R (Float radix2 (2 ^ prec_up p - 1) (EMAX - prec_up p)) /\
  (forall y, wf y -> 64 * wlen y = prec_up p -> (value q' <= value y <= value q)%R).
Proof.
  intros Hp HP. destruct (prec_up_ge p ltac:(lia)) as [A B]. unfold max_value, min_value. rewrite p_assertion_ok by lia. cbn [bind].
  unfold m_oned. set (l := wlen_of_bits p) in *. assert (Ll : 0 < l) by lia.
  destruct (val_repeat_max (Z.to_nat l)) as (V & O & L). rewrite Z2Nat.id in * by lia. set (w := repeat WORD_MAX (Z.to_nat l)) in *. clearbody w.
  assert (T : top_set w). { unfold top_set. rewrite L, V. replace (64 * l) with (1 + (64 * l - 1)) at 2 by lia. rewrite Z.pow_add_r by lia.
    change (2 ^ 1) with 2. pose proof (pow2_gt0 (64 * l - 1) ltac:(lia)). lia. }
  assert (E1 : EMIN = - 2147483648) by reflexivity. assert (E2 : EMAX = 2147483647) by reflexivity.
  destruct (make_normal w Pos EMAX false O ltac:(lia) ltac:(lia) T ltac:(lia)) as (N1 & N2 & N3 & N4).
  destruct (make_normal w Neg EMAX false O ltac:(lia) ltac:(lia) T ltac:(lia)) as (N1' & N2' & N3' & N4'). rewrite L, V in *. rewrite <- B in *.
  eexists. eexists. split; [reflexivity|]. split; [reflexivity|]. split; [exact N1|]. split; [exact N1'|]. split; [lia|]. split; [lia|]. split; [exact N2|]. split; [exact N2'|].
  split; [reflexivity|]. split; [reflexivity|].
  assert (Eq : value (mk_num (mk_m w (prec_up p)) Neg EMAX false) = (- value (mk_num (mk_m w (prec_up p)) Pos EMAX false))%R).
  { rewrite N4, N4'. rewrite !F2R_sgn. cbn [sgnR]. unfold sgnR. cbn [sgnZ]. ring. }
  split; [exact Eq|]. cbn [sgnZ] in N4. rewrite Z.mul_1_l in N4. split; [exact N4|].
  intros y Wy Ly. pose proof (abs_value_le_max y Wy) as M. rewrite Ly, <- N4 in M. rewrite Eq. now apply Rabs_le_inv.
Qed.

Theorem min_positive_spec p : 0 < p -> prec_up p < P_LIM -> exists q,
  min_positive p = Ok q /\ wf q /\ 64 * wlen q = prec_up p /\ ns q = Pos /\ value q = bpow radix2 (EMIN - prec_up p) /\
  (forall y, wf y -> 64 * wlen y = prec_up p -> (0 < value y)%R -> (value q <= value y)%R).
Proof.
  intros Hp HP. destruct (prec_up_ge p ltac:(lia)) as [A B]. unfold min_positive. rewrite p_assertion_ok by lia. cbn [bind].
  unfold m_min. set (l := wlen_of_bits p) in *. assert (Ll : 0 < l) by lia.
  destruct (zeros l) as [|z t] eqn:Ez. { pose proof (zlen_zeros l ltac:(lia)). rewrite Ez in H. change (zlen (@nil Z)) with 0 in H. lia. }
  pose proof (zlen_zeros l ltac:(lia)) as Lz. rewrite Ez, zlen_cons in Lz. pose proof (val_zeros l) as Vz. rewrite Ez, val_cons in Vz.
  assert (Oz : words_ok (z :: t)) by (rewrite <- Ez; apply ok_zeros). apply ok_cons in Oz as [O1 O2]. pose proof (val_nonneg t O2) as Vt.
  assert (Vt0 : val t = 0) by (pose proof (pow2_gt0 64 ltac:(lia)); nia). cbn [bind].
  assert (E1 : EMIN = - 2147483648) by reflexivity. assert (E2 : EMAX = 2147483647) by reflexivity.
  assert (V1 : val (1 :: t) = 1) by (rewrite val_cons; lia). assert (L1 : zlen (1 :: t) = l) by (rewrite zlen_cons; lia).
  assert (Vq : value (mk_num (mk_m (1 :: t) 1) Pos EMIN false) = bpow radix2 (EMIN - prec_up p)).
  { unfold value, magnitude, wlen. cbn [nm mm ns ne]. rewrite V1, L1, B. cbn [sgnZ]. change (1 * 1) with 1. unfold F2R. cbn [Fnum Fexp]. ring. }
  eexists. split; [reflexivity|]. split. { constructor; unfold magnitude, wlen; cbn [nm mm mn ne]; rewrite ?V1, ?L1; try lia; try reflexivity.
    apply ok_cons. split; [lia|auto]. }
  split; [unfold wlen; cbn [nm mm]; rewrite L1; lia|]. split; [reflexivity|]. split; [exact Vq|].
  intros y Wy Ly Py. rewrite Vq. rewrite <- (Rabs_pos_eq (value y)) by lra. rewrite (abs_value y Wy). unfold F2R. cbn [Fnum Fexp]. rewrite Ly.
  assert (My : magnitude y <> 0) by (intros Z0; rewrite (value_zero y Z0) in Py; lra). pose proof (val_nonneg _ (wf_words y Wy)) as Ny. fold (magnitude y) in Ny.
  rewrite <- (Rmult_1_l (bpow radix2 (EMIN - prec_up p))). apply Rmult_le_compat; [lra|apply bpow_ge_0|apply IZR_le; lia|apply bpow_le]. pose proof (wf_exp y Wy). lia.
Qed.

Theorem min_positive_normal_spec p : 0 < p -> prec_up p < P_LIM -> exists q,
  min_positive_normal p = Ok q /\ wf q /\ normal q /\ 64 * wlen q = prec_up p /\ ns q = Pos /\ value q = bpow radix2 (EMIN - 1) /\
  (forall y, wf y -> normal y -> (0 < value y)%R -> (value q <= value y)%R) /\
  (forall y, wf y -> nonzero y -> ~ normal y -> (Rabs (value y) < value q)%R).
Proof.
  intros Hp HP. destruct (prec_up_ge p ltac:(lia)) as [A B]. unfold min_positive_normal. rewrite p_assertion_ok by lia. cbn [bind].
  assert (S1 : WORD_SIG = 2 ^ 63) by reflexivity. assert (L2 : Z.log2 WORD_SIG = 63) by reflexivity.
  destruct (m_from_word_spec p WORD_SIG Hp ltac:(rewrite S1; split; reflexivity)) as [-> Ll]. cbn [bind]. rewrite L2. change (2 ^ (63 - 63)) with 1. rewrite Z.mul_1_r, S1.
  set (l := wlen_of_bits p) in *. destruct (top_word_words l (2 ^ 63) Ll ltac:(split; [lia|reflexivity])) as (W1 & W2 & W3 & W4).
  assert (E1 : EMIN = - 2147483648) by reflexivity. assert (E2 : EMAX = 2147483647) by reflexivity.
  destruct (make_normal _ Pos EMIN false W1 ltac:(lia) ltac:(lia) W3 ltac:(lia)) as (N1 & N2 & N3 & N4). rewrite W2, W4 in *.
  assert (Vq : value (mk_num (mk_m (zeros (l - 1) ++ [2 ^ 63]) (64 * l)) Pos EMIN false) = bpow radix2 (EMIN - 1)).
  { rewrite N4. cbn [sgnZ]. rewrite Z.mul_1_l. rewrite <- Z.pow_add_r by lia. unfold F2R. cbn [Fnum Fexp]. rewrite <- bpow_IZR by lia. rewrite <- bpow_plus. f_equal. lia. }
  eexists. split; [reflexivity|]. split; [exact N1|]. split; [exact N2|]. split; [lia|]. split; [reflexivity|]. split; [exact Vq|]. rewrite Vq. split.
  - intros y Wy [Ny1 Ny2] Py. rewrite <- (Rabs_pos_eq (value y)) by lra. destruct (norm_bounds y Wy Ny2) as [Lb _]. eapply Rle_trans; [|exact Lb]. apply bpow_le.
    unfold norm_exp. pose proof (wf_exp y Wy). lia.
  - intros y Wy Ny2 Sub. destruct (norm_bounds y Wy Ny2) as [_ Ub]. eapply Rlt_le_trans; [exact Ub|]. apply bpow_le. unfold norm_exp.
    destruct (nonzero_bits y Wy Ny2) as (_ & N0 & _). assert (mn (nm y) <> 64 * wlen y) by (intros Q; apply Sub; split; auto). pose proof (wf_sub y Wy ltac:(lia)). lia.
Qed.
