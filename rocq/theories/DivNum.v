(** Rounding by the remainder, and div on BigFloatNumber. *)

From Coq Require Import ZArith Reals List Bool Lia Lra.
From Flocq Require Import Core.
From Verif Require Import Words IntModel MulModel DivModel Mantissa Num SpecZ WordsP WordsP2 RoundP Spec RealP RealP2 NumP CmpP AddP SetP AddNum IntP MulP MulP2 MulNum DivP DivP2.
Import ListNotations.
Open Scope Z_scope.
Ltac Zify.zify_post_hook ::= idtac.
Arguments Z.mul : simpl never.
Arguments Z.add : simpl never.
Arguments Z.pow : simpl never.
Arguments Z.sub : simpl never.
Arguments Z.of_nat : simpl never.

Lemma add_ulp_spec m : words_ok m -> let '(r, c) := add_ulp m in
  words_ok r /\ zlen r = zlen m /\ val r + 2 ^ (64 * zlen m) * Z.b2z c = val m + 1.
Proof.
  induction m as [|v t IH]; intros Hm; cbn [add_ulp].
  - rewrite zlen_nil, val_nil. change (2 ^ (64 * 0)) with 1. repeat split; auto.
  - apply ok_cons in Hm as [Hv Ht]. destruct (add_carry v 0 1) as [r c] eqn:E. apply add_carry_spec in E; [|lia|lia|lia].
    destruct E as (E1 & E2 & E3). specialize (IH Ht). rewrite zlen_cons, pow64_succ by apply zlen_nonneg.
    destruct (Z.eqb_spec c 0) as [->|Hc].
    + rewrite !val_cons, zlen_cons. cbn [Z.b2z]. split; [apply ok_cons; auto|]. split; [auto|]. lia.
    + destruct (add_ulp t) as [t' b]. destruct IH as (I1 & I2 & I3). rewrite !val_cons, zlen_cons.
      split; [apply ok_cons; auto|]. split; [lia|]. assert (c = 1) by lia. subst c.
      remember (2 ^ (64 * zlen t)) as P. replace (r + 2 ^ 64 * val t' + 2 ^ 64 * P * Z.b2z b) with (r + 2 ^ 64 * (val t' + P * Z.b2z b)) by ring. lia.
Qed.

Definition end_words (q : words) (sticky : bool) (rm : rmode) (pos ix : bool) (P : Z) : Z * words * bool :=
  let '(q, de, ix) := sticky_words q sticky rm pos ix in
  let '(sh, q) := maximize q in
  let '(m3, ovf, ix) := round_to_words q P rm pos ix in
  (if ovf : bool then de - sh + 1 else de - sh, m3, ix).

Lemma end_round q P rm s ix E de : words_ok q -> 0 < val q -> 0 < P -> 64 * P <= bitlen (val q) ->
  let y := F2 s (val q) (E + de - 64 * zlen q) in
  let '(sh, q2) := maximize q in
  let '(m3, ovf, ix2) := round_to_words q2 P rm (is_pos s) ix in
  words_ok m3 /\ zlen m3 = P /\ top_set m3 /\
  F2 s (val m3) (E + (if ovf : bool then de - sh + 1 else de - sh) - 64 * P) = rnd_prec (64 * P) rm y /\
  (ix2 = true <-> ix = true \/ rnd_prec (64 * P) rm y <> y).
Proof.
  intros Hq Hv HP Hb y. destruct (maximize_spec q Hq Hv) as (q2 & -> & S0 & V2 & O2 & L2 & T2). set (sh := 64 * zlen q - bitlen (val q)) in *.
  assert (Hbl : bitlen (val q) <= 64 * zlen q) by (pose proof (val_bound q Hq); apply bitlen_le; [pose proof (zlen_nonneg q)|]; lia).
  pose proof (round_to_words_spec q2 P rm s ix (E + de - sh) O2 ltac:(unfold top_set; rewrite L2; apply T2) ltac:(clear - Hb Hbl HP L2; lia)) as R.
  destruct (round_to_words q2 P rm (is_pos s) ix) as [[m3 ovf] ix2]. cbv zeta in R. destruct R as (R1 & R2 & R3 & R4 & R5).
  rewrite V2, F2R_shift, L2 in R4, R5 by auto. replace (E + de - sh - 64 * zlen q + sh) with (E + de - 64 * zlen q) in R4, R5 by lia. fold y in R4, R5.
  split; [auto|]. split; [auto|]. split; [auto|]. split; [|auto]. rewrite <- R4. destruct ovf; cbn [Z.b2z]; f2eq.
Qed.

Lemma end_words_spec q sticky P rm s ix t E : words_ok q -> 0 < P -> 64 * P + 2 <= bitlen (val q) ->
  (if sticky : bool then (IZR (val q) < t < IZR (val q + 1))%R else t = IZR (val q)) ->
  let r := (sgnR s * t * bpow radix2 (E - 64 * zlen q))%R in
  let '(de, m3, ix2) := end_words q sticky rm (is_pos s) ix P in
  words_ok m3 /\ zlen m3 = P /\ top_set m3 /\ F2 s (val m3) (E + de - 64 * P) = rnd_prec (64 * P) rm r /\
  (ix2 = true <-> ix = true \/ rnd_prec (64 * P) rm r <> r).
Proof.
  intros Hq HP Hb Ht r. unfold end_words, sticky_words.
  assert (Hv : 0 < val q).
  { pose proof (val_nonneg q Hq). destruct (Z.eq_dec (val q) 0) as [e|]; [|lia]. rewrite e in Hb. change (bitlen 0) with 0 in Hb. lia. }
  pose proof (bitlen_spec (val q) Hv) as [B1 B2]. pose proof (val_bound q Hq) as Vb.
  assert (Lq : 0 < zlen q). { pose proof (zlen_nonneg q). destruct (Z.eq_dec (zlen q) 0) as [e|]; [|lia]. rewrite e in Vb. change (2 ^ (64 * 0)) with 1 in Vb. lia. }
  assert (Fin : forall q' de, words_ok q' -> 0 < val q' -> 64 * P <= bitlen (val q') ->
    rnd_prec (64 * P) rm r = rnd_prec (64 * P) rm (F2 s (val q') (E + de - 64 * zlen q')) -> rnd_prec (64 * P) rm r <> r ->
    let '(de1, m3, ix2) := (let '(sh, q2) := maximize q' in let '(m3, ovf, ix2) := round_to_words q2 P rm (is_pos s) true in
      (if ovf : bool then de - sh + 1 else de - sh, m3, ix2)) in
    words_ok m3 /\ zlen m3 = P /\ top_set m3 /\ F2 s (val m3) (E + de1 - 64 * P) = rnd_prec (64 * P) rm r /\
    (ix2 = true <-> ix = true \/ rnd_prec (64 * P) rm r <> r)).
  { intros q' de O V B Hr Hne. pose proof (end_round q' P rm s true E de O V HP B) as R. cbv zeta in R.
    destruct (maximize q') as [sh q2]. destruct (round_to_words q2 P rm (is_pos s) true) as [[m3 ovf] ix2].
    destruct R as (R1 & R2 & R3 & R4 & R5). rewrite <- Hr in R4. repeat (split; [auto|]). rewrite R5. tauto. }
  destruct sticky.
  - assert (Hne : rnd_prec (64 * P) rm r <> r) by (apply (round_neq (64 * P) rm s t (val q)); auto; lia).
    destruct (is_nearest rm) eqn:En.
    + destruct (or1_spec q Hq Lq) as (O1 & O2 & O3). set (q' := zupd 0 (Z.lor (znth 0 q) 1) q) in *.
      set (d := bitlen (val q) - 64 * P) in *. assert (Hd : 2 <= d) by (unfold d; lia).
      assert (Ed : 2 ^ (d - 1) = 2 * 2 ^ (d - 2)) by (replace (d - 1) with (1 + (d - 2)) by lia; rewrite pow2_split by lia; reflexivity).
      pose proof (pow2_gt0 (d - 2) ltac:(lia)) as Hh.
      set (c := val q / 2 ^ (d - 1)). pose proof (Z.div_mod (val q) (2 ^ (d - 1)) ltac:(lia)) as D. fold c in D.
      pose proof (Z.mod_pos_bound (val q) (2 ^ (d - 1)) ltac:(lia)) as M. set (rr := val q mod 2 ^ (d - 1)) in *.
      assert (Hq2 : val q <= val q' <= val q + 1 /\ val q' <= 2 * (val q / 2) + 1) by (rewrite O1; clear; dlia).
      assert (Hcell : c * 2 ^ (d - 1) < val q' < (c + 1) * 2 ^ (d - 1)).
      { rewrite O1. rewrite Ed in D, M |- *. remember (2 ^ (d - 2)) as h. clearbody rr c. clear - D M Hh.
        set (ch := c * h) in *. assert (2 * h * c = 2 * ch) by (unfold ch; ring). assert (c * (2 * h) = 2 * ch) by (unfold ch; ring). assert ((c + 1) * (2 * h) = 2 * ch + 2 * h) by (unfold ch; ring).
        clearbody ch. dlia. }
      assert (Hb' : bitlen (val q') = bitlen (val q)).
      { apply bitlen_unique; [lia|]. split; [lia|]. 
        assert (2 ^ bitlen (val q) = 2 * 2 ^ (bitlen (val q) - 1)) by (replace (bitlen (val q)) with (1 + (bitlen (val q) - 1)) at 1 by lia; rewrite pow2_split by lia; reflexivity).
        rewrite O1. clear - H B2. dlia. }
      apply Fin; auto; [lia|lia|].
      pose proof (round_sticky (64 * P) rm s t (val q') (E - 64 * zlen q) c) as RS. cbv zeta in RS. rewrite Hb' in RS. fold d in RS.
      rewrite O3, Z.add_0_r. apply RS; auto; try lia.
      destruct Hcell as [C1 C2]. split.
      * apply Rle_lt_trans with (IZR (val q)); [apply IZR_le; lia|apply Ht].
      * apply Rlt_le_trans with (IZR (val q + 1)); [apply Ht|apply IZR_le; lia].
    + destruct (rounds_away rm (is_pos s)) eqn:Ea.
      * pose proof (round_away (64 * P) rm s t (val q) (E - 64 * zlen q) Ea ltac:(lia) ltac:(lia) Hv Ht) as RA. fold r in RA.
        pose proof (add_ulp_spec q Hq) as U. destruct (add_ulp q) as [q1 c]. destruct U as (U1 & U2 & U3).
        pose proof (val_bound q1 U1) as Vb1. rewrite U2 in Vb1.
        assert (Pq := pow2_gt0 (64 * zlen q) ltac:(lia)). destruct c; cbn [Z.b2z] in U3.
        -- assert (Ez : val q1 = 0) by lia. assert (Eq : val q + 1 = 2 ^ (64 * zlen q)) by lia.
           assert (Enth : znth (zlen q1 - 1) q1 = 0) by (rewrite znth_val by (auto; lia); rewrite Ez, Z.div_0_l by (pose proof (pow2_gt0 (64 * (zlen q1 - 1))); lia); reflexivity).
           pose proof (zupd_val (zlen q1 - 1) WORD_SIG q1 ltac:(lia)) as ZV. rewrite Enth, Ez in ZV. change WORD_SIG with (2 ^ 63) in *.
           assert (ZV' : val (zupd (zlen q1 - 1) (2 ^ 63) q1) = 2 ^ (64 * zlen q - 1)).
           { rewrite ZV, Z.sub_0_r, Z.add_0_l, <- Z.pow_add_r by lia. f_equal. lia. }
           apply Fin.
           ++ apply ok_zupd; auto; lia.
           ++ rewrite ZV'. apply pow2_gt0. lia.
           ++ rewrite ZV'. rewrite (bitlen_unique _ (64 * zlen q)); [|lia|split; [lia|apply Z.pow_lt_mono_r; lia]].
              pose proof (bitlen_le (val q) (64 * zlen q)). lia.
           ++ rewrite RA. rewrite ZV', zlen_zupd, U2. f_equal. rewrite Eq.
              replace (64 * zlen q) with ((64 * zlen q - 1) + 1) at 1 by lia. rewrite (Z.pow_add_r 2) by lia. change (2 ^ 1) with 2.
              rewrite <- (Z.mul_comm 2), (Z.mul_comm 2). change 2 with (2 ^ 1) at 2. rewrite F2R_shift by lia. f2eq.
           ++ exact Hne.
        -- rewrite Z.mul_0_r, Z.add_0_r in U3. apply Fin; auto; [lia| |rewrite RA, U3, U2, Z.add_0_r; reflexivity].
           assert (bitlen (val q) <= bitlen (val q1)); [|lia].
           destruct (Z_le_gt_dec (bitlen (val q)) (bitlen (val q1))); auto. exfalso.
           pose proof (bitlen_spec (val q1) ltac:(lia)) as [_ B4].
           assert (2 ^ bitlen (val q1) <= 2 ^ (bitlen (val q) - 1)) by (apply Z.pow_le_mono_r; lia). lia.
      * pose proof (round_toward (64 * P) rm s t (val q) (E - 64 * zlen q) En Ea ltac:(lia) ltac:(lia) Hv ltac:(lra)) as RT. fold r in RT.
        apply Fin; auto; [lia|]. rewrite Z.add_0_r. exact RT.
  - assert (Er : r = F2 s (val q) (E + 0 - 64 * zlen q)) by (unfold r; rewrite Ht, F2R_sgn, Z.add_0_r; reflexivity).
    pose proof (end_round q P rm s ix E 0 Hq Hv HP ltac:(lia)) as R. cbv zeta in R. rewrite <- Er in R.
    destruct (maximize q) as [sh q2]. destruct (round_to_words q2 P rm (is_pos s) ix) as [[m3 ovf] ix2]. exact R.
Qed.

Lemma m_div_unfold m1 m2 p rm pos ix :
  m_div m1 m2 p rm pos ix =
  (let P := wlen_of_bits p in
   let k := Z.max (P + mlen m2) (mlen m1) + 1 in
   do (q, r) <- div_unbalanced (zeros (k - mlen m1) ++ mm m1) (mm m2);
   let '(de, m3, ix') := end_words q (negb (all_zero r)) rm pos ix P in
   Ok ((mlen m2 - k) * 64 + zlen q * 64 + de, mk_m m3 (64 * zlen m3), ix')).
Proof.
  unfold m_div, end_words. cbv zeta. destruct (div_unbalanced _ _) as [[q r]| |]; auto. cbn [bind].
  destruct (sticky_words _ _ _ _ _) as [[q' de] ix1]. destruct (maximize q') as [sh q2].
  destruct (round_to_words _ _ _ _ _) as [[m3 ovf] ix2]. do 2 f_equal. f_equal. destruct ovf; lia.
Qed.

Lemma quot_real a b q r : 0 < b -> a = q * b + r -> 0 <= r < b ->
  (if negb (r =? 0) then (IZR q < IZR a / IZR b < IZR (q + 1))%R else (IZR a / IZR b)%R = IZR q).
Proof.
  intros Hb Ha Hr. assert (HR : (0 < IZR b)%R) by now apply IZR_lt.
  assert (E : (IZR a / IZR b = IZR q + IZR r / IZR b)%R) by (rewrite Ha, plus_IZR, mult_IZR; field; lra).
  destruct (Z.eqb_spec r 0) as [->|N]; cbn [negb].
  - rewrite E. unfold Rdiv. rewrite Rmult_0_l. ring.
  - rewrite E, plus_IZR. assert (0 < IZR r / IZR b)%R by (apply Rdiv_lt_0_compat; auto; apply IZR_lt; lia).
    assert (IZR r / IZR b < 1)%R by (apply Rmult_lt_reg_r with (IZR b); auto; unfold Rdiv; rewrite Rmult_assoc, Rinv_l, Rmult_1_l, Rmult_1_r by lra; apply IZR_lt; lia). lra.
Qed.

Lemma m_div_spec m1 m2 P rm s ix e : words_ok (mm m1) -> words_ok (mm m2) -> 0 < zlen (mm m1) -> 0 < zlen (mm m2) ->
  top_set (mm m1) -> top_set (mm m2) -> 0 < P ->
  let r := (sgnR s * (IZR (val (mm m1)) / IZR (val (mm m2))) * bpow radix2 (e - 64 * zlen (mm m1) + 64 * zlen (mm m2)))%R in
  exists c m3 ix', m_div m1 m2 (64 * P) rm (is_pos s) ix = Ok (c, m3, ix') /\
  words_ok (mm m3) /\ zlen (mm m3) = P /\ mn m3 = 64 * P /\ top_set (mm m3) /\
  F2 s (val (mm m3)) (e + c - 64 * P) = rnd_prec (64 * P) rm r /\ (ix' = true <-> ix = true \/ rnd_prec (64 * P) rm r <> r).
Proof.
  intros O1 O2 L1 L2 T1 T2 HP r. rewrite m_div_unfold. cbv zeta. rewrite wlen_of_bits_64. unfold mlen.
  pose proof (val_bound _ O1) as V1. pose proof (val_bound _ O2) as V2. unfold top_set in T1, T2.
  destruct m1 as [w1 n1]. destruct m2 as [w2 n2]. cbn [mm] in *. clear n1 n2.
  set (k := Z.max (P + zlen w2) (zlen w1) + 1). assert (Hk : P + zlen w2 + 1 <= k /\ zlen w1 + 1 <= k) by (unfold k; clear; lia). clearbody k.
  assert (Ow : words_ok (zeros (k - zlen w1) ++ w1)) by (apply ok_app; auto using ok_zeros).
  assert (Lw : zlen (zeros (k - zlen w1) ++ w1) = k) by (rewrite zlen_app, zlen_zeros; plia).
  assert (Vw : val (zeros (k - zlen w1) ++ w1) = 2 ^ (64 * (k - zlen w1)) * val w1) by (apply val_zeros_app; plia).
  assert (T2' : 2 ^ (64 * (zlen w2 - 1)) <= val w2) by (apply Z.le_trans with (2 := T2); apply Z.pow_le_mono_r; plia).
  destruct (div_unbalanced_spec _ w2 Ow O2 ltac:(plia) T2') as (q & rr & -> & A1 & A2 & A3 & A4 & A5 & A6 & _). cbn [bind].
  rewrite Lw in A5. assert (Lq : zlen q = k - zlen w2 + 1) by plia. rewrite Vw in A1.
  assert (Pw2 : 0 < val w2) by (pose proof (pow2_gt0 (64 * (zlen w2 - 1)) ltac:(lia)); lia).
  assert (Hbl : 64 * (k - zlen w2) <= bitlen (val q)).
  { assert (Hge : 2 ^ (64 * (k - zlen w2) - 1) <= val q).
    { assert (H : 2 ^ (64 * (k - zlen w2) - 1) * val w2 < (val q + 1) * val w2).
      { apply Z.lt_le_trans with (2 ^ (64 * (k - zlen w2) - 1) * 2 ^ (64 * zlen w2)); [apply Z.mul_lt_mono_pos_l; [apply pow2_gt0; plia|apply V2]|].
        rewrite <- Z.pow_add_r by plia. replace (64 * (k - zlen w2) - 1 + 64 * zlen w2) with (64 * (k - zlen w1) + (64 * zlen w1 - 1)) by plia.
        rewrite Z.pow_add_r by plia. apply Z.le_trans with (2 ^ (64 * (k - zlen w1)) * val w1); [apply Z.mul_le_mono_nonneg_l; [apply pow2_nonneg|auto]|].
        rewrite A1. clear - A2. lia. }
      apply Z.mul_lt_mono_pos_r in H; auto. clear - H. lia. }
    assert (Pq : 0 < val q) by (pose proof (pow2_gt0 (64 * (k - zlen w2) - 1) ltac:(plia)); clear - H Hge; lia).
    destruct (Z_le_gt_dec (64 * (k - zlen w2)) (bitlen (val q))); auto. exfalso.
    pose proof (bitlen_spec (val q) Pq) as [_ B]. assert (2 ^ bitlen (val q) <= 2 ^ (64 * (k - zlen w2) - 1)) by (apply Z.pow_le_mono_r; plia). clear - B H Hge. lia. }
  rewrite all_zero_spec by auto.
  set (E := e + (zlen w2 - k) * 64 + zlen q * 64).
  pose proof (end_words_spec q (negb (val rr =? 0)) P rm s ix (IZR (2 ^ (64 * (k - zlen w1)) * val w1) / IZR (val w2)) E A3 HP ltac:(clear - Hbl Hk; lia)
    (quot_real _ _ _ _ Pw2 A1 (conj (val_nonneg _ A4) A2))) as EW. cbv zeta in EW.
  assert (Er : (sgnR s * (IZR (2 ^ (64 * (k - zlen w1)) * val w1) / IZR (val w2)) * bpow radix2 (E - 64 * zlen q))%R = r).
  { unfold r. rewrite mult_IZR, <- bpow_IZR by plia. replace (e - 64 * zlen w1 + 64 * zlen w2) with (64 * (k - zlen w1) + (E - 64 * zlen q)) by (unfold E; plia).
    rewrite bpow_plus. field. apply Rgt_not_eq, IZR_lt, Pw2. }
  rewrite Er in EW. destruct (end_words q _ rm (is_pos s) ix P) as [[de m3] ix']. destruct EW as (W1 & W2 & W3 & W4 & W5).
  do 3 eexists. split; [reflexivity|]. cbn [mm mn]. split; [auto|]. split; [auto|]. split; [plia|]. split; [auto|]. split; [|auto].
  rewrite <- W4. unfold E. f2eq.
Qed.

Lemma F2_div s1 s2 a b e1 e2 : 0 < b ->
  (F2 s1 a e1 / F2 s2 b e2)%R = (sgnR (sign_mul s1 s2) * (IZR a / IZR b) * bpow radix2 (e1 - e2))%R.
Proof.
  intros Hb. rewrite !F2R_sgn. unfold Z.sub. rewrite bpow_plus, bpow_opp. unfold sgnR.
  assert (IZR b <> 0)%R by (apply Rgt_not_eq, IZR_lt, Hb). pose proof (bpow_gt_0 radix2 e2).
  destruct s1, s2; cbn [sign_mul sign_eqb sgnZ]; field; split; lra.
Qed.

Theorem div_nonzero x y p rm : wf x -> wf y -> nonzero x -> nonzero y -> 0 < p -> prec_up p < P_LIM ->
  correctly_rounded (prec_up p) rm (value x / value y)%R (sign_mul (ns x) (ns y)) (ninexact x || ninexact y) (n_div x y p rm).
Proof.
  intros Wx Wy Nx Ny Hp Hlim. unfold n_div. rewrite !is_zero_false by auto. rewrite round_p_eq by (auto; lia).
  unfold prec_up in *. set (P := (p + 63) / 64) in *.
  assert (HP : 0 < P) by (unfold P; dlia). clearbody P. unfold p_assertion. replace (P_LIM <=? 64 * P) with false by lia. cbn [bind].
  destruct (normalize_spec x Wx Nx) as (m1 & -> & Ho1 & Hz1 & Hm1 & Ht1 & V1).
  destruct (normalize_spec y Wy Ny) as (m2 & -> & Ho2 & Hz2 & Hm2 & Ht2 & V2). cbn [bind].
  destruct (nonzero_bits x Wx Nx) as (_ & _ & L1). destruct (nonzero_bits y Wy Ny) as (_ & _ & L2).
  pose proof (top_set_pos (mm m1) ltac:(lia) Ht1) as P1. pose proof (top_set_pos (mm m2) ltac:(lia) Ht2) as P2.
  set (s := sign_mul (ns x) (ns y)). set (ix := ninexact x || ninexact y).
  assert (Hr : (value x / value y)%R = (sgnR s * (IZR (val (mm m1)) / IZR (val (mm m2))) * bpow radix2 (norm_exp x - norm_exp y - 64 * zlen (mm m1) + 64 * zlen (mm m2)))%R).
  { rewrite V1, V2, F2_div by auto. fold s. do 2 f_equal. plia. }
  destruct (m_div_spec m1 m2 P rm s ix (norm_exp x - norm_exp y) Ho1 Ho2 ltac:(lia) ltac:(lia) Ht1 Ht2 HP) as (c & m3 & ix' & -> & G1 & G2 & G3 & G4 & G5 & G6).
  cbn [bind]. rewrite <- Hr in G5, G6. destruct m3 as [w n]. cbn [mm mn] in *. subst n. apply finish_num_spec; auto.
Qed.

Lemma sign_div_has x y : wf x -> wf y -> nonzero x -> nonzero y -> has_sign (sign_mul (ns x) (ns y)) (value x / value y)%R.
Proof.
  intros Wx Wy Nx Ny. destruct (nonzero_bits x Wx Nx) as (P1 & _). destruct (nonzero_bits y Wy Ny) as (P2 & _).
  unfold value. rewrite F2_div by auto. unfold has_sign, sgnR. apply IZR_lt in P1, P2. pose proof (bpow_gt_0 radix2 (ne x - 64 * wlen x - (ne y - 64 * wlen y))) as B.
  assert (0 < IZR (magnitude x) / IZR (magnitude y) * bpow radix2 (ne x - 64 * wlen x - (ne y - 64 * wlen y)))%R by (apply Rmult_lt_0_compat; auto; apply Rdiv_lt_0_compat; auto).
  destruct (sign_mul _ _); cbn [sgnZ]; lra.
Qed.

Theorem div_by_zero x y p rm : wf x -> wf y -> magnitude y = 0 ->
  n_div x y p rm = Err (if magnitude x =? 0 then InvalidArgument else DivisionByZero).
Proof. intros Wx Wy H. unfold n_div. rewrite !is_zero_spec, H by auto. cbn. destruct (magnitude x =? 0); auto. Qed.

Theorem div_zero x y p rm : wf x -> wf y -> magnitude x = 0 -> nonzero y -> 0 <= p -> prec_up p < P_LIM ->
  n_div x y p rm = Ok (mk_num (m_new (prec_up p)) (sign_mul (ns x) (ns y)) 0 false).
Proof.
  intros Wx Wy H Ny Hp Hlim. unfold n_div. rewrite (is_zero_false y) by auto. rewrite round_p_eq by auto. unfold p_assertion, prec_up in *.
  replace (P_LIM <=? 64 * ((p + 63) / 64)) with false by lia. cbn [bind]. rewrite is_zero_spec, H by auto. cbn [Z.eqb].
  unfold n_new, p_assertion. replace (P_LIM <=? 64 * ((p + 63) / 64)) with false by lia. reflexivity.
Qed.

(** Reciprocal: division of ONE. *)
Lemma ONE_wf : wf ONE.
Proof.
  constructor.
  - unfold words_ok. cbn [ONE nm mm]. repeat constructor; lia.
  - reflexivity.
  - reflexivity.
  - cbn [ONE ne]. lia.
  - intros H. vm_compute in H. discriminate H.
  - intros [_ H]. vm_compute in H. discriminate H.
Qed.

Lemma ONE_nonzero : nonzero ONE.
Proof. unfold nonzero. vm_compute. congruence. Qed.

Lemma ONE_value : value ONE = 1%R.
Proof.
  unfold value. change (ne ONE - 64 * wlen ONE) with (-127). change (sgnZ (ns ONE) * magnitude ONE) with (2 ^ 127).
  unfold F2R. cbn [Fnum Fexp]. rewrite <- (bpow_IZR 127) by lia. rewrite <- bpow_plus. reflexivity.
Qed.

Theorem reciprocal_nonzero x p rm : wf x -> nonzero x -> 0 < p -> prec_up p < P_LIM ->
  correctly_rounded (prec_up p) rm (/ value x)%R (ns x) (ninexact x) (n_reciprocal x p rm).
Proof.
  intros W N Hp HP. pose proof (div_nonzero ONE x p rm ONE_wf W ONE_nonzero N Hp HP) as D.
  rewrite ONE_value in D. unfold Rdiv in D. rewrite Rmult_1_l in D.
  replace (sign_mul (ns ONE) (ns x)) with (ns x) in D by (destruct (ns x); reflexivity). exact D.
Qed.

Theorem reciprocal_zero x p rm : wf x -> magnitude x = 0 -> n_reciprocal x p rm = Err DivisionByZero.
Proof. intros W Z0. apply (div_by_zero ONE x p rm ONE_wf W Z0). Qed.
