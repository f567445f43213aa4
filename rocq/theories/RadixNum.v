(** Reading and writing digits in bases 2, 8 and 16: the real-number level. *)

From Coq Require Import ZArith Reals List Bool Lia Lra.
From Flocq Require Import Core.
From Verif Require Import Words Mantissa Num Ext Conv Parser SpecZ SpecText WordsP WordsP2 RoundP Spec RealP RealP2 NumP CmpP AddP SetP AddNum RadixP.
Import ListNotations.
Open Scope Z_scope.
Ltac Zify.zify_post_hook ::= idtac.
Arguments Z.mul : simpl never.
Arguments Z.add : simpl never.
Arguments Z.pow : simpl never.
Arguments Z.sub : simpl never.
Arguments Z.of_nat : simpl never.
Ltac dlia := Z.div_mod_to_equations; lia.

(** ** Values of digit strings *)

Lemma bpow_base (b : radix) k n : 0 <= k -> radix_val b = 2 ^ k -> bpow b n = bpow radix2 (k * n).
Proof.
  intros Hk Hb. assert (P : forall m, 0 <= m -> bpow b m = bpow radix2 (k * m)).
  { intros m Hm. rewrite <- !IZR_Zpower by (try apply Z.mul_nonneg_nonneg; lia). f_equal. rewrite Hb.
    change (radix_val radix2) with 2. rewrite Z.pow_mul_r by lia. reflexivity. }
  destruct (Z_le_gt_dec 0 n) as [Hn|Hn]; [apply P; exact Hn|].
  replace n with (- (- n)) by lia. rewrite bpow_opp, P by lia. rewrite <- bpow_opp. f_equal. lia.
Qed.


Lemma digits_value_eq r s ds e : r <> Dec ->
  digits_value r s ds e = F2 s (dig_val (2 ^ bits_of r) ds) (bits_of r * (e - zlen ds)).
Proof.
  intros Hr. unfold digits_value, F2R. cbn [Fnum Fexp]. fold (zlen ds).
  rewrite (bpow_base (radix_of r) (bits_of r)).
  - f_equal. f_equal. f_equal. destruct r; try congruence; reflexivity.
  - destruct r; cbn; lia.
  - destruct r; try congruence; reflexivity.
Qed.

Lemma digits_value_invert_zero r s s' ds e : r <> Dec -> dig_val (2 ^ bits_of r) ds = 0 -> digits_value r s ds e = 0%R /\ digits_value r s' ds e = 0%R.
Proof. intros Hr H. rewrite !digits_value_eq, H, !Z.mul_0_r by exact Hr. now rewrite !F2R_0. Qed.

(** ** Writing *)

Lemma to_digits_value x r : r <> Dec -> wf x -> 0 < wlen x ->
  exists ds e, (forall dec rm, convert_to_radix dec x r rm = Ok (ns x, ds, e)) /\
    digits_ok (rdx_num r) ds /\ digits_value r (ns x) ds e = value x /\
    (ds = [] <-> magnitude x = 0) /\ (ds = [] \/ last ds 0 <> 0) /\
    bits_of r * e - bits_of r < ne x <= bits_of r * e /\
    dig_val (2 ^ bits_of r) ds * 2 ^ (64 * wlen x + (bits_of r * e - ne x)) = magnitude x * 2 ^ (bits_of r * zlen ds).
Proof.
  intros Hr W HL. pose proof (wf_words x W) as Hok.
  assert (G : exists ds e es, (forall dec rm, convert_to_radix dec x r rm = Ok (ns x, ds, e)) /\ digits_ok (2 ^ bits_of r) ds /\ (ds = [] \/ last ds 0 <> 0) /\
    bits_of r * e = ne x + es /\ 0 <= es < bits_of r /\ dig_val (2 ^ bits_of r) ds * 2 ^ (64 * wlen x + es) = magnitude x * 2 ^ (bits_of r * zlen ds)).
  { destruct r; try congruence; cbn [bits_of convert_to_radix].
    - destruct (conv_to_binary_spec x Hok) as (ds & A & B & C & D). exists ds, (ne x), 0. split; [intros; exact A|]. split; [exact B|]. split; [exact C|]. split; [lia|]. split; [lia|].
      rewrite Z.add_0_r, Z.mul_1_l. exact D.
    - destruct (conv_to_commensurable_spec x 3 Hok HL ltac:(lia)) as (ds & e & es & A & B & C & D & F & G). exists ds, e, es. split; [intros; exact A|]. auto.
    - destruct (conv_to_commensurable_spec x 4 Hok HL ltac:(lia)) as (ds & e & es & A & B & C & D & F & G). exists ds, e, es. split; [intros; exact A|]. auto. }
  destruct G as (ds & e & es & A & B & C & D & F & G). exists ds, e. split; [exact A|].
  split; [destruct r; try congruence; exact B|].
  assert (Hk : 0 < bits_of r) by lia. pose proof (zlen_nonneg ds) as Hn.
  assert (P1 : 0 < 2 ^ (64 * wlen x + es)) by (apply pow2_gt0; lia).
  assert (P2 : 0 < 2 ^ (bits_of r * zlen ds)) by (apply pow2_gt0, Z.mul_nonneg_nonneg; lia).
  split; [|split; [|split; [exact C|split; [lia|]]]].
  - rewrite digits_value_eq by exact Hr. unfold value. rewrite Z.mul_sub_distr_l, D.
    replace (ne x + es - bits_of r * zlen ds) with (ne x - 64 * wlen x - bits_of r * zlen ds + (64 * wlen x + es)) by ring.
    rewrite <- F2R_shift by lia. rewrite G. rewrite F2R_shift by (apply Z.mul_nonneg_nonneg; lia). f_equal. f_equal. lia.
  - split; intros E.
    + subst ds. rewrite dig_val_nil in G. nia.
    + rewrite E in G. destruct C as [C|C]; [exact C|]. exfalso.
      destruct (exists_last (l := ds)) as (l & d & El); [intros ->; apply C; reflexivity|]. subst ds. rewrite last_last in C.
      rewrite dig_val_app, dig_val_single in G. apply dok_app in B. destruct B as [B1 B2]. apply dok_cons in B2. destruct B2 as [B2 _].
      pose proof (dig_val_bound (2 ^ bits_of r) l ltac:(destruct r; try congruence; cbn; lia) B1). 
      assert (0 <= (2 ^ bits_of r) ^ zlen [d]) by (apply Z.pow_nonneg, Z.pow_nonneg; lia). nia.
  - replace (bits_of r * e - ne x) with es by lia. exact G.
Qed.

(** The first digit of a normal number is not zero. *)
Lemma to_digits_first x r : r <> Dec -> wf x -> normal x ->
  exists ds e, (forall dec rm, convert_to_radix dec x r rm = Ok (ns x, ds, e)) /\ hd 0 ds <> 0.
Proof.
  intros Hr W [Nb Nz]. assert (HL : 0 < wlen x).
  { pose proof (zlen_nonneg (mm (nm x))). fold (wlen x) in H. pose proof (val_bound _ (wf_words x W)) as V. fold (wlen x) in V. fold (magnitude x) in V.
    destruct (Z.eq_dec (wlen x) 0) as [E|]; [|lia]. rewrite E in V. change (2 ^ (64 * 0)) with 1 in V. unfold nonzero in Nz. lia. }
  destruct (to_digits_value x r Hr W HL) as (ds & e & A & B & _ & Z0 & _ & E & G). exists ds, e. split; [exact A|].
  assert (Hm : 2 ^ (64 * wlen x - 1) <= magnitude x).
  { pose proof (wf_bits x W) as Wb. rewrite Nb in Wb. pose proof (bitlen_spec (magnitude x)) as Hs. rewrite <- Wb in Hs. apply Hs.
    pose proof (val_bound _ (wf_words x W)). unfold nonzero in Nz. fold (magnitude x) in H. lia. }
  assert (Nd : ds <> []) by (intros H; apply Z0 in H; unfold nonzero in Nz; contradiction).
  assert (Hk : 0 < bits_of r) by (destruct r; try congruence; cbn; lia).
  assert (Hb : rdx_num r = 2 ^ bits_of r) by (destruct r; try congruence; reflexivity). rewrite Hb in B.
  apply (dig_val_first (2 ^ bits_of r)); [|exact B|exact Nd|].
  - change 1 with (2 ^ 0). apply Z.pow_lt_mono_r; lia.
  - assert (Hn : 1 <= zlen ds) by (destruct ds; [congruence|rewrite zlen_cons; pose proof (zlen_nonneg ds); lia]).
    rewrite (pow_pow _ (bits_of r)) by (try reflexivity; lia). set (es := bits_of r * e - ne x) in *.
    apply (Z.mul_le_mono_pos_r _ _ (2 ^ (64 * wlen x + es))); [apply pow2_gt0; lia|]. rewrite G, <- Z.pow_add_r by nia.
    apply Z.le_trans with (2 ^ (64 * wlen x - 1) * 2 ^ (bits_of r * zlen ds)).
    + rewrite <- Z.pow_add_r by (try apply Z.mul_nonneg_nonneg; lia). apply Z.pow_le_mono_r; [lia|]. rewrite Z.mul_sub_distr_l. lia.
    + apply Z.mul_le_mono_nonneg_r; [|exact Hm]. apply Z.pow_nonneg. lia.
Qed.

(** ** Rounding through a sticky bit on the subnormal grid *)

Lemma cexp_grid p x : 0 < p -> x <> 0%R -> (Rabs x < bpow radix2 EMIN)%R -> cexp radix2 (FLT_exp (EMIN - p) p) x = EMIN - p.
Proof.
  intros Hp Hx Hb. unfold cexp, FLT_exp. pose proof (mag_le_bpow radix2 x EMIN Hx Hb) as M. lia.
Qed.

Lemma grad_sticky p rm s t Y k c :
  let d := EMIN - p - k in
  0 < p -> 1 <= d -> 0 < Y -> (0 < t)%R -> (t < IZR (2 ^ (p + d)))%R -> Y < 2 ^ (p + d) ->
  (IZR (c * 2 ^ (d - 1)) < t < IZR ((c + 1) * 2 ^ (d - 1)))%R -> c * 2 ^ (d - 1) < Y < (c + 1) * 2 ^ (d - 1) ->
  rnd_grad p rm (sgnR s * t * bpow radix2 k) = rnd_grad p rm (F2 s Y k) /\
  rnd_grad p rm (sgnR s * t * bpow radix2 k) <> (sgnR s * t * bpow radix2 k)%R /\
  rnd_grad p rm (F2 s Y k) <> F2 s Y k.
Proof.
  intros d Hp Hd HY Ht0 Ht1 HY1 Ht HYc.
  assert (B : forall u, (0 < u)%R -> (u < IZR (2 ^ (p + d)))%R -> cexp radix2 (FLT_exp (EMIN - p) p) (sgnR s * u * bpow radix2 k) = EMIN - p).
  { intros u Hu0 Hu1. pose proof (bpow_gt_0 radix2 k) as Pk. apply cexp_grid; [exact Hp| |].
    - intros E. apply Rmult_integral in E. destruct E as [E|E]; [|lra]. apply Rmult_integral in E. destruct E as [E|E]; [|lra].
      destruct (sgnR_cases s) as [G|G]; rewrite G in E; lra.
    - rewrite Rmult_assoc, sgnR_abs by (apply Rmult_le_pos; lra). 
      replace EMIN with (p + d + k) by (unfold d; lia). rewrite bpow_plus, (bpow_IZR (p + d)) by lia. apply Rmult_lt_compat_r; lra. }
  pose proof (B t Ht0 Ht1) as C1. pose proof (B (IZR Y) (IZR_lt _ _ HY) (IZR_lt _ _ HY1)) as C2. clear B.
  replace (EMIN - p) with (k + d) in C1, C2 by (unfold d; lia).
  pose proof (cell_scale s t d c Hd Ht) as Cell1.
  assert (Cell2 : in_cell (match s with Pos => c | Neg => - (c + 1) end) (sgnR s * (IZR Y * bpow radix2 (- d)))).
  { apply cell_scale; [exact Hd|]. split; apply IZR_lt; lia. }
  rewrite F2R_sgn. unfold rnd_grad, round, scaled_mantissa. replace (EMIN - p) with (k + d) in * by (unfold d; lia). rewrite C1, C2, !scaled_sgn.
  assert (NI : forall u, in_cell (match s with Pos => c | Neg => - (c + 1) end) (sgnR s * (u * bpow radix2 (- d))) ->
     F2R (Float radix2 (rnd rm (sgnR s * (u * bpow radix2 (- d)))) (k + d)) <> (sgnR s * u * bpow radix2 k)%R).
  { intros u Cu E. unfold F2R in E; cbn [Fnum Fexp] in E.
    apply (f_equal (fun v => v * bpow radix2 (- (k + d)))%R) in E. rewrite scaled_sgn in E.
    rewrite Rmult_assoc, <- bpow_plus in E. replace (k + d + - (k + d)) with 0 in E by lia. cbn [bpow] in E. rewrite Rmult_1_r in E.
    symmetry in E. revert E. eapply cell_not_int. apply Cu. }
  split; [|split; [apply NI; exact Cell1|apply NI; exact Cell2]].
  do 2 f_equal. now apply (rnd_same_cell rm _ _ _ Cell1).
Qed.

Lemma lor1 M : Z.lor M 1 = 2 * (M / 2) + 1.
Proof.
  pose proof (Z.div_mod M 2 ltac:(lia)) as DM. assert (Hm : M mod 2 = 0 \/ M mod 2 = 1) by (pose proof (Z.mod_pos_bound M 2 ltac:(lia)); lia).
  destruct Hm as [Hm|Hm].
  - rewrite (lor_disjoint_add M 1 1); [lia|lia|exact Hm|change (2 ^ 1) with 2; lia].
  - replace (2 * (M / 2) + 1) with M by lia. apply Z.bits_inj'. intros i Hi. rewrite Z.lor_spec.
    destruct (Z.eq_dec i 0) as [->|Hi0].
    + rewrite !Z.bit0_odd. rewrite (Zmod_odd M) in Hm. destruct (Z.odd M); [reflexivity|discriminate].
    + assert (Z.testbit 1 i = false) as -> by (apply Z.bits_above_log2; [lia|]; change (Z.log2 1) with 0; lia). apply orb_false_r.
Qed.

(** An integer with its low [sh] bits replaced by a sticky bit rounds alike. *)
Lemma grad_shift_sticky p rm s V sh k :
  let d := EMIN - p - k in let M := V / 2 ^ sh in
  0 < p -> 2 <= d -> 0 <= sh -> 0 < V -> V < 2 ^ (p + d + sh) -> 0 < M -> V mod 2 ^ sh <> 0 ->
  rnd_grad p rm (F2 s V (k - sh)) = rnd_grad p rm (F2 s (Z.lor M 1) k) /\
  rnd_grad p rm (F2 s V (k - sh)) <> F2 s V (k - sh) /\ rnd_grad p rm (F2 s (Z.lor M 1) k) <> F2 s (Z.lor M 1) k.
Proof.
  intros d M Hp Hd Hsh HV HVb HM Hr. assert (Psh : 0 < 2 ^ sh) by (apply pow2_gt0; lia).
  pose proof (lor1 M) as Elor.
  assert (Ev : F2 s V (k - sh) = (sgnR s * (IZR V * bpow radix2 (- sh)) * bpow radix2 k)%R).
  { rewrite F2R_sgn. unfold Zminus. rewrite bpow_plus. ring. }
  rewrite Ev. set (t := (IZR V * bpow radix2 (- sh))%R).
  assert (Et : t = (IZR V / IZR (2 ^ sh))%R) by (unfold t; rewrite bpow_opp_IZR by lia; reflexivity).
  pose proof (Z.div_mod V (2 ^ sh) ltac:(lia)) as DM. fold M in DM. pose proof (Z.mod_pos_bound V (2 ^ sh) Psh) as MB.
  assert (PR : (0 < IZR (2 ^ sh))%R) by (apply IZR_lt; lia).
  assert (L1 : (IZR M < t)%R). { rewrite Et. apply Rmult_lt_reg_r with (IZR (2 ^ sh)); [exact PR|]. unfold Rdiv. rewrite Rmult_assoc, Rinv_l, Rmult_1_r by lra. rewrite <- mult_IZR. apply IZR_lt. nia. }
  assert (L2 : (t < IZR (M + 1))%R). { rewrite Et. apply Rmult_lt_reg_r with (IZR (2 ^ sh)); [exact PR|]. unfold Rdiv. rewrite Rmult_assoc, Rinv_l, Rmult_1_r by lra. rewrite <- mult_IZR. apply IZR_lt. nia. }
  assert (HMb : M + 1 <= 2 ^ (p + d)).
  { assert (M < 2 ^ (p + d)); [|lia]. apply Z.div_lt_upper_bound; [lia|]. rewrite <- Z.pow_add_r by lia. replace (sh + (p + d)) with (p + d + sh) by lia. exact HVb. }
  set (h := 2 ^ (d - 1)). assert (Eh : h = 2 * 2 ^ (d - 2)) by (unfold h; rewrite <- Z.pow_succ_r by lia; f_equal; lia).
  assert (Ph : 0 < 2 ^ (d - 2)) by (apply pow2_gt0; lia).
  pose proof (Z.div_mod M h ltac:(lia)) as DH. pose proof (Z.mod_pos_bound M h ltac:(lia)) as MH. set (c := M / h) in *.
  pose proof (Z.div_mod M 2 ltac:(lia)) as D2. pose proof (Z.mod_pos_bound M 2 ltac:(lia)) as M2.
  assert (E2 : 2 ^ (p + d) = 2 * 2 ^ (p + d - 1)) by (rewrite <- Z.pow_succ_r by lia; f_equal; lia).
  assert (Bc : c * h <= M /\ M + 1 <= (c + 1) * h) by lia.
  apply (grad_sticky p rm s t (Z.lor M 1) k c); fold d; fold h.
  - exact Hp.
  - lia.
  - lia.
  - apply Rlt_trans with (IZR M); [apply IZR_lt; lia|exact L1].
  - apply Rlt_le_trans with (IZR (M + 1)); [exact L2|apply IZR_le; exact HMb].
  - rewrite Elor. lia.
  - split; [apply Rle_lt_trans with (IZR M); [apply IZR_le; lia|exact L1]|].
    apply Rlt_le_trans with (IZR (M + 1)); [exact L2|apply IZR_le; lia].
  - rewrite Elor. assert (c * h = 2 * (c * 2 ^ (d - 2))) by (rewrite Eh; ring). assert ((c + 1) * h = 2 * ((c + 1) * 2 ^ (d - 2))) by (rewrite Eh; ring). lia.
Qed.

(** ** Reading: the number built from the digits *)

Lemma top_num_wf m s e ix : words_ok m -> 0 < zlen m -> 64 * zlen m < P_LIM -> top_set m -> EMIN <= e <= EMAX ->
  let x := mk_num (mk_m m (64 * zlen m)) s e ix in wf x /\ normal x /\ value x = F2 s (val m) (e - 64 * zlen m).
Proof.
  intros Hok HL Hlim Ht He x. pose proof (top_set_bitlen m Hok HL Ht) as B. pose proof (top_set_pos m HL Ht) as P.
  split; [|split; [|reflexivity]].
  - constructor; unfold x, magnitude, wlen; cbn [nm ne mm mn]; try lia; auto.
  - unfold normal, nonzero, x, magnitude, wlen. cbn [nm mm mn]. lia.
Qed.

Lemma read_normal m s e p rm : words_ok m -> 0 < zlen m -> 64 * zlen m < P_LIM -> top_set m -> EMIN <= e <= EMAX ->
  0 < p < P_LIM -> p mod 64 = 0 ->
  reads_as p rm (F2 s (val m) (e - 64 * zlen m)) s (set_precision (mk_num (mk_m m (64 * zlen m)) s e false) p rm).
Proof.
  intros Hok HL Hlim Ht He Hp Hm. destruct (top_num_wf m s e false Hok HL Hlim Ht He) as (W & N & V). set (x := mk_num _ _ _ _) in *.
  assert (Pu : prec_up p = p) by (unfold prec_up; clear -Hm; dlia).
  destruct (set_precision_spec x p rm W ltac:(lia) ltac:(lia) ltac:(right; left; split; [exact Hm|exact N])) as [A B].
  unfold reads_as. rewrite <- V. split; [exact A|]. intros H. destruct (B H) as (q & Q1 & Q2 & Q3 & Q4 & Q5 & Q6).
  exists q. split; [exact Q1|]. split; [exact Q2|]. split; [rewrite Q3; clear -Hm; dlia|]. split; [exact Q4|]. split; [exact Q5|].
  rewrite Q6. change (ninexact x) with false. split; [intros [?|?]; [discriminate|assumption]|intros ?; right; assumption].
Qed.

Lemma subnormalize_none m s e : words_ok m -> 0 < zlen m -> top_set m -> e < EMIN -> EMIN < 64 * zlen m + e ->
  exists w, subnormalize (mk_num (mk_m m (64 * zlen m)) s EMIN false) e RNone =
    mk_num (mk_m w (bitlen (val w))) s EMIN (negb (val m mod 2 ^ (EMIN - e) =? 0)) /\
    words_ok w /\ zlen w = zlen m /\ val w = val m / 2 ^ (EMIN - e).
Proof.
  intros Hok HL Ht He Hw. pose proof (top_set_pos m HL Ht) as P.
  unfold subnormalize, is_zero, m_is_zero, is_positive. cbn [nm mn mm ns ne ninexact]. unfold max_bit_len, mlen. cbn [mm].
  replace (64 * zlen m =? 0) with false by lia. replace (EMIN <? 64 * zlen m + e) with true by lia.
  destruct (round_mantissa_none m (EMIN - e) (is_pos s) false (64 * zlen m) false Hok ltac:(lia)) as (R1 & R2 & R3 & R4).
  cbv zeta. rewrite R1, R2, R4. replace (0 <? EMIN - e) with true by lia. cbn [orb].
  unfold m_update_bit_len, m_shift_right. cbn [mm mn].
  destruct (shift_slice_right_spec m (EMIN - e) Hok ltac:(lia)) as (A & B & C).
  exists (shift_slice_right m (EMIN - e)). rewrite find_bit_len_spec by exact B. unfold rres_inexact. cbn [orb].
  split; [reflexivity|]. split; [exact B|]. split; [exact C|exact A].
Qed.

Lemma val_lor1 v t : words_ok (v :: t) -> val (Z.lor v 1 :: t) = Z.lor (val (v :: t)) 1 /\ words_ok (Z.lor v 1 :: t).
Proof.
  intros H. apply ok_cons in H. destruct H as [Hv Ht]. rewrite !val_cons, !lor1. 
  assert (E : (v + 2 ^ 64 * val t) / 2 = v / 2 + 2 ^ 63 * val t).
  { replace (v + 2 ^ 64 * val t) with (v + (2 ^ 63 * val t) * 2) by (change (2 ^ 64) with (2 ^ 63 * 2); ring). apply Z.div_add. lia. }
  rewrite E. split; [change (2 ^ 64) with (2 * 2 ^ 63); ring|]. apply ok_cons. split; [|exact Ht].
  change (2 ^ 64) with (2 * 2 ^ 63) in *. clear -Hv. dlia.
Qed.

Lemma bitlen_lor1 M : 0 < M -> bitlen (Z.lor M 1) = bitlen M.
Proof.
  intros H. pose proof (bitlen_spec M H) as [A B]. pose proof (bitlen_pos M H) as P. rewrite lor1.
  assert (E : M = 2 * (M / 2) \/ M = 2 * (M / 2) + 1) by (clear; dlia).
  apply bitlen_unique; [exact P|]. split; [lia|].
  assert (2 ^ bitlen M = 2 * 2 ^ (bitlen M - 1)) by (rewrite <- Z.pow_succ_r by lia; f_equal; lia). lia.
Qed.

(** conv.rs 242-246: room for the bits the underflow drops. *)
Lemma extend_ok m s p : words_ok m -> 0 < zlen m -> 64 * zlen m < P_LIM -> top_set m -> 0 < p -> p mod 64 = 0 -> p + 64 < P_LIM ->
  let x := mk_num (mk_m m (64 * zlen m)) s EMIN false in
  exists w, (if mantissa_max_bit_len x <? p + 64 then set_precision x (p + 64) RNone else Ok x) = Ok (mk_num (mk_m w (64 * zlen w)) s EMIN false) /\
    words_ok w /\ zlen m <= zlen w /\ p + 64 <= 64 * zlen w < P_LIM /\ top_set w /\ forall e, F2 s (val w) (e - 64 * zlen w) = F2 s (val m) (e - 64 * zlen m).
Proof.
  intros Hok HL Hlim Ht Hp Hm HpL x. unfold x, mantissa_max_bit_len, max_bit_len, mlen. cbn [nm mm].
  destruct (Z.ltb_spec (64 * zlen m) (p + 64)) as [Hlt|Hge].
  2:{ exists m. split; [reflexivity|]. split; [exact Hok|]. split; [lia|]. split; [lia|]. split; [exact Ht|reflexivity]. }
  unfold set_precision, set_precision_internal, p_assertion, mantissa_max_bit_len, max_bit_len, mlen. cbn [nm mm ns ne ninexact].
  replace (P_LIM <=? p + 64) with false by lia. cbn [bind].
  replace (p + 64 <? 64 * zlen m) with false by lia. cbn [andb]. replace (p + 64 =? 0) with false by lia. cbn [bind].
  pose proof (top_set_bitlen m Hok HL Ht) as B. pose proof (top_set_pos m HL Ht) as Pv.
  assert (EP : 64 * ((p + 64 + 63) / 64) = p + 64) by (clear -Hm; dlia).
  set (mw := m_set_length (mk_m m (64 * zlen m)) (p + 64)).
  assert (Spec : forall e, words_ok (mm mw) /\ zlen (mm mw) = (p + 64 + 63) / 64 /\ mn mw = bitlen (val (mm mw)) /\ (val (mm mw) = 0 <-> val m = 0) /\
     F2 s (val (mm mw)) (e - 64 * ((p + 64 + 63) / 64)) = F2 s (val m) (e - 64 * zlen m) /\ (val m <> 0 -> 64 * ((p + 64 + 63) / 64) - mn mw = 64 * zlen m - 64 * zlen m)).
  { intros e. apply (m_set_length_spec m (64 * zlen m) (p + 64) s e Hok); [symmetry; exact B|lia|lia]. }
  destruct (Spec 0) as (S1 & S2 & S3 & S4 & _ & S6). specialize (S6 ltac:(lia)).
  exists (mm mw). assert (Em : mn mw = 64 * zlen (mm mw)) by lia. split.
  { f_equal. f_equal. destruct mw as [w n]. cbn [mm mn] in *. subst n. f_equal. lia. }
  split; [exact S1|]. split; [lia|]. split; [lia|]. split.
  { unfold top_set. pose proof (val_nonneg _ S1). assert (Pw : 0 < val (mm mw)) by (destruct (Z.eq_dec (val (mm mw)) 0) as [E0|]; [apply S4 in E0; lia|lia]).
    pose proof (bitlen_spec _ Pw) as [L _]. rewrite <- S3, Em in L. exact L. }
  intros e. destruct (Spec e) as (_ & _ & _ & _ & G & _). rewrite S2. exact G.
Qed.

Definition sticky_num (x : num) : result num :=
  if ninexact x then
    match mm (nm x) with
    | [] => Panic
    | v :: t => Ok (mk_num (mk_m (Z.lor v 1 :: t) (mn (nm x))) (ns x) (ne x) true)
    end
  else Ok x.

(** In the window where bits remain. *)
Lemma read_sub_window m s e p rm : words_ok m -> 64 * zlen m < P_LIM -> top_set m -> e < EMIN -> EMIN < 64 * zlen m + e ->
  0 < p -> p mod 64 = 0 -> p + 64 <= 64 * zlen m -> rm <> RNone ->
  reads_as p rm (F2 s (val m) (e - 64 * zlen m)) s
    (do ret <- sticky_num (subnormalize (mk_num (mk_m m (64 * zlen m)) s EMIN false) e RNone); set_precision ret p rm).
Proof.
  intros Hok Hlim Ht He Hw Hp Hm HpL Hrm. assert (HL : 0 < zlen m) by lia.
  destruct (subnormalize_none m s e Hok HL Ht He Hw) as (w & E & W1 & W2 & W3). rewrite E. clear E.
  pose proof (top_set_pos m HL Ht) as Pv. pose proof (val_bound m Hok) as Vb. set (sh := EMIN - e) in *.
  assert (Psh : 0 < 2 ^ sh) by (apply pow2_gt0; lia).
  assert (HM : 0 < val w).
  { rewrite W3. assert (1 <= val m / 2 ^ sh); [|lia]. apply Z.div_le_lower_bound; [lia|]. unfold top_set in Ht.
    assert (2 ^ sh <= 2 ^ (64 * zlen m - 1)) by (apply Z.pow_le_mono_r; lia). lia. }
  assert (Wb : val w < 2 ^ (64 * zlen m - sh)).
  { rewrite W3. apply Z.div_lt_upper_bound; [lia|]. rewrite <- Z.pow_add_r by lia. now replace (sh + (64 * zlen m - sh)) with (64 * zlen m) by lia. }
  assert (Bw : bitlen (val w) <= 64 * zlen m - sh) by (apply bitlen_le; [lia|]; lia).
  assert (Bp : 0 < bitlen (val w)) by (apply bitlen_pos; exact HM).
  assert (Pu : prec_up p = p) by (unfold prec_up; clear -Hm; dlia).
  assert (Fin : forall y r, words_ok y -> zlen y = zlen m -> 0 < val y -> bitlen (val y) = bitlen (val w) ->
     forall ix, (ix = true -> rnd_grad p rm r <> r) ->
     rnd_grad p rm r = rnd_grad p rm (F2 s (val y) (EMIN - 64 * zlen m)) ->
     (ix = false -> r = F2 s (val y) (EMIN - 64 * zlen m)) ->
     reads_as p rm r s (set_precision (mk_num (mk_m y (bitlen (val w))) s EMIN ix) p rm)).
  { intros y r Y1 Y2 Y3 Y4 ix I1 I2 I3. set (x := mk_num _ _ _ _).
    assert (Wx : wf x) by (constructor; unfold x, magnitude, wlen; cbn [nm ne mm mn]; rewrite ?Y2, ?Y4; auto; lia).
    assert (Vx : value x = F2 s (val y) (EMIN - 64 * zlen m)) by (unfold value, magnitude, wlen, x; cbn [nm ns ne mm]; now rewrite Y2).
    destruct (set_precision_spec x p rm Wx Hp ltac:(rewrite Pu; lia) ltac:(left; exact Hrm)) as [A B].
    rewrite Vx, <- I2 in A, B. unfold reads_as. split; [exact A|]. intros H. destruct (B H) as (q & Q1 & Q2 & Q3 & Q4 & Q5 & Q6).
    exists q. split; [exact Q1|]. split; [exact Q2|]. split; [rewrite Q3; clear -Hm; dlia|]. split; [exact Q4|]. split; [exact Q5|].
    rewrite Q6. change (ninexact x) with ix. destruct ix.
    - split; [intros _; apply I1; reflexivity|intros _; left; reflexivity].
    - rewrite <- (I3 eq_refl). split; [intros [?|?]; [discriminate|assumption]|intros ?; right; assumption]. }
  unfold sticky_num. cbn [nm mm mn ns ne ninexact].
  destruct (Z.eqb_spec (val m mod 2 ^ sh) 0) as [Ez|Nz]; cbn [negb bind].
  - assert (Ex : F2 s (val m) (e - 64 * zlen m) = F2 s (val w) (EMIN - 64 * zlen m)).
    { apply Z_div_exact_full_2 in Ez; [|lia]. rewrite W3. replace (EMIN - 64 * zlen m) with (e - 64 * zlen m + sh) by (unfold sh; lia).
      rewrite <- F2R_shift by lia. rewrite (Z.mul_comm (val m / 2 ^ sh)), <- Ez. reflexivity. }
    rewrite Ex. apply Fin; [exact W1|exact W2|exact HM|reflexivity|discriminate|reflexivity|reflexivity].
  - destruct w as [|v t]; [rewrite val_nil in HM; lia|]. cbn [bind]. destruct (val_lor1 v t W1) as [L1 L2].
    replace (e - 64 * zlen m) with (EMIN - 64 * zlen m - sh) by (unfold sh; lia).
    destruct (grad_shift_sticky p rm s (val m) sh (EMIN - 64 * zlen m)) as (G1 & G2 & G3); rewrite <- ?W3; try lia.
    { replace (p + (EMIN - p - (EMIN - 64 * zlen m)) + sh) with (64 * zlen m + sh) by lia.
      assert (2 ^ (64 * zlen m) <= 2 ^ (64 * zlen m + sh)) by (apply Z.pow_le_mono_r; lia). lia. }
    rewrite <- W3, <- L1 in G1.
    apply Fin; [exact L2|rewrite <- W2, !zlen_cons; reflexivity| | | | |discriminate].
    + rewrite L1, lor1. clear -HM. dlia.
    + rewrite L1. apply bitlen_lor1, HM.
    + intros _. exact G2.
    + exact G1.
Qed.

Lemma rndN_tiny rm pos X n : 0 <= X -> 0 <= n -> 2 * X < 2 ^ n -> rounds_away rm pos = false -> rndN rm pos X n = 0.
Proof.
  intros HX Hn Hb Ha. unfold rndN, rup. assert (X < 2 ^ n) by lia. rewrite Z.div_small, Z.mod_small by lia.
  destruct rm; cbn [rounds_away] in Ha; try discriminate; try reflexivity.
  - destruct pos; [discriminate|reflexivity].
  - destruct pos; [reflexivity|discriminate].
  - replace (2 ^ n <? 2 * X) with false by lia. replace (2 * X =? 2 ^ n) with false by lia. reflexivity.
  - replace (2 ^ n <? 2 * X) with false by lia. replace (2 * X =? 2 ^ n) with false by lia. reflexivity.
Qed.

(** Below the window all bits are lost. *)
Lemma read_sub_far m s e p rm : words_ok m -> 64 * zlen m < P_LIM -> top_set m -> 64 * zlen m + e <= EMIN ->
  0 < p -> p mod 64 = 0 -> p + 64 <= 64 * zlen m -> rm <> RNone -> rounds_away rm (is_pos s) = false ->
  reads_as p rm (F2 s (val m) (e - 64 * zlen m)) s
    (do ret <- sticky_num (subnormalize (mk_num (mk_m m (64 * zlen m)) s EMIN false) e RNone); set_precision ret p rm).
Proof.
  intros Hok Hlim Ht Hw Hp Hm HpL Hrm Ha. assert (HL : 0 < zlen m) by lia.
  pose proof (top_set_bitlen m Hok HL Ht) as Hbl. pose proof (top_set_pos m HL Ht) as HV. pose proof (val_bound m Hok) as Vb.
  assert (Hz : rnd_grad p rm (F2 s (val m) (e - 64 * zlen m)) = 0%R).
  { rewrite grad_small by lia. rewrite rndN_tiny; [rewrite Z.mul_0_r; apply F2R_0|lia|lia| |exact Ha].
    assert (2 ^ (64 * zlen m + 1) <= 2 ^ (EMIN - p - (e - 64 * zlen m))) by (apply Z.pow_le_mono_r; lia).
    rewrite Z.pow_add_r in H by lia. change (2 ^ 1) with 2 in H. lia. }
  assert (Hzn : (0 <> F2 s (val m) (e - 64 * zlen m))%R).
  { intros E. symmetry in E. apply eq_0_F2R in E. destruct s; cbn [sgnZ] in E; lia. }
  unfold reads_as. rewrite Hz. split.
  { intros H. exfalso. rewrite Rabs_R0 in H. pose proof (bpow_gt_0 radix2 EMAX). apply (Rlt_not_le _ _ H0 H). }
  intros _. unfold subnormalize, is_zero, m_is_zero, is_positive. cbn [nm mn mm ns ne ninexact]. unfold max_bit_len, mlen. cbn [mm].
  replace (64 * zlen m =? 0) with false by lia. replace (EMIN <? 64 * zlen m + e) with false by lia. cbn [rounds_away].
  unfold sticky_num, m_set_zero, mlen. cbn [nm mm mn ns ne ninexact].
  assert (Ez : zeros (zlen m) = 0 :: zeros (zlen m - 1)).
  { unfold zeros. replace (Z.to_nat (zlen m)) with (S (Z.to_nat (zlen m - 1))) by lia. reflexivity. }
  rewrite Ez. cbn [bind]. change (Z.lor 0 1) with 1.
  set (w := 1 :: zeros (zlen m - 1)). assert (W1 : words_ok w) by (apply ok_cons; split; [lia|apply ok_zeros]).
  assert (W2 : zlen w = zlen m) by (unfold w; rewrite zlen_cons, zlen_zeros by lia; lia).
  assert (W3 : val w = 1) by (unfold w; rewrite val_cons, val_zeros; lia).
  unfold set_precision, set_precision_internal, p_assertion, mantissa_max_bit_len, max_bit_len, mlen, is_positive. cbn [nm mm mn ns ne ninexact]. rewrite W2.
  replace (P_LIM <=? p) with false by lia. cbn [bind]. replace (p <? 64 * zlen m) with true by lia. replace (0 <? p) with true by lia. cbn [andb].
  destruct (round_mantissa_spec w (64 * zlen m - p) rm (is_pos s) (64 * zlen m) true W1 ltac:(lia) Hrm) as (R1 & R2 & R3).
  rewrite W3, rndN_tiny, Z.mul_0_l in R1; [|lia|lia| |exact Ha].
  2:{ assert (2 ^ 2 <= 2 ^ (64 * zlen m - p)) by (apply Z.pow_le_mono_r; lia). change (2 ^ 2) with 4 in H. lia. }
  set (o := round_mantissa w (64 * zlen m - p) rm (is_pos s) false (64 * zlen m) true) in *.
  destruct R1 as (Ro & Rl & Rv). rewrite R2. cbn [andb orb].
  assert (Rv' : ro_ovf o = false /\ val (ro_m o) = 0).
  { destruct Rv as [(A & B & _)|(A & B & C)]; [split; [exact A|exact B]|]. exfalso. rewrite W2 in C. pose proof (pow2_gt0 (64 * zlen m) ltac:(lia)). lia. }
  destruct Rv' as [Ov Rv0]. rewrite Ov. unfold m_is_all_zero. cbn [mm]. rewrite all_zero_spec, Rv0 by exact Ro. cbn [Z.eqb bind].
  assert (Ew : 64 * ((p + 63) / 64) = p) by (clear -Hm; dlia).
  destruct (m_set_length_spec (ro_m o) 0 p s 0 Ro) as (S1 & S2 & S3 & S4 & S5 & S6); [rewrite Rv0; reflexivity|lia| |].
  { intros _. rewrite Rv0. apply Z.mod_0_l. apply Z.pow_nonzero; [lia|]. rewrite Rl, W2. lia. }
  eexists. split; [reflexivity|]. cbn [nm mm ns ne ninexact].
  assert (V0 : val (mm (m_set_length (mk_m (ro_m o) 0) p)) = 0) by (apply S4; exact Rv0).
  split; [|split; [|split; [reflexivity|split]]].
  - constructor; unfold magnitude, wlen; cbn [nm ne ns]; try (rewrite S2; lia).
    + exact S1.
    + exact S3.
    + lia.
    + reflexivity.
    + rewrite S3, V0. change (bitlen 0) with 0. lia.
  - unfold wlen. cbn [nm]. rewrite S2. exact Ew.
  - unfold value, magnitude, wlen. cbn [nm ns ne]. rewrite V0, Z.mul_0_r. apply F2R_0.
  - split; [intros _; exact Hzn|reflexivity].
Qed.

Lemma outward_away rm s : rounds_away rm (is_pos s) = true <-> outward rm s.
Proof. destruct rm, s; cbn; split; intros; try discriminate; try contradiction; auto. Qed.

Lemma grad_big p rm r : 0 < p -> (bpow radix2 EMAX <= Rabs r)%R -> (bpow radix2 EMAX <= Rabs (rnd_grad p rm r))%R.
Proof.
  intros Hp H. unfold rnd_grad. apply abs_round_ge_generic.
  - apply FLT_exp_valid. exact Hp.
  - apply rnd_valid.
  - apply generic_format_bpow. unfold FLT_exp. lia.
  - exact H.
Qed.

Lemma read_zero p rm s : 0 < p < P_LIM -> p mod 64 = 0 -> reads_as p rm 0 s (Ok (mk_num (m_new p) s 0 false)).
Proof.
  intros Hp Hm. unfold reads_as. rewrite rnd_grad_0 by lia. rewrite Rabs_R0. pose proof (bpow_gt_0 radix2 EMAX) as PB.
  split; [intros H; exfalso; apply (Rlt_not_le _ _ PB H)|]. intros _. eexists. split; [reflexivity|].
  unfold m_new, wlen, magnitude. cbn [nm mm]. rewrite wlen_of_bits_eq by lia.
  assert (Hl : zlen (zeros ((p + 63) / 64)) = (p + 63) / 64) by (apply zlen_zeros; clear -Hp; dlia).
  assert (E64 : 64 * ((p + 63) / 64) = p) by (clear -Hm; dlia).
  split; [|split; [rewrite Hl; exact E64|split; [reflexivity|split]]].
  - constructor; unfold magnitude, wlen; cbn [nm mm mn ne]; rewrite ?val_zeros; auto; try lia.
    apply ok_zeros.
  - unfold value, magnitude, wlen. cbn [nm mm ns ne]. rewrite val_zeros, Z.mul_0_r. apply F2R_0.
  - cbn [ninexact]. split; [discriminate|congruence].
Qed.

Lemma from_commensurable_reads k s ds e p rm : 1 < k <= 4 -> digits_ok (2 ^ k) ds ->
  0 < p -> p mod 64 = 0 -> p + 64 < P_LIM -> k * zlen ds + 128 < P_LIM ->
  let r := F2 s (dig_val (2 ^ k) ds) (k * (e - zlen ds)) in readable p rm s r ->
  reads_as p rm r s (conv_from_commensurable s ds e k p rm).
Proof.
  intros Hk D Hp Hm HpL Hn r HR. unfold conv_from_commensurable.
  assert (Dn : Forall (fun v => 0 <= v) ds) by (eapply Forall_impl; [|exact D]; intros a Ha; cbn in Ha; lia).
  replace (p <? USIZE_MAX) with true by lia.
  destruct (cm_scan_spec k ds ltac:(lia) 0 0 Dn) as [(z & v & t & Eds & Hz & Hv & Sc & _)|(Eds & Sc)].
  2:{ rewrite Sc. cbn [bind]. rewrite Z.add_0_l, Z.eqb_refl.
      assert (Er : r = 0%R) by (unfold r; rewrite Eds, dig_val_zeros, Z.mul_0_r; apply F2R_0). rewrite Er. apply read_zero; [lia|exact Hm]. }
  pose proof D as D'. rewrite Eds in D'. apply dok_app in D'. destruct D' as [_ D']. pose proof D' as D2. apply dok_cons in D2. destruct D2 as [Hv2 _].
  rewrite (Sc ltac:(lia)). cbn [bind]. rewrite !Z.add_0_l. destruct (sig_steps_spec k ltac:(lia) v ltac:(lia)) as [Sg Sf].
  set (fs := sig_steps 8 (2 ^ (k - 1)) v) in *.
  assert (Hlen : zlen ds = z + (1 + zlen t)) by (rewrite Eds, zlen_app, zlen_cons, zlen_zeros by lia; reflexivity).
  pose proof (zlen_nonneg t) as Ht0. replace (z =? zlen ds) with false by lia.
  set (n := 1 + zlen t) in *. replace (zlen ds - z) with n by lia. cbv zeta.
  assert (Hkn : 0 < k * n) by (apply Z.mul_pos_pos; lia). assert (Hkz : 0 <= k * z) by (apply Z.mul_nonneg_nonneg; lia).
  assert (Hlk : k * zlen ds = k * z + k * n) by (rewrite Hlen; ring).
  set (L := (n * k + 64 + 63) / 64). assert (HL : k * n + 64 <= 64 * L < k * n + 128) by (unfold L; rewrite (Z.mul_comm n k); clear; dlia).
  rewrite (round_p_eq (n * k + 64)) by (unfold prec_up; fold L; lia). fold L.
  unfold p_assertion. replace (P_LIM <=? 64 * L) with false by lia. cbn [bind].
  assert (Edrop : zdrop z ds = v :: t) by (rewrite Eds; rewrite <- (zlen_zeros z) at 1 by lia; apply zdrop_app_exact). 
  set (e' := e * k + (0 - k * z - fs)).
  assert (Hml : mlen (m_new (64 * L)) = L) by (unfold m_new, mlen; cbn [mm]; rewrite wlen_of_bits_eq by lia; rewrite zlen_zeros; clear -HL Hkn; dlia).
  rewrite Hml, Edrop.
  destruct (cm_fill_spec k (v :: t) ltac:(lia) (k - fs) 0 L [] 0) as (w & F1 & F2' & F3 & F4).
  { exact D'. } { lia. } { constructor. } { lia. } { lia. } { lia. }
  { intros _. split; [reflexivity|]. split; [reflexivity|]. split; [reflexivity|]. right. cbn [hd].
    apply (Z.mul_lt_mono_pos_r (2 ^ fs)); [apply pow2_gt0; lia|]. rewrite <- Z.pow_add_r by lia. replace (k - fs + fs) with k by lia. lia. }
  { intros _. rewrite val_nil. ring. }
  { change (zlen []) with 0. rewrite zlen_cons. fold n. lia. }
  { left. discriminate. }
  rewrite F1. change (zlen []) with 0 in F3, F4. rewrite Z.add_0_l in F3. rewrite F3, zlen_cons in F4. fold n in F4.
  replace (64 * 0 + (k - fs) - k + k * n) with (k * n - fs) in F4 by lia. rewrite !Z.mul_0_l, Z.add_0_r in F4.
  set (A := dig_val (2 ^ k) (v :: t)) in *.
  assert (HA : v * 2 ^ (k * (n - 1)) <= A).
  { unfold A. rewrite dig_val_cons. rewrite (pow_pow (2 ^ k) k (zlen t)) by (try reflexivity; lia). replace (n - 1) with (zlen t) by lia.
    apply dok_cons in D'. destruct D' as [_ D']. assert (1 < 2 ^ k) by (change 1 with (2 ^ 0); apply Z.pow_lt_mono_r; lia).
    pose proof (dig_val_bound (2 ^ k) t H D'). lia. }
  assert (Htop : top_set w).
  { unfold top_set. rewrite F3, F4. assert (0 <= k * (n - 1)) by (apply Z.mul_nonneg_nonneg; lia).
    replace (64 * L - (k * n - fs)) with (fs + (64 * L - k * n)) by lia. rewrite Z.pow_add_r by lia.
    apply Z.le_trans with (v * 2 ^ (k * (n - 1)) * (2 ^ fs * 2 ^ (64 * L - k * n))).
    - replace (v * 2 ^ (k * (n - 1)) * (2 ^ fs * 2 ^ (64 * L - k * n))) with (v * 2 ^ fs * (2 ^ (k * (n - 1)) * 2 ^ (64 * L - k * n))) by ring.
      rewrite <- Z.pow_add_r by lia. apply Z.le_trans with (2 ^ (k - 1) * 2 ^ (k * (n - 1) + (64 * L - k * n))).
      + rewrite <- Z.pow_add_r by lia. apply Z.pow_le_mono_r; [lia|]. rewrite Z.mul_sub_distr_l. lia.
      + apply Z.mul_le_mono_nonneg_r; [apply Z.pow_nonneg; lia|lia].
    - apply Z.mul_le_mono_nonneg_r; [apply Z.mul_nonneg_nonneg; apply Z.pow_nonneg; lia|exact HA]. }
  assert (HLw : 0 < zlen w) by lia.
  assert (Hr : r = F2 s (val w) (e' - 64 * zlen w)).
  { unfold r. rewrite F4, F3. rewrite F2R_shift by lia. unfold A.
    assert (Ed : dig_val (2 ^ k) ds = dig_val (2 ^ k) (v :: t)) by (rewrite Eds, dig_val_app, dig_val_zeros; ring).
    rewrite Ed. f_equal. f_equal. rewrite Z.mul_sub_distr_l, Hlk. unfold e'. ring. }
  assert (Hrb : (bpow radix2 (e' - 1) <= Rabs r < bpow radix2 e')%R).
  { pose proof (top_set_pos w HLw Htop) as Pw. pose proof (val_bound w F2') as Vw. rewrite Hr, F2_abs by lia.
    split.
    - replace (e' - 1) with (64 * zlen w - 1 + (e' - 64 * zlen w)) by lia. rewrite bpow_plus. apply Rmult_le_compat_r; [apply bpow_ge_0|].
      rewrite bpow_IZR by lia. apply IZR_le. exact Htop.
    - replace e' with (64 * zlen w + (e' - 64 * zlen w)) at 2 by lia. rewrite bpow_plus. apply Rmult_lt_compat_r; [apply bpow_gt_0|].
      rewrite bpow_IZR by lia. apply IZR_lt. apply Vw. }
  destruct (Z.ltb_spec EMAX e') as [Hov|Hov].
  { assert (Big : (bpow radix2 EMAX <= Rabs (rnd_grad p rm r))%R).
    { apply grad_big; [exact Hp|]. apply Rle_trans with (bpow radix2 (e' - 1)); [apply bpow_le; lia|apply Hrb]. }
    unfold reads_as. split; [reflexivity|]. intros H. exfalso. apply (Rlt_not_le _ _ H Big). }
  cbn [bind]. destruct (Z.ltb_spec e' EMIN) as [Hu|Hu].
  2:{ cbn [bind]. rewrite Hr. apply read_normal; [exact F2'|exact HLw|lia|exact Htop|lia|lia|exact Hm]. }
  destruct (extend_ok w s p F2' HLw ltac:(lia) Htop Hp Hm HpL) as (m & M1 & M2 & M3 & M4 & M5 & M6). rewrite M1. cbn [bind].
  change (reads_as p rm r s (do ret <- sticky_num (subnormalize (mk_num (mk_m m (64 * zlen m)) s EMIN false) e' RNone); set_precision ret p rm)).
  rewrite Hr, <- M6.
  destruct HR as [HR|[HR|[Hrm HR]]].
  - exfalso. rewrite HR, Rabs_R0 in Hrb. pose proof (bpow_gt_0 radix2 (e' - 1)). destruct Hrb as [Hrb _]. apply (Rlt_not_le _ _ H Hrb).
  - exfalso. assert (bpow radix2 e' <= bpow radix2 (EMIN - 1))%R by (apply bpow_le; lia). destruct Hrb as [_ Hrb]. apply (Rlt_not_le _ _ Hrb). eapply Rle_trans; [exact H|exact HR].
  - destruct (Z_lt_le_dec EMIN (64 * zlen m + e')) as [Hin|Hout].
    + apply read_sub_window; [exact M2|lia|exact M5|exact Hu|exact Hin|exact Hp|exact Hm|lia|exact Hrm].
    + apply read_sub_far; [exact M2|lia|exact M5|exact Hout|exact Hp|exact Hm|lia|exact Hrm|].
      destruct HR as [HR|HR].
      * destruct (rounds_away rm (is_pos s)) eqn:Ea; [apply outward_away in Ea; contradiction|reflexivity].
      * exfalso. assert (bpow radix2 e' <= bpow radix2 (EMIN - p))%R by (apply bpow_le; lia). destruct Hrb as [_ Hrb]. apply (Rlt_not_le _ _ Hrb). eapply Rle_trans; [exact H|exact HR].
Qed.

(** ** Invalid digits *)

Lemma cm_fill_bad k ds : 0 < k <= 8 -> forall filled d room acc,
  0 < filled <= 64 + k -> 0 <= room -> filled + k * zlen ds <= 64 * room -> Forall (fun v => 0 <= v) ds -> Exists (fun v => 2 ^ k <= v) ds ->
  cm_fill k ds filled d room acc = Err InvalidArgument.
Proof.
  intros Hk. induction ds as [|v t IH]; intros filled d room acc Hf Hr Hc Hn He; [inversion He|].
  cbn [cm_fill]. rewrite zlen_cons in Hc. pose proof (zlen_nonneg t) as Ht. assert (Hkt : 0 <= k * zlen t) by (apply Z.mul_nonneg_nonneg; lia).
  replace (k * (1 + zlen t)) with (k + k * zlen t) in Hc by ring.
  destruct (Z.leb_spec (2 ^ k) v) as [Hb|Hb]; [reflexivity|]. inversion Hn; subst. inversion He; subst; [lia|].
  destruct (Z.leb_spec filled 64) as [Hl|Hl].
  - apply IH; try assumption; lia.
  - cbv zeta. replace (room =? 0) with false by lia. apply IH; try assumption; lia.
Qed.

Lemma from_commensurable_rejects k s ds e p rm : 1 < k <= 4 -> Forall (fun v => 0 <= v) ds -> Exists (fun v => 2 ^ k <= v) ds -> zlen ds < 2 ^ 60 ->
  conv_from_commensurable s ds e k p rm = Err InvalidArgument \/ conv_from_commensurable s ds e k p rm = Err (ExponentOverflow s).
Proof.
  intros Hk Dn He Hlen. unfold conv_from_commensurable.
  destruct (cm_scan_spec k ds ltac:(lia) 0 0 Dn) as [(z & v & t & Eds & Hz & Hv & Sc & Sb)|(Eds & Sc)].
  2:{ exfalso. rewrite Eds in He. apply Exists_exists in He. destruct He as (x & Hx & Hb). unfold zeros in Hx. apply repeat_spec in Hx. subst x.
      pose proof (pow2_gt0 k ltac:(lia)). lia. }
  destruct (Z_le_gt_dec (2 ^ k) v) as [Hb|Hb]; [rewrite (Sb Hb); left; reflexivity|].
  rewrite (Sc ltac:(lia)). cbn [bind]. rewrite !Z.add_0_l. destruct (sig_steps_spec k ltac:(lia) v ltac:(lia)) as [Sg Sf].
  set (fs := sig_steps 8 (2 ^ (k - 1)) v) in *.
  assert (Hl : zlen ds = z + (1 + zlen t)) by (rewrite Eds, zlen_app, zlen_cons, zlen_zeros by lia; reflexivity).
  pose proof (zlen_nonneg t) as Ht0. replace (z =? zlen ds) with false by lia.
  set (n := 1 + zlen t) in *. replace (zlen ds - z) with n by lia. cbv zeta.
  assert (Hkn : 0 < k * n <= 4 * 2 ^ 60) by (split; [apply Z.mul_pos_pos; lia|]; apply Z.mul_le_mono_nonneg; lia).
  set (L := (n * k + 64 + 63) / 64). assert (HL : k * n + 64 <= 64 * L < k * n + 128) by (unfold L; rewrite (Z.mul_comm n k); clear; dlia).
  assert (ERp : round_p (n * k + 64) = 64 * L).
  { unfold round_p. rewrite Z.min_l by lia. fold L. ring. }
  rewrite ERp. unfold p_assertion. destruct (Z.leb_spec P_LIM (64 * L)) as [HP|HP]; cbn [bind]; [left; reflexivity|].
  destruct (EMAX <? _); [right; reflexivity|].
  assert (Edrop : zdrop z ds = v :: t) by (rewrite Eds; rewrite <- (zlen_zeros z) at 1 by lia; apply zdrop_app_exact).
  assert (Hml : mlen (m_new (64 * L)) = L) by (unfold m_new, mlen; cbn [mm]; rewrite wlen_of_bits_eq by lia; rewrite zlen_zeros; clear -HL Hkn; dlia).
  rewrite Hml, Edrop. rewrite cm_fill_bad; [left; reflexivity|lia|lia|lia| | |].
  - rewrite zlen_cons. fold n. lia.
  - rewrite Eds in Dn. apply Forall_app in Dn. apply Dn.
  - rewrite Eds in He. apply Exists_app in He. destruct He as [He|He]; [|exact He]. exfalso. apply Exists_exists in He.
    destruct He as (x & Hx & Hb'). unfold zeros in Hx. apply repeat_spec in Hx. subst x. pose proof (pow2_gt0 k ltac:(lia)). lia.
Qed.

(** ** Base 2 *)

Lemma bin_words s ds e p rm : ds <> [] -> digits_ok 2 ds -> zlen ds + 64 < P_LIM -> p < USIZE_MAX ->
  exists w, conv_from_binary s ds e p rm = set_precision (mk_num (mk_m w (bitlen (val w))) s e false) p rm /\ words_ok w /\
    zlen ds <= 64 * zlen w < zlen ds + 64 /\ val w = dig_val 2 ds * 2 ^ (64 * zlen w - zlen ds).
Proof.
  intros Hn D Hl Hp. unfold conv_from_binary. destruct ds as [|d0 ds0] eqn:Eds; [congruence|]. rewrite <- Eds in *. clear Eds d0 ds0.
  assert (Hpos : 0 < zlen ds) by (destruct ds; [congruence|rewrite zlen_cons; pose proof (zlen_nonneg ds); lia]).
  set (n := zlen ds) in *. set (L := (n + 63) / 64). assert (HL : n <= 64 * L < n + 64) by (unfold L; clear; dlia).
  rewrite (round_p_eq n) by (unfold prec_up; fold L; lia). fold L. unfold p_assertion. replace (P_LIM <=? 64 * L) with false by lia. cbn [bind].
  cbv zeta. assert (Hml : mlen (m_new n) = L) by (unfold m_new, mlen; cbn [mm]; rewrite wlen_of_bits_eq by lia; fold L; apply zlen_zeros; lia).
  rewrite Hml. set (sh := if n mod 64 =? 0 then n mod 64 else 64 - n mod 64).
  assert (Hsh : sh + n = 64 * L /\ 0 <= sh < 64).
  { unfold sh, L. clear -Hpos. destruct (Z.eqb_spec (n mod 64) 0); dlia. }
  destruct (bin_fill_spec (rev ds) 0 sh L []) as (w & F1 & F2' & F3 & F4).
  { apply dok_rev, D. } { lia. } { pose proof (pow2_gt0 sh ltac:(lia)); lia. } { lia. } { constructor. } { rewrite zlen_rev. fold n. lia. }
  rewrite F1. cbn [bind]. unfold m_update_bit_len. cbn [mm]. rewrite find_bit_len_spec by exact F2'.
  replace (p <? USIZE_MAX) with true by lia. change (zlen []) with 0 in F3, F4. change (rev []) with (@nil Z) in F4. rewrite val_nil in F4.
  exists w. split; [reflexivity|]. split; [exact F2'|]. rewrite F3. split; [lia|].
  rewrite F4. rewrite <- dig_val_rev, rev_involutive. replace (64 * (0 + L) - n) with sh by lia. change (2 ^ (64 * 0)) with 1. ring.
Qed.

Lemma from_binary_reads s ds e p rm : digits_ok 2 ds -> 0 < p < P_LIM -> p mod 64 = 0 -> zlen ds + 64 < P_LIM -> EMIN <= e <= EMAX ->
  bin_norm ds e rm ->
  reads_as p rm (F2 s (dig_val 2 ds) (e - zlen ds)) s (conv_from_binary s ds e p rm).
Proof.
  intros D Hp Hm Hl He HN. assert (Hn : ds <> []).
  { intros ->. destruct HN as [H|[(H & _)|(H & _)]]; [discriminate H|congruence|apply H; reflexivity]. }
  destruct (bin_words s ds e p rm Hn D Hl ltac:(lia)) as (w & E & W1 & W2 & W3). rewrite E. clear E.
  assert (Hpos : 0 < zlen ds) by (destruct ds; [congruence|rewrite zlen_cons; pose proof (zlen_nonneg ds); lia]).
  pose proof (dig_val_bound 2 ds ltac:(lia) D) as DB.
  assert (P2 : 0 < 2 ^ (64 * zlen w - zlen ds)) by (apply pow2_gt0; lia).
  set (x := mk_num _ _ _ _). pose proof (val_bound w W1) as Vb.
  assert (Hr : F2 s (dig_val 2 ds) (e - zlen ds) = value x).
  { unfold value, magnitude, wlen, x. cbn [nm mm ns ne]. rewrite W3, F2R_shift by lia. f_equal. f_equal. lia. }
  assert (Bl : bitlen (val w) <= 64 * zlen w) by (apply bitlen_le; lia).
  assert (Htop : hd 0 ds = 1 -> bitlen (val w) = 64 * zlen w /\ 0 < val w).
  { intros H1. assert (T : 2 ^ (zlen ds - 1) <= dig_val 2 ds).
    { destruct ds as [|d t]; [congruence|]. cbn [hd] in H1. subst d. rewrite dig_val_cons, zlen_cons. replace (1 + zlen t - 1) with (zlen t) by lia.
      apply dok_cons in D. destruct D as [_ D]. pose proof (dig_val_bound 2 t ltac:(lia) D). lia. }
    assert (T2 : 2 ^ (64 * zlen w - 1) <= val w).
    { rewrite W3. replace (64 * zlen w - 1) with (zlen ds - 1 + (64 * zlen w - zlen ds)) by lia. rewrite Z.pow_add_r by lia. apply Z.mul_le_mono_nonneg_r; lia. }
    split; [apply bitlen_unique; [lia|]; split; [exact T2|apply Vb]|]. pose proof (pow2_gt0 (64 * zlen w - 1) ltac:(lia)). lia. }
  assert (W : wf x).
  { constructor; unfold x, magnitude, wlen; cbn [nm mm mn ne].
    - exact W1.
    - reflexivity.
    - lia.
    - exact He.
    - intros E0. destruct HN as [H|[(_ & _ & H)|(H & _)]]; [destruct (Htop H); lia|exact H|]. rewrite W3 in E0. apply Z.mul_eq_0 in E0. lia.
    - intros Hb. destruct HN as [H|[(_ & H & _)|(_ & H & _)]]; [destruct (Htop H); lia| |exact H].
      rewrite W3, H, Z.mul_0_l in Hb. change (bitlen 0) with 0 in Hb. lia. }
  assert (Pu : prec_up p = p) by (unfold prec_up; clear -Hm; dlia). rewrite Hr.
  assert (Fin : word_prec_ok p rm x -> reads_as p rm (value x) s (set_precision x p rm)).
  { intros WP. destruct (set_precision_spec x p rm W ltac:(lia) ltac:(lia) WP) as [A B].
    unfold reads_as. split; [exact A|]. intros H. destruct (B H) as (q & Q1 & Q2 & Q3 & Q4 & Q5 & Q6).
    exists q. split; [exact Q1|]. split; [exact Q2|]. split; [rewrite Q3; clear -Hm; dlia|]. split; [exact Q4|]. split; [exact Q5|].
    rewrite Q6. change (ninexact x) with false. split; [intros [?|?]; [discriminate|assumption]|intros ?; right; assumption]. }
  destruct (rmode_eqb rm RNone) eqn:Erm.
  2:{ apply Fin. left. intros ->. discriminate. }
  assert (rm = RNone) by (destruct rm; try discriminate; reflexivity).
  destruct HN as [H1|[(_ & H1 & He0)|(_ & _ & H1)]]; [| |contradiction].
  - apply Fin. right. left. split; [exact Hm|]. destruct (Htop H1). unfold normal, nonzero, x, magnitude, wlen. cbn [nm mm mn]. lia.
  - assert (V0 : val w = 0) by (rewrite W3, H1; ring).
    destruct (Z_le_gt_dec (64 * wlen x) p) as [Hle|Hgt]; [apply Fin; right; right; exact Hle|].
    (* an all-zero mantissa is cut without rounding *)
    subst rm. unfold wlen in Hgt. cbn [nm mm x] in Hgt. change (mm (nm x)) with w in Hgt.
    assert (Vx : value x = 0%R) by (rewrite <- Hr, H1, Z.mul_0_r; apply F2R_0). rewrite Vx.
    unfold reads_as. rewrite rnd_grad_0 by lia. rewrite Rabs_R0. pose proof (bpow_gt_0 radix2 EMAX) as PB.
    split; [intros H; exfalso; apply (Rlt_not_le _ _ PB H)|]. intros _.
    unfold set_precision, set_precision_internal, p_assertion, mantissa_max_bit_len, max_bit_len, mlen, is_positive, x. cbn [nm mm mn ns ne ninexact].
    replace (P_LIM <=? p) with false by lia. cbn [bind]. replace (p <? 64 * zlen w) with true by lia. replace (0 <? p) with true by lia. cbn [andb].
    destruct (round_mantissa_none w (64 * zlen w - p) (is_pos s) false (64 * zlen w) false W1 ltac:(lia)) as (R1 & R2 & R3 & R4).
    rewrite R1, R2, R3, R4. cbn [andb orb]. unfold rres_inexact. rewrite V0. rewrite Z.mod_0_l by (apply Z.pow_nonzero; lia). cbn [Z.eqb negb orb].
    unfold m_is_all_zero. cbn [mm]. rewrite all_zero_spec, V0 by exact W1. cbn [Z.eqb bind].
    assert (Ew : 64 * ((p + 63) / 64) = p) by (clear -Hm; dlia).
    destruct (m_set_length_spec w 0 p s 0 W1) as (S1 & S2 & S3 & S4 & S5 & S6); [rewrite V0; reflexivity|lia| |].
    { intros _. rewrite V0. apply Z.mod_0_l. apply Z.pow_nonzero; lia. }
    eexists. split; [reflexivity|]. cbn [nm mm ns ne ninexact].
    assert (V0' : val (mm (m_set_length (mk_m w 0) p)) = 0) by (apply S4; exact V0).
    split; [|split; [|split; [reflexivity|split]]].
    + constructor; unfold magnitude, wlen; cbn [nm ne ns]; try (rewrite S2; lia).
      * exact S1.
      * exact S3.
      * lia.
      * reflexivity.
      * rewrite S3, V0'. change (bitlen 0) with 0. lia.
    + unfold wlen. cbn [nm]. rewrite S2. exact Ew.
    + unfold value, magnitude, wlen. cbn [nm ns ne]. rewrite V0', Z.mul_0_r. apply F2R_0.
    + split; [discriminate|congruence].
Qed.

Lemma from_binary_rejects s ds e p rm : Exists (fun v => 1 < v) ds -> zlen ds < 2 ^ 60 -> conv_from_binary s ds e p rm = Err InvalidArgument.
Proof.
  intros He Hlen. unfold conv_from_binary. destruct ds as [|d0 ds0] eqn:Eds; [inversion He|]. rewrite <- Eds in *.
  assert (Hpos : 0 < zlen ds) by (rewrite Eds, zlen_cons; pose proof (zlen_nonneg ds0); lia). clear Eds d0 ds0.
  set (n := zlen ds) in *. set (L := (n + 63) / 64). assert (HL : n <= 64 * L < n + 64) by (unfold L; clear; dlia).
  assert (ERp : round_p n = 64 * L). { unfold round_p. rewrite Z.min_l by lia. fold L. ring. }
  rewrite ERp. unfold p_assertion. destruct (Z.leb_spec P_LIM (64 * L)) as [HP|HP]; cbn [bind]; [reflexivity|].
  cbv zeta. assert (Hml : mlen (m_new n) = L) by (unfold m_new, mlen; cbn [mm]; rewrite wlen_of_bits_eq by lia; fold L; apply zlen_zeros; lia).
  rewrite Hml. set (sh := if n mod 64 =? 0 then n mod 64 else 64 - n mod 64).
  assert (Hsh : sh + n = 64 * L /\ 0 <= sh < 64).
  { unfold sh, L. clear -Hpos. destruct (Z.eqb_spec (n mod 64) 0); dlia. }
  rewrite bin_fill_bad; [reflexivity|lia|lia|rewrite zlen_rev; fold n; lia|apply Exists_rev; exact He].
Qed.

(** ** Both directions through the entry points *)

Lemma from_radix_reads dec r s ds e p rm : r <> Dec -> digits_ok (rdx_num r) ds -> 0 < p -> prec_up p + 64 < P_LIM -> bits_of r * zlen ds + 128 < P_LIM ->
  EMIN <= e <= EMAX -> (r = Bin -> bin_norm ds e rm) -> (r <> Bin -> readable (prec_up p) rm s (digits_value r s ds e)) ->
  reads_as (prec_up p) rm (digits_value r s ds e) s (convert_from_radix dec s ds e r p rm).
Proof.
  intros Hr D Hp HP Hl He HB HR. unfold convert_from_radix.
  assert (Hpp : 0 < prec_up p /\ prec_up p mod 64 = 0 /\ p <= prec_up p).
  { unfold prec_up. split; [clear -Hp; dlia|]. split; [rewrite Z.mul_comm; apply Z.mod_mul; lia|clear -Hp; dlia]. }
  replace (p <? USIZE_MAX) with true by lia. rewrite round_p_eq by lia. fold (prec_up p). set (P := prec_up p) in *.
  cbv zeta. unfold p_assertion. replace (P_LIM <=? P) with false by lia. cbn [bind]. replace (P =? 0) with false by lia.
  pose proof (zlen_nonneg ds) as Hz. rewrite digits_value_eq in HR |- * by exact Hr.
  destruct r; try congruence; cbn [bits_of] in *.
  - rewrite Z.mul_1_l. apply from_binary_reads; [exact D|lia|tauto|lia|exact He|apply HB; reflexivity].
  - apply from_commensurable_reads; [lia|exact D|tauto|tauto|lia|lia|apply HR; discriminate].
  - apply from_commensurable_reads; [lia|exact D|tauto|tauto|lia|lia|apply HR; discriminate].
Qed.

Lemma from_radix_rejects dec r s ds e p rm : r <> Dec -> Forall (fun v => 0 <= v) ds -> Exists (fun v => rdx_num r <= v) ds -> zlen ds < 2 ^ 60 -> 0 < p ->
  convert_from_radix dec s ds e r p rm = Err InvalidArgument \/ convert_from_radix dec s ds e r p rm = Err (ExponentOverflow s).
Proof.
  intros Hr D He Hl Hp. unfold convert_from_radix.
  assert (G : forall p', match r with Bin => conv_from_binary s ds e p' rm | Oct => conv_from_commensurable s ds e 3 p' rm | Dec => dec s ds e p' rm | Hex => conv_from_commensurable s ds e 4 p' rm end = Err InvalidArgument \/
     match r with Bin => conv_from_binary s ds e p' rm | Oct => conv_from_commensurable s ds e 3 p' rm | Dec => dec s ds e p' rm | Hex => conv_from_commensurable s ds e 4 p' rm end = Err (ExponentOverflow s)).
  { intros p'. destruct r; try congruence; cbn [rdx_num] in He.
    - left. apply from_binary_rejects; [|exact Hl]. eapply Exists_impl; [|exact He]. cbn. intros. lia.
    - apply from_commensurable_rejects; [lia|exact D|exact He|exact Hl].
    - apply from_commensurable_rejects; [lia|exact D|exact He|exact Hl]. }
  cbv zeta. destruct (p <? USIZE_MAX); [|apply G]. unfold p_assertion. destruct (Z.leb_spec P_LIM (round_p p)) as [H|H]; cbn [bind]; [left; reflexivity|].
  destruct (Z.eqb_spec (round_p p) 0) as [H0|H0]; [|apply G]. exfalso. unfold round_p in H0. clear -H0 Hp.
  assert (1 <= Z.min (p + 63) 18446744073709551615 / 64) by (apply Z.div_le_lower_bound; lia). lia.
Qed.
