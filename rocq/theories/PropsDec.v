(** Property theorems: decimal conversion. *)

From Coq Require Import ZArith Reals List Bool Lia.
From Flocq Require Import Core.
From Verif Require Import Words Mantissa Num Ext Conv Parser Dec DecConv SpecZ Spec SpecPow SpecText SpecDec DecP DecRead DecTop DecText Refute5.
Import ListNotations.
Open Scope Z_scope.
Arguments Z.mul : simpl never.
Arguments Z.add : simpl never.
Arguments Z.pow : simpl never.
Arguments Z.sub : simpl never.
Arguments Z.of_nat : simpl never.

(** The caches of powers of ten a program can get to. *)
Inductive ten_cache : list tenpower -> Prop :=
| ten_new : ten_cache []
| ten_call tp p tp' : ten_cache tp -> cc_tenpowers tp p = Ok tp' -> ten_cache tp'.

(** ** C53 *)
Theorem C53_powers : forall tp, ten_cache tp -> tps_ok tp /\ forall p, exists r, cc_tenpowers tp p = Ok (tp ++ r) /\ p <= Z.of_nat (length (tp ++ r)).
Proof.
  intros tp H. assert (K : tps_ok tp). { induction H; [exact tps_nil|]. destruct (cc_tenpowers_ok tp p IHten_cache) as (r & E & K & _). rewrite E in H0. injection H0 as <-. exact K. }
  split; [exact K|]. intros p. destruct (cc_tenpowers_ok tp p K) as (r & E & _ & L). exists r. split; [exact E|exact L].
Qed.
Theorem C53_from_digits : forall tp ds, ten_cache tp -> digits_ok 10 ds -> hd 0 ds <> 0 -> zlen ds < 2 ^ 64 ->
  exists tp' m, cc_tenpowers tp (log2_ceil (zlen ds)) = Ok tp' /\ m_conv_from_dec ds tp' = Ok m /\ nat_mant m /\ val (mm m) = dig_val 10 ds.
Proof.
  intros tp ds H D N L. destruct (C53_powers tp H) as [K _]. assert (P : 0 < zlen ds) by (destruct ds; [cbn in N; congruence|unfold zlen; cbn [length]; lia]).
  destruct (log2_ceil_ok (zlen ds) ltac:(lia)) as (L1 & L2 & _).
  destruct (cc_tenpowers_ok tp (log2_ceil (zlen ds)) K) as (r & E & K2 & LL).
  destruct (from_dec_ok (tp ++ r) ds K2 D N) as (m & E2 & M & V).
  { fold (zlen ds). eapply Z.le_trans; [exact L2|]. apply Z.pow_le_mono_r; lia. }
  exists (tp ++ r), m. auto.
Qed.
Theorem C53_rejects : forall tp ds, hd 0 ds <> 0 -> Exists (fun d => 9 < d) ds -> m_conv_from_dec ds tp = Err InvalidArgument.
Proof.
  intros tp ds N H. unfold m_conv_from_dec. destruct ds as [|d ds]; [inversion H|]. cbn [hd] in N. destruct (Z.eqb_spec d 0); [congruence|].
  rewrite dec_chunks_bad; [reflexivity|]. apply Exists_rev. exact H.
Qed.
(** The digits of an integer are right exactly when it has no gap. *)
Theorem C53_to_digits : forall tp m k, ten_cache tp -> nat_mant m -> 1 <= k -> val (mm m) < 10 ^ 2 ^ k ->
  exists tp' ds, cc_tenpowers tp k = Ok tp' /\ m_conv_to_dec (Z.to_nat (k - 1)) m (2 ^ k) tp' true = Ok ds /\
    digits_ok 10 ds /\ (dec_digits_of (val (mm m)) ds <-> no_gap (val (mm m))).
Proof.
  intros tp m k H M K B. destruct (C53_powers tp H) as [T _]. destruct (cc_tenpowers_ok tp k T) as (r & E & K2 & L).
  destruct (to_dec_outer (tp ++ r) (Z.to_nat (k - 1)) K2 ltac:(lia) m M) as (ds & E2 & D & HD & C).
  { rewrite Z2Nat.id by lia. replace (k - 1 + 1) with k by lia. exact B. }
  rewrite Z2Nat.id in E2 by lia. replace (k - 1 + 1) with k in E2 by lia.
  exists (tp ++ r), ds. split; [exact E|]. split; [exact E2|]. split; [exact D|]. split.
  - intros (_ & V & _). destruct C as [(C & _)|(_ & C)]; [exact C|]. exfalso. pose proof (dig_bound 10 ds ltac:(lia) D). lia.
  - intros G. destruct C as [(_ & C)|(C & _)]; [|contradiction]. split; [exact D|]. split; [exact C|]. destruct HD as [[_ HD]|HD]; auto.
Qed.
(** Up to 64 digits there is no gap. *)
Theorem C53_short : forall v, v < 10 ^ 64 -> no_gap v.
Proof.
  intros v V j i J I H. exfalso. assert (10 ^ 64 <= 10 ^ ((i + 1) * 2 ^ j)); [|lia]. apply Z.pow_le_mono_r; [lia|].
  assert (2 ^ 6 <= 2 ^ j) by (apply Z.pow_le_mono_r; lia). change (2 ^ 6) with 64 in H0. nia.
Qed.
Theorem C53_round_trip : forall tp m k, ten_cache tp -> nat_mant m -> 1 <= k <= 62 -> 0 < val (mm m) < 10 ^ 2 ^ k -> no_gap (val (mm m)) ->
  exists tp' ds tp'' m', cc_tenpowers tp k = Ok tp' /\ m_conv_to_dec (Z.to_nat (k - 1)) m (2 ^ k) tp' true = Ok ds /\
    cc_tenpowers tp' (log2_ceil (zlen ds)) = Ok tp'' /\ m_conv_from_dec ds tp'' = Ok m' /\ val (mm m') = val (mm m).
Proof.
  intros tp m k H M K B G. destruct (C53_to_digits tp m k H M ltac:(lia) ltac:(lia)) as (tp' & ds & E & E2 & D & C).
  apply C in G. destruct G as (_ & V & HD). assert (N : ds <> []) by (intros ->; cbn in V; lia). assert (N2 : hd 0 ds <> 0) by (destruct HD; [contradiction|assumption]).
  pose proof (dig_lead ds D N N2) as DL.
  assert (L : zlen ds < 2 ^ 64).
  { assert (Z.of_nat (length ds) - 1 < 2 ^ k). { apply (Z.pow_lt_mono_r_iff 10); [lia|apply Z.pow_nonneg; lia|lia]. }
    assert (2 ^ k <= 2 ^ 62) by (apply Z.pow_le_mono_r; lia). change (2 ^ 62) with 4611686018427387904 in H1. change (2 ^ 64) with 18446744073709551616. unfold zlen. lia. }
  destruct (C53_from_digits tp' ds) as (tp'' & m' & F1 & F2 & _ & F4); auto. { econstructor; eauto. }
  exists tp', ds, tp'', m'. repeat split; auto. congruence.
Qed.
(** 10^64 + 10^25 comes out as 10^32 + 10^25. *)
Theorem C53_refuted : exists m tp ds, nat_mant m /\ cc_tenpowers [] 7 = Ok tp /\ val (mm m) < 10 ^ 2 ^ 7 /\
  m_conv_to_dec 6 m (2 ^ 7) tp true = Ok ds /\ dig_val 10 ds <> val (mm m).
Proof.
  destruct gap_int_refuted as (tp & E & E2 & V). destruct gap_int_ok as [M V2]. exists gap_int, tp, gap_digits.
  split; [exact M|]. split; [exact E|]. rewrite V2, V. split; [vm_compute; reflexivity|]. split; [exact E2|]. vm_compute. discriminate.
Qed.
Definition ex_mant : mantissa := mk_m [7; 0; 0; 1] 193.
Example C53_case : nat_mant ex_mant /\ val (mm ex_mant) < 10 ^ 2 ^ 6 /\ 10 ^ 2 ^ 5 < val (mm ex_mant) /\ digits_ok 10 [3; 0; 9] /\ hd 0 [3; 0; 9] <> 0.
Proof.
  split; [split; [repeat constructor; lia|vm_compute; reflexivity]|]. split; [vm_compute; reflexivity|]. split; [vm_compute; reflexivity|]. split; [repeat constructor; lia|discriminate].
Qed.

(** ** C73 *)
(** "3.6107365060103e-21", read with 128 bits, is written as 3.61...e-53. *)
Theorem C73_output_refuted : exists x ds e, wf x /\ normal x /\
  (forall f, x_parse (dec_reader (S f)) gap_text Dec 128 RToEven = Ok (Value x)) /\
  (forall f, n_conv_to_dec (S f) [] x RToEven = Some (Ok (ns x, ds, e))) /\
  (0 < digits_value Dec (ns x) ds e <= value x * bpow radix2 (-104))%R.
Proof.
  exists gap_num, gap_out, (-52). split; [apply gap_num_wf|]. split; [apply gap_num_wf|]. split; [exact gap_read|]. split; [exact gap_write|].
  destruct gap_values as [A [B C]]. split; [exact B|]. eapply Rle_trans; [exact C|]. change (-172) with (-68 + -104). rewrite bpow_plus. apply Rmult_le_compat_r; [apply bpow_ge_0|exact A].
Qed.

(** ** C74 *)
(** All digits of the midpoint (2^129 - 3) / 2^129, read with 128 bits to nearest
    even, give the odd neighbour. *)
Theorem C74_tie_refuted : exists ds e x, digits_ok 10 ds /\ (forall f, n_conv_from_dec (S f) [] Pos ds e 128 RToEven = Some (Ok x)) /\
  value x <> rnd_prec 128 RToEven (digits_value Dec Pos ds e).
Proof.
  exists tie_digits, (zlen tie_digits - 129), tie_num. split; [repeat constructor; lia|]. split; [exact tie_read|exact tie_refuted].
Qed.

(** ** C75: reading decimal digits and literals *)
Theorem C75_digits : forall tp s ds e p rm, ten_cache tp -> digits_ok 10 ds -> dig_val 10 ds <> 0 -> zlen ds <= 646456991 -> EMIN <= e <= EMAX ->
  (bpow radix2 EMIN <= Rabs (digits_value Dec s ds e))%R ->
  (0 < p <= 2 ^ 60 /\ p mod 64 = 0 -> exists f0 res, read_post p rm (digits_value Dec s ds e) s res /\ forall f, (f0 <= f)%nat -> n_conv_from_dec f tp s ds e p rm = Some res) /\
  (exists f0 res, read_post (auto_p ds) rm (digits_value Dec s ds e) s res /\ forall f, (f0 <= f)%nat -> n_conv_from_dec f tp s ds e USIZE_MAX rm = Some res).
Proof. intros tp s ds e p rm H. destruct (C53_powers tp H) as [K _]. exact (read_digits tp s ds e p rm K). Qed.
Theorem C75_literal : forall tp l p rm, ten_cache tp -> lit_ok Dec l -> Z.abs (lit_exp Dec l) < 2 ^ 32 -> zlen (l_int l) + zlen (frac_digits l) <= 646456991 ->
  EMIN <= lit_adjusted Dec l <= EMAX -> (bpow radix2 EMIN <= Rabs (lit_value Dec l))%R -> 0 < p -> prec_up p <= 2 ^ 60 ->
  exists f0 res, read_post (prec_up p) rm (lit_value Dec l) (lit_sign l) res /\
    forall f, (f0 <= f)%nat -> x_parse (dec_branch f tp) (lit_text Dec l) Dec p rm = result_to_ext res false true.
Proof. intros tp l p rm H. destruct (C53_powers tp H) as [K _]. exact (read_literal tp l p rm K). Qed.
(** "-0.1" *)
Example C75_case : let l := mk_lit (Some Neg) [48] (Some [49]) None in
  lit_ok Dec l /\ lit_text Dec l = [45; 48; 46; 49] /\ lit_digits l = [1] /\ lit_adjusted Dec l = 0 /\ (bpow radix2 EMIN <= Rabs (lit_value Dec l))%R.
Proof.
  intros l. split; [|split; [reflexivity|split; [reflexivity|split; [reflexivity|]]]].
  - repeat split; try (right; discriminate); try (left; discriminate); repeat constructor; eexists; split; reflexivity.
  - apply Rle_trans with (bpow radix2 (-4)); [apply bpow_le; discriminate|]. change (bpow radix2 (-4)) with (/ 16)%R. 
    replace (lit_value Dec l) with (- (1) * / 10)%R by reflexivity. rewrite Rabs_left by Lra.lra. Lra.lra.
Qed.

(** ** C76: decimal numbers that have an exact binary representation *)
Theorem C76_exact : forall tp s ds e p rm, ten_cache tp -> digits_ok 10 ds -> dig_val 10 ds <> 0 -> zlen ds <= 646456991 -> EMIN <= e <= EMAX ->
  (bpow radix2 EMIN <= Rabs (digits_value Dec s ds e) <= bpow radix2 (EMAX - 2))%R -> 0 < p <= 2 ^ 60 -> p mod 64 = 0 -> rm <> RNone ->
  generic_format radix2 (FLX_exp p) (digits_value Dec s ds e) ->
  exists f0 q, (forall f, (f0 <= f)%nat -> n_conv_from_dec f tp s ds e p rm = Some (Ok q)) /\
    wf q /\ 64 * wlen q = p /\ ns q = s /\ value q = digits_value Dec s ds e /\ (nearest rm = false -> ninexact q = false).
Proof.
  intros tp s ds e p rm H D N L E [R1 R2] P P64 M F. destruct (C75_digits tp s ds e p rm H D N L E R1) as [A _]. destruct (A (conj P P64)) as (f0 & res & A1 & A2).
  destruct (read_exact p rm _ s res (proj1 P) M F R2 A1) as (q & -> & Q). exists f0, q. split; [exact A2|exact Q].
Qed.
(** The automatic precision is enough for an integer with that many digits. *)
Theorem C76_integer : forall tp s ds rm, ten_cache tp -> digits_ok 10 ds -> dig_val 10 ds <> 0 -> zlen ds <= 646456991 -> rm <> RNone ->
  exists f0 q, (forall f, (f0 <= f)%nat -> n_conv_from_dec f tp s ds (zlen ds) USIZE_MAX rm = Some (Ok q)) /\
    wf q /\ 64 * wlen q = auto_p ds /\ ns q = s /\ value q = IZR (sgnZ s * dig_val 10 ds).
Proof. intros tp s ds rm H. destruct (C53_powers tp H) as [K _]. exact (read_integer tp s ds rm K). Qed.

Definition all_dec := (C53_powers, C53_from_digits, C53_rejects, C53_to_digits, C53_short, C53_round_trip, C53_refuted, C73_output_refuted, C74_tie_refuted,
  C75_digits, C75_literal, C76_exact, C76_integer).
Print Assumptions all_dec.
