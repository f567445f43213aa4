(** Property theorems, part 3: remainder, rounding to integers and fractions,
    conversions, constructors, well-formedness and absence of panics. *)

From Coq Require Import ZArith Reals List Bool Lia Lra.
From Flocq Require Import Core.
From Verif Require Import Words RootModel Mantissa Num SpecZ Spec SpecOps RemNum IntNum ConvNum Conv2Num WfTop Refute1 Refute2 PropsArith.
Import ListNotations.
Open Scope Z_scope.

(** ** C13 *)
Theorem C13_rem_exact : forall x y, wf x -> wf y -> nonzero y ->
  let k := Z.max (wlen x + 1) (2 * wlen y) in 64 * k < P_LIM ->
  exists q, n_rem x y = Ok q /\ rem_post x y q k.
Proof. exact rem_total. Qed.

(** The defining properties of the real remainder used there. *)
Theorem C13_rem_real_characterised : forall x y, (y <> 0)%R ->
  (Rabs (rem_real x y) < Rabs y)%R /\ (Rabs (rem_real x y) <= Rabs x)%R /\ (0 <= rem_real x y * x)%R.
Proof. exact rem_real_props. Qed.

Theorem C13_rem_by_zero : forall x y, wf y -> magnitude y = 0 -> n_rem x y = Err InvalidArgument.
Proof. intros x y W H. unfold n_rem. rewrite (CmpP.is_zero_spec y W), H. reflexivity. Qed.

Definition ex_big : num := mk_num (mk_m [7; 9223372036854775811] 128) Neg 1000 false.
Definition ex_small : num := mk_num (mk_m [5; 0; 12345678901234567890] 192) Pos 3 true.
Lemma ex_big_wf : wf ex_big. Proof. unfold ex_big. wf_concrete. Qed.
Lemma ex_small_wf : wf ex_small. Proof. unfold ex_small. wf_concrete. Qed.
Example C13_case : wf ex_big /\ wf ex_small /\ nonzero ex_small /\ 64 * Z.max (wlen ex_big + 1) (2 * wlen ex_small) < P_LIM /\
  exists q, n_rem ex_big ex_small = Ok q /\ nonzero q /\ ns q = Neg /\ ninexact q = true.
Proof.
  split; [exact ex_big_wf|]. split; [exact ex_small_wf|]. split; [vm_compute; discriminate|]. split; [reflexivity|].
  eexists. split; [vm_compute; reflexivity|]. split; [vm_compute; discriminate|]. split; reflexivity.
Qed.

(** ** C56 *)
Theorem C56_subnormal_remainder_refuted : exists x y r q, wf x /\ wf y /\ wf r /\ nonzero y /\
  value r = rem_real (value x) (value y) /\ nonzero r /\ n_rem x y = Ok q /\ value q = 0%R /\ ninexact q = false.
Proof. exact rem_subnormal_flushed. Qed.

(** ** C16 *)
Theorem C16_add_wf : forall x y p rm, wf x -> wf y -> 0 < p -> prec_up p < P_LIM -> rm <> RNone \/ (nonzero x /\ nonzero y) ->
  well_formed_result (prec_up p) (n_add x y p rm).
Proof. intros. now apply add_sub_wf; auto. Qed.
Theorem C16_sub_wf : forall x y p rm, wf x -> wf y -> 0 < p -> prec_up p < P_LIM -> rm <> RNone \/ (nonzero x /\ nonzero y) ->
  well_formed_result (prec_up p) (n_sub x y p rm).
Proof. intros. now apply add_sub_wf; auto. Qed.
Theorem C16_mul_wf : forall x y p rm, wf x -> wf y -> 0 < p -> prec_up p < P_LIM -> well_formed_result (prec_up p) (n_mul x y p rm).
Proof. exact mul_wf. Qed.
Theorem C16_div_wf : forall x y p rm, wf x -> wf y -> 0 < p -> prec_up p < P_LIM -> well_formed_result (prec_up p) (n_div x y p rm).
Proof. exact div_wf. Qed.
Theorem C16_reciprocal_wf : forall x p rm, wf x -> 0 < p -> prec_up p < P_LIM -> well_formed_result (prec_up p) (n_reciprocal x p rm).
Proof. exact recip_wf. Qed.
Theorem C16_sqrt_wf : forall x p rm, wf x -> 0 < p -> prec_up p < P_LIM -> well_formed_result (prec_up p) (n_sqrt x p rm).
Proof. exact sqrt_wf. Qed.
Theorem C16_cbrt_wf : forall x p rm, wf x -> 0 < p -> prec_up p < P_LIM -> well_formed_result (prec_up p) (n_cbrt x p rm).
Proof. exact cbrt_wf. Qed.
Theorem C16_set_precision_wf : forall x p rm, wf x -> 0 < p -> prec_up p < P_LIM -> rm <> RNone -> well_formed_result (prec_up p) (set_precision x p rm).
Proof. exact sp_wf. Qed.
Theorem C16_round_wf : forall x n rm, wf x -> 0 <= n -> rm <> RNone -> nearest rm = false \/ normal x \/ n <> 2 ^ 31 ->
  well_formed_result (64 * wlen x) (n_round x n rm).
Proof. exact round_wf. Qed.
Theorem C16_rem_wf : forall x y, wf x -> wf y -> 64 * Z.max (wlen x + 1) (2 * wlen y) < P_LIM ->
  match n_rem x y with Ok q => wf q | Err _ => True | Panic => False end.
Proof. exact rem_wf. Qed.

(** Mode None on a subnormal number breaks the invariant. *)
Theorem C16_mode_none_refuted : exists x q, wf x /\ set_precision x 64 RNone = Ok q /\ magnitude q = 0 /\ ne q = EMIN /\ ~ wf q.
Proof. destruct none_mode_breaks_wf as (W & q & H). exists ex_low_sub, q. split; [exact W|exact H]. Qed.

Example C16_case : exists q, n_add ex_big ex_small 128 RUp = Ok q /\ wf ex_big /\ wf ex_small /\ prec_up 128 < P_LIM.
Proof. eexists. split; [vm_compute; reflexivity|]. split; [exact ex_big_wf|]. split; [exact ex_small_wf|reflexivity]. Qed.

(** ** C54 *)
Theorem C54_add_no_panic : forall x y p rm, wf x -> wf y -> 0 < p -> prec_up p < P_LIM -> no_panic (n_add x y p rm).
Proof. intros. now apply add_sub_wf; auto. Qed.
Theorem C54_sub_no_panic : forall x y p rm, wf x -> wf y -> 0 < p -> prec_up p < P_LIM -> no_panic (n_sub x y p rm).
Proof. intros. now apply add_sub_wf; auto. Qed.
Theorem C54_arith_no_panic : forall x y p rm, wf x -> wf y -> 0 < p -> prec_up p < P_LIM ->
  no_panic (n_mul x y p rm) /\ no_panic (n_div x y p rm) /\ no_panic (n_reciprocal x p rm) /\ no_panic (n_sqrt x p rm) /\ no_panic (n_cbrt x p rm) /\
  (rm <> RNone -> no_panic (set_precision x p rm)).
Proof.
  intros x y p rm Wx Wy Hp HP. repeat split; intros; eapply wf_np; eauto using mul_wf, div_wf, recip_wf, sqrt_wf, cbrt_wf, sp_wf.
Qed.
Theorem C54_rem_no_panic : forall x y, wf x -> wf y -> 64 * Z.max (wlen x + 1) (2 * wlen y) < P_LIM -> no_panic (n_rem x y).
Proof. intros x y Wx Wy H. pose proof (rem_wf x y Wx Wy H) as R. destruct (n_rem x y); [exact I|exact I|exact R]. Qed.
Theorem C54_floor_ceil_no_panic : forall x, wf x -> 64 * wlen x < 2 ^ 31 -> no_panic (n_floor x) /\ no_panic (n_ceil x).
Proof. intros x W H. destruct (floor_spec x W H) as (q & -> & _). destruct (ceil_spec x W H) as (r & -> & _). split; exact I. Qed.

(** ** C18 *)
Theorem C18_round : forall x n rm, wf x -> 0 <= n < 4611686018427387903 -> rm <> RNone ->
  nearest rm = false \/ mn (nm x) = 64 * wlen x \/ n <> 2 ^ 31 -> round_post x n rm (n_round x n rm).
Proof. exact round_spec. Qed.
Theorem C18_round_limit : forall x n rm, 4611686018427387903 <= n -> n_round x n rm = Err InvalidArgument.
Proof. intros x n rm H. unfold n_round. now rewrite (proj2 (Z.leb_le _ _) H). Qed.
Example C18_case : wf ex_small /\ mn (nm ex_small) = 64 * wlen ex_small /\ exists q, n_round ex_small 70 RToEven = Ok q /\ nonzero q /\ magnitude q <> magnitude ex_small.
Proof.
  split; [exact ex_small_wf|]. split; [reflexivity|]. eexists. split; [vm_compute; reflexivity|]. split; vm_compute; discriminate.
Qed.

(** ** C57 *)
Theorem C57_round_subnormal_refuted : exists x n, wf x /\ 0 <= n < 4611686018427387903 /\ forall rm, nearest rm = true ->
  exists q, n_round x n rm = Ok q /\ value q <> rnd_frac n rm (value x).
Proof. exact round_subnormal_wrong. Qed.

(** ** C19 *)
Theorem C19_int : forall x, wf x -> let q := n_int x in
  wf q /\ wlen q = wlen x /\ ns q = ns x /\ ninexact q = ninexact x /\ value q = IZR (Ztrunc (value x)).
Proof. exact int_spec. Qed.
Theorem C19_fract : forall x, wf x -> 64 * wlen x <= 2 ^ 31 -> let q := n_fract x in
  wf q /\ wlen q = wlen x /\ ns q = ns x /\ ninexact q = ninexact x /\ value q = (value x - IZR (Ztrunc (value x)))%R.
Proof. exact fract_spec. Qed.
Theorem C19_floor : forall x, wf x -> 64 * wlen x < 2 ^ 31 -> exists q, n_floor x = Ok q /\
  wf q /\ wlen q = wlen x /\ (ninexact q = true -> ninexact x = true) /\ (Ztrunc (value x) <> 0 -> ninexact q = ninexact x) /\
  value q = IZR (Zfloor (value x)).
Proof. exact floor_spec. Qed.
Theorem C19_ceil : forall x, wf x -> 64 * wlen x < 2 ^ 31 -> exists q, n_ceil x = Ok q /\
  wf q /\ wlen q = wlen x /\ (ninexact q = true -> ninexact x = true) /\ (Ztrunc (value x) <> 0 -> ninexact q = ninexact x) /\
  value q = IZR (Zceil (value x)).
Proof. exact ceil_spec. Qed.
Theorem C19_is_int : forall x, wf x -> (n_is_int x = true <-> exists n, value x = IZR n).
Proof. exact is_int_spec. Qed.
Example C19_case : wf ex_big /\ 64 * wlen ex_big < 2 ^ 31 /\ wf ex_small /\ 64 * wlen ex_small < 2 ^ 31 /\ n_is_int ex_big = true /\ n_is_int ex_small = false.
Proof. split; [exact ex_big_wf|]. split; [reflexivity|]. split; [exact ex_small_wf|]. split; [reflexivity|]. split; vm_compute; reflexivity. Qed.

(** ** C20: [sz] is the size of the type in bits. *)
Theorem C20_unsigned : forall sz u p, 0 < sz -> 0 <= u < 2 ^ 64 -> prec_up p < P_LIM ->
  (p < sz -> from_uint sz u p = Err InvalidArgument) /\ (sz <= p -> exact_pos p u (from_uint sz u p)).
Proof. exact from_uint_spec. Qed.
Theorem C20_signed : forall sz i p, 0 < sz -> - 2 ^ 63 <= i < 2 ^ 63 -> prec_up p < P_LIM ->
  (p < sz -> from_int sz i p = Err InvalidArgument) /\ (sz <= p -> exact_int p i (from_int sz i p)).
Proof. exact from_int_spec. Qed.
Theorem C20_u128 : forall v p, 0 <= v < 2 ^ 128 -> prec_up p < P_LIM ->
  (p < 128 -> from_u128 v p = Err InvalidArgument) /\ (128 <= p -> exact_pos p v (from_u128 v p)).
Proof. exact from_u128_spec. Qed.
Theorem C20_i128 : forall i p, - 2 ^ 127 <= i < 2 ^ 127 -> prec_up p < P_LIM ->
  (p < 128 -> from_i128 i p = Err InvalidArgument) /\ (128 <= p -> exact_int p i (from_i128 i p)).
Proof. exact from_i128_spec. Qed.
Theorem C20_word : forall d p, 0 <= d < 2 ^ 64 -> 0 < p -> prec_up p < P_LIM -> exact_pos p d (from_word d p).
Proof. exact from_word_spec. Qed.
Example C20_case : - 2 ^ 127 <= - 12345678901234567890123456789 < 2 ^ 127 /\ prec_up 200 < P_LIM /\ exists q, from_i128 (- 12345678901234567890123456789) 200 = Ok q /\ wlen q = 4.
Proof. split; [split; [discriminate|reflexivity]|]. split; [reflexivity|]. eexists. split; vm_compute; reflexivity. Qed.

(** ** C21, C22 *)
Theorem C21_f64_normal_exact : forall b p, 0 <= b < 2 ^ 64 -> 0 < p -> prec_up p < P_LIM -> 1 <= d_exp b <= 2046 ->
  exists q, from_f64 p b = Ok q /\ wf q /\ 64 * wlen q = prec_up p /\ ns q = d_sign b /\ ninexact q = false /\ value q = d_value b.
Proof. intros b p H1 H2 H3. exact (proj1 (from_f64_spec b p H1 H2 H3)). Qed.
Theorem C21_f64_special : forall b p, 0 <= b < 2 ^ 64 -> 0 < p -> prec_up p < P_LIM -> d_exp b = 2047 ->
  (d_frac b = 0 -> from_f64 p b = Err (ExponentOverflow (d_sign b))) /\ (d_frac b <> 0 -> from_f64 p b = Err InvalidArgument).
Proof. intros b p H1 H2 H3 He. destruct (from_f64_spec b p H1 H2 H3) as (_ & _ & _ & A & B). auto. Qed.
Theorem C21_f64_zero : forall b p, 0 <= b < 2 ^ 64 -> 0 < p -> prec_up p < P_LIM -> d_exp b = 0 -> d_frac b = 0 ->
  exists q, from_f64 p b = Ok q /\ value q = 0%R /\ wlen q = 0 /\ ns q = Pos /\ ninexact q = false.
Proof. intros b p H1 H2 H3. destruct (from_f64_spec b p H1 H2 H3) as (_ & _ & A & _). exact A. Qed.
(** The bit pattern of -pi as a double. *)
Example C21_case : 0 <= 13837628687431468568 < 2 ^ 64 /\ 1 <= d_exp 13837628687431468568 <= 2046 /\ d_sign 13837628687431468568 = Neg.
Proof. split; [split; [discriminate|reflexivity]|]. split; [vm_compute; split; discriminate|reflexivity]. Qed.

Theorem C22_f64_subnormal_half : forall b p, 0 <= b < 2 ^ 64 -> 0 < p -> prec_up p < P_LIM -> d_exp b = 0 -> d_frac b <> 0 ->
  exists q, from_f64 p b = Ok q /\ wf q /\ 64 * wlen q = prec_up p /\ ns q = d_sign b /\ ninexact q = false /\ value q = (d_value b / 2)%R.
Proof. intros b p H1 H2 H3. destruct (from_f64_spec b p H1 H2 H3) as (_ & A & _). exact A. Qed.
Theorem C22_f64_subnormal_refuted : forall b p, 0 <= b < 2 ^ 64 -> 0 < p -> prec_up p < P_LIM -> d_exp b = 0 -> d_frac b <> 0 ->
  exists q, from_f64 p b = Ok q /\ value q <> d_value b.
Proof.
  intros b p H1 H2 H3 He Hf. destruct (C22_f64_subnormal_half b p H1 H2 H3 He Hf) as (q & A & W & _ & _ & _ & V). exists q. split; [exact A|].
  intros E. assert (Z : d_value b = 0%R) by lra. unfold d_value in Z. rewrite He in Z. change (0 =? 0) with true in Z. cbv iota in Z. apply eq_0_F2R in Z.
  destruct (d_sign b); cbn [sgnZ] in Z; lia.
Qed.
Example C22_case : d_exp 1 = 0 /\ d_frac 1 <> 0.
Proof. split; [reflexivity|discriminate]. Qed.

(** ** C23 *)
Theorem C23_raw_round_trip : forall x, wf x -> from_raw_parts (mm (nm x)) (mn (nm x)) (ns x) (ne x) (ninexact x) = Ok x.
Proof. exact raw_round_trip. Qed.
Theorem C23_raw_accepts_exactly : forall m n s e b, words_ok m -> 0 <= n -> EMIN <= e <= EMAX ->
  (valid_parts m n e -> exists q, from_raw_parts m n s e b = Ok q /\ wf q /\ q = mk_num (mk_m m n) s (if n =? 0 then 0 else e) b) /\
  (~ valid_parts m n e -> from_raw_parts m n s e b = Err InvalidArgument).
Proof. exact from_raw_parts_spec. Qed.
Example C23_case : valid_parts [7; 9223372036854775811] 128 1000 /\ ~ valid_parts [7; 3] 66 1000 /\ valid_parts [7; 3] 66 EMIN.
Proof. unfold valid_parts. split; [split; [reflexivity|split; [reflexivity|intros [_ H]; discriminate H]]|]. split; [intros (_ & _ & H); specialize (H ltac:(split; reflexivity)); discriminate H|].
  split; [reflexivity|split; reflexivity]. Qed.

(** ** C24 *)
Theorem C24_from_words : forall m s e, words_ok m -> 64 * zlen m < P_LIM -> EMIN <= e <= EMAX ->
  exists q, from_words m s e = Ok q /\ wf q /\ wlen q = zlen m /\ ns q = s /\ ninexact q = false /\
    value q = F2R (Float radix2 (sgnZ s * val m) (e - 64 * zlen m)).
Proof. exact from_words_spec. Qed.
Example C24_case : words_ok [7; 5; 0] /\ 64 * zlen [7; 5; 0] < P_LIM /\ exists q, from_words [7; 5; 0] Neg (EMIN + 10) = Ok q /\ is_subnormal q = true.
Proof. split; [repeat constructor; lia|]. split; [reflexivity|]. eexists. split; vm_compute; reflexivity. Qed.

(** ** C34 *)
Theorem C34_set_exponent : forall x e, wf x -> EMIN <= e <= EMAX -> let q := set_exponent x e in
  wf q /\ wlen q = wlen x /\ ns q = ns x /\ ninexact q = ninexact x /\ value q = (value x * bpow radix2 (e - ne x))%R.
Proof. exact set_exponent_spec. Qed.
Example C34_case : wf ex_low_sub /\ is_subnormal ex_low_sub = true /\ ne (set_exponent ex_low_sub 5) = 5 - 127.
Proof. split; [exact (proj1 none_mode_breaks_wf)|]. split; vm_compute; reflexivity. Qed.

(** ** C35 *)
Theorem C35_max_min_value : forall p, 0 < p -> prec_up p < P_LIM -> exists q q',
  max_value p = Ok q /\ min_value p = Ok q' /\ wf q /\ wf q' /\ 64 * wlen q = prec_up p /\ 64 * wlen q' = prec_up p /\ normal q /\ normal q' /\
  ns q = Pos /\ ns q' = Neg /\ value q' = (- value q)%R /\
  value q = F2R (Float radix2 (2 ^ prec_up p - 1) (EMAX - prec_up p)) /\
  (forall y, wf y -> 64 * wlen y = prec_up p -> (value q' <= value y <= value q)%R).
Proof. exact max_value_spec. Qed.
Theorem C35_min_positive : forall p, 0 < p -> prec_up p < P_LIM -> exists q,
  min_positive p = Ok q /\ wf q /\ 64 * wlen q = prec_up p /\ ns q = Pos /\ value q = bpow radix2 (EMIN - prec_up p) /\
  (forall y, wf y -> 64 * wlen y = prec_up p -> (0 < value y)%R -> (value q <= value y)%R).
Proof. exact min_positive_spec. Qed.
Theorem C35_min_positive_normal : forall p, 0 < p -> prec_up p < P_LIM -> exists q,
  min_positive_normal p = Ok q /\ wf q /\ normal q /\ 64 * wlen q = prec_up p /\ ns q = Pos /\ value q = bpow radix2 (EMIN - 1) /\
  (forall y, wf y -> normal y -> (0 < value y)%R -> (value q <= value y)%R) /\
  (forall y, wf y -> nonzero y -> ~ normal y -> (Rabs (value y) < value q)%R).
Proof. exact min_positive_normal_spec. Qed.
Example C35_case : 0 < 100 /\ prec_up 100 = 128 /\ prec_up 100 < P_LIM.
Proof. repeat split. Qed.

Definition all_props_num := (
  C13_rem_exact, C13_rem_real_characterised, C13_rem_by_zero, C56_subnormal_remainder_refuted,
  C16_add_wf, C16_sub_wf, C16_mul_wf, C16_div_wf, C16_reciprocal_wf, C16_sqrt_wf, C16_cbrt_wf, C16_set_precision_wf, C16_round_wf, C16_rem_wf, C16_mode_none_refuted,
  C54_add_no_panic, C54_sub_no_panic, C54_arith_no_panic, C54_rem_no_panic, C54_floor_ceil_no_panic,
  C18_round, C18_round_limit, C57_round_subnormal_refuted,
  C19_int, C19_fract, C19_floor, C19_ceil, C19_is_int,
  C20_unsigned, C20_signed, C20_u128, C20_i128, C20_word,
  C21_f64_normal_exact, C21_f64_special, C21_f64_zero, C22_f64_subnormal_half, C22_f64_subnormal_refuted,
  C23_raw_round_trip, C23_raw_accepts_exactly, C24_from_words, C34_set_exponent, C35_max_min_value, C35_min_positive, C35_min_positive_normal).
Print Assumptions all_props_num.
