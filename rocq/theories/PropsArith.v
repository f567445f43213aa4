(** Property theorems, part 1: rounded and exact arithmetic of BigFloatNumber.
    The examples show that the hypotheses are met by concrete, non-trivial
    arguments.  The assumptions of all theorems are printed at the end (per
    theorem: see ASSUMPTIONS.md). *)

From Coq Require Import ZArith Reals List Bool Lia Lra.
From Flocq Require Import Core.
From Verif Require Import Words IntModel MulModel DivModel Mantissa Num SpecZ Spec RealP CmpP SetP AddNum MulP2 MulNum DivP2 DivNum ArithTop Refute1.
Import ListNotations.
Open Scope Z_scope.

(** ** Concrete operands used by the examples. *)
(** 1.5 on three words, marked inexact; -3/4 * 2^EMIN / 2^70, a subnormal on two words. *)
Definition ex_a : num := mk_num (mk_m [5; 0; 13835058055282163712] 192) Pos 1 true.
Definition ex_b : num := mk_num (mk_m [12345; 1] 65) Neg EXPONENT_MIN false.
Definition ex_z : num := mk_num (mk_m [0; 0] 0) Neg 0 false.

Example ex_a_ok : wf ex_a /\ nonzero ex_a /\ normal ex_a.
Proof. split; [unfold ex_a; wf_concrete|]. split; [vm_compute; discriminate|]. split; [reflexivity|vm_compute; discriminate]. Qed.
Example ex_b_ok : wf ex_b /\ nonzero ex_b /\ ~ normal ex_b.
Proof. split; [unfold ex_b; wf_concrete|]. split; [vm_compute; discriminate|]. intros [H _]. vm_compute in H. discriminate H. Qed.
Example ex_z_ok : wf ex_z /\ magnitude ex_z = 0.
Proof.
  split; [|reflexivity]. unfold ex_z. constructor; try reflexivity; cbn [nm mm mn ne]; try lia.
  - unfold words_ok. repeat constructor; lia.
Qed.
Example ex_prec_ok : 0 < 100 /\ prec_up 100 = 128 /\ prec_up 100 < P_LIM.
Proof. repeat split. Qed.

(** ** C01 *)
Theorem C01_add_correctly_rounded : forall x y p rm, wf x -> wf y -> 0 < p -> prec_up p < P_LIM ->
  rounds_to_normal (prec_up p) rm (value x + value y)%R (n_add x y p rm) /\
  ((value x + value y)%R = 0%R -> zero_result (prec_up p) (n_add x y p rm)).
Proof. exact add_top. Qed.

(** The range hypothesis inside [rounds_to_normal] is met, e.g. by 1 + 1. *)
Example C01_case : forall rm, (bpow radix2 (EMIN - 1) <= Rabs (rnd_prec 64 rm (value ONE + value ONE)) < bpow radix2 EMAX)%R.
Proof.
  intros rm. rewrite ONE_value. replace (1 + 1)%R with (bpow radix2 1) by (unfold bpow; simpl; lra). rewrite rnd_prec_bpow by lia.
  rewrite Rabs_pos_eq by apply bpow_ge_0. split; [apply bpow_le|apply bpow_lt]; lia.
Qed.

(** ** C02 *)
Theorem C02_sub_correctly_rounded : forall x y p rm, wf x -> wf y -> 0 < p -> prec_up p < P_LIM ->
  rounds_to_normal (prec_up p) rm (value x - value y)%R (n_sub x y p rm) /\
  ((value x - value y)%R = 0%R -> zero_result (prec_up p) (n_sub x y p rm)) /\
  (nonzero x -> value x = value y -> exists q, n_sub x y p rm = Ok q /\ ns q = Pos /\ magnitude q = 0).
Proof. exact sub_top. Qed.

(** ** C03 *)
Theorem C03_mul_correctly_rounded : forall x y p rm, wf x -> wf y -> 0 < p -> prec_up p < P_LIM ->
  rounds_to_normal (prec_up p) rm (value x * value y)%R (n_mul x y p rm) /\
  ((value x * value y)%R = 0%R -> zero_result (prec_up p) (n_mul x y p rm)).
Proof. exact mul_top. Qed.

(** ** C04 *)
Theorem C04_div_correctly_rounded : forall x y p rm, wf x -> wf y -> nonzero y -> 0 < p -> prec_up p < P_LIM ->
  rounds_to_normal (prec_up p) rm (value x / value y)%R (n_div x y p rm) /\
  (value x = 0%R -> zero_result (prec_up p) (n_div x y p rm)).
Proof. exact div_top. Qed.

Theorem C04_div_by_zero : forall x y p rm, wf x -> wf y -> magnitude y = 0 ->
  n_div x y p rm = Err (if magnitude x =? 0 then InvalidArgument else DivisionByZero).
Proof. exact div_by_zero. Qed.

(** ** C07 *)
Theorem C07_add_inexact : forall x y p rm q, wf x -> wf y -> nonzero x \/ nonzero y -> 0 < p -> prec_up p < P_LIM -> n_add x y p rm = Ok q ->
  (ninexact q = true <-> (nonzero x /\ ninexact x = true) \/ (nonzero y /\ ninexact y = true) \/ value q <> (value x + value y)%R).
Proof. exact add_flag. Qed.

Theorem C07_sub_inexact : forall x y p rm q, wf x -> wf y -> nonzero x \/ nonzero y -> 0 < p -> prec_up p < P_LIM -> n_sub x y p rm = Ok q ->
  (ninexact q = true <-> (nonzero x /\ ninexact x = true) \/ (nonzero y /\ ninexact y = true) \/ value q <> (value x - value y)%R).
Proof. exact sub_flag. Qed.

Theorem C07_mul_inexact : forall x y p rm q, wf x -> wf y -> 0 < p -> prec_up p < P_LIM -> n_mul x y p rm = Ok q ->
  (ninexact q = true <-> nonzero x /\ nonzero y /\ (ninexact x = true \/ ninexact y = true \/ value q <> (value x * value y)%R)).
Proof. exact mul_flag. Qed.

Theorem C07_div_inexact : forall x y p rm q, wf x -> wf y -> nonzero y -> 0 < p -> prec_up p < P_LIM -> n_div x y p rm = Ok q ->
  (ninexact q = true <-> nonzero x /\ (ninexact x = true \/ ninexact y = true \/ value q <> (value x / value y)%R)).
Proof. exact div_flag. Qed.

Example C07_case : exists q, n_add ex_a ex_b 64 RUp = Ok q /\ ninexact q = true.
Proof. eexists. split; vm_compute; reflexivity. Qed.

(** ** C08 *)
Theorem C08_add_overflow : forall x y p rm, wf x -> wf y -> 0 < p -> prec_up p < P_LIM ->
  overflow_exact (prec_up p) rm (value x + value y)%R (n_add x y p rm).
Proof. exact add_ov. Qed.
Theorem C08_sub_overflow : forall x y p rm, wf x -> wf y -> 0 < p -> prec_up p < P_LIM ->
  overflow_exact (prec_up p) rm (value x - value y)%R (n_sub x y p rm).
Proof. exact sub_ov. Qed.
Theorem C08_mul_overflow : forall x y p rm, wf x -> wf y -> 0 < p -> prec_up p < P_LIM ->
  overflow_exact (prec_up p) rm (value x * value y)%R (n_mul x y p rm).
Proof. exact mul_ov. Qed.
Theorem C08_div_overflow : forall x y p rm, wf x -> wf y -> nonzero y -> 0 < p -> prec_up p < P_LIM ->
  overflow_exact (prec_up p) rm (value x / value y)%R (n_div x y p rm).
Proof. exact div_ov. Qed.

(** Both outcomes occur. *)
Definition ex_max : num := mk_num (mk_m [18446744073709551615; 18446744073709551615] 128) Neg EXPONENT_MAX false.
Example C08_case : wf ex_max /\ n_add ex_max ex_max 128 RToZero = Err (ExponentOverflow Neg) /\
  n_add ex_max ex_z 64 RDown = Err (ExponentOverflow Neg) /\ (exists q, n_add ex_max ex_z 64 RUp = Ok q) /\ (exists q, n_sub ex_max ex_max 64 RUp = Ok q).
Proof. split; [unfold ex_max; wf_concrete|]. repeat split; try (vm_compute; reflexivity); eexists; vm_compute; reflexivity. Qed.

(** ** C09 *)
Theorem C09_add_directed : forall x y p rm q, wf x -> wf y -> 0 < p -> prec_up p < P_LIM -> nearest rm = false ->
  n_add x y p rm = Ok q -> value q = rnd_grad (prec_up p) rm (value x + value y).
Proof. exact add_directed. Qed.
Theorem C09_sub_directed : forall x y p rm q, wf x -> wf y -> 0 < p -> prec_up p < P_LIM -> nearest rm = false ->
  n_sub x y p rm = Ok q -> value q = rnd_grad (prec_up p) rm (value x - value y).
Proof. exact sub_directed. Qed.
Theorem C09_mul_directed : forall x y p rm q, wf x -> wf y -> 0 < p -> prec_up p < P_LIM -> nearest rm = false ->
  n_mul x y p rm = Ok q -> value q = rnd_grad (prec_up p) rm (value x * value y).
Proof. exact mul_directed. Qed.
Theorem C09_div_directed : forall x y p rm q, wf x -> wf y -> nonzero y -> 0 < p -> prec_up p < P_LIM -> nearest rm = false ->
  n_div x y p rm = Ok q -> value q = rnd_grad (prec_up p) rm (value x / value y).
Proof. exact div_directed. Qed.

(** A subnormal product on 64 bits, rounded up and down. *)
Example C09_case : exists q1 q2, n_mul ex_three_quarters ex_pow_m64 64 RUp = Ok q1 /\ n_mul ex_three_quarters ex_pow_m64 64 RDown = Ok q2 /\
  magnitude q1 = 1 /\ ne q1 = EMIN /\ magnitude q2 = 0 /\ ninexact q2 = true.
Proof. do 2 eexists. repeat split; vm_compute; reflexivity. Qed.

(** ** C10 *)
Theorem C10_nearest_subnormal_refuted : exists x y, wf x /\ wf y /\ nonzero x /\ nonzero y /\
  forall rm, nearest rm = true ->
    exists q, n_mul x y 64 rm = Ok q /\ value q = 0%R /\ rnd_grad 64 rm (value x * value y) = bpow radix2 (EMIN - 64).
Proof. exact mul_subnormal_nearest_zero. Qed.

(** What the nearest modes do compute: two roundings, and zero below the smallest positive number. *)
Theorem C10_add_two_roundings : forall x y p op rm q, wf x -> wf y -> nonzero x -> nonzero y -> op = 1 \/ op = -1 -> 0 < p -> prec_up p < P_LIM ->
  add_sub x y p op rm false = Ok q -> value q = op_value (prec_up p) rm (value x + IZR op * value y).
Proof. exact add_sub_value. Qed.
Theorem C10_mul_two_roundings : forall x y p rm q, wf x -> wf y -> 0 < p -> prec_up p < P_LIM ->
  n_mul x y p rm = Ok q -> value q = op_value (prec_up p) rm (value x * value y).
Proof. exact mul_value. Qed.
Theorem C10_div_two_roundings : forall x y p rm q, wf x -> wf y -> nonzero y -> 0 < p -> prec_up p < P_LIM ->
  n_div x y p rm = Ok q -> value q = op_value (prec_up p) rm (value x / value y).
Proof. exact div_value. Qed.

(** ** C11 *)
Theorem C11_add_full_exact : forall x y op, wf x -> wf y -> nonzero x -> nonzero y -> op = 1 \/ op = -1 ->
  let r := (value x + IZR op * value y)%R in
  let ix := ninexact x || ninexact y in
  (r <> 0%R -> exists s, has_sign s r /\ exact_result r s ix (add_sub x y 0 op RNone true)) /\
  (r = 0%R -> add_sub x y 0 op RNone true = Ok (mk_num (m_new 0) Pos 0 ix)).
Proof. exact add_sub_full. Qed.
Theorem C11_mul_full_exact : forall x y, wf x -> wf y -> nonzero x -> nonzero y ->
  exact_result (value x * value y)%R (if sign_eqb (ns x) (ns y) then Pos else Neg) (ninexact x || ninexact y) (n_mul_full_prec x y).
Proof. exact mul_full. Qed.
(** [add_sub] with these arguments is the public function. *)
Example C11_names : (forall x y, n_add_full_prec x y = add_sub x y 0 1 RNone true) /\ (forall x y, n_sub_full_prec x y = add_sub x y 0 (-1) RNone true).
Proof. split; reflexivity. Qed.
Example C11_case : exists q, n_mul_full_prec ex_a ex_a = Ok q /\ wlen q = 6.
Proof. eexists. split; vm_compute; reflexivity. Qed.

(** ** C12 *)
Theorem C12_full_prec_zero_refuted : forall x y, wf x -> wf y -> magnitude x = 0 \/ magnitude y = 0 ->
  (exists q, n_add_full_prec x y = Ok q /\ value q = 0%R /\ wlen q = 0) /\
  (exists q, n_sub_full_prec x y = Ok q /\ value q = 0%R /\ wlen q = 0).
Proof. exact add_full_zero. Qed.

(** ** C14 *)
Theorem C14_cmp_nonzero : forall x y, wf x -> wf y -> nonzero x -> nonzero y ->
  Z.sgn (n_cmp x y) = sgn_of (Rcompare (value x) (value y)).
Proof. exact n_cmp_spec. Qed.
Theorem C14_abs_cmp_nonzero : forall x y, wf x -> wf y -> nonzero x -> nonzero y ->
  Z.sgn (n_abs_cmp x y) = sgn_of (Rcompare (Rabs (value x)) (Rabs (value y))).
Proof. exact n_abs_cmp_spec. Qed.
Example C14_case : n_cmp ex_a ex_b = 1 /\ n_cmp ex_b ex_a = -1 /\ n_cmp ex_b ex_b = 0.
Proof. repeat split; vm_compute; reflexivity. Qed.

(** ** C15 *)
Theorem C15_cmp_zero_refuted : forall x y, wf x -> wf y -> nonzero x -> magnitude y = 0 -> ns x = ns y ->
  (Rabs (value x) < bpow radix2 (- (64 * wlen y) - 1))%R ->
  Z.sgn (n_cmp x y) = - sgn_of (Rcompare (value x) (value y)).
Proof. exact cmp_zero_right_wrong. Qed.
Example C15_case : n_cmp ex_b ex_z = 1 /\ n_cmp ex_a (n_neg ex_z) = 1 /\ n_cmp (n_neg ex_b) (n_neg ex_z) = -1.
Proof. repeat split; vm_compute; reflexivity. Qed.
Theorem C15_cmp_zero_when_large : forall x y, wf x -> wf y -> nonzero x -> magnitude y = 0 ->
  ns x <> ns y \/ (bpow radix2 (- (64 * wlen y)) <= Rabs (value x))%R ->
  Z.sgn (n_cmp x y) = sgn_of (Rcompare (value x) (value y)).
Proof. exact cmp_zero_right_ok. Qed.
Theorem C15_cmp_zero_left : forall x y, wf x -> wf y -> magnitude x = 0 ->
  Z.sgn (n_cmp x y) = sgn_of (Rcompare (value x) (value y)).
Proof. exact cmp_zero_left. Qed.

(** ** C17.  In mode None the code cuts off whole words only, hence the side condition. *)
Theorem C17_set_precision : forall x p rm, wf x -> 0 < p -> prec_up p < P_LIM ->
  rm <> RNone \/ (p mod 64 = 0 /\ normal x) \/ 64 * wlen x <= p ->
  let z := rnd_grad p rm (value x) in
  ((bpow radix2 EMAX <= Rabs z)%R -> set_precision x p rm = Err (ExponentOverflow (ns x))) /\
  ((Rabs z < bpow radix2 EMAX)%R -> exists q, set_precision x p rm = Ok q /\ wf q /\ wlen q = (p + 63) / 64 /\ ns q = ns x /\
     value q = z /\ (ninexact q = true <-> ninexact x = true \/ z <> value x)).
Proof. exact set_precision_spec. Qed.
Theorem C17_set_precision_extends : forall x p rm, wf x -> 0 < p -> 64 * wlen x <= p -> rnd_grad p rm (value x) = value x.
Proof. exact rnd_grad_long. Qed.
(** Rounding 1.5 + 5*2^-191 to 2 bits, up. *)
Example C17_case : exists q, set_precision ex_a 2 RUp = Ok q /\ magnitude q = 9223372036854775808 /\ ne q = 2.
Proof. eexists. repeat split; vm_compute; reflexivity. Qed.

(** ** C28 *)
Theorem C28_add_comm : forall x y p rm, wf x -> wf y -> nonzero x -> nonzero y -> 0 < p -> prec_up p < P_LIM -> n_add x y p rm = n_add y x p rm.
Proof. exact add_comm. Qed.
Theorem C28_mul_comm : forall x y p rm, wf x -> wf y -> 0 < p -> prec_up p < P_LIM -> n_mul x y p rm = n_mul y x p rm.
Proof. exact mul_comm. Qed.

(** ** C29 *)
Theorem C29_add_monotone : forall x x' y p rm q q', wf x -> wf x' -> wf y -> nonzero x -> nonzero x' -> nonzero y -> 0 < p -> prec_up p < P_LIM ->
  (value x <= value x')%R -> n_add x y p rm = Ok q -> n_add x' y p rm = Ok q' -> (value q <= value q')%R.
Proof. exact add_mono. Qed.
Theorem C29_sub_monotone : forall x x' y p rm q q', wf x -> wf x' -> wf y -> nonzero x -> nonzero x' -> nonzero y -> 0 < p -> prec_up p < P_LIM ->
  (value x <= value x')%R -> n_sub x y p rm = Ok q -> n_sub x' y p rm = Ok q' -> (value q <= value q')%R.
Proof. exact sub_mono. Qed.
Theorem C29_mul_monotone : forall x x' y p rm q q', wf x -> wf x' -> wf y -> (0 <= value y)%R -> 0 < p -> prec_up p < P_LIM ->
  (value x <= value x')%R -> n_mul x y p rm = Ok q -> n_mul x' y p rm = Ok q' -> (value q <= value q')%R.
Proof. exact mul_mono. Qed.

(** ** C36 *)
Theorem C36_reciprocal : forall x p rm, wf x -> nonzero x -> 0 < p -> prec_up p < P_LIM ->
  correctly_rounded (prec_up p) rm (/ value x)%R (ns x) (ninexact x) (n_reciprocal x p rm).
Proof. exact reciprocal_nonzero. Qed.
Theorem C36_reciprocal_zero : forall x p rm, wf x -> magnitude x = 0 -> n_reciprocal x p rm = Err DivisionByZero.
Proof. exact reciprocal_zero. Qed.

(** ** C42.  Operands of 2^26 words or more together are modelled by schoolbook multiplication in place of FFT. *)
Theorem C42_multiplication_is_product : forall m1 m2 l3, words_ok m1 -> words_ok m2 -> zlen m1 + zlen m2 <= l3 ->
  exists r, mul_unbalanced m1 m2 l3 = Ok r /\ val r = val m1 * val m2 /\ words_ok r /\ zlen r = l3.
Proof. exact mul_unbalanced_spec. Qed.

(** ** C43 *)
Theorem C43_division_quotient_remainder : forall m1 m2, words_ok m1 -> words_ok m2 -> 1 <= zlen m2 -> 2 ^ (64 * (zlen m2 - 1)) <= val m2 ->
  exists q r, div_unbalanced m1 m2 = Ok (q, r) /\ val m1 = val q * val m2 + val r /\ val r < val m2 /\ words_ok q /\ words_ok r /\
    zlen q = Z.max 1 (zlen m1 - zlen m2 + 1) /\ zlen r <= zlen m1 /\ (zlen m2 <= zlen m1 -> zlen m2 <= zlen r).
Proof. exact div_unbalanced_spec. Qed.
Example C43_case : exists q r, div_unbalanced [7; 6; 5; 4; 3] [11; 10; 9223372036854775808] = Ok (q, r).
Proof. do 2 eexists. vm_compute. reflexivity. Qed.

Definition all_props_arith := (
  C01_add_correctly_rounded,
  C02_sub_correctly_rounded,
  C03_mul_correctly_rounded,
  C04_div_correctly_rounded,
  C04_div_by_zero,
  C07_add_inexact,
  C07_sub_inexact,
  C07_mul_inexact,
  C07_div_inexact,
  C08_add_overflow,
  C08_sub_overflow,
  C08_mul_overflow,
  C08_div_overflow,
  C09_add_directed,
  C09_sub_directed,
  C09_mul_directed,
  C09_div_directed,
  C10_nearest_subnormal_refuted,
  C10_add_two_roundings,
  C10_mul_two_roundings,
  C10_div_two_roundings,
  C11_add_full_exact,
  C11_mul_full_exact,
  C12_full_prec_zero_refuted,
  C14_cmp_nonzero,
  C14_abs_cmp_nonzero,
  C15_cmp_zero_refuted,
  C15_cmp_zero_when_large,
  C15_cmp_zero_left,
  C17_set_precision,
  C17_set_precision_extends,
  C28_add_comm,
  C28_mul_comm,
  C29_add_monotone,
  C29_sub_monotone,
  C29_mul_monotone,
  C36_reciprocal,
  C36_reciprocal_zero,
  C42_multiplication_is_product,
  C43_division_quotient_remainder).
Print Assumptions all_props_arith.
