(** Property theorems: integer powers and the special cases of pow. *)

From Coq Require Import ZArith List Bool Lia Reals Lra.
From Flocq Require Import Core.
From Verif Require Import Words Mantissa Num Ext Pow SpecZ Spec SpecOps SpecExt SpecPow RealP RealP2 DivNum SetP Refute1 PowTop PowExt.
Import ListNotations.
Open Scope Z_scope.

Definition ex_three : num := mk_num (mk_m [3 * 2 ^ 62] 64) Neg 2 false.
Definition ex_half_pos : num := mk_num (mk_m [2 ^ 63] 64) Pos 0 false.
Definition ex_neg_zero : num := mk_num (mk_m [0] 0) Neg 0 false.
Lemma ex_three_wf : wf ex_three /\ nonzero ex_three.
Proof. split; [unfold ex_three; wf_concrete|vm_compute; discriminate]. Qed.
Lemma ex_half_pos_wf : wf ex_half_pos /\ nonzero ex_half_pos.
Proof. split; [unfold ex_half_pos; wf_concrete|vm_compute; discriminate]. Qed.
Lemma ex_three_value : value ex_three = (-3)%R.
Proof.
  unfold value, F2R. cbn [Fnum Fexp]. change (ne ex_three - 64 * wlen ex_three) with (- (62)). change (sgnZ (ns ex_three) * magnitude ex_three) with (-3 * 2 ^ 62).
  rewrite mult_IZR, bpow_opp_IZR by lia. field. apply IZR_neq. discriminate.
Qed.
Lemma ex_half_pos_value : value ex_half_pos = (/ 2)%R.
Proof.
  unfold value, F2R. cbn [Fnum Fexp]. change (ne ex_half_pos - 64 * wlen ex_half_pos) with (- (64)). change (sgnZ (ns ex_half_pos) * magnitude ex_half_pos) with (2 ^ 63).
  rewrite bpow_opp_IZR by lia. replace (2 ^ 64) with (2 * 2 ^ 63) by reflexivity. rewrite mult_IZR. field. apply IZR_neq. discriminate.
Qed.

(** ** C47: special cases of powi *)
Theorem C47_exponent_zero : forall f x p rm, 0 < p -> prec_up p < P_LIM -> exists res, n_powi f x 0 p rm = Some res /\ exact_pos p 1 res.
Proof. exact powi_zero_exp. Qed.
Theorem C47_exponent_one : forall f x p rm, wf x -> 0 < p -> prec_up p < P_LIM -> rm <> RNone ->
  let z := rnd_grad (prec_up p) rm (value x) in
  exists res, n_powi f x 1 p rm = Some res /\
  ((bpow radix2 EMAX <= Rabs z)%R -> res = Err (ExponentOverflow (ns x))) /\
  ((Rabs z < bpow radix2 EMAX)%R -> exists q, res = Ok q /\ wf q /\ 64 * wlen q = prec_up p /\ ns q = ns x /\
     value q = z /\ (ninexact q = true <-> ninexact x = true \/ z <> value x)).
Proof. exact powi_one. Qed.
Theorem C47_base_zero : forall f x n p rm, wf x -> magnitude x = 0 -> 0 < n -> 0 < p -> prec_up p < P_LIM ->
  exists q, n_powi f x n p rm = Some (Ok q) /\ wf q /\ 64 * wlen q = prec_up p /\ ns q = ns x /\ value q = 0%R /\ ninexact q = ninexact x.
Proof. exact powi_zero. Qed.
Theorem C47_base_inf : forall f s n p rm, 0 < n ->
  x_powi f (Inf s) n p rm = Some (Ok (Inf (match s with Neg => if Z.odd n then Neg else Pos | Pos => Pos end))).
Proof. exact powi_inf. Qed.
Theorem C47_nan : forall f e n p rm, x_powi f (NaN e) n p rm = Some (Ok (NaN e)).
Proof. exact powi_nan. Qed.
(** The result is exact (value and flag) as soon as the flag says so. *)
Theorem C47_exact : forall x n p rm, wf x -> nonzero x -> 2 <= n < 2 ^ 64 -> 0 < p -> prec_up p + 384 < P_LIM -> 2 * n * (64 * wlen x) + 384 < P_LIM ->
  (bpow radix2 (EMIN - 1) <= Rabs (value x ^ Z.to_nat n))%R ->
  exists f0, forall f q, (f0 <= f)%nat -> n_powi f x n p rm = Some (Ok q) -> ninexact q = false -> value q = (value x ^ Z.to_nat n)%R.
Proof.
  intros x n p rm W N Hn Hp HP HL HB. destruct (powi_spec x n p rm W N Hn Hp HP HL HB) as (f0 & res & P & F). exists f0. intros f q Hf E I.
  rewrite (F f Hf) in E. injection E as ->. destruct P as (_ & _ & _ & _ & _ & _ & P). now apply P.
Qed.
Example C47_case : exists q, n_powi 1 ex_three 5 64 RToEven = Some (Ok q) /\ ninexact q = false /\ ns q = Neg /\ ne q = 8 /\ magnitude q = 243 * 2 ^ 56 /\
  wf ex_three /\ nonzero ex_three.
Proof. eexists. split; [vm_compute; reflexivity|]. do 4 (split; [vm_compute; reflexivity|]). exact ex_three_wf. Qed.

(** ** C61: powi terminates, and is correctly rounded in the directed modes *)
Theorem C61_powi : forall x n p rm, wf x -> nonzero x -> 2 <= n < 2 ^ 64 -> 0 < p -> prec_up p + 384 < P_LIM -> 2 * n * (64 * wlen x) + 384 < P_LIM ->
  (bpow radix2 (EMIN - 1) <= Rabs (value x ^ Z.to_nat n))%R ->
  exists f0 res, power_post x n (prec_up p) rm res /\ forall f, (f0 <= f)%nat -> n_powi f x n p rm = Some res.
Proof. exact powi_spec. Qed.
Example C61_case : wf ex_three /\ nonzero ex_three /\ 2 * 41 * (64 * wlen ex_three) + 384 < P_LIM /\
  exists q, n_powi 1 ex_three 41 64 RDown = Some (Ok q) /\ ninexact q = true /\ magnitude q * 2 ^ (ne q - 64) = (3 ^ 41 / 2) * 2 + 2.
Proof. split; [apply ex_three_wf|]. split; [apply ex_three_wf|]. split; [vm_compute; reflexivity|]. eexists. split; [vm_compute; reflexivity|]. split; vm_compute; reflexivity. Qed.

(** ** C48: special cases of pow, for every evaluation [general] of e^(n ln x) *)
Theorem C48_exponent_zero : forall general x n p rm, wf x -> wf n -> magnitude n = 0 -> 0 < p -> prec_up p < P_LIM ->
  exists q, n_pow general x n p rm = Ok q /\ wf q /\ 64 * wlen q = prec_up p /\ ns q = Pos /\ value q = 1%R /\
    (ninexact q = true <-> ninexact n = true /\ (Rabs (value x) = 1%R -> ninexact x = true)).
Proof. exact pow_exp_zero. Qed.
Theorem C48_base_zero : forall general x n p rm, wf x -> wf n -> magnitude x = 0 -> nonzero n -> 0 < p -> prec_up p < P_LIM ->
  exists s, (odd_int (value n) -> s = ns x) /\ (~ odd_int (value n) -> s = Pos) /\
  ((value n < 0)%R -> n_pow general x n p rm = Err (ExponentOverflow s)) /\
  ((0 < value n)%R -> exists q, n_pow general x n p rm = Ok q /\ wf q /\ 64 * wlen q = prec_up p /\ ns q = s /\ value q = 0%R /\ ninexact q = ninexact x).
Proof. exact pow_base_zero. Qed.
Theorem C48_base_unit : forall general x n p rm, wf x -> wf n -> Rabs (value x) = 1%R -> nonzero n -> 8 <= p -> prec_up p < P_LIM ->
  let good v := exists q, n_pow general x n p rm = Ok q /\ wf q /\ 64 * wlen q = prec_up p /\ value q = v /\ ninexact q = ninexact x || ninexact n in
  (odd_int (value n) -> good (value x)) /\
  (~ odd_int (value n) -> value x = 1%R \/ (exists k, value n = IZR k) -> good 1%R) /\
  (value x = (-1)%R -> ~ (exists k, value n = IZR k) -> n_pow general x n p rm = Err InvalidArgument).
Proof. exact pow_base_unit. Qed.
Theorem C48_negative_base : forall general x n p rm, wf x -> wf n -> (value x < 0)%R -> ~ (exists k, value n = IZR k) -> n_pow general x n p rm = Err InvalidArgument.
Proof. exact pow_neg_base. Qed.
Theorem C48_exponent_one : forall general x n p rm, wf x -> wf n -> nonzero x -> Rabs (value x) <> 1%R -> value n = 1%R -> 0 < p -> prec_up p < P_LIM -> rm <> RNone ->
  let z := rnd_grad p rm (value x) in
  ((bpow radix2 EMAX <= Rabs z)%R -> n_pow general x n p rm = Err (ExponentOverflow (ns x))) /\
  ((Rabs z < bpow radix2 EMAX)%R -> exists q, n_pow general x n p rm = Ok q /\ wf q /\ 64 * wlen q = prec_up p /\ value q = z /\
     (ninexact q = true <-> ninexact x = true \/ ninexact n = true \/ z <> value x)).
Proof. exact pow_exp_one. Qed.
Theorem C48_exponent_minus_one : forall general x n p rm, wf x -> wf n -> nonzero x -> Rabs (value x) <> 1%R -> value n = (-1)%R -> 0 < p -> prec_up p < P_LIM ->
  correctly_rounded (prec_up p) rm (/ value x) (ns x) (ninexact x || ninexact n) (n_pow general x n p rm).
Proof. exact pow_exp_minus_one_spec. Qed.
Theorem C48_sign : forall general x n p rm, wf x -> wf n -> nonzero x -> nonzero n -> Rabs (value x) <> 1%R -> Rabs (value n) <> 1%R ->
  (0 < value x)%R \/ (exists k, value n = IZR k) ->
  exists s, (odd_int (value n) -> s = ns x) /\ (~ odd_int (value n) -> s = Pos) /\
  match n_pow general x n p rm with
  | Ok q => ns q = s
  | Err (ExponentOverflow t) => t = s
  | _ => True
  end.
Proof. exact pow_general_sign. Qed.
Theorem C48_odd_int : forall x, wf x -> nonzero x -> n_is_odd_int x = true <-> odd_int (value x).
Proof. exact odd_spec. Qed.
Theorem C48_base_inf : forall general s v p rm, wf v -> 8 <= p -> prec_up p < P_LIM ->
  (value v = 0%R -> exists q, x_pow general (Inf s) (Value v) p rm = Ok (Value q) /\ wf q /\ 64 * wlen q = prec_up p /\ value q = 1%R) /\
  ((value v < 0)%R -> exists q, x_pow general (Inf s) (Value v) p rm = Ok (Value q) /\ wf q /\ 64 * wlen q = prec_up p /\ value q = 0%R) /\
  ((0 < value v)%R -> exists t, x_pow general (Inf s) (Value v) p rm = Ok (Inf t) /\
      (odd_int (value v) -> t = s) /\ (~ odd_int (value v) -> t = Pos)).
Proof. exact pow_base_inf. Qed.
Theorem C48_inf_inf : forall general s p rm, 0 <= p -> prec_up p < P_LIM ->
  x_pow general (Inf s) (Inf Pos) p rm = Ok (Inf Pos) /\
  exists q, x_pow general (Inf s) (Inf Neg) p rm = Ok (Value q) /\ wf q /\ 64 * wlen q = prec_up p /\ value q = 0%R.
Proof. exact pow_inf_inf. Qed.
Theorem C48_nan : forall general e a p rm, x_pow general (NaN e) a p rm = Ok (NaN e) /\ (x_is_nan a = false -> x_pow general a (NaN e) p rm = Ok (NaN e)).
Proof. exact pow_nan. Qed.
(** An infinite positive exponent. *)
Theorem C48_exponent_inf : forall general v p rm, wf v -> 8 <= p -> prec_up p < P_LIM ->
  ((1 < value v)%R -> x_pow general (Value v) (Inf Pos) p rm = Ok (Inf Pos)) /\
  ((0 <= value v < 1)%R -> exists q, x_pow general (Value v) (Inf Pos) p rm = Ok (Value q) /\ wf q /\ 64 * wlen q = prec_up p /\ value q = 0%R) /\
  (value v = 1%R -> exists q, x_pow general (Value v) (Inf Pos) p rm = Ok (Value q) /\ wf q /\ 64 * wlen q = prec_up p /\ value q = 1%R).
Proof.
  intros general v p rm W Hp HP. destruct (pow_exp_inf general v Pos p rm W Hp HP) as (A & B & C). split; [exact A|]. split; [|exact C]. intros H. apply B, H.
Qed.
Example C48_case : wf ex_three /\ nonzero ex_three /\ wf ex_half_pos /\ (value ex_three < 0)%R /\ (~ exists k, value ex_half_pos = IZR k) /\ odd_int (value ex_three) /\ Rabs (value ex_three) <> 1%R.
Proof.
  split; [apply ex_three_wf|]. split; [apply ex_three_wf|]. split; [apply ex_half_pos_wf|]. rewrite ex_three_value, ex_half_pos_value. split; [lra|]. split; [|split].
  - intros (k & E). assert (IZR (2 * k) = 1)%R by (rewrite mult_IZR; lra). apply eq_IZR in H. lia.
  - exists (-2). reflexivity.
  - rewrite <- abs_IZR. cbn. lra.
Qed.

(** ** C62: a finite number to the power of negative infinity (claims refuted) *)
Theorem C62_negative_infinity_refuted : forall general v p rm, wf v -> 8 <= p -> prec_up p < P_LIM ->
  ((1 < value v)%R -> x_pow general (Value v) (Inf Neg) p rm = Ok (Inf Neg)) /\
  ((0 < value v < 1)%R -> exists q, x_pow general (Value v) (Inf Neg) p rm = Ok (Value q) /\ value q = 0%R) /\
  ((value v < -1)%R -> exists q, x_pow general (Value v) (Inf Pos) p rm = Ok (Value q) /\ value q = 0%R).
Proof.
  intros general v p rm W Hp HP. destruct (pow_exp_inf general v Neg p rm W Hp HP) as (A & B & _). destruct (pow_exp_inf general v Pos p rm W Hp HP) as (_ & C & _). split; [exact A|]. split.
  - intros H. destruct B as (q & E & _ & _ & V); [apply H|]. exists q. split; [exact E|exact V].
  - intros H. destruct C as (q & E & _ & _ & V); [lra|]. exists q. split; [exact E|exact V].
Qed.
Example C62_case : (0 < value ex_half_pos < 1)%R /\ wf ex_half_pos /\ (value ex_three < -1)%R.
Proof. split; [rewrite ex_half_pos_value; lra|]. split; [apply ex_half_pos_wf|]. rewrite ex_three_value. lra. Qed.

(** ** C63: an even power of negative zero is negative zero (claim refuted) *)
Theorem C63_negative_zero_refuted : forall f x n p rm, wf x -> magnitude x = 0 -> ns x = Neg -> 0 < n -> Z.even n = true -> 0 < p -> prec_up p < P_LIM ->
  exists q, n_powi f x n p rm = Some (Ok q) /\ value q = 0%R /\ ns q = Neg.
Proof.
  intros f x n p rm W Z0 S Hn He Hp HP. destruct (powi_zero f x n p rm W Z0 Hn Hp HP) as (q & E & _ & _ & T & V & _). exists q. split; [exact E|]. split; [exact V|congruence].
Qed.
Example C63_case : exists q, n_powi 0 ex_neg_zero 2 64 RToEven = Some (Ok q) /\ ns q = Neg.
Proof. eexists. split; vm_compute; reflexivity. Qed.

Definition all_pow := (C47_exponent_zero, C47_exponent_one, C47_base_zero, C47_base_inf, C47_nan, C47_exact, C61_powi, C48_exponent_zero, C48_base_zero, C48_base_unit, C48_negative_base,
  C48_exponent_one, C48_exponent_minus_one, C48_sign, C48_odd_int, C48_base_inf, C48_inf_inf, C48_nan, C48_exponent_inf, C62_negative_infinity_refuted, C63_negative_zero_refuted).
Print Assumptions all_pow.
