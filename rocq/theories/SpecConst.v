(** Specification vocabulary for the constants: series and rounding of a constant. *)

From Coq Require Import ZArith Reals List Bool.
From Flocq Require Import Core.
From Verif Require Import Words Mantissa Num SpecZ Spec.
Open Scope Z_scope.

(** The sum of u(k) for a < k <= b. *)
Fixpoint psum (u : Z -> R) (a : Z) (n : nat) : R :=
  match n with
  | O => 0%R
  | S n => (psum u a n + u (a + Z.of_nat (S n))%Z)%R
  end.
Definition rsum (u : Z -> R) (a b : Z) : R := psum u a (Z.to_nat (b - a)).

Definition factR (k : Z) : R := INR (fact (Z.to_nat k)).
Definition powR (x : R) (k : Z) : R := (x ^ Z.to_nat k)%R.

(** The terms of the series: e = sum 1/k!, ln 2 = 2/3 sum 1/((2k+1) 9^k),
    ln 10 = 18/11 sum (81/121)^k/(2k+1), and the Chudnovsky series
    426880 sqrt(10005)/pi = sum (-1)^k (6k)! (13591409 + 545140134k) / ((3k)! k!^3 640320^(3k)). *)
Definition e_term (k : Z) : R := (/ factR k)%R.
Definition ln2_term (k : Z) : R := (powR (/ 9) k / IZR (2 * k + 1))%R.
Definition ln10_term (k : Z) : R := (powR (81 / 121) k / IZR (2 * k + 1))%R.
Definition chud_weight (k : Z) : R := (factR (6 * k) / (factR (3 * k) * factR k ^ 3 * powR 640320 (3 * k)))%R.
Definition chud_term (k : Z) : R := (powR (-1) k * IZR (13591409 + 545140134 * k) * chud_weight k)%R.

(** The number [x] is exactly the integer [N]. *)
Definition whole (x : num) (N : Z) : Prop := wf x /\ ninexact x = false /\ value x = IZR N.

(** [y] is the constant [c] (between 2^(e-1) and 2^e) rounded to [k] bits: the
    rounding of a number that agrees with [c] to 64 bits more; and for the directed
    modes the correct rounding of [c] itself, which is not a [k]-bit number.  The
    inexact mark is set. *)
Definition const_result (c : R) (e k : Z) (rm : rmode) (y : num) : Prop :=
  wf y /\ 64 * wlen y = k /\ ns y = Pos /\ ninexact y = true /\
  (exists a, (Rabs (c - a) < bpow radix2 (e - (k + 64)))%R /\ value y = rnd_prec k rm a) /\
  (rm <> RNone -> nearest rm = false -> value y = rnd_prec k rm c /\ value y <> c).
(** The same with [m] extra bits, and nothing more for the directed modes. *)
Definition const_near (c : R) (e m k : Z) (rm : rmode) (y : num) : Prop :=
  wf y /\ 64 * wlen y = k /\ ns y = Pos /\ exists a, (Rabs (c - a) < bpow radix2 (e - (k + m)))%R /\ value y = rnd_prec k rm a.

(** The sum of the Chudnovsky series without its first term 13591409, and the value
    that belongs to it.  The Chudnovsky identity says that this value is pi. *)
Definition chud_limit (S : R) : Prop := Un_cv (fun n => rsum chud_term 0 (Z.of_nat n)) S.
Definition chud_value (S : R) : R := (426880 * sqrt 10005 / (13591409 + S))%R.
