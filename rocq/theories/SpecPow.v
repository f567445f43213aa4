(** Specification vocabulary for powers. *)

From Coq Require Import ZArith Reals List Bool.
From Flocq Require Import Core.
From Verif Require Import Words Mantissa Num SpecZ Spec.
Open Scope Z_scope.

(** [a] is within a relative distance 2^-(p+64) of [r]. *)
Definition close (p : Z) (r a : R) : Prop := (Rabs (a - r) <= Rabs r * bpow radix2 (- (p + 64)))%R.

(** What x^n rounded to [p] bits must be.  In the directed modes the result is
    the correct rounding of x^n; in the other modes it is the correct rounding
    of a number close to x^n.  Overflow means that a number close to x^n
    overflows. *)
Definition power_post (x : num) (n p : Z) (rm : rmode) (res : result num) : Prop :=
  let r := (value x ^ Z.to_nat n)%R in
  match res with
  | Ok q => wf q /\ 64 * wlen q = p /\ has_sign (ns q) r /\
      (exists a, close p r a /\ value q = rnd_prec p rm a) /\
      (nearest rm = false -> rm <> RNone -> value q = rnd_prec p rm r /\ (ninexact q = true <-> ninexact x = true \/ value q <> r)) /\
      (ninexact x = true -> ninexact q = true) /\ (ninexact q = false -> value q = r)
  | Err e => (exists s, has_sign s r /\ e = ExponentOverflow s) /\ exists a, close p r a /\ (bpow radix2 EMAX <= Rabs (rnd_prec p rm a))%R
  | Panic => False
  end.

(** The real power with an integer exponent, in the special cases of pow. *)
Definition odd_int (r : R) : Prop := exists k, r = IZR (2 * k + 1).
