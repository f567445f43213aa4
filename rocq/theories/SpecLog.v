(** Statement of log; independent of the model's helpers. *)

From Coq Require Import ZArith Reals.
From Flocq Require Import Core.
From Verif Require Import Words Mantissa Num Spec SpecOps SpecPow SpecElem.
Open Scope Z_scope.

(** The logarithm of [x] to the base [n]. *)
Definition real_log (x n : R) : R := (ln x / ln n)%R.

(** The second case is that of a number [a] which agrees with the logarithm to 64 bits
    more than [p], and which the function could not tell from it: the power [n]^[a] agrees
    with [x] to 64 bits more than [p].  The answer is then the rounding of [a] in any mode,
    or the overflow of that power. *)
Definition log_post (x n : R) (p : Z) (rm : rmode) (res : result num) : Prop :=
  (exists q, res = Ok q /\ elem_result (real_log x n) p rm q) \/
  (exists a, close p (real_log x n) a /\
     match res with
     | Ok q => (Rabs (Rpower n a - x) <= x * bpow radix2 (- (p + 64)))%R /\ wf q /\ 64 * wlen q = p /\ has_sign (ns q) a /\ ninexact q = true /\ value q = rnd_prec p rm a
     | Err e => e = ExponentOverflow Pos /\ (bpow radix2 (EMAX - 1) <= Rpower n a)%R
     | Panic => False
     end).
