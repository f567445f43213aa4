(** Statement of log10; independent of the model's helpers. *)

From Coq Require Import ZArith Reals.
From Flocq Require Import Core.
From Verif Require Import Words Mantissa Num Spec SpecOps SpecPow SpecElem.
Open Scope Z_scope.

Definition real_log10 (x : R) : R := (ln x / ln 10)%R.

(** [x] agrees with 10^[n] to more than [p] + 64 bits. *)
Definition near_ten (x : R) (n p : Z) : Prop := (Rabs (x - powerRZ 10 n) <= powerRZ 10 n * bpow radix2 (- (p + 64)))%R.

(** The second case is that of a number which is not a power of ten but agrees with one
    to more than [p] + 64 bits: the answer may be the exponent of that power, in every
    rounding mode, or an overflow of that power or of its inverse. *)
Definition log10_post (x : R) (p : Z) (rm : rmode) (res : result num) : Prop :=
  (exists q, res = Ok q /\ elem_result (real_log10 x) p rm q) \/
  (exists n, near_ten x n p /\ n <> 0 /\
     match res with
     | Ok q => x <> powerRZ 10 n /\ wf q /\ 64 * wlen q = p /\ ninexact q = true /\ value q = IZR n
     | Err e => e = ExponentOverflow Pos /\ (bpow radix2 (EMAX - 1) <= powerRZ 10 (Z.abs n))%R
     | Panic => False
     end).
