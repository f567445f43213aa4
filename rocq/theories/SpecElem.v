(** Specification vocabulary for the elementary functions that retry with a growing
    working precision. *)

From Coq Require Import ZArith Reals List Bool.
From Flocq Require Import Core.
From Verif Require Import Words Mantissa Num SpecZ Spec SpecPow.
Open Scope Z_scope.

(** [q] is the real [r] rounded to [p] bits: in the directed modes the correct rounding
    of [r] itself, in the other modes the rounding of a number that agrees with [r] to 64
    bits more.  It has the sign of [r] and is marked inexact. *)
Definition elem_result (r : R) (p : Z) (rm : rmode) (q : num) : Prop :=
  wf q /\ 64 * wlen q = p /\ has_sign (ns q) r /\ ninexact q = true /\
  (exists a, close p r a /\ value q = rnd_prec p rm a) /\
  (nearest rm = false -> rm <> RNone -> value q = rnd_prec p rm r).
(** The rounding of a number that close to [r] reaches 2^[e]; [s] is the sign of [r].
    With [e] = EMAX it is too large. *)
Definition elem_reaches (e : Z) (r : R) (p : Z) (rm : rmode) (s : sign) : Prop :=
  has_sign s r /\ exists a, close p r a /\ (bpow radix2 e <= Rabs (rnd_prec p rm a))%R.
Definition elem_overflow : R -> Z -> rmode -> sign -> Prop := elem_reaches EMAX.

(** The working precision after [f] retries, from [w] with the first increment [i]. *)
Fixpoint work (f : nat) (w i : Z) : Z :=
  match f with
  | O => w
  | S f => work f (w + i) (64 * (((w + i) / 5 + 63) / 64))
  end.

(** The outcome of exp at [x] with [p] bits.  A zero stands for e^x when a number that
    close to e^-x is too large. *)
Definition exp_post (x : R) (p : Z) (rm : rmode) (res : result num) : Prop :=
  match res with
  | Ok q => elem_result (exp x) p rm q \/
      ((x < 0)%R /\ wf q /\ 64 * wlen q = p /\ value q = 0%R /\ exists a, close p (exp (- x)) a /\ (bpow radix2 EMAX <= a)%R)
  | Err (ExponentOverflow s) => elem_overflow (exp x) p rm s
  | _ => False
  end.

(** The outcome of a function with the value [r] that reports an overflow when 2 [r]
    overflows. *)
Definition hyp_post (r : R) (p : Z) (rm : rmode) (res : result num) : Prop :=
  match res with
  | Ok q => elem_result r p rm q
  | Err (ExponentOverflow s) => elem_reaches (EMAX - 1) r p rm s
  | _ => False
  end.
