(** Specification vocabulary for the constants caches. *)

From Coq Require Import ZArith Reals List Bool.
From Verif Require Import Words Mantissa Num Consts SpecZ Spec.
Open Scope Z_scope.

(** The caches a program can hold: a new one, or what a call leaves behind, whatever
    the precisions and rounding modes asked for before. *)
Inductive reachable {T} (new : result (cache T)) (fp : nat -> cache T -> Z -> rmode -> option (cache T * result num)) : cache T -> Prop :=
| reach_new c : new = Ok c -> reachable new fp c
| reach_call c p rm c' r : reachable new fp c -> 0 < p <= P_LIM -> const_num fp 31 c p rm = Some (c', r) -> reachable new fp c'.

(** The outcome of a call: the loop ends within 31 rounds, without a panic; either
    with a value that meets [good], or with an exponent overflow. *)
Definition delivers {T} (fp : nat -> cache T -> Z -> rmode -> option (cache T * result num)) (c : cache T) (p : Z) (rm : rmode) (good : num -> Prop) : Prop :=
  exists c' r, const_num fp 31 c p rm = Some (c', r) /\ match r with Ok y => good y | Err (ExponentOverflow _) => True | _ => False end.
