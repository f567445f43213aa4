(** Statement of pow; independent of the model's helpers. *)

From Coq Require Import ZArith Reals.
From Flocq Require Import Core.
From Verif Require Import Words Mantissa Num Spec SpecOps SpecPow SpecElem.
Open Scope Z_scope.

(** [r] is [x] to the power [y]. *)
Definition real_power (x y r : R) : Prop :=
  ((0 < x)%R /\ r = Rpower x y) \/ ((x <> 0)%R /\ exists k, y = IZR k /\ r = powerRZ x k).

(** pow may answer with a zero of the sign of [r] when a number close to 1/|[r]| is too
    large. *)
Definition pow_post (r : R) (p : Z) (rm : rmode) (res : result num) : Prop :=
  match res with
  | Ok q =>
      elem_result r p rm q \/
      (wf q /\ 64 * wlen q = p /\ value q = 0%R /\ has_sign (ns q) r /\
       exists a, close p (/ Rabs r) a /\ (bpow radix2 EMAX <= a)%R)
  | Err (ExponentOverflow s) => elem_overflow r p rm s
  | _ => False
  end.
