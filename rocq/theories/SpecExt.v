(** Specification vocabulary for BigFloat: kinds of values, the table of the
    special operands, the order with infinities.  Reads only the representation. *)

From Coq Require Import ZArith Reals List Bool.
From Flocq Require Import Core.
From Verif Require Import Words Mantissa Num SpecZ Spec Ext.
Open Scope Z_scope.

Inductive kind := KNaN | KInf (s : sign) | KZero (s : sign) | KFin (s : sign).

Definition kind_of (a : ext) : kind :=
  match a with
  | NaN _ => KNaN
  | Inf s => KInf s
  | Value v => if magnitude v =? 0 then KZero (ns v) else KFin (ns v)
  end.

Definition xwf (a : ext) : Prop := match a with Value v => wf v | _ => True end.

Definition opp_sign (s : sign) : sign := match s with Pos => Neg | Neg => Pos end.
Definition mul_sign (s t : sign) : sign := match s, t with Pos, Pos | Neg, Neg => Pos | _, _ => Neg end.

(** IEEE 754 special operands.  [None]: an ordinary finite result. *)
Definition t_add (a b : kind) : option kind :=
  match a, b with
  | KNaN, _ | _, KNaN => Some KNaN
  | KInf Pos, KInf Neg | KInf Neg, KInf Pos => Some KNaN
  | KInf s, _ => Some (KInf s)
  | _, KInf s => Some (KInf s)
  | _, _ => None
  end.
Definition t_sub (a b : kind) : option kind :=
  match a, b with
  | KNaN, _ | _, KNaN => Some KNaN
  | KInf Pos, KInf Pos | KInf Neg, KInf Neg => Some KNaN
  | KInf s, _ => Some (KInf s)
  | _, KInf s => Some (KInf (opp_sign s))
  | _, _ => None
  end.
Definition t_mul (a b : kind) : option kind :=
  match a, b with
  | KNaN, _ | _, KNaN => Some KNaN
  | KInf _, KZero _ | KZero _, KInf _ => Some KNaN
  | KInf s, KInf t | KInf s, KFin t | KFin s, KInf t => Some (KInf (mul_sign s t))
  | _, _ => None
  end.
Definition t_div (a b : kind) : option kind :=
  match a, b with
  | KNaN, _ | _, KNaN => Some KNaN
  | KInf _, KInf _ => Some KNaN
  | KZero _, KZero _ => Some KNaN
  | KInf s, KZero t | KInf s, KFin t | KFin s, KZero t => Some (KInf (mul_sign s t))
  | _, _ => None
  end.
(** IEEE 754 remainder, as fmod. *)
Definition t_rem (a b : kind) : option kind :=
  match a, b with
  | KNaN, _ | _, KNaN => Some KNaN
  | KInf _, _ => Some KNaN
  | _, KZero _ => Some KNaN
  | _, _ => None
  end.
Definition t_sqrt (a : kind) : option kind :=
  match a with
  | KNaN | KInf Neg | KFin Neg => Some KNaN
  | KInf Pos => Some (KInf Pos)
  | _ => None
  end.

(** [res] is a value (not a panic) of kind [k]. *)
Definition gives (res : result ext) (k : kind) : Prop := exists r, res = Ok r /\ kind_of r = k.

(** The BigFloat result of an operation whose exact result is the real [r]:
    an infinity of the sign of [r] when the rounded result is too large,
    otherwise a well-formed number of [p] bits holding the value [v]. *)
Definition ext_rounded (p : Z) (rm : rmode) (r v : R) (res : result ext) : Prop :=
  ((bpow radix2 EMAX <= Rabs (rnd_prec p rm r))%R -> exists s, has_sign s r /\ res = Ok (Inf s)) /\
  ((Rabs (rnd_prec p rm r) < bpow radix2 EMAX)%R ->
     exists q, res = Ok (Value q) /\ wf q /\ 64 * wlen q = p /\ value q = v).

(** Value of a sum: an addition with a zero operand rounds once.
    The others are as in [op_value]. *)
Definition sum_value (x y : num) (p : Z) (rm : rmode) (r : R) : R :=
  if (magnitude x =? 0) || (magnitude y =? 0) then rnd_grad p rm r else op_value p rm r.

(** Order: reals between the two infinities, NaN unordered. *)
Definition ext_compare (a b : ext) : option comparison :=
  match a, b with
  | NaN _, _ | _, NaN _ => None
  | Value x, Value y => Some (Rcompare (value x) (value y))
  | Inf Pos, Inf Pos | Inf Neg, Inf Neg => Some Eq
  | Inf Pos, _ | _, Inf Neg => Some Gt
  | Inf Neg, _ | _, Inf Pos => Some Lt
  end.
Definition orderable (a : ext) : Prop := match a with Value v => wf v /\ nonzero v | Inf _ => True | NaN _ => False end.
Definition le_ext (a b : ext) : Prop := ext_compare a b = Some Lt \/ ext_compare a b = Some Eq.
Definition is_nan_spec (a : ext) : Prop := match a with NaN _ => True | _ => False end.

(** Equality of everything but the sign. *)
Definition same_but_sign (x y : num) : Prop := nm x = nm y /\ ne x = ne y /\ ninexact x = ninexact y.
