(** Specification vocabulary for remainder, rounding to integers and fractions,
    conversions and constructors.  Reals, integers and representation fields only. *)

From Coq Require Import ZArith Reals List Bool.
From Flocq Require Import Core.
From Verif Require Import Words Mantissa Num SpecZ Spec.
Import ListNotations.
Open Scope Z_scope.

(** x - y*trunc(x/y) over the reals. *)
Definition rem_real (x y : R) : R := (x - IZR (Ztrunc (x / y)) * y)%R.

(** What rem must return; [k] bounds the length of the result. *)
Definition rem_post (x y q : num) (k : Z) : Prop :=
  let r := rem_real (value x) (value y) in
  wf q /\ ns q = ns x /\ wlen q <= k /\
  (value q = r \/ value q = 0%R) /\
  (r = 0%R -> value q = 0%R) /\
  ((bpow radix2 (EMIN - 1) <= Rabs r)%R -> value q = r) /\
  ((Rabs (value y) <= Rabs (value x))%R -> (Rabs r < bpow radix2 (EMIN - 1))%R -> value q = 0%R) /\
  (ninexact q = true -> ninexact x = true \/ ninexact y = true) /\
  (ninexact x = true -> ninexact q = true) /\
  ((Rabs (value y) <= Rabs (value x))%R -> ninexact q = ninexact x || ninexact y).

(** Rounding to [n] fractional binary digits. *)
Definition rnd_frac (n : Z) (rm : rmode) (r : R) : R := round radix2 (FIX_exp (- n)) (rnd rm) r.

(** What round(n, rm) must return. *)
Definition round_post (x : num) (n : Z) (rm : rmode) (res : result num) : Prop :=
  let z := rnd_frac n rm (value x) in
  ((bpow radix2 EMAX <= Rabs z)%R -> res = Err (ExponentOverflow (ns x))) /\
  ((Rabs z < bpow radix2 EMAX)%R -> exists q, res = Ok q /\ wf q /\ wlen q = wlen x /\ ns q = ns x /\ value q = z /\
     (ninexact q = true <-> ninexact x = true \/ z <> value x)).

(** A conversion of the natural number [d] that is exact at precision [p]. *)
Definition exact_pos (p : Z) (d : Z) (res : result num) : Prop :=
  exists q, res = Ok q /\ wf q /\ 64 * wlen q = prec_up p /\ ns q = Pos /\ ninexact q = false /\ value q = IZR d.

(** A conversion of the integer [i] that is exact at precision [p]. *)
Definition exact_int (p : Z) (i : Z) (res : result num) : Prop :=
  exists q, res = Ok q /\ wf q /\ 64 * wlen q = prec_up p /\ ninexact q = false /\ value q = IZR i /\ ns q = (if i <? 0 then Neg else Pos).

(** IEEE 754 binary64 fields and value, from the bit pattern. *)
Definition d_neg (b : Z) : bool := 2 ^ 63 <=? b.
Definition d_exp (b : Z) : Z := b / 2 ^ 52 mod 2 ^ 11.
Definition d_frac (b : Z) : Z := b mod 2 ^ 52.
Definition d_sign (b : Z) : sign := if d_neg b then Neg else Pos.
Definition d_value (b : Z) : R :=
  if d_exp b =? 0 then F2R (Float radix2 (sgnZ (d_sign b) * d_frac b) (-1074))
  else F2R (Float radix2 (sgnZ (d_sign b) * (2 ^ 52 + d_frac b)) (d_exp b - 1075)).

(** A description that [from_raw_parts] must accept. *)
Definition valid_parts (m : list Z) (n e : Z) : Prop :=
  64 * zlen m < P_LIM /\ n = bitlen (val m) /\ (0 < n < 64 * zlen m -> e = EMIN).

(** A result is a well-formed number of [p] bits or an error, never a panic. *)
Definition well_formed_result (p : Z) (res : result num) : Prop :=
  match res with Ok q => wf q /\ 64 * wlen q = p | Err _ => True | Panic => False end.

Definition no_panic {A} (res : result A) : Prop := match res with Panic => False | _ => True end.
