(** Specification vocabulary over the reals (Flocq): the value of a number, the
    rounding directions, the representation invariant.  Nothing here refers to
    the algorithms of the model, only to the fields of its records. *)

From Coq Require Import ZArith Reals List Bool Lia.
From Flocq Require Import Core.
From Verif Require Import Words Mantissa Num SpecZ.
Open Scope Z_scope.

Notation EMIN := EXPONENT_MIN.
Notation EMAX := EXPONENT_MAX.

(** Number of words, and the real value  sign * M * 2^(e - 64 len). *)
Definition wlen (x : num) : Z := zlen (mm (nm x)).
Definition magnitude (x : num) : Z := val (mm (nm x)).
Definition sgnZ (s : sign) : Z := match s with Pos => 1 | Neg => -1 end.
Definition value (x : num) : R :=
  F2R (Float radix2 (sgnZ (ns x) * magnitude x) (ne x - 64 * wlen x)).

(** The integer rounding functions of the seven modes (RoundingMode::None
    leaves the surplus bits to be cut off). *)
Definition rnd (rm : rmode) : R -> Z :=
  match rm with
  | RNone => Ztrunc
  | RUp => Zceil
  | RDown => Zfloor
  | RToZero => Ztrunc
  | RFromZero => Zaway
  | RToEven => ZnearestE
  | RToOdd => Znearest Z.even
  end.

(** The two modes that round to nearest. *)
Definition nearest (rm : rmode) : bool := match rm with RToEven | RToOdd => true | _ => false end.

(** Correct rounding to [p] significant bits, unbounded exponent. *)
Definition rnd_prec (p : Z) (rm : rmode) (r : R) : R := round radix2 (FLX_exp p) (rnd rm) r.
(** Correct rounding to [p] bits with gradual underflow: numbers below
    2^EMIN are multiples of 2^(EMIN-p). *)
Definition rnd_grad (p : Z) (rm : rmode) (r : R) : R := round radix2 (FLT_exp (EMIN - p) p) (rnd rm) r.

(** Precision in bits after rounding up to whole words. *)
Definition prec_up (p : Z) : Z := 64 * ((p + 63) / 64).

(** Representation invariant. *)
Record wf (x : num) : Prop := {
  wf_words : words_ok (mm (nm x));
  wf_bits : mn (nm x) = bitlen (magnitude x);
  wf_lim : 64 * wlen x < P_LIM;
  wf_exp : EMIN <= ne x <= EMAX;
  wf_zero : magnitude x = 0 -> ne x = 0;
  wf_sub : 0 < mn (nm x) < 64 * wlen x -> ne x = EMIN
}.

Definition nonzero (x : num) : Prop := magnitude x <> 0.
Definition normal (x : num) : Prop := mn (nm x) = 64 * wlen x /\ nonzero x.

(** What a correctly rounded operation must return when the exact real result
    is [r] (nonzero), its sign is [s], and [ix] tells whether an operand was
    marked inexact.  [z] is [r] rounded once to [p] bits.
    - |z| >= 2^EMAX: overflow error carrying the sign;
    - otherwise a well-formed number of [p] bits with sign [s];
    - its value is [z] when [z] is in the normal range;
    - its value is the single rounding of [r] with gradual underflow for the
      directed modes, and the rounding of [z] for all modes as long as |z| is
      not below the smallest subnormal (otherwise the nearest modes give 0);
    - the inexact mark is set iff it was set before or the value is not [r]. *)
Definition correctly_rounded (p : Z) (rm : rmode) (r : R) (s : sign) (ix : bool) (res : result num) : Prop :=
  let z := rnd_prec p rm r in
  ((bpow radix2 EMAX <= Rabs z)%R -> res = Err (ExponentOverflow s)) /\
  ((Rabs z < bpow radix2 EMAX)%R ->
   exists q, res = Ok q /\ wf q /\ 64 * wlen q = p /\ ns q = s /\
     ((bpow radix2 (EMIN - 1) <= Rabs z)%R -> value q = z /\ normal q) /\
     (nearest rm = false -> value q = rnd_grad p rm r) /\
     ((bpow radix2 (EMIN - p) <= Rabs z)%R -> value q = rnd_grad p rm z) /\
     (nearest rm = true -> (Rabs z < bpow radix2 (EMIN - p))%R -> value q = 0%R) /\
     (ninexact q = true <-> ix = true \/ value q <> r)).

(** [s] is the sign of the nonzero real [r]. *)
Definition has_sign (s : sign) (r : R) : Prop := (0 < IZR (sgnZ s) * r)%R.

(** Exact (full-precision) results, without zero words at the end. *)
Definition exact_result (r : R) (s : sign) (ix : bool) (res : result num) : Prop :=
  ((bpow radix2 EMAX <= Rabs r)%R -> res = Err (ExponentOverflow s)) /\
  ((bpow radix2 (EMIN - 1) <= Rabs r < bpow radix2 EMAX)%R ->
    exists q, res = Ok q /\ value q = r /\ ns q = s /\ ninexact q = ix /\
      words_ok (mm (nm q)) /\ normal q /\ mn (nm q) = bitlen (magnitude q) /\ EMIN <= ne q <= EMAX /\ magnitude q mod 2 ^ 64 <> 0).

(** Sign of a comparison, as an integer. *)
Definition sgn_of (c : comparison) : Z := match c with Lt => -1 | Eq => 0 | Gt => 1 end.

(** The result expected of an operation whose exact result is [r], when the
    correctly rounded value is a normal number. *)
Definition rounds_to_normal (p : Z) (rm : rmode) (r : R) (res : result num) : Prop :=
  let z := rnd_prec p rm r in
  (bpow radix2 (EMIN - 1) <= Rabs z < bpow radix2 EMAX)%R ->
  exists q, res = Ok q /\ wf q /\ 64 * wlen q = p /\ value q = z /\ normal q.

Definition zero_result (p : Z) (res : result num) : Prop :=
  exists q, res = Ok q /\ wf q /\ 64 * wlen q = p /\ value q = 0%R.

(** Overflow is reported exactly when the rounded result is too large. *)
Definition overflow_exact (p : Z) (rm : rmode) (r : R) (res : result num) : Prop :=
  ((bpow radix2 EMAX <= Rabs (rnd_prec p rm r))%R -> exists s, has_sign s r /\ res = Err (ExponentOverflow s)) /\
  ((Rabs (rnd_prec p rm r) < bpow radix2 EMAX)%R -> exists q, res = Ok q).

(** The value of an operation as a function of the exact result. *)
Definition op_value (p : Z) (rm : rmode) (r : R) : R :=
  if nearest rm then
    let z := rnd_prec p rm r in
    if Rlt_dec (Rabs z) (bpow radix2 (EMIN - p)) then 0%R else rnd_grad p rm z
  else rnd_grad p rm r.
