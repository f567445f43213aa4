(** Specification vocabulary for decimal conversion.  Only integers, lists and real
    numbers; nothing here refers to the algorithms of the model. *)

From Coq Require Import ZArith List Bool Reals.
From Flocq Require Import Core.
From Verif Require Import Words Mantissa Num Dec SpecZ Spec SpecPow SpecText.
Import ListNotations.
Open Scope Z_scope.

(** An entry of the cache for 10^(2^i). *)
Record tp_ok (i : nat) (t : tenpower) : Prop := {
  tp_words : words_ok (tp_val t);
  tp_nwords : words_ok (tp_norm t);
  tp_power : val (tp_val t) = 10 ^ 2 ^ Z.of_nat i;
  tp_scaled : val (tp_norm t) = 10 ^ 2 ^ Z.of_nat i * 2 ^ tp_shift t;
  tp_shift_nonneg : 0 <= tp_shift t;
  tp_top : 2 ^ (64 * zlen (tp_norm t) - 1) <= val (tp_norm t);
  tp_nempty : 1 <= zlen (tp_norm t) }.
(** A cache: every entry is right. *)
Definition tps_ok (tp : list tenpower) : Prop := forall i t, nth_error tp i = Some t -> tp_ok i t.

(** A mantissa used as a plain natural number. *)
Definition nat_mant (m : mantissa) : Prop := words_ok (mm m) /\ mn m = bitlen (val (mm m)).

(** The [i]-th group of [2^j] decimal digits of [v], counted from the right. *)
Definition digit_group (v j i : Z) : Z := (v / 10 ^ (i * 2 ^ j)) mod 10 ^ 2 ^ j.
(** No group, the leading one excepted, needs more than one word while its upper
    half is zero. *)
Definition no_gap (v : Z) : Prop :=
  forall j i, 6 <= j -> 0 <= i -> 10 ^ ((i + 1) * 2 ^ j) <= v ->
    digit_group v j i < 2 ^ 64 \/ 10 ^ 2 ^ (j - 1) <= digit_group v j i.

(** The decimal digits of [v], the most significant first, without leading zeros. *)
Definition dec_digits_of (v : Z) (ds : list Z) : Prop :=
  digits_ok 10 ds /\ dig_val 10 ds = v /\ (ds = [] \/ hd 0 ds <> 0).

(** What reading a decimal fraction [r] with sign [s] must return.  In the directed
    modes the result is the correct rounding of [r] and the inexact mark tells
    whether it differs from [r]; in the other modes it is the correct rounding of a
    number within 2^-(p+64) of [r].  Overflow means that such a number overflows. *)
Definition read_post (p : Z) (rm : rmode) (r : R) (s : sign) (res : result num) : Prop :=
  match res with
  | Ok q => wf q /\ 64 * wlen q = p /\ ns q = s /\
      (exists a, close p r a /\ value q = rnd_prec p rm a) /\
      (nearest rm = false -> rm <> RNone -> value q = rnd_prec p rm r /\ (ninexact q = true <-> value q <> r)) /\
      (ninexact q = false -> value q = r)
  | Err e => e = ExponentOverflow s /\ exists a, close p r a /\ (bpow radix2 EMAX <= Rabs (rnd_prec p rm a))%R
  | Panic => False
  end.

(** The precision chosen for a given number of digits. *)
Definition auto_p (ds : list Z) : Z := prec_up (zlen ds * 3321928095 / 1000000000 + 1).
