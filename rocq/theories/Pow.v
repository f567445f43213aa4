(** Model of ops/pow.rs: powi, powsi, and pow up to its transcendental part;
    ext.rs: powi, pow.  No proofs in this file. *)

From Coq Require Import ZArith List Bool.
From Verif Require Import Words Mantissa Num Ext.
Import ListNotations.
Open Scope Z_scope.

(** ops/pow.rs 266-277: the loop looking for the topmost set bit of [i];
    returns (bit_pos, i shifted past that bit).  [fuel] is bit_pos. *)
Fixpoint top_bit_loop (fuel : nat) (i : Z) : Z * Z :=
  match fuel with
  | O => (0, i)
  | S f =>
      if negb (Z.land i WORD_SIG =? 0) then (Z.of_nat f, wshl i 1)
      else top_bit_loop f (wshl i 1)
  end.

(** ops/pow.rs 303-315: square and multiply, [bp] bits of [j] from the top. *)
Fixpoint powi_bits (bp : nat) (x arg : num) (j p_x : Z) : result num :=
  match bp with
  | O => Ok x
  | S f =>
      do x <- n_mul x x p_x RFromZero;
      do x <- (if negb (Z.land j WORD_SIG =? 0) then n_mul x arg p_x RFromZero else Ok x);
      powi_bits f x arg (wshl j 1) p_x
  end.

(** ops/pow.rs 287-317: the closure computing one approximation. *)
Definition powi_attempt (x : num) (bit_pos i p_x : Z) : result num :=
  let arg := if ninexact x then set_inexact x false else x in
  do y <- set_precision (set_inexact x false) p_x RFromZero;
  powi_bits (Z.to_nat bit_pos) y arg i p_x.

(** ops/pow.rs 318-328: map_err. *)
Definition powi_map_err {A} (x : num) (n : Z) (r : result A) : result A :=
  match r with
  | Err (ExponentOverflow _) =>
      Err (ExponentOverflow (if is_negative x && (Z.land n 1 =? 1) then Neg else Pos))
  | _ => r
  end.

(** ops/pow.rs 284-350: the loop; [None] means that [fuel] rounds were not enough.
    The sums of precisions cannot wrap: p_x is tested against the limit (2^62)
    before it is used. *)
Fixpoint powi_loop (fuel : nat) (x : num) (n bit_pos i p : Z) (rm : rmode) (upd : bool) (p_wrk p_inc : Z)
  : option (result num) :=
  match fuel with
  | O => None
  | S f =>
      let p_x := p_wrk + bit_pos * 2 in
      match powi_map_err x n (powi_attempt x bit_pos i p_x) with
      | Err e => Some (Err e)
      | Panic => Some Panic
      | Ok ret =>
          let mark r := if upd then set_inexact r (ninexact r || ninexact x) else r in
          if (ne ret =? EXPONENT_MIN) && (precision ret =? 1) then
            Some (set_precision (mark ret) p rm)
          else
            match try_set_precision ret p rm p_wrk with
            | Ok (r, true) => Some (Ok (mark r))
            | Ok (_, false) =>
                let p_wrk := p_wrk + p_inc in
                powi_loop f x n bit_pos i p rm upd p_wrk (round_p (p_wrk / 5))
            | Err e => Some (Err e)
            | Panic => Some Panic
            end
      end
  end.

(** ops/pow.rs 248-351: powi_internal. *)
Definition powi_internal (fuel : nat) (x : num) (n p : Z) (rm : rmode) (upd : bool) : option (result num) :=
  let p := round_p p in
  if n =? 0 then Some (from_word 1 p)
  else if is_zero x || (n =? 1) then Some (set_precision x p rm)
  else
    let '(bit_pos, i) := top_bit_loop 64 n in
    let p_inc := 64 in
    let p_wrk := Z.max p (mantissa_max_bit_len x) + p_inc in
    powi_loop fuel x n bit_pos i p rm upd p_wrk p_inc.

(** ops/pow.rs 244-246: powi. *)
Definition n_powi (fuel : nat) (x : num) (n p : Z) (rm : rmode) : option (result num) :=
  powi_internal fuel x n p rm true.

(** ext.rs 441-455: powi. *)
Definition x_powi (fuel : nat) (a : ext) (n p : Z) (rm : rmode) : option (result ext) :=
  match a with
  | Value v =>
      match n_powi fuel v n p rm with
      | Some r => Some (result_to_ext r false true)
      | None => None
      end
  | Inf s =>
      Some (if n =? 0 then x_from_uint 8 1 p
            else if negb (is_pos s) && (Z.land n 1 =? 1) then Ok INF_NEG else Ok INF_POS)
  | NaN err => Some (Ok (NaN err))
  end.

(** ops/pow.rs 446-600: pow.  The closure of lines 526-585, the evaluation of
    e^(n ln |self|), is the parameter [general]: it receives |self| and n with the
    inexact marks cleared, the rounded precision and the effective rounding mode. *)
Definition n_pow (general : num -> num -> Z -> rmode -> result num) (x n : num) (p : Z) (rm : rmode) : result num :=
  let nint := n_is_int n in
  if is_zero n then
    do ret <- from_word 1 p;
    Ok (if ninexact n then
          if (ne x =? 1) && (n_abs_cmp x ONE =? 0) then set_inexact ret (ninexact x) else set_inexact ret true
        else ret)
  else if is_zero x then
    if is_negative n then
      if n_is_odd_int n then Err (ExponentOverflow (ns x)) else Err (ExponentOverflow Pos)
    else n_new2 p (if n_is_odd_int n then ns x else Pos) (ninexact x)
  else if (ne x =? 1) && (n_abs_cmp x ONE =? 0) then
    if n_is_odd_int n then
      do ret <- from_int 8 (sign_int (ns x)) p; Ok (set_inexact ret (ninexact x || ninexact n))
    else if is_positive x || n_is_int n then
      do ret <- from_word 1 p; Ok (set_inexact ret (ninexact x || ninexact n))
    else Err InvalidArgument
  else if is_negative x && negb nint then Err InvalidArgument
  else if (ne n =? 1) && (n_abs_cmp n ONE =? 0) then
    if is_positive n then
      do ret <- set_precision x p rm; Ok (set_inexact ret (ninexact ret || ninexact n))
    else
      do ret <- n_div ONE x p rm; Ok (set_inexact ret (ninexact ret || ninexact n))
  else
    let p := round_p p in
    let ret_sign := if nint && n_is_odd_int n then ns x else Pos in
    let effective_rm :=
      if is_pos ret_sign then rm else match rm with RUp => RDown | RDown => RUp | v => v end in
    match general (set_inexact (set_sign x Pos) false) (set_inexact n false) p effective_rm with
    | Ok v => Ok (set_sign v ret_sign)
    | Err (ExponentOverflow _) => Err (ExponentOverflow ret_sign)
    | Err e => Err e
    | Panic => Panic
    end.

(** ext.rs 381-435: pow. *)
Definition x_pow (general : num -> num -> Z -> rmode -> result num) (a n : ext) (p : Z) (rm : rmode) : result ext :=
  match a with
  | Value v1 =>
      match n with
      | Value v2 => result_to_ext (n_pow general v1 v2 p rm) (is_zero v1) (sign_eqb (ns v1) (ns v2))
      | Inf s2 =>
          let c := n_cmp v1 ONE in
          if 0 <? c then Ok (Inf s2) else if c <? 0 then x_new p else x_from_uint 8 1 p
      | NaN err => Ok (NaN err)
      end
  | Inf s1 =>
      match n with
      | Value v2 =>
          if is_zero v2 then x_from_uint 8 1 p
          else if is_positive v2 then
            if negb (is_pos s1) && n_is_odd_int v2 then Ok INF_NEG else Ok INF_POS
          else x_new p
      | Inf s2 => if is_pos s2 then Ok INF_POS else x_new p
      | NaN err => Ok (NaN err)
      end
  | NaN err => Ok (NaN err)
  end.
