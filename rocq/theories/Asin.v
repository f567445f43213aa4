(** Model of the arcsine (ops/asin.rs): the whole function with its retry loop.  No proofs
    in this file.

    [f] is the fuel of the retry loop, [e] that of the retry loop of atan, [g] that of its
    inner loops, [h] the attempts at pi; the cache of pi is threaded through. *)

From Coq Require Import ZArith List Bool.
From Verif Require Import Words IntModel Mantissa Num Consts Elem Series Sin Atan.
Import ListNotations.
Open Scope Z_scope.

(** asin.rs 65-69: x / sqrt(1 - x^2). *)
Definition asin_arg (x : num) (p_x : Z) : result num :=
  do xx <- n_mul x x p_x RNone;
  do t <- n_sub ONE xx p_x RNone;
  do s <- n_sqrt t p_x RNone;
  n_div x s p_x RNone.
(** asin.rs 61-80; [x0] is self, [x] its copy, whose precision grows from round to round,
    [ap] is additional_prec.  The arctangent is taken with the caller's rounding mode. *)
Fixpoint asin_loop (f e g h : nat) (c : pi_cache) (x0 x : num) (ap p : Z) (rm : rmode) (p_wrk p_inc : Z) : prun num :=
  match f with
  | O => None
  | S f =>
      let p_x := p_wrk + ap in
      pbind (ppure c (set_precision x p_x RNone)) (fun c x =>
      pbind (ppure c (asin_arg x p_x)) (fun c d =>
      pbind (f_atan e g h c d p_x rm) (fun c ret =>
      pbind (ppure c (try_set_precision ret p rm p_wrk)) (fun c '(ret, ok) =>
      if ok then ppure c (Ok (set_inexact ret (ninexact ret || ninexact x0)))
      else asin_loop f e g h c x0 x ap p rm (p_wrk + p_inc) (round_p ((p_wrk + p_inc) / 5))))))
  end.
(** asin.rs 23-81. *)
Definition f_asin (f e g h : nat) (c : pi_cache) (x : num) (p : Z) (rm : rmode) : prun num :=
  let p := round_p p in
  if is_zero x then ppure c (n_new2 p (ns x) (ninexact x))
  else
    let onecmp := n_abs_cmp x ONE in
    if 0 <? onecmp then ppure c (Err InvalidArgument)
    else if onecmp =? 0 then
      pbind (pi_num h c p (if is_negative x then invert_rm_for_sign rm else rm)) (fun c v =>
      ppure c (Ok (set_sign (set_exponent v (ne v - 1)) (ns x))))
    else
      let p_wrk := Z.max p (mantissa_max_bit_len x) in
      small_exp (ne x * 2 - 2) p_wrk (ppure c (small_value x false p rm))
        (let ap := 8 + (if ne x =? 0 then count_leading_ones (mm (nm x)) else 0) in
         asin_loop f e g h c x (set_inexact x false) ap p rm (p_wrk + 64) 64).
