(** Model of the arccosine (ops/acos.rs): the whole function with its retry loop.  No
    proofs in this file.

    [f] is the fuel of the retry loop, [a] and [e] those of asin and atan, [g] that of the
    inner loops, [h] the attempts at pi; the cache of pi is threaded through. *)

From Coq Require Import ZArith List Bool.
From Verif Require Import Words IntModel Mantissa Num Consts Elem Series Sin Atan Asin.
Import ListNotations.
Open Scope Z_scope.

(** acos.rs 46-52: pi / 2 minus and plus the arcsine. *)
Definition acos_parts (a e g h : nat) (c : pi_cache) (x : num) (p_x : Z) : prun (num * num) :=
  pbind (f_asin a e g h c x p_x RNone) (fun c ret =>
  pbind (pi_num h c p_x RNone) (fun c pi =>
  let pi := set_exponent pi (ne pi - 1) in
  pbind (ppure c (n_add pi ret p_x RNone)) (fun c ret2 =>
  pbind (ppure c (n_sub pi ret p_x RNone)) (fun c ret => ppure c (Ok (ret, ret2)))))).
(** acos.rs 42-70; [x0] is self, [x] its copy, whose precision grows from round to round,
    [ap] is add_p. *)
Fixpoint acos_loop (f a e g h : nat) (c : pi_cache) (x0 x : num) (ap p : Z) (rm : rmode) (p_wrk p_inc : Z) : prun num :=
  match f with
  | O => None
  | S f =>
      let p_x := p_wrk + ap in
      pbind (ppure c (set_precision x p_x RNone)) (fun c x =>
      pbind (acos_parts a e g h c x p_x) (fun c '(ret, ret2) =>
      let t := Z.max (Z.abs (ne ret)) (Z.abs (ne ret2)) + 1 in
      if ap <? t then acos_loop f a e g h c x0 x t p rm p_wrk p_inc
      else
        pbind (ppure c (try_set_precision ret p rm p_wrk)) (fun c '(ret, ok) =>
        if ok then ppure c (Ok (set_inexact ret (ninexact ret || ninexact x0)))
        else acos_loop f a e g h c x0 x ap p rm (p_wrk + p_inc) (round_p ((p_wrk + p_inc) / 5)))))
  end.
(** acos.rs 13, 24-71: ACOS_EXP_THRES is -32. *)
Definition f_acos (f a e g h : nat) (c : pi_cache) (x : num) (p : Z) (rm : rmode) : prun num :=
  let p := round_p p in
  let cmpone := n_abs_cmp x ONE in
  if (cmpone =? 0) && is_positive x then ppure c (n_new2 p Pos (ninexact x))
  else if 0 <? cmpone then ppure c (Err InvalidArgument)
  else acos_loop f a e g h c x (set_inexact x false) (1 - -32) p rm (Z.max p (mantissa_max_bit_len x) + 64) 64.
