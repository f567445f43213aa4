(** Model of the logarithm to an arbitrary base (ops/log.rs): the whole function with its
    retry loop.  No proofs in this file.

    [f] is the fuel of the retry loop, [h] that of the retry loops of ln, pow and exp, [g]
    that of the inner loops; the caches of ln 2 and of e are threaded through. *)

From Coq Require Import ZArith List Bool.
From Verif Require Import Words IntModel Mantissa Num Pow Consts Elem Series Exp Ln RealPow.
Import ListNotations.
Open Scope Z_scope.

(** log.rs 376-408; [x0] is self, [n0] the argument n, [x] and [y] their copies. *)
Fixpoint log_loop (f h g : nat) (c : pcache) (x0 n0 x y : num) (p : Z) (rm : rmode) (p_wrk p_inc : Z) : prun num :=
  match f with
  | O => None
  | S f =>
      let p_x := p_wrk + 5 in
      pbind (pure c (set_precision x p_x RNone)) (fun c x =>
      pbind (pure c (set_precision y p_x RNone)) (fun c y =>
      pbind (p_ln h g c x p_x RNone) (fun c p1 =>
      pbind (p_ln h g c y p_x RNone) (fun c p2 =>
      pbind (pure c (n_div p1 p2 p_x RNone)) (fun c ret2 =>
      match try_set_precision ret2 p rm p_wrk with
      | Err e => pure c (Err e)
      | Panic => pure c Panic
      | Ok (ret, true) => pure c (Ok (set_inexact ret (ninexact ret || ninexact x0 || ninexact n0)))
      | Ok (_, false) =>
          pbind (f_pow h h g c y ret2 (Z.max p_x (mantissa_max_bit_len x0)) RNone) (fun c pwr =>
          if n_cmp pwr x0 =? 0 then pure c (set_precision (set_inexact ret2 (ninexact ret2 || ninexact x0 || ninexact n0)) p rm)
          else log_loop f h g c x0 n0 x y p rm (p_wrk + p_inc) (round_p ((p_wrk + p_inc) / 5)))
      end)))))
  end.

(** log.rs 353-409. *)
Definition log_num (f h g : nat) (c : pcache) (x n : num) (p : Z) (rm : rmode) : prun num :=
  let p := round_p p in
  if is_zero x || is_negative x || is_zero n || is_negative n then pure c (Err InvalidArgument)
  else
    log_loop f h g c x n (set_inexact x false) (set_inexact n false) p rm
      (Z.max p (Z.max (mantissa_max_bit_len x) (mantissa_max_bit_len n)) + 64) 64.
