(** Model of the arctangent (ops/atan.rs).  No proofs in this file.

    [f] is the fuel of the retry loop, [g] that of the series, [h] that of the constant pi;
    the cache of pi is threaded through. *)

From Coq Require Import ZArith List Bool.
From Verif Require Import Words IntModel Mantissa Num Pow Consts Elem Series Exp Ln Sin.
Import ListNotations.
Open Scope Z_scope.

(** ** The series *)

(** atan.rs 22-35: AtanPolycoeffGen, its field f. *)
Definition atan_new : result num := from_word 1 1.
(** atan.rs 31: iter_cost; the mantissa of f has 64 bits. *)
Definition atan_iter_cost : Z := calc_add_cost 64.
(** atan.rs 37-49; the caller passes [RNone] (series.rs).  is_div (56-59) is true. *)
Definition atan_next (c : num) : result (num * num) :=
  let p := mantissa_max_bit_len c in
  do c <- (if is_positive c then n_add c TWO p RNone else n_sub c TWO p RNone);
  let c := n_neg c in
  Ok (c, c).

(** atan.rs 64-78. *)
Definition atan_red_cost (n p : Z) : Z :=
  n * (2 * (calc_mul_cost p + calc_add_cost p) + calc_sqrt_cost p (calc_mul_cost p) (calc_add_cost p)).
Definition atan_red_effect (n m : Z) : Z := n + m.

(** atan.rs 176-190. *)
Fixpoint atan_reduce_loop (n : nat) (p : Z) (x : num) : result num :=
  match n with
  | O => Ok x
  | S n =>
      do xx <- n_mul x x p RNone;
      do n0 <- n_add xx ONE p RNone;
      do n1 <- n_sqrt n0 p RNone;
      do n2 <- n_add n1 ONE p RNone;
      do x <- n_div x n2 p RFromZero;
      atan_reduce_loop n p x
  end.
Definition atan_arg_reduce (x : num) (n : Z) : result num := atan_reduce_loop (Z.to_nat n) (mantissa_max_bit_len x) x.

(** atan.rs 136-173; called with RoundingMode::None. *)
Definition atan_series (g : nat) (x : num) (rm : rmode) : run num :=
  let p := mantissa_max_bit_len x in
  rbind (done atan_new) (fun gen =>
  match series_cost_optimize atan_red_cost atan_red_effect g p atan_iter_cost (- ne x) 2 with
  | None => None
  | Some (n, niter, e_eff) =>
      let n := if e_eff <? 3 then n + (3 - e_eff) else n in
      let add_prec := n * 8 + 2 - e_eff in
      let p_arg := p + (if 0 <? add_prec then add_prec else 0) in
      rbind (done (set_precision x p_arg rm)) (fun x =>
      rbind (done (if 0 <? n then atan_arg_reduce x n else Ok x)) (fun arg =>
      rbind (done (n_mul arg arg p_arg rm)) (fun x_step =>
      rbind (done (n_mul arg x_step p_arg rm)) (fun x_first =>
      rbind (series_run atan_next true g arg x_first x_step niter gen) (fun ret =>
      Some (Ok (if 0 <? n then set_exponent ret (ne ret + n) else ret)))))))
  end).

(** ** The retry loop: atan.rs 104-132 *)
Definition atan_eval (g h : nat) (c : pi_cache) (s : sign) (x : num) (p_x : Z) : prun num :=
  if 0 <? ne x then
    pbind (ppure c (n_reciprocal x p_x RNone)) (fun c x =>
    match atan_series g x RNone with
    | None => None
    | Some r =>
        pbind (ppure c r) (fun c ret =>
        pbind (pi_num h c p_x RNone) (fun c pi =>
        ppure c (n_sub (set_sign (set_exponent pi 1) s) ret p_x RNone)))
    end)
  else match atan_series g x RNone with None => None | Some r => ppure c r end.
Fixpoint atan_loop (f g h : nat) (c : pi_cache) (x : num) (p : Z) (rm : rmode) (p_wrk p_inc : Z) : prun num :=
  match f with
  | O => None
  | S f =>
      let p_x := p_wrk + 5 in
      pbind (ppure c (set_precision x p_x RNone)) (fun c y =>
      pbind (atan_eval g h c (ns x) y p_x) (fun c ret =>
      pbind (ppure c (try_set_precision ret p rm p_wrk)) (fun c '(ret, ok) =>
      if ok then ppure c (Ok (set_inexact ret (ninexact ret || ninexact x)))
      else atan_loop f g h c x p rm (p_wrk + p_inc) (round_p ((p_wrk + p_inc) / 5)))))
  end.
(** atan.rs 90-103. *)
Definition f_atan (f g h : nat) (c : pi_cache) : num -> Z -> rmode -> prun num :=
  odd_in (fun r => Some (c, r)) (fun x p rm => atan_loop f g h c x p rm (Z.max p (mantissa_max_bit_len x) + 64) 64) 1 true.
