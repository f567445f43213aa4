(** Model of the cosine (ops/cos.rs).  No proofs in this file.

    [f] is the fuel of the retry loop, [g] that of the series, [h] that of the constant pi;
    the cache of pi is threaded through. *)

From Coq Require Import ZArith List Bool.
From Verif Require Import Words IntModel Mantissa Num Pow Consts Elem Series Exp Ln Sin.
Import ListNotations.
Open Scope Z_scope.

(** ** The series *)

(** cos.rs 23-51: CosPolycoeffGen.  Its fields are those of SinPolycoeffGen, but inc
    starts at zero.  iter_cost is [sinh_iter_cost]: cos.rs 38-39 has the formula of
    pow.rs 30-31, and the mantissa of the zero has 64 bits. *)
Definition cos_new (p : Z) : result sin_gen :=
  do inc <- n_new 1;
  do fct <- from_word 1 p;
  do one <- from_word 1 p;
  Ok (mk_sin_gen (mk_sinh_gen one inc fct) 1).
(** cos.rs 53-74; the two halves 58-60 and 62-64 are those of pow.rs. *)
Definition cos_next (s : sin_gen) : result (num * sin_gen) :=
  do c <- sinh_half (n_core s);
  do c <- sinh_half c;
  let sg := n_sign s * -1 in
  let fct := set_sign (sg_fct c) (if 0 <? sg then Pos else Neg) in
  Ok (fct, mk_sin_gen (mk_sinh_gen (sg_one c) (sg_inc c) fct) sg).

(** cos.rs 82-99. *)
Definition cos_red_cost (n p : Z) : Z := n * (calc_mul_cost p + calc_add_cost p).
Definition cos_red_effect (n m : Z) : Z := n + m.

(** cos.rs 190-203. *)
Fixpoint halve_loop (n : nat) (p : Z) (x : num) : result num :=
  match n with
  | O => Ok x
  | S n => do x <- n_div x TWO p RFromZero; halve_loop n p x
  end.
Definition cos_arg_reduce (x : num) (n : Z) : result num :=
  let p := mantissa_max_bit_len x in
  if ne x <? EXPONENT_MIN + n then
    let ret := set_exponent x EXPONENT_MIN in
    halve_loop (Z.to_nat (n - (ne ret - EXPONENT_MIN))) p ret
  else Ok (set_exponent x (ne x - n)).

(** cos.rs 207-219. *)
Fixpoint cos_restore_loop (n : nat) (p : Z) (c : num) : result num :=
  match n with
  | O => Ok c
  | S n =>
      do c2 <- n_mul c c p RNone;
      do c <- n_sub (set_exponent c2 (ne c2 + 1)) ONE p RNone;
      cos_restore_loop n p c
  end.
Definition cos_arg_restore (c : num) (n : Z) : result num := cos_restore_loop (Z.to_nat n) (mantissa_max_bit_len c) c.

(** cos.rs 152-186; called with RoundingMode::None. *)
Definition cos_series (g : nat) (x : num) (rm : rmode) : run num :=
  let p := mantissa_max_bit_len x in
  rbind (done (cos_new p)) (fun gen =>
  match series_cost_optimize cos_red_cost cos_red_effect g p (sinh_iter_cost p) (- ne x) 2 with
  | None => None
  | Some (n, niter, e_eff) =>
      let add_prec := n * 6 + 6 - e_eff in
      let p_arg := p + (if 0 <? add_prec then add_prec else 0) in
      rbind (done (set_precision x p_arg rm)) (fun x =>
      rbind (done (if 0 <? n then cos_arg_reduce x n else Ok x)) (fun arg =>
      rbind (done (from_word 1 p_arg)) (fun acc =>
      rbind (done (n_mul arg arg p_arg rm)) (fun x_step =>
      rbind (series_run cos_next false g acc x_step x_step niter gen) (fun ret =>
      if 0 <? n then done (cos_arg_restore ret n) else Some (Ok ret))))))
  end).

(** ** The retry loop: cos.rs 127-148 *)
Fixpoint cos_loop (f g h : nat) (c : pi_cache) (x : num) (p : Z) (rm : rmode) (p_wrk p_inc add_p : Z) : prun num :=
  match f with
  | O => None
  | S f =>
      pbind (ppure c (set_precision x (p_wrk + add_p) RNone)) (fun c y =>
      pbind (reduce_trig_arg h c y RNone) (fun c y =>
      pbind (trig_arg_pi_proximity h c y RNone) (fun c '(t, q) =>
      if Z.odd q && (add_p <? t) then cos_loop f g h c x p rm p_wrk p_inc t
      else
        match cos_series g y RNone with
        | None => None
        | Some r =>
            pbind (ppure c r) (fun c ret =>
            pbind (ppure c (try_set_precision ret p rm p_wrk)) (fun c '(ret, ok) =>
            if ok then ppure c (Ok (set_inexact ret (ninexact ret || ninexact x)))
            else cos_loop f g h c x p rm (p_wrk + p_inc) (round_p ((p_wrk + p_inc) / 5)) add_p))
        end)))
  end.
(** cos.rs 110-126; 1 - TRIG_EXP_THRES is 65. *)
Definition f_cos (f g h : nat) (c : pi_cache) : num -> Z -> rmode -> prun num :=
  even_in (fun r => Some (c, r)) (fun x p rm => cos_loop f g h c x p rm (Z.max p (mantissa_max_bit_len x) + 64) 64 65) true.
