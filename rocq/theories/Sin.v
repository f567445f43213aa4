(** Model of the sine (ops/sin.rs) and of the reduction of trigonometric arguments
    (ops/util.rs).  No proofs in this file.

    [f] is the fuel of the retry loop, [g] that of the series, [h] that of the constant pi;
    the cache of pi is threaded through. *)

From Coq Require Import ZArith List Bool.
From Verif Require Import Words IntModel Mantissa Num Pow Consts Elem Series Exp.
Import ListNotations.
Open Scope Z_scope.

(** ** The series *)

(** sin.rs 23-50: SinPolycoeffGen.  The fields one_full_p, inc and fct are those of
    SinhPolycoeffGen in pow.rs, initialised alike; [n_sign] is sign.  iter_cost is
    [sinh_iter_cost]: sin.rs 37-38 has the formula of pow.rs 30-31. *)
Record sin_gen := mk_sin_gen { n_core : sinh_gen; n_sign : Z }.
Definition sin_new (p : Z) : result sin_gen := do s <- sinh_new p; Ok (mk_sin_gen s 1).
(** sin.rs 52-73; the two halves 57-59 and 61-63 are those of pow.rs. *)
Definition sin_next (s : sin_gen) : result (num * sin_gen) :=
  do c <- sinh_half (n_core s);
  do c <- sinh_half c;
  let sg := n_sign s * -1 in
  let fct := set_sign (sg_fct c) (if 0 <? sg then Pos else Neg) in
  Ok (fct, mk_sin_gen (mk_sinh_gen (sg_one c) (sg_inc c) fct) sg).

(** sin.rs 205-221: one step of the restoration of the argument. *)
Fixpoint sin_restore_loop (n : nat) (p : Z) (rm : rmode) (s : num) : result num :=
  match n with
  | O => Ok s
  | S n =>
      do c <- n_mul s s p rm;
      do c <- n_mul c s p rm;
      do p1 <- n_mul s THREE p rm;
      do p2 <- n_mul c FOUR p rm;
      do s <- n_sub p1 p2 p rm;
      sin_restore_loop n p rm s
  end.
Definition sin_arg_restore (s : num) (n : Z) (rm : rmode) : result num := sin_restore_loop (Z.to_nat n) (mantissa_max_bit_len s) rm s.

(** sin.rs 151-190; called with RoundingMode::None.  The estimates of sin.rs 83-99 and
    sin_arg_reduce (194-201) are those of pow.rs 69-82 and 410-418. *)
Definition sin_series (g : nat) (x : num) (rm : rmode) : run num :=
  let p := mantissa_max_bit_len x in
  rbind (done (sin_new p)) (fun gen =>
  match series_cost_optimize sinh_red_cost sinh_red_effect g p (sinh_iter_cost p) (- ne x) 2 with
  | None => None
  | Some (n, niter, e_eff) =>
      let add_prec := n * 6 + 9 - e_eff in
      let p_arg := p + (if 0 <? add_prec then add_prec else 0) in
      rbind (done (set_precision x p_arg rm)) (fun x =>
      rbind (done (if 0 <? n then sinh_arg_reduce x n rm else Ok x)) (fun arg =>
      rbind (done (n_mul arg arg p_arg rm)) (fun x_step =>
      rbind (done (n_mul arg x_step p_arg rm)) (fun x_first =>
      rbind (series_run sin_next false g arg x_first x_step niter gen) (fun ret =>
      if 0 <? n then done (sin_arg_restore ret n rm) else Some (Ok ret))))))
  end).

(** ** Arguments *)
Definition pi_cache := cache (num * num * num).
Definition prun (A : Type) := option (pi_cache * result A).
Definition pbind {A B} (r : prun A) (k : pi_cache -> A -> prun B) : prun B :=
  match r with
  | None => None
  | Some (c, Ok a) => k c a
  | Some (c, Err e) => Some (c, Err e)
  | Some (c, Panic) => Some (c, Panic)
  end.
Definition ppure {A} (c : pi_cache) (r : result A) : prun A := Some (c, r).
Definition pi_num (h : nat) (c : pi_cache) (p : Z) (rm : rmode) : prun num := const_num pi_for_prec h c p rm.

(** util.rs 7-17. *)
Definition reduce_trig_arg (h : nat) (c : pi_cache) (x : num) (rm : rmode) : prun num :=
  if 2 <? ne x then
    pbind (pi_num h c (mantissa_max_bit_len x + ne x) rm) (fun c pi =>
    ppure c (n_rem x (set_exponent pi (ne pi + 1))))
  else ppure c (Ok x).

(** util.rs 20-51. *)
Definition trig_arg_pi_proximity (h : nat) (c : pi_cache) (x : num) (rm : rmode) : prun (Z * Z) :=
  if 0 <? ne x then
    pbind (pi_num h c (mantissa_max_bit_len x + ne x) rm) (fun c pi =>
    let pi := set_sign pi (ns x) in
    let pi := if ne x <? 2 then set_exponent pi 1 else pi in
    pbind (ppure c (n_sub x pi (mantissa_max_bit_len x) rm)) (fun c ret =>
    let q := ne pi in
    if (0 <? ne ret) && sign_eqb (ns x) (ns ret) then
      let pi := if ne ret <? 2 then set_exponent pi 1 else pi in
      pbind (ppure c (n_sub ret pi (mantissa_max_bit_len x) rm)) (fun c ret => ppure c (Ok (Z.abs (ne ret), q + ne pi)))
    else ppure c (Ok (Z.abs (ne ret), q))))
  else ppure c (Ok (Z.abs (ne x), 0)).

(** ** The retry loop: sin.rs 125-147 *)
Fixpoint sin_loop (f g h : nat) (c : pi_cache) (x : num) (p : Z) (rm : rmode) (p_wrk p_inc add_p : Z) : prun num :=
  match f with
  | O => None
  | S f =>
      pbind (ppure c (set_precision x (p_wrk + add_p) RNone)) (fun c y =>
      pbind (reduce_trig_arg h c y RNone) (fun c y =>
      pbind (trig_arg_pi_proximity h c y RNone) (fun c '(t, q) =>
      if Z.even q && (add_p <? t) then sin_loop f g h c x p rm p_wrk p_inc t
      else
        match sin_series g y RNone with
        | None => None
        | Some r =>
            pbind (ppure c r) (fun c ret =>
            pbind (ppure c (try_set_precision ret p rm p_wrk)) (fun c '(ret, ok) =>
            if ok then ppure c (Ok (set_inexact ret (ninexact ret || ninexact x)))
            else sin_loop f g h c x p rm (p_wrk + p_inc) (round_p ((p_wrk + p_inc) / 5)) add_p))
        end)))
  end.
(** sin.rs 110-124; 3 - TRIG_EXP_THRES is 67. *)
Definition f_sin (f g h : nat) (c : pi_cache) : num -> Z -> rmode -> prun num :=
  odd_in (fun r => Some (c, r)) (fun x p rm => sin_loop f g h c x p rm (Z.max p (mantissa_max_bit_len x) + 64) 64 67) 2 true.
