(** Model of the exponential (ops/pow.rs): the series of the hyperbolic sine with its
    argument reduction, e^x for a fraction, and exp with its retry loop.  No proofs in
    this file.

    [g] is the fuel of the inner loops, [f] that of the retry loop. *)

From Coq Require Import ZArith List Bool.
From Verif Require Import Words IntModel Mantissa Num Pow Consts Elem Series.
Import ListNotations.
Open Scope Z_scope.

(** ** The series *)

(** pow.rs 19-58: SinhPolycoeffGen without iter_cost. *)
Record sinh_gen := mk_sinh_gen { sg_one : num; sg_inc : num; sg_fct : num }.
Definition sinh_new (p : Z) : result sinh_gen :=
  do inc <- from_word 1 1;
  do fct <- from_word 1 p;
  do one <- from_word 1 p;
  Ok (mk_sinh_gen one inc fct).
(** pow.rs 30-31: iter_cost; the mantissa of [inc] has 64 bits. *)
Definition sinh_iter_cost (p : Z) : Z := (calc_mul_cost p + calc_add_cost p + calc_add_cost 64) * 2.
(** pow.rs 48-50 and 52-54. *)
Definition sinh_half (s : sinh_gen) : result sinh_gen :=
  let p_inc := mantissa_max_bit_len (sg_inc s) in
  let p_one := mantissa_max_bit_len (sg_one s) in
  do inc <- n_add (sg_inc s) ONE p_inc RNone;
  do inv <- n_div (sg_one s) inc p_one RNone;
  do fct <- n_mul (sg_fct s) inv p_one RNone;
  Ok (mk_sinh_gen (sg_one s) inc fct).
Definition sinh_next (s : sinh_gen) : result (num * sinh_gen) :=
  do s <- sinh_half s;
  do s <- sinh_half s;
  Ok (sg_fct s, s).

(** pow.rs 69-82; THREE has 128 bits. *)
Definition sinh_red_cost (n p : Z) : Z := n * (2 * calc_mul_cost p + 3 * calc_add_cost p + calc_mul_cost 128).
Definition sinh_red_effect (n m : Z) : Z := n * 1000 / 631 + m.

(** common/consts.rs 20. *)
Definition FOUR : num := mk_num (mk_m [0; 9223372036854775808] 128) Pos 3 false.

(** pow.rs 410-418; [n >= 1]. *)
Fixpoint power_of_three (n : nat) (d : num) : result num :=
  match n with
  | O => Ok d
  | S n => do d <- n_mul_full_prec d THREE; power_of_three n d
  end.
Definition sinh_arg_reduce (x : num) (n : Z) (rm : rmode) : result num :=
  do d <- power_of_three (Z.to_nat (n - 1)) THREE;
  n_div x d (mantissa_max_bit_len x) rm.

(** pow.rs 421-436. *)
Fixpoint sinh_restore_loop (n : nat) (p : Z) (rm : rmode) (s : num) : result num :=
  match n with
  | O => Ok s
  | S n =>
      do c <- n_mul s s p rm;
      do c <- n_mul c s p rm;
      do p1 <- n_mul s THREE p rm;
      do p2 <- n_mul c FOUR p rm;
      do s <- n_add p1 p2 p rm;
      sinh_restore_loop n p rm s
  end.
Definition sinh_arg_restore (s : num) (n : Z) (rm : rmode) : result num := sinh_restore_loop (Z.to_nat n) (mantissa_max_bit_len s) rm s.

(** pow.rs 370-406; called with RoundingMode::None. *)
Definition sinh_series (g : nat) (x : num) (p : Z) (rm : rmode) : run num :=
  rbind (done (sinh_new p)) (fun gen =>
  match series_cost_optimize sinh_red_cost sinh_red_effect g p (sinh_iter_cost p) (- ne x) 2 with
  | None => None
  | Some (n, niter, e_eff) =>
      let add_prec := n * 5 + 8 - e_eff in
      let p_arg := p + (if 0 <? add_prec then add_prec else 0) in
      rbind (done (set_precision x p_arg rm)) (fun x =>
      rbind (done (if 0 <? n then sinh_arg_reduce x n rm else Ok x)) (fun arg =>
      rbind (done (n_mul arg arg p_arg rm)) (fun x_step =>
      rbind (done (n_mul arg x_step p_arg rm)) (fun x_first =>
      rbind (series_run sinh_next false g arg x_first x_step niter gen) (fun ret =>
      if 0 <? n then done (sinh_arg_restore ret n rm) else Some (Ok ret))))))
  end).

(** pow.rs 355-367. *)
Definition expf (g : nat) (x : num) : run num :=
  let p := mantissa_max_bit_len x in
  rbind (sinh_series g x p RNone) (fun sh =>
  done (
    do sq <- n_mul sh sh p RNone;
    do sq2 <- n_add sq ONE p RNone;
    do sq3 <- n_sqrt sq2 p RNone;
    n_add sq3 sh p RFromZero)).

(** ** exp *)

(** num.rs 1159-1172. *)
Definition int_as_usize (x : num) : result Z :=
  if 0 <? ne x then
    if ne x <=? 64 then Ok (znth (zlen (mm (nm x)) - 1) (mm (nm x)) / 2 ^ (64 - ne x))
    else Err InvalidArgument
  else Ok 0.

(** The constants cache is part of the state: [c] before, the cache after is returned
    with the result.  [None] is out of fuel.  As in PropsConst the loop of the constant e
    gets 31 rounds, which are enough. *)
Definition e_cache := cache (num * num).
Definition crun (A : Type) := option (e_cache * result A).
Definition with_cache {A} (c : e_cache) (r : run A) : crun A := match r with None => None | Some r => Some (c, r) end.

(** pow.rs 150-187. *)
Definition exp_positive_arg (g : nat) (c : e_cache) (x : num) (p : Z) : crun num :=
  if 64 <? ne x then Some (c, Err (ExponentOverflow (ns x)))
  else
    let p_work := p + 4 in
    match int_as_usize x with
    | Err InvalidArgument => Some (c, Err (ExponentOverflow Pos))
    | Err e => Some (c, Err e)
    | Panic => Some (c, Panic)
    | Ok i =>
        match (if 0 <? i then
                 match const_num e_for_prec 31 c p_work RNone with
                 | None => None
                 | Some (c, Ok e_const) => with_cache c (n_powi g e_const i p_work RNone)
                 | Some (c, r) => Some (c, r)
                 end
               else Some (c, Ok ONE)) with
        | None => None
        | Some (c, Ok e_int) =>
            let fract := n_fract x in
            with_cache c (
              rbind (if is_zero fract then Some (Ok ONE)
                     else rbind (done (set_precision (set_inexact fract false) p_work RNone)) (fun y => expf g (set_sign y Pos)))
                (fun e_fract => done (n_mul e_int e_fract p RFromZero)))
        | Some (c, r) => Some (c, r)
        end
    end.

(** pow.rs 116-146: the loop; [p] is the rounded precision. *)
Fixpoint exp_loop (f g : nat) (c : e_cache) (x : num) (p : Z) (rm : rmode) (p_wrk p_inc : Z) : crun num :=
  match f with
  | O => None
  | S f =>
      let p_x := p_wrk + 2 in
      let finish c ret :=
        match try_set_precision ret p rm p_wrk with
        | Err e => Some (c, Err e)
        | Panic => Some (c, Panic)
        | Ok (ret, true) => Some (c, Ok (set_inexact ret (ninexact ret || ninexact x)))
        | Ok (_, false) => exp_loop f g c x p rm (p_wrk + p_inc) (round_p ((p_wrk + p_inc) / 5))
        end in
      match exp_positive_arg g c x p_x with
      | None => None
      | Some (c, Panic) => Some (c, Panic)
      | Some (c, Err e) =>
          if is_negative x then
            match e with
            | ExponentOverflow s => Some (c, n_new2 p s (ninexact x))
            | e => Some (c, Err e)
            end
          else Some (c, Err e)
      | Some (c, Ok y) =>
          if is_negative x then
            match n_div ONE y p_x RFromZero with
            | Ok ret => finish c ret
            | Err e => Some (c, Err e)
            | Panic => Some (c, Panic)
            end
          else finish c y
      end
  end.

(** pow.rs 95-147. *)
Definition n_exp (f g : nat) (c : e_cache) (x : num) (p : Z) (rm : rmode) : crun num :=
  exp_top (fun r => Some (c, r))
    (let p := round_p p in exp_loop f g c x p rm (Z.max p (mantissa_max_bit_len x) + 64) 64) x p rm.
