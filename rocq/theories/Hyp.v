(** Model of the hyperbolic functions (ops/sinh.rs, ops/cosh.rs, ops/tanh.rs): the retry
    loops and the whole functions.  No proofs in this file.

    [f] is the fuel of the retry loop, [h] that of the retry loop of exp, [g] that of its
    inner loops; the cache of e is threaded through. *)

From Coq Require Import ZArith List Bool.
From Verif Require Import Words IntModel Mantissa Num Pow Consts Elem Series Exp.
Import ListNotations.
Open Scope Z_scope.

Definition cbind {A B} (r : crun A) (k : e_cache -> A -> crun B) : crun B :=
  match r with
  | None => None
  | Some (c, Ok a) => k c a
  | Some (c, Err e) => Some (c, Err e)
  | Some (c, Panic) => Some (c, Panic)
  end.
Definition pure {A} (c : e_cache) (r : result A) : crun A := Some (c, r).

(** The end of the loops (sinh.rs 79-86, cosh.rs 66-73, tanh.rs 86-93): [ret] is accepted or
    the loop goes on. *)
Definition accept (c : e_cache) (ret x : num) (p : Z) (rm : rmode) (p_wrk : Z) (again : crun num) : crun num :=
  match try_set_precision ret p rm p_wrk with
  | Err e => Some (c, Err e)
  | Panic => Some (c, Panic)
  | Ok (ret, true) => Some (c, Ok (set_inexact ret (ninexact ret || ninexact x)))
  | Ok (_, false) => again
  end.

(** sinh.rs 61-67 and the match in 52-57. *)
Definition sign_error {A} (s : sign) (r : result A) : result A :=
  match r with Err (ExponentOverflow _) => Err (ExponentOverflow s) | r => r end.
Definition csign_error {A} (s : sign) (r : crun A) : crun A :=
  match r with Some (c, r) => Some (c, sign_error s r) | None => None end.

(** sinh.rs 44-74: one evaluation; [x] is positive with the working precision. *)
Definition sinh_eval (h g : nat) (c : e_cache) (s : sign) (ethres : Z) (x : num) (p_x : Z) : crun num :=
  if ne x <=? 0 then with_cache c (sinh_series g x p_x RNone)
  else
    cbind
      (if mantissa_max_bit_len x + 2 <? ethres then csign_error s (n_exp h g c x p_x RNone)
       else
         cbind (csign_error s (n_exp h g c x p_x RNone)) (fun c ex =>
         cbind (pure c (n_reciprocal ex p_x RNone)) (fun c xe =>
         pure c (sign_error s (n_sub ex xe p_x RNone)))))
      (fun c val => pure c (Ok (div_by_2 val RNone))).

(** sinh.rs 40-88; [x0] is self, [x] its magnitude. *)
Fixpoint sinh_loop (f h g : nat) (c : e_cache) (x0 x : num) (ethres p : Z) (rm : rmode) (p_wrk p_inc : Z) : crun num :=
  match f with
  | O => None
  | S f =>
      let p_x := p_wrk + 4 in
      cbind (pure c (set_precision x p_x RNone)) (fun c x =>
      cbind (sinh_eval h g c (ns x0) ethres x p_x) (fun c ret =>
      accept c (set_sign ret (ns x0)) x0 p rm p_wrk (sinh_loop f h g c x0 x ethres p rm (p_wrk + p_inc) (round_p ((p_wrk + p_inc) / 5)))))
  end.
(** sinh.rs 21-38. *)
Definition f_sinh (f h g : nat) (c : e_cache) : num -> Z -> rmode -> crun num :=
  odd_in (fun r => Some (c, r))
    (fun x p rm => sinh_loop f h g c x (set_sign (set_inexact x false) Pos) ((Z.max (Z.abs (ne x)) 1 - 1) * 2) p rm (Z.max p (mantissa_max_bit_len x) + 64) 64) 2 false.

(** cosh.rs 47-64. *)
Definition cosh_eval (h g : nat) (c : e_cache) (x : num) (p_x : Z) : crun num :=
  cbind
    (if mantissa_max_bit_len x + 2 <? (ne x - 1) * 2 then n_exp h g c x p_x RNone
     else
       cbind (n_exp h g c x p_x RNone) (fun c ex =>
       cbind (pure c (n_reciprocal ex p_x RNone)) (fun c xe =>
       pure c (n_add ex xe p_x RNone))))
    (fun c val => pure c (Ok (div_by_2 val RNone))).
(** cosh.rs 38-74. *)
Fixpoint cosh_loop (f h g : nat) (c : e_cache) (x0 x : num) (p : Z) (rm : rmode) (p_wrk p_inc : Z) : crun num :=
  match f with
  | O => None
  | S f =>
      let p_x := p_wrk + 4 in
      cbind (pure c (set_precision x p_x RNone)) (fun c x =>
      let x := set_sign x Pos in
      cbind (cosh_eval h g c x p_x) (fun c ret =>
      accept c ret x0 p rm p_wrk (cosh_loop f h g c x0 x p rm (p_wrk + p_inc) (round_p ((p_wrk + p_inc) / 5)))))
  end.
(** cosh.rs 22-37. *)
Definition f_cosh (f h g : nat) (c : e_cache) : num -> Z -> rmode -> crun num :=
  even_in (fun r => Some (c, r))
    (fun x p rm => cosh_loop f h g c x (set_inexact x false) p rm (Z.max p (mantissa_max_bit_len x) + 64) 64) false.

(** tanh.rs 97-117: process_large_exp. *)
Definition process_large_exp (x : num) (p : Z) (rm : rmode) : result num :=
  let toward := match rm with RToZero => true | RDown => is_positive x | RUp => negb (is_positive x) | _ => false end in
  do ret <- (if toward then do ret <- max_value p; Ok (set_exponent (set_sign ret (ns x)) 0)
             else from_int 8 (sign_int (ns x)) p);
  Ok (set_inexact ret true).
(** tanh.rs 57-95; [a] is additional_prec. *)
Fixpoint tanh_loop (f h g : nat) (c : e_cache) (x0 x : num) (p : Z) (rm : rmode) (a p_wrk p_inc : Z) : crun num :=
  match f with
  | O => None
  | S f =>
      let p_x := p_wrk + a in
      cbind (pure c (set_precision x p_x RNone)) (fun c x =>
      match n_exp h g c x p_x RFromZero with
      | None => None
      | Some (c, Err (ExponentOverflow _)) => Some (c, process_large_exp x0 p rm)
      | Some (c, Err e) => Some (c, Err e)
      | Some (c, Panic) => Some (c, Panic)
      | Some (c, Ok xexp) =>
          if p_x <? ne xexp then Some (c, process_large_exp x0 p rm)
          else
            cbind (pure c (n_sub xexp ONE p_x RNone)) (fun c d1 =>
            cbind (pure c (n_add xexp ONE p_x RNone)) (fun c d2 =>
            cbind (pure c (n_div d1 d2 p_x RNone)) (fun c ret =>
            accept c (set_sign ret (ns x0)) x0 p rm p_wrk (tanh_loop f h g c x0 x p rm a (p_wrk + p_inc) (round_p ((p_wrk + p_inc) / 5))))))
      end)
  end.
(** tanh.rs 24-56. *)
Definition f_tanh (f h g : nat) (c : e_cache) : num -> Z -> rmode -> crun num :=
  tanh_in (fun r => Some (c, r))
    (fun x p rm =>
       let a := 4 + (if ne x <? 0 then Z.abs (ne x) else 0) in
       let y := set_sign (set_inexact x false) Pos in
       tanh_loop f h g c x (set_exponent y (ne y + 1)) p rm a (Z.max p (mantissa_max_bit_len x) + 64) 64).
