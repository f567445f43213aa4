(** Model of the inverse hyperbolic functions (ops/asinh.rs, ops/acosh.rs, ops/atanh.rs):
    the whole functions with their retry loops.  No proofs in this file.

    [f] is the fuel of the retry loop, [h] that of the retry loop of ln, [g] that of its
    inner loops; the cache of ln 2 is threaded through. *)

From Coq Require Import ZArith List Bool.
From Verif Require Import Words IntModel Mantissa Num Pow Consts Elem Series Ln.
Import ListNotations.
Open Scope Z_scope.

Definition lpure {A} (c : ln2_cache) (r : result A) : lrun A := Some (c, r).

(** asinh.rs 47-66, acosh.rs 45-64: ln(2 x) for a large argument; [e] is the exponent of
    [x].  The code changes the exponent of x and sets it back after ln; here [x] itself is
    not changed. *)
Definition large_arg (e p_x : Z) : bool := p_x + 2 <? Z.quot (e - 1) 2.
Definition ln_double (h g : nat) (c : ln2_cache) (x : num) (e p_x : Z) : lrun num :=
  if e =? EXPONENT_MAX then
    let p_x := p_x + 2 in
    lbind (ln_num h g c x p_x RNone) (fun c lnx =>
    lbind (const_num ln2_for_prec 31 c p_x RNone) (fun c ln2 =>
    lpure c (n_add ln2 lnx p_x RNone)))
  else ln_num h g c (set_exponent x (e + 1)) p_x RNone.

(** asinh.rs 45-81: one round; [x] is the magnitude of self, [e] its exponent. *)
Definition asinh_step (h g : nat) (c : ln2_cache) (x : num) (e p_wrk : Z) : lrun num :=
  if large_arg e p_wrk then ln_double h g c x e p_wrk
  else
    let p_x := p_wrk + (Z.abs e + 5) in
    lbind (lpure c
      (do xx <- n_mul x x p_x RNone;
       do d1 <- n_add xx ONE p_x RNone;
       do d2 <- n_sqrt d1 p_x RNone;
       n_add d2 x p_x RFromZero)) (fun c d3 =>
    ln_num h g c d3 p_x RNone).
(** asinh.rs 44-89; [x0] is self. *)
Fixpoint asinh_loop (f h g : nat) (c : ln2_cache) (x0 x : num) (p : Z) (rm : rmode) (p_wrk p_inc : Z) : lrun num :=
  match f with
  | O => None
  | S f =>
      lbind (asinh_step h g c x (ne x0) p_wrk) (fun c ret =>
      ln_finish c x0 ret p rm p_wrk (asinh_loop f h g c x0 x p rm (p_wrk + p_inc) (round_p ((p_wrk + p_inc) / 5))))
  end.
(** asinh.rs 25-95. *)
Definition f_asinh (f h g : nat) (c : ln2_cache) : num -> Z -> rmode -> lrun num :=
  odd_in (fun r => Some (c, r))
    (fun x p rm =>
       let y := set_inexact (set_sign x Pos) false in
       let rm := if is_negative x then invert_rm_for_sign rm else rm in
       lbind (asinh_loop f h g c x y p rm (Z.max p (mantissa_max_bit_len x) + 64) 64) (fun c v =>
       lpure c (Ok (set_sign v (ns x))))) 2 true.

(** acosh.rs 43-83: one round; [x0] is self. *)
Definition acosh_step (h g : nat) (c : ln2_cache) (x0 x : num) (p_wrk : Z) : lrun num :=
  if large_arg (ne x0) p_wrk then ln_double h g c x (ne x0) p_wrk
  else
    let ap := if ne x0 =? 1 then count_leading_zeroes_skip_first (mm (nm x0)) else 0 in
    let p_x := p_wrk + (6 + ap) in
    lbind (lpure c
      (do xx <- n_mul x x p_x RNone;
       do d1 <- n_sub xx ONE p_x RNone;
       do d2 <- n_sqrt d1 p_x RNone;
       n_add d2 x p_x RFromZero)) (fun c d3 =>
    ln_num h g c d3 p_x RNone).
(** acosh.rs 42-92. *)
Fixpoint acosh_loop (f h g : nat) (c : ln2_cache) (x0 x : num) (p : Z) (rm : rmode) (p_wrk p_inc : Z) : lrun num :=
  match f with
  | O => None
  | S f =>
      lbind (acosh_step h g c x0 x p_wrk) (fun c ret =>
      ln_finish c x0 ret p rm p_wrk (acosh_loop f h g c x0 x p rm (p_wrk + p_inc) (round_p ((p_wrk + p_inc) / 5))))
  end.
(** acosh.rs 24-93. *)
Definition f_acosh (f h g : nat) (c : ln2_cache) (x : num) (p : Z) (rm : rmode) : lrun num :=
  let p := round_p p in
  let cmpone := n_cmp x ONE in
  if cmpone =? 0 then lpure c (n_new2 p Pos (ninexact x))
  else if cmpone <? 0 then lpure c (Err InvalidArgument)
  else acosh_loop f h g c x (set_inexact x false) p rm (Z.max p (mantissa_max_bit_len x) + 64) 64.

(** atanh.rs 65-72: one round, with the argument already at the precision [p_x]. *)
Definition atanh_step (h g : nat) (c : ln2_cache) (x : num) (p_x : Z) : lrun num :=
  lbind (lpure c
    (do d1 <- n_add ONE x p_x RNone;
     do d2 <- n_sub ONE x p_x RNone;
     n_div d1 d2 p_x RNone)) (fun c d3 =>
  lbind (ln_num h g c d3 p_x RNone) (fun c ret =>
  lpure c (Ok (div_by_2 ret RNone)))).
(** atanh.rs 61-82; [x0] is self, [ap] is additional_prec.  The precision of x grows from
    round to round. *)
Fixpoint atanh_loop (f h g : nat) (c : ln2_cache) (x0 x : num) (ap p : Z) (rm : rmode) (p_wrk p_inc : Z) : lrun num :=
  match f with
  | O => None
  | S f =>
      lbind (lpure c (set_precision x (p_wrk + ap) RNone)) (fun c x =>
      lbind (atanh_step h g c x (p_wrk + ap)) (fun c ret =>
      ln_finish c x0 ret p rm p_wrk (atanh_loop f h g c x0 x ap p rm (p_wrk + p_inc) (round_p ((p_wrk + p_inc) / 5)))))
  end.
(** atanh.rs 23-84. *)
Definition f_atanh (f h g : nat) (c : ln2_cache) (x : num) (p : Z) (rm : rmode) : lrun num :=
  let p := round_p p in
  if is_zero x then lpure c (set_precision x p RNone)
  else if ne x =? 1 then
    lpure c (if n_abs_cmp x ONE =? 0 then Err (ExponentOverflow (ns x)) else Err InvalidArgument)
  else if 1 <? ne x then lpure c (Err InvalidArgument)
  else
    let p_wrk := Z.max p (mantissa_max_bit_len x) in
    small_exp (ne x * 2 - 1) p_wrk (lpure c (small_value x false p rm))
      (let ap := 4 + (if ne x <? 0 then Z.abs (ne x) else count_leading_ones (mm (nm x))) in
       atanh_loop f h g c x (set_inexact x false) ap p rm (p_wrk + 64) 64).
