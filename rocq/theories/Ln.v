(** Model of the natural and the binary logarithm (ops/log.rs): the series of the inverse
    hyperbolic tangent with its argument reduction, and the retry loops.  No proofs in
    this file.

    [g] is the fuel of the inner loops, [f] that of the retry loop. *)

From Coq Require Import ZArith List Bool.
From Verif Require Import Words IntModel Mantissa Num Consts Series.
Import ListNotations.
Open Scope Z_scope.

(** common/consts.rs 17. *)
Definition TWO : num := mk_num (mk_m [0; WORD_SIG] 128) Pos 2 false.

(** ** The series *)

(** log.rs 25-47: AtanhPolycoeffGen without iter_cost and without val, which is only
    written. *)
Record atanh_gen := mk_atanh_gen { ag_acc : num; ag_one : num }.
Definition atanh_new (p : Z) : result atanh_gen :=
  do acc <- from_word 1 1;
  do one <- from_word 1 p;
  Ok (mk_atanh_gen acc one).
(** log.rs 38: iter_cost; the mantissa of [acc] has 64 bits. *)
Definition atanh_iter_cost (p : Z) : Z := calc_add_cost p + calc_add_cost 64.
(** log.rs 50-57; the caller passes [RNone] (series.rs). *)
Definition atanh_next (s : atanh_gen) : result (num * atanh_gen) :=
  do acc <- n_add (ag_acc s) TWO (mantissa_max_bit_len (ag_acc s)) RNone;
  do v <- n_div (ag_one s) acc (mantissa_max_bit_len (ag_one s)) RNone;
  Ok (v, mk_atanh_gen acc (ag_one s)).

(** common/util.rs 113-116. *)
Definition calc_sqrt_cost (p cost_mul cost_add : Z) : Z := log2_floor p * 41349 / 2 ^ 16 * (5 * cost_mul + 2 * cost_add) / 2.
(** log.rs 69-82. *)
Definition ln_red_cost (n p : Z) : Z := n * calc_sqrt_cost p (calc_mul_cost p) (calc_add_cost p).
Definition ln_red_effect (n m : Z) : Z := m + n.

(** log.rs 199-205. *)
Fixpoint ln_arg_reduce (n : nat) (x : num) : result num :=
  match n with
  | O => Ok x
  | S n => do x <- n_sqrt x (mantissa_max_bit_len x) RUp; ln_arg_reduce n x
  end.

(** log.rs 161-196, with ln_arg_restore (208-212) as its last line. *)
Definition ln_series (g : nat) (x : num) (rm : rmode) : run num :=
  let p := mantissa_max_bit_len x in
  rbind (done (atanh_new p)) (fun gen =>
  match series_cost_optimize ln_red_cost ln_red_effect g p (atanh_iter_cost p) 0 2 with
  | None => None
  | Some (n, niter, e_eff) =>
      let n := if e_eff <? 3 then n + (3 - e_eff) else n in
      let add_prec := 7 - e_eff in
      let p_arg := p + (if 0 <? add_prec then add_prec else 5) in
      rbind (done (set_precision x p_arg rm)) (fun x =>
      rbind (done (if 0 <? n then ln_arg_reduce (Z.to_nat n) x else Ok x)) (fun arg =>
      rbind (done (n_sub arg ONE p rm)) (fun x1 =>
      rbind (done (n_add arg ONE p rm)) (fun x2 =>
      rbind (done (n_div x1 x2 p rm)) (fun z =>
      rbind (done (n_mul z z p rm)) (fun x_step =>
      rbind (done (n_mul z x_step p rm)) (fun x_first =>
      rbind (series_run atanh_next false g z x_first x_step niter gen) (fun ret =>
      Some (Ok (set_exponent ret (ne ret + (n + 1)))))))))))) 
  end).

(** ** ln *)

(** The constants cache is part of the state: [c] before, the cache after is returned
    with the result.  [None] is out of fuel.  As in PropsConst the loop of the constant
    ln 2 gets 31 rounds, which are enough. *)
Definition ln2_cache := cache (num * num * num).
Definition lrun (A : Type) := option (ln2_cache * result A).
Definition lbind {A B} (r : lrun A) (k : ln2_cache -> A -> lrun B) : lrun B :=
  match r with
  | None => None
  | Some (c, Ok a) => k c a
  | Some (c, Err e) => Some (c, Err e)
  | Some (c, Panic) => Some (c, Panic)
  end.
Definition lwith {A} (c : ln2_cache) (r : run A) : lrun A := match r with None => None | Some r => Some (c, r) end.

(** log.rs 106-110 and 231-235: normalize2 (num.rs) moves the top bit of the mantissa to
    the end of its words; the exponent is then set to 0.  The number is normalised, so
    set_exponent changes the exponent only. *)
Definition ln_mantissa (x : num) : Z * num :=
  let '(shift, m) := m_normilize2 (nm x) in (ne x - shift, mk_num m (ns x) 0 (ninexact x)).
(** log.rs 142-145 and 276-279. *)
Definition ln_exp_num (e : Z) : num := let n := from_usize (Z.abs e) in if e <? 0 then set_sign n Neg else n.

(** log.rs 151-157 and 283-289: the end of the round of a retry loop. *)
Definition ln_finish (c : ln2_cache) (x ret : num) (p : Z) (rm : rmode) (p_wrk : Z) (again : lrun num) : lrun num :=
  match try_set_precision ret p rm p_wrk with
  | Err e => Some (c, Err e)
  | Panic => Some (c, Panic)
  | Ok (ret, true) => Some (c, Ok (set_inexact ret (ninexact ret || ninexact x)))
  | Ok (_, false) => again
  end.

(** log.rs 130-149: one round, [p_x] is the precision of the argument. *)
Definition ln_sum (g : nat) (c : ln2_cache) (m : num) (e p_x : Z) : lrun num :=
  lbind (lwith c (rbind (done (set_precision m p_x RNone)) (fun y => ln_series g y RNone))) (fun c p1 =>
  let p_s := mantissa_max_bit_len p1 in
  if e =? 0 then Some (c, Ok p1)
  else
    lbind (const_num ln2_for_prec 31 c p_s RNone) (fun c p2 =>
    Some (c, do p2n <- n_mul p2 (ln_exp_num e) p_s RNone; n_add p1 p2n p_s RNone))).
(** log.rs 129-158: the loop; [p] is the rounded precision, [ap] is additional_prec. *)
Fixpoint ln_loop (f g : nat) (c : ln2_cache) (x m : num) (e ap : Z) (p : Z) (rm : rmode) (p_wrk p_inc : Z) : lrun num :=
  match f with
  | O => None
  | S f =>
      lbind (ln_sum g c m e (p_wrk + ap)) (fun c ret =>
      ln_finish c x ret p rm p_wrk (ln_loop f g c x m e ap p rm (p_wrk + p_inc) (round_p ((p_wrk + p_inc) / 5))))
  end.

(** log.rs 94-159. *)
Definition ln_num (f g : nat) (c : ln2_cache) (x : num) (p : Z) (rm : rmode) : lrun num :=
  let p := round_p p in
  if is_zero x || is_negative x then Some (c, Err InvalidArgument)
  else
    let '(e, m) := ln_mantissa x in
    let ap := (if e =? 0 then count_leading_ones (mm (nm m))
               else if e =? 1 then count_leading_zeroes_skip_first (mm (nm m)) else 0) + 5 in
    if (e =? 1) && (ap =? mantissa_max_bit_len m + 5) then Some (c, n_new2 p Pos (ninexact x))
    else ln_loop f g c x m e ap p rm (Z.max p (mantissa_max_bit_len x) + 64) 64.

(** ** log2 *)

(** log.rs 264-281: one round. *)
Definition log2_sum (g : nat) (c : ln2_cache) (m : num) (e p_x : Z) : lrun num :=
  lbind (lwith c (rbind (done (set_precision (set_inexact m false) p_x RNone)) (fun y => ln_series g y RNone))) (fun c p1 =>
  lbind (const_num ln2_for_prec 31 c p_x RNone) (fun c p2 =>
  Some (c, do p3 <- n_div p1 p2 p_x RNone; n_add p3 (ln_exp_num e) p_x RNone))).
(** log.rs 263-290: the loop. *)
Fixpoint log2_loop (f g : nat) (c : ln2_cache) (x m : num) (e ap : Z) (p : Z) (rm : rmode) (p_wrk p_inc : Z) : lrun num :=
  match f with
  | O => None
  | S f =>
      lbind (log2_sum g c m e (p_wrk + ap)) (fun c ret =>
      ln_finish c x ret p rm p_wrk (log2_loop f g c x m e ap p rm (p_wrk + p_inc) (round_p ((p_wrk + p_inc) / 5))))
  end.

(** log.rs 222-291. *)
Definition log2_num (f g : nat) (c : ln2_cache) (x : num) (p : Z) (rm : rmode) : lrun num :=
  let p := round_p p in
  if is_zero x || is_negative x then Some (c, Err InvalidArgument)
  else
    let '(e, m) := ln_mantissa x in
    let zc := count_leading_zeroes_skip_first (mm (nm m)) in
    if zc =? mantissa_max_bit_len m then
      let ret := from_usize (Z.abs (e - 1)) in
      let ret := if e <? 1 then set_sign ret Neg else ret in
      Some (c, do ret <- set_precision ret p rm; Ok (set_inexact ret (ninexact m)))
    else
      let ap := (if e =? 0 then count_leading_ones (mm (nm m)) else if e =? 1 then zc else 0) + 5 in
      log2_loop f g c x m e ap p rm (Z.max p (mantissa_max_bit_len x) + 64) 64.
