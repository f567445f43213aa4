(** Model of the decimal logarithm (ops/log.rs): the whole function with its retry loop.
    No proofs in this file.

    [f] is the fuel of the retry loop, [h] that of the retry loop of ln, [g] that of the
    inner loops; the caches of ln 2 and of ln 10 are threaded through. *)

From Coq Require Import ZArith List Bool.
From Verif Require Import Words IntModel Mantissa Num Pow Consts Elem Series Exp Ln DecConv.
Import ListNotations.
Open Scope Z_scope.

Definition ln10_cache := cache (num * num * num).
Definition tcache := (ln2_cache * ln10_cache)%type.
Definition trun (A : Type) := option (tcache * result A).
Definition tbind {A B} (r : trun A) (k : tcache -> A -> trun B) : trun B :=
  match r with
  | None => None
  | Some (c, Ok a) => k c a
  | Some (c, Err e) => Some (c, Err e)
  | Some (c, Panic) => Some (c, Panic)
  end.
Definition twith {A} (c : tcache) (r : run A) : trun A := match r with None => None | Some r => Some (c, r) end.
Definition t_ln (h g : nat) (c : tcache) (x : num) (p : Z) (rm : rmode) : trun num :=
  match ln_num h g (fst c) x p rm with None => None | Some (l, r) => Some ((l, snd c), r) end.
(** As in PropsConst the loop of the constant ln 10 gets 31 rounds, which are enough. *)
Definition t_ln10 (c : tcache) (p : Z) (rm : rmode) : trun num :=
  match const_num ln10_for_prec 31 (snd c) p rm with None => None | Some (t, r) => Some ((fst c, t), r) end.

(** log.rs 324-328: whether [x] is the power of ten with the exponent [ret]. *)
Definition is_ten_power (g : nat) (ret x : num) (p_x : Z) : run bool :=
  if n_is_int ret then
    rbind (done (int_as_usize ret)) (fun n =>
    rbind (n_powi g TEN n p_x RNone) (fun tp => Some (Ok (n_cmp tp x =? 0))))
  else Some (Ok false).

(** log.rs 312-341; [x0] is self, [x] its copy. *)
Fixpoint log10_loop (f h g : nat) (c : tcache) (x0 x : num) (p : Z) (rm : rmode) (p_wrk p_inc : Z) : trun num :=
  match f with
  | O => None
  | S f =>
      let p_x := p_wrk + 5 in
      tbind (twith c (done (set_precision x p_x RNone))) (fun c x =>
      tbind (t_ln h g c x p_x RNone) (fun c p1 =>
      tbind (t_ln10 c p_x RNone) (fun c p2 =>
      tbind (twith c (done (n_div p1 p2 p_x RNone))) (fun c ret =>
      tbind (twith c (is_ten_power g ret x p_x)) (fun c b =>
      if b then Some (c, set_precision ret p rm)
      else
        match try_set_precision ret p rm p_wrk with
        | Err e => Some (c, Err e)
        | Panic => Some (c, Panic)
        | Ok (ret, true) => Some (c, Ok (set_inexact ret (ninexact ret || ninexact x0)))
        | Ok (_, false) => log10_loop f h g c x0 x p rm (p_wrk + p_inc) (round_p ((p_wrk + p_inc) / 5))
        end)))))
  end.

(** log.rs 301-342. *)
Definition log10_num (f h g : nat) (c : tcache) (x : num) (p : Z) (rm : rmode) : trun num :=
  let p := round_p p in
  log10_loop f h g c x (set_inexact x false) p rm (Z.max p (mantissa_max_bit_len x) + 64) 64.
