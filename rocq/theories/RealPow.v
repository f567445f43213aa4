(** Model of pow (ops/pow.rs): the whole function with its retry loop.  No proofs in this
    file.

    [f] is the fuel of the retry loop, [h] that of the retry loops of ln and exp, [g] that
    of the inner loops; the caches of ln 2 and of e are threaded through. *)

From Coq Require Import ZArith List Bool.
From Verif Require Import Words IntModel Mantissa Num Pow Consts Elem Series Exp Ln.
Import ListNotations.
Open Scope Z_scope.

Definition pcache := (ln2_cache * e_cache)%type.
Definition prun (A : Type) := option (pcache * result A).
Definition pbind {A B} (r : prun A) (k : pcache -> A -> prun B) : prun B :=
  match r with
  | None => None
  | Some (c, Ok a) => k c a
  | Some (c, Err e) => Some (c, Err e)
  | Some (c, Panic) => Some (c, Panic)
  end.
Definition pure {A} (c : pcache) (r : result A) : prun A := Some (c, r).
Definition p_ln (h g : nat) (c : pcache) (x : num) (p : Z) (rm : rmode) : prun num :=
  match ln_num h g (fst c) x p rm with None => None | Some (l, r) => Some ((l, snd c), r) end.
Definition p_exp (h g : nat) (c : pcache) (x : num) (p : Z) (rm : rmode) : prun num :=
  match n_exp h g (snd c) x p rm with None => None | Some (e, r) => Some ((fst c, e), r) end.

(** The inner matches return early with a zero ([inl]) or go on ([inr]). *)

(** pow.rs 533-546; [ix] is n.inexact(). *)
Definition pow_product (y lnx : num) (ix : bool) (p_ext p : Z) : result (num + num) :=
  match n_mul y lnx p_ext RNone with
  | Ok m => Ok (inr m)
  | Err (ExponentOverflow Neg) => do z <- n_new2 p Pos (ix || ninexact lnx); Ok (inl z)
  | Err e => Err e
  | Panic => Panic
  end.
(** pow.rs 557-575; [ix] is self.inexact(). *)
Definition pow_exp (h g : nat) (c : pcache) (m : num) (ix : bool) (p_ext p : Z) : prun (num + num) :=
  if is_negative m then
    match p_exp h g c (set_sign m Pos) p_ext RNone with
    | None => None
    | Some (c, Ok u) => pure c (do v <- n_div ONE u p_ext RFromZero; Ok (inr v))
    | Some (c, Err (ExponentOverflow s)) => pure c (do z <- n_new2 p s ix; Ok (inl z))
    | Some (c, Err e) => pure c (Err e)
    | Some (c, Panic) => pure c Panic
    end
  else pbind (p_exp h g c m p_ext RNone) (fun c v => pure c (Ok (inr v))).

(** pow.rs 525-585; [x0] is self, [n0] is n. *)
Fixpoint pow_loop (f h g : nat) (c : pcache) (x0 n0 x y : num) (p : Z) (rm : rmode) (p_wrk p_inc : Z) : prun num :=
  match f with
  | O => None
  | S f =>
      let p_ext := p_wrk + 2 in
      pbind (pure c (set_precision x p_ext RNone)) (fun c x =>
      pbind (p_ln h g c x p_ext RNone) (fun c lnx =>
      pbind (pure c (pow_product y lnx (ninexact n0) p_ext p)) (fun c pr =>
      match pr with
      | inl z => pure c (Ok z)
      | inr m =>
          small_exp (ne m) p_ext (pure c (small_value ONE (is_negative m) p rm))
            (pbind (pow_exp h g c m (ninexact x0) p_ext p) (fun c er =>
             match er with
             | inl z => pure c (Ok z)
             | inr ret =>
                 match try_set_precision ret p rm p_wrk with
                 | Err e => pure c (Err e)
                 | Panic => pure c Panic
                 | Ok (ret, true) => pure c (Ok (set_inexact ret (ninexact ret || ninexact x0 || ninexact n0)))
                 | Ok (_, false) => pow_loop f h g c x0 n0 x y p rm (p_wrk + p_inc) (round_p ((p_wrk + p_inc) / 5))
                 end
             end))
      end)))
  end.

(** pow.rs 453-504: the cases that need no evaluation; their values are those of [n_pow]
    (Pow.v). *)
Definition pow_special (x n : num) : bool :=
  is_zero n || is_zero x || ((ne x =? 1) && (n_abs_cmp x ONE =? 0)) || (is_negative x && negb (n_is_int n)) || ((ne n =? 1) && (n_abs_cmp n ONE =? 0)).

(** pow.rs 446-601. *)
Definition f_pow (f h g : nat) (c : pcache) (x n : num) (p : Z) (rm : rmode) : prun num :=
  if pow_special x n then pure c (n_pow (fun _ _ _ _ => Panic) x n p rm)
  else
    let p := round_p p in
    let ret_sign := if n_is_int n && n_is_odd_int n then ns x else Pos in
    let effective_rm :=
      if is_pos ret_sign then rm else match rm with RUp => RDown | RDown => RUp | v => v end in
    match pow_loop f h g c x n (set_inexact (set_sign x Pos) false) (set_inexact n false) p effective_rm (Z.max p (Z.max (mantissa_max_bit_len x) (mantissa_max_bit_len n)) + 64) 64 with
    | None => None
    | Some (c, Ok v) => pure c (Ok (set_sign v ret_sign))
    | Some (c, Err (ExponentOverflow _)) => pure c (Err (ExponentOverflow ret_sign))
    | Some (c, Err e) => pure c (Err e)
    | Some (c, Panic) => pure c Panic
    end.
