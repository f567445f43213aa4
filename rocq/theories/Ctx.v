(** Model of ctx.rs (Context, Contextable) and macro_util.rs (exponent range
    check, error estimate near one).  The constant cache is kept abstract (type
    parameter [C]): only its identity matters here. *)

From Coq Require Import ZArith List Bool.
From Verif Require Import Words IntModel Mantissa Num Ext.
Import ListNotations.
Open Scope Z_scope.

(** core::cmp::Ord::clamp on Exponent (i32); its assertion lo <= hi holds for both uses. *)
Definition clamp (v lo hi : Z) : Z := if v <? lo then lo else if hi <? v then hi else v.

(** ctx.rs 13-19: Context. *)
Record context (C : Type) := mk_ctx { c_cc : C; c_p : Z; c_rm : rmode; c_emin : Z; c_emax : Z }.
Arguments mk_ctx {C}. Arguments c_cc {C}. Arguments c_p {C}. Arguments c_rm {C}. Arguments c_emin {C}. Arguments c_emax {C}.

Section Ctx.
Context {C : Type}.

(** ctx.rs 25-33: new. *)
Definition c_new (p : Z) (rm : rmode) (cc : C) (emin emax : Z) : context C :=
  mk_ctx cc p rm (clamp emin EXPONENT_MIN 0) (clamp emax 0 EXPONENT_MAX).
(** ctx.rs 37-46: to_raw_parts. *)
Definition c_to_raw_parts (c : context C) : Z * rmode * C * Z * Z := (c_p c, c_rm c, c_cc c, c_emin c, c_emax c).
(** ctx.rs 49-51, 54-56, 59-61, 65-67, 71-73: the setters. *)
Definition c_set_precision (c : context C) (p : Z) := mk_ctx (c_cc c) p (c_rm c) (c_emin c) (c_emax c).
Definition c_set_rounding_mode (c : context C) (rm : rmode) := mk_ctx (c_cc c) (c_p c) rm (c_emin c) (c_emax c).
Definition c_set_consts (c : context C) (cc : C) := mk_ctx cc (c_p c) (c_rm c) (c_emin c) (c_emax c).
Definition c_set_emin (c : context C) (e : Z) := mk_ctx (c_cc c) (c_p c) (c_rm c) (clamp e EXPONENT_MIN 0) (c_emax c).
Definition c_set_emax (c : context C) (e : Z) := mk_ctx (c_cc c) (c_p c) (c_rm c) (c_emin c) (clamp e 0 EXPONENT_MAX).
(** ctx.rs 126-135: clone; the clone gets a fresh constant cache [fresh] or the
    error of its allocation. *)
Definition c_clone (c : context C) (fresh : result C) : result (context C) :=
  do cc <- fresh; Ok (mk_ctx cc (c_p c) (c_rm c) (c_emin c) (c_emax c)).
End Ctx.

(** ctx.rs 227-233 and 270-276: the exponent range of the tuple contexts. *)
Definition t3_emin : Z := EXPONENT_MIN.
Definition t3_emax : Z := EXPONENT_MAX.
Definition t5_emin (e : Z) : Z := clamp e EXPONENT_MIN 0.
Definition t5_emax (e : Z) : Z := clamp e 0 EXPONENT_MAX.

(** macro_util.rs 221-237: check_exponent_range. *)
Definition check_exponent_range (a : ext) (emin emax : Z) : result ext :=
  match x_exponent a with
  | Some e =>
      if emax <? e then Ok (if x_is_positive a then INF_POS else INF_NEG)
      else if e <? emin then x_new (match x_max_bit_len a with Some b => b | None => DEFAULT_P end)
      else Ok a
  | None => Ok a
  end.

(** macro_util.rs 10-25: compute_added_err_near_one. *)
Definition compute_added_err_near_one (a : ext) (emin : Z) : Z :=
  if x_is_zero a then 0
  else
    let digits := match a with Value v => mm (nm v) | _ => [] end in
    let n := match x_exponent a with
             | Some e => if e =? 1 then count_leading_zeroes_skip_first digits
                         else if e =? 0 then count_leading_ones digits else 0
             | None => 0 end in
    if Z.abs emin <? n then 0 else n.
