(** Model of ext.rs: BigFloat, i.e. finite numbers, infinities and NaN.
    [result] is used for the panic outcome only: no function here returns [Err]
    except set_precision, which is a Rust [Result] itself. *)

From Coq Require Import ZArith List Bool.
From Verif Require Import Words Mantissa Num.
Import ListNotations.
Open Scope Z_scope.

(** ext.rs 47-57: BigFloat and Flavor. *)
Inductive ext :=
| Value (v : num)
| NaN (e : option error)
| Inf (s : sign).

(** ext.rs 23-35. *)
Definition NAN : ext := NaN None.
Definition INF_POS : ext := Inf Pos.
Definition INF_NEG : ext := Inf Neg.

(** ext.rs 791-823: result_to_ext. *)
Definition result_to_ext (res : result num) (is_dividend_zero is_same_sign : bool) : result ext :=
  match res with
  | Err (ExponentOverflow s) => Ok (if is_pos s then INF_POS else INF_NEG)
  | Err DivisionByZero =>
      Ok (if is_dividend_zero then NAN else if is_same_sign then INF_POS else INF_NEG)
  | Err MemoryAllocation => Ok (NaN (Some MemoryAllocation))
  | Err InvalidArgument => Ok (NaN (Some InvalidArgument))
  | Ok v => Ok (Value v)
  | Panic => Panic
  end.

(** ext.rs 62-84, 843-930: constructors. *)
Definition x_new (p : Z) : result ext := result_to_ext (n_new p) false true.
Definition x_from_f64 (bits p : Z) : result ext := result_to_ext (from_f64 p bits) false true.
Definition x_from_word (d p : Z) : result ext := result_to_ext (from_word d p) false true.
Definition x_max_value (p : Z) : result ext := result_to_ext (max_value p) false true.
Definition x_min_value (p : Z) : result ext := result_to_ext (min_value p) false true.
Definition x_min_positive (p : Z) : result ext := result_to_ext (min_positive p) false true.
Definition x_min_positive_normal (p : Z) : result ext := result_to_ext (min_positive_normal p) false true.
Definition x_from_raw_parts (m : words) (n : Z) (s : sign) (e : Z) (i : bool) : result ext :=
  result_to_ext (from_raw_parts m n s e i) false true.
Definition x_from_words (m : words) (s : sign) (e : Z) : result ext := result_to_ext (from_words m s e) false true.
(** ext.rs 1452-1483: impl_int_conv; [sz] is the width of the type in bits. *)
Definition x_from_uint (sz u p : Z) : result ext := result_to_ext (from_uint sz u p) false true.
Definition x_from_int (sz i p : Z) : result ext := result_to_ext (from_int sz i p) false true.
Definition x_from_u128 (u p : Z) : result ext := result_to_ext (from_u128 u p) false true.
Definition x_from_i128 (i p : Z) : result ext := result_to_ext (from_i128 i p) false true.

(** ext.rs 88-124, 508-543: predicates. *)
Definition x_is_inf_pos (a : ext) : bool := match a with Inf Pos => true | _ => false end.
Definition x_is_inf_neg (a : ext) : bool := match a with Inf Neg => true | _ => false end.
Definition x_is_inf (a : ext) : bool := match a with Inf _ => true | _ => false end.
Definition x_is_nan (a : ext) : bool := match a with NaN _ => true | _ => false end.
Definition x_is_int (a : ext) : bool := match a with Value v => n_is_int v | _ => false end.
Definition x_err (a : ext) : option error := match a with NaN (Some e) => Some e | _ => None end.
Definition x_is_positive (a : ext) : bool :=
  match a with Value v => is_positive v | Inf s => is_pos s | NaN _ => false end.
Definition x_is_negative (a : ext) : bool :=
  match a with Value v => is_negative v | Inf s => negb (is_pos s) | NaN _ => false end.
Definition x_is_subnormal (a : ext) : bool := match a with Value v => is_subnormal v | _ => false end.
Definition x_is_zero (a : ext) : bool := match a with Value v => is_zero v | _ => false end.

(** ext.rs 127-172: add, add_full_prec, add_op. *)
Definition x_add_op (a b : ext) (p : Z) (rm : rmode) (full_prec : bool) : result ext :=
  match a with
  | Value v1 =>
      match b with
      | Value v2 =>
          result_to_ext (if full_prec then n_add_full_prec v1 v2 else n_add v1 v2 p rm)
            (is_zero v1) (sign_eqb (ns v1) (ns v2))
      | Inf s2 => Ok (Inf s2)
      | NaN err => Ok (NaN err)
      end
  | Inf s1 =>
      match b with
      | Value _ => Ok (Inf s1)
      | Inf s2 => Ok (if negb (sign_eqb s1 s2) then NAN else Inf s2)
      | NaN err => Ok (NaN err)
      end
  | NaN err => Ok (NaN err)
  end.
Definition x_add (a b : ext) (p : Z) (rm : rmode) : result ext := x_add_op a b p rm false.
Definition x_add_full_prec (a b : ext) : result ext := x_add_op a b 0 RNone true.

(** ext.rs 173-222: sub, sub_full_prec, sub_op. *)
Definition x_sub_op (a b : ext) (p : Z) (rm : rmode) (full_prec : bool) : result ext :=
  match a with
  | Value v1 =>
      match b with
      | Value v2 =>
          result_to_ext (if full_prec then n_sub_full_prec v1 v2 else n_sub v1 v2 p rm)
            (is_zero v1) (sign_eqb (ns v1) (ns v2))
      | Inf s2 => Ok (if is_pos s2 then INF_NEG else INF_POS)
      | NaN err => Ok (NaN err)
      end
  | Inf s1 =>
      match b with
      | Value _ => Ok (Inf s1)
      | Inf s2 => Ok (if sign_eqb s1 s2 then NAN else Inf s1)
      | NaN err => Ok (NaN err)
      end
  | NaN err => Ok (NaN err)
  end.
Definition x_sub (a b : ext) (p : Z) (rm : rmode) : result ext := x_sub_op a b p rm false.
Definition x_sub_full_prec (a b : ext) : result ext := x_sub_op a b 0 RNone true.

(** ext.rs 223-284: mul, mul_full_prec, mul_op. *)
Definition x_mul_op (a b : ext) (p : Z) (rm : rmode) (full_prec : bool) : result ext :=
  match a with
  | Value v1 =>
      match b with
      | Value v2 =>
          result_to_ext (if full_prec then n_mul_full_prec v1 v2 else n_mul v1 v2 p rm)
            (is_zero v1) (sign_eqb (ns v1) (ns v2))
      | Inf s2 => Ok (if is_zero v1 then NAN else Inf (if sign_eqb (ns v1) s2 then Pos else Neg))
      | NaN err => Ok (NaN err)
      end
  | Inf s1 =>
      match b with
      | Value v2 => Ok (if is_zero v2 then NAN else Inf (if sign_eqb (ns v2) s1 then Pos else Neg))
      | Inf s2 => Ok (Inf (if sign_eqb s1 s2 then Pos else Neg))
      | NaN err => Ok (NaN err)
      end
  | NaN err => Ok (NaN err)
  end.
Definition x_mul (a b : ext) (p : Z) (rm : rmode) : result ext := x_mul_op a b p rm false.
Definition x_mul_full_prec (a b : ext) : result ext := x_mul_op a b 0 RNone true.

(** ext.rs 286-308: div. *)
Definition x_div (a b : ext) (p : Z) (rm : rmode) : result ext :=
  match a with
  | Value v1 =>
      match b with
      | Value v2 => result_to_ext (n_div v1 v2 p rm) (is_zero v1) (sign_eqb (ns v1) (ns v2))
      | Inf _ => x_new (mantissa_max_bit_len v1)
      | NaN err => Ok (NaN err)
      end
  | Inf s1 =>
      match b with
      | Value v => Ok (if sign_eqb s1 (ns v) then INF_POS else INF_NEG)
      | Inf _ => Ok NAN
      | NaN err => Ok (NaN err)
      end
  | NaN err => Ok (NaN err)
  end.

(** ext.rs 311-324: rem. *)
Definition x_rem (a b : ext) : result ext :=
  match a with
  | Value v1 =>
      match b with
      | Value v2 => result_to_ext (n_rem v1 v2) (is_zero v1) (sign_eqb (ns v1) (ns v2))
      | Inf _ => Ok a
      | NaN err => Ok (NaN err)
      end
  | Inf _ => Ok NAN
  | NaN err => Ok (NaN err)
  end.

(** ext.rs 328-349: cmp. *)
Definition x_cmp (a b : ext) : option Z :=
  match a with
  | Value v1 =>
      match b with
      | Value v2 => Some (n_cmp v1 v2)
      | Inf s2 => Some (if is_pos s2 then -1 else 1)
      | NaN _ => None
      end
  | Inf s1 =>
      match b with
      | Value _ => Some (sign_int s1)
      | Inf s2 => Some (sign_int s1 - sign_int s2)
      | NaN _ => None
      end
  | NaN _ => None
  end.

(** ext.rs 352-366: abs_cmp; the finite case calls cmp, not abs_cmp. *)
Definition x_abs_cmp (a b : ext) : option Z :=
  match a with
  | Value v1 =>
      match b with
      | Value v2 => Some (n_cmp v1 v2)
      | Inf _ => Some (-1)
      | NaN _ => None
      end
  | Inf _ =>
      match b with
      | Value _ => Some 1
      | Inf _ => Some 0
      | NaN _ => None
      end
  | NaN _ => None
  end.

(** ext.rs 369-375, 880-884, 1012-1018, 1501-1516: inv_sign, neg, set_sign. *)
Definition x_inv_sign (a : ext) : ext :=
  match a with Value v => Value (n_neg v) | Inf s => Inf (sign_invert s) | NaN e => NaN e end.
Definition x_neg (a : ext) : ext := x_inv_sign a.
Definition x_set_sign (a : ext) (s : sign) : ext :=
  match a with Value v => Value (set_sign v s) | Inf _ => Inf s | NaN e => NaN e end.

(** ext.rs 1154-1168: clone. *)
Definition x_clone (a : ext) : result ext :=
  match a with
  | Value v => result_to_ext (Ok v) false true
  | Inf s => Ok (if is_pos s then INF_POS else INF_NEG)
  | NaN err => Ok (NaN err)
  end.

(** [Option::unwrap] on the comparison result. *)
Definition unwrap {A} (o : option A) : result A := match o with Some v => Ok v | None => Panic end.

(** ext.rs 546-560: clamp. *)
Definition x_clamp (a lo hi : ext) : result ext :=
  if x_is_nan a || x_is_nan lo || x_is_nan hi then Ok NAN
  else
    do c <- unwrap (x_cmp hi lo);
    if c <? 0 then Ok NAN
    else
      do c1 <- unwrap (x_cmp a lo);
      if c1 <? 0 then x_clone lo
      else
        do c2 <- unwrap (x_cmp a hi);
        if 0 <? c2 then x_clone hi else x_clone a.

(** ext.rs 563-586: max, min. *)
Definition x_max (a b : ext) : result ext :=
  if x_is_nan a || x_is_nan b then Ok NAN
  else do c <- unwrap (x_cmp a b); if c <? 0 then x_clone b else x_clone a.
Definition x_min (a b : ext) : result ext :=
  if x_is_nan a || x_is_nan b then Ok NAN
  else do c <- unwrap (x_cmp a b); if 0 <? c then x_clone b else x_clone a.

(** defs.rs 67. *)
Definition DEFAULT_P : Z := 128.

(** ext.rs 589-599: signum. *)
Definition x_signum (a : ext) : result ext :=
  if x_is_nan a then Ok NAN
  else if x_is_negative a then do r <- x_from_uint 8 1 DEFAULT_P; Ok (x_inv_sign r)
  else x_from_uint 8 1 DEFAULT_P.

(** ext.rs 737-751: classify. *)
Inductive category := CNan | CInfinite | CZero | CSubnormal | CNormal.
Definition x_classify (a : ext) : category :=
  match a with
  | Value v => if is_subnormal v then CSubnormal else if is_zero v then CZero else CNormal
  | Inf _ => CInfinite
  | NaN _ => CNan
  end.

(** ext.rs 999-1009: reciprocal. *)
Definition x_reciprocal (a : ext) (p : Z) (rm : rmode) : result ext :=
  match a with
  | Value v => result_to_ext (n_reciprocal v p rm) false (is_positive v)
  | Inf s => do r <- x_new p; Ok (x_set_sign r s)
  | NaN err => Ok (NaN err)
  end.

(** ext.rs 1170-1198, 1234-1293: the generated wrappers abs, int, fract, ceil, floor, round, sqrt, cbrt. *)
Definition x_wrap (f : num -> result num) (pos_inf neg_inf : ext) (a : ext) : result ext :=
  match a with
  | Value v => result_to_ext (f v) (is_zero v) true
  | Inf s => Ok (if is_pos s then pos_inf else neg_inf)
  | NaN err => Ok (NaN err)
  end.
Definition x_abs : ext -> result ext := x_wrap (fun v => Ok (n_abs v)) INF_POS INF_POS.
Definition x_int : ext -> result ext := x_wrap (fun v => Ok (n_int v)) NAN NAN.
Definition x_fract : ext -> result ext := x_wrap (fun v => Ok (n_fract v)) NAN NAN.
Definition x_ceil : ext -> result ext := x_wrap n_ceil INF_POS INF_NEG.
Definition x_floor : ext -> result ext := x_wrap n_floor INF_POS INF_NEG.
Definition x_round (n : Z) (rm : rmode) : ext -> result ext := x_wrap (fun v => n_round v n rm) INF_POS INF_NEG.
Definition x_sqrt (p : Z) (rm : rmode) : ext -> result ext := x_wrap (fun v => n_sqrt v p rm) INF_POS NAN.
Definition x_cbrt (p : Z) (rm : rmode) : ext -> result ext := x_wrap (fun v => n_cbrt v p rm) INF_POS INF_NEG.

(** ext.rs 824-839, 933-939, 965-977, 1121-1136:
    exponent, precision, mantissa_max_bit_len, sign, set_exponent, inexact, set_inexact. *)
Definition x_exponent (a : ext) : option Z := match a with Value v => Some (ne v) | _ => None end.
Definition x_precision (a : ext) : option Z := match a with Value v => Some (precision v) | _ => None end.
Definition x_max_bit_len (a : ext) : option Z := match a with Value v => Some (mantissa_max_bit_len v) | _ => None end.
Definition x_sign (a : ext) : option sign := match a with Value v => Some (ns v) | Inf s => Some s | NaN _ => None end.
Definition x_set_exponent (a : ext) (e : Z) : ext := match a with Value v => Value (set_exponent v e) | _ => a end.
Definition x_inexact (a : ext) : bool := match a with Value v => ninexact v | _ => false end.
Definition x_set_inexact (a : ext) (i : bool) : ext := match a with Value v => Value (set_inexact v i) | _ => a end.

(** ext.rs 987-993: set_precision; on [Err] the operand is left in an unspecified state, not modelled. *)
Definition x_set_precision (a : ext) (p : Z) (rm : rmode) : result ext :=
  match a with Value v => do r <- set_precision v p rm; Ok (Value r) | _ => Ok a end.

(** ext.rs 1656-1668: FromExt<T> for values convertible to BigFloat. *)
Definition x_from_ext (a : ext) (p : Z) (rm : rmode) : result ext :=
  match x_set_precision a p rm with
  | Ok r => Ok r
  | Err e => Ok (NaN (Some e))
  | Panic => Panic
  end.

(** ext.rs 1522-1572: PartialEq, PartialOrd. *)
Definition x_eq (a b : ext) : bool := match x_cmp a b with Some 0 => true | _ => false end.
Definition x_partial_cmp (a b : ext) : option comparison :=
  match x_cmp a b with
  | Some v => Some (if 0 <? v then Gt else if v <? 0 then Lt else Eq)
  | None => None
  end.
