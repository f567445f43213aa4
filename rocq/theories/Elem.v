(** Model of the elementary functions (ops/*.rs) up to their retry loops: zero,
    domain errors, values that need no evaluation, and the shortcut for arguments
    with a small exponent.  [rest] stands for the part of each function after these
    tests.  Also ext.rs: the wrappers of these functions.  No proofs in this file. *)

From Coq Require Import ZArith List Bool.
From Verif Require Import Words Mantissa Num Ext.
Import ListNotations.
Open Scope Z_scope.

(** ops/util.rs 54-67: compute_small_exp!, the branch taken. *)
Definition small_value (arg : num) (inv : bool) (p : Z) (rm : rmode) : result num :=
  do x <- (if mantissa_max_bit_len arg <? p then set_precision arg p RNone else Ok arg);
  do r <- add_correction x inv;
  set_precision r p rm.
(** The test and the code after the macro. *)
Definition small_exp {A} (e p_wrk : Z) (small rest : A) : A := if p_wrk + 1 <? - e then small else rest.

(** ops/pow.rs 96-114: exp.  [A] is [option (result num)] or the like: [ok] embeds
    results. *)
Definition exp_top {A} (ok : result num -> A) (rest : A) (x : num) (p : Z) (rm : rmode) : A :=
  let p := round_p p in
  if is_zero x then ok (do r <- from_word 1 p; Ok (set_inexact r (ninexact x)))
  else
    let p_wrk := Z.max p (mantissa_max_bit_len x) in
    small_exp (ne x) p_wrk (ok (small_value ONE (is_negative x) p rm)) rest.

Section In.
Context {A : Type} (ok : result num -> A) (rest : num -> Z -> rmode -> A).

(** ops/sin.rs 110-120, ops/tan.rs 73-83, ops/atan.rs 90-100, ops/sinh.rs 21-31 and
    ops/asinh.rs 25-33: the functions that are odd with value x at zero.  [d] and
    [inv] are the arguments of the macro: 2, true for sin; 1, false for tan; 1, true
    for atan; 2, false for sinh; 2, true for asinh. *)
Definition odd_in (d : Z) (inv : bool) (x : num) (p : Z) (rm : rmode) : A :=
  let p := round_p p in
  if is_zero x then ok (n_new2 p (ns x) (ninexact x))
  else
    let p_wrk := Z.max p (mantissa_max_bit_len x) in
    small_exp (ne x * 2 - d) p_wrk (ok (small_value x inv p rm)) (rest x p rm).

(** ops/cos.rs 110-122 ([inv] is true) and ops/cosh.rs 22-34 (false). *)
Definition even_in (inv : bool) (x : num) (p : Z) (rm : rmode) : A :=
  let p := round_p p in
  if is_zero x then ok (do r <- from_word 1 p; Ok (set_inexact r (ninexact x)))
  else
    let p_wrk := Z.max p (mantissa_max_bit_len x) in
    small_exp (ne x * 2 - 1) p_wrk (ok (small_value ONE inv p rm)) (rest x p rm).

(** ops/tanh.rs 24-42. *)
Definition tanh_in (x : num) (p : Z) (rm : rmode) : A :=
  let p := round_p p in
  if is_zero x then ok (n_new2 p (ns x) (ninexact x))
  else if ne x =? EXPONENT_MAX then
    ok (do r <- from_int 8 (sign_int (ns x)) p;
        do r <- add_correction r true;
        set_precision r p rm)
  else
    let p_wrk := Z.max p (mantissa_max_bit_len x) in
    small_exp (ne x * 2 - 1) p_wrk (ok (small_value x true p rm)) (rest x p rm).
End In.

Section Rest.
Variable rest : num -> Z -> rmode -> result num.

Definition odd_top := odd_in (fun r => r) rest.
Definition n_sin := odd_top 2 true.
Definition n_tan := odd_top 1 false.
Definition n_atan := odd_top 1 true.
Definition n_sinh := odd_top 2 false.
Definition n_asinh := odd_top 2 true.
Definition even_top := even_in (fun r => r) rest.
Definition n_cos := even_top true.
Definition n_cosh := even_top false.
Definition n_tanh := tanh_in (fun r => r) rest.

(** ops/asin.rs 23-49; [pi] is cc.pi_num. *)
Definition n_asin (pi : Z -> rmode -> result num) (x : num) (p : Z) (rm : rmode) : result num :=
  let p := round_p p in
  if is_zero x then n_new2 p (ns x) (ninexact x)
  else
    let onecmp := n_abs_cmp x ONE in
    if 0 <? onecmp then Err InvalidArgument
    else if onecmp =? 0 then
      do v <- pi p (if is_negative x then invert_rm_for_sign rm else rm);
      Ok (set_sign (set_exponent v (ne v - 1)) (ns x))
    else
      let p_wrk := Z.max p (mantissa_max_bit_len x) in
      small_exp (ne x * 2 - 2) p_wrk (small_value x false p rm) (rest x p rm).

(** ops/acos.rs 24-32. *)
Definition n_acos (x : num) (p : Z) (rm : rmode) : result num :=
  let p := round_p p in
  let cmpone := n_abs_cmp x ONE in
  if (cmpone =? 0) && is_positive x then n_new2 p Pos (ninexact x)
  else if 0 <? cmpone then Err InvalidArgument
  else rest x p rm.

(** ops/acosh.rs 24-32. *)
Definition n_acosh (x : num) (p : Z) (rm : rmode) : result num :=
  let p := round_p p in
  let cmpone := n_cmp x ONE in
  if cmpone =? 0 then n_new2 p Pos (ninexact x)
  else if cmpone <? 0 then Err InvalidArgument
  else rest x p rm.

(** ops/atanh.rs 23-45. *)
Definition n_atanh (x : num) (p : Z) (rm : rmode) : result num :=
  let p := round_p p in
  if is_zero x then set_precision x p RNone
  else if ne x =? 1 then
    if n_abs_cmp x ONE =? 0 then Err (ExponentOverflow (ns x)) else Err InvalidArgument
  else if 1 <? ne x then Err InvalidArgument
  else
    let p_wrk := Z.max p (mantissa_max_bit_len x) in
    small_exp (ne x * 2 - 1) p_wrk (small_value x false p rm) (rest x p rm).

(** ops/log.rs 102-127: ln.  normalize2 (num.rs 571-573) moves the top bit of the
    mantissa to the end of its words; the exponent is then set to 0. *)
Definition n_ln (x : num) (p : Z) (rm : rmode) : result num :=
  let p := round_p p in
  if is_zero x || is_negative x then Err InvalidArgument
  else
    let '(shift, m) := m_normilize2 (nm x) in
    let e := ne x - shift in
    let add := if e =? 0 then count_leading_ones (mm m)
               else if e =? 1 then count_leading_zeroes_skip_first (mm m) else 0 in
    if (e =? 1) && (add =? max_bit_len m) then n_new2 p Pos (ninexact x)
    else rest x p rm.

(** ops/log.rs 222-249: log2. *)
Definition n_log2 (x : num) (p : Z) (rm : rmode) : result num :=
  let p := round_p p in
  if is_zero x || is_negative x then Err InvalidArgument
  else
    let '(shift, m) := m_normilize2 (nm x) in
    let e := ne x - shift in
    if count_leading_zeroes_skip_first (mm m) =? max_bit_len m then
      let ret := from_usize (Z.abs (e - 1)) in
      let ret := if e <? 1 then set_sign ret Neg else ret in
      do ret <- set_precision ret p rm;
      Ok (set_inexact ret (ninexact x))
    else rest x p rm.

End Rest.

(** ops/log.rs 353-366: log; [rest] is the loop. *)
Definition n_log (rest : num -> num -> Z -> rmode -> result num) (x n : num) (p : Z) (rm : rmode) : result num :=
  let p := round_p p in
  if is_zero x || is_negative x || is_zero n || is_negative n then Err InvalidArgument
  else rest x n p rm.

(** ** ext.rs *)

(** ext.rs 1200-1214, 1327-1450: gen_wrapper_arg_rm_cc, the same text as [x_wrap] but
    for the value at the infinities, which may be computed. *)
Definition x_wrap_r (f : num -> result num) (pos_inf neg_inf : result ext) (a : ext) : result ext :=
  match a with
  | Value v => result_to_ext (f v) (is_zero v) true
  | Inf s => if is_pos s then pos_inf else neg_inf
  | NaN err => Ok (NaN err)
  end.
(** ext.rs 1216-1232, 1294-1326: gen_wrapper_log (ln, log2, log10). *)
Definition x_wrap_log (f : num -> result num) (a : ext) : result ext :=
  match a with
  | Value v => if is_zero v then Ok INF_NEG else result_to_ext (f v) (is_zero v) true
  | Inf s => Ok (if is_pos s then INF_POS else NAN)
  | NaN err => Ok (NaN err)
  end.

Section ExtRest.
(** The functions on numbers. *)
Variable f : num -> Z -> rmode -> result num.
(** ext.rs 1294-1326. *)
Definition x_ln (a : ext) (p : Z) (rm : rmode) := x_wrap_log (fun v => f v p rm) a.
(** ext.rs 1327-1337. *)
Definition x_exp (a : ext) (p : Z) (rm : rmode) := x_wrap_r (fun v => f v p rm) (Ok INF_POS) (x_new p) a.
(** ext.rs 1339-1393, 1440-1450: sin, cos, tan, asin, acos, atanh. *)
Definition x_sin (a : ext) (p : Z) (rm : rmode) := x_wrap_r (fun v => f v p rm) (Ok NAN) (Ok NAN) a.
(** ext.rs 1395-1405, 1417-1427: sinh, asinh. *)
Definition x_sinh (a : ext) (p : Z) (rm : rmode) := x_wrap_r (fun v => f v p rm) (Ok INF_POS) (Ok INF_NEG) a.
(** ext.rs 1406-1416: cosh. *)
Definition x_cosh (a : ext) (p : Z) (rm : rmode) := x_wrap_r (fun v => f v p rm) (Ok INF_POS) (Ok INF_POS) a.
(** ext.rs 1428-1438: acosh. *)
Definition x_acosh (a : ext) (p : Z) (rm : rmode) := x_wrap_r (fun v => f v p rm) (Ok INF_POS) (Ok NAN) a.
(** ext.rs 769-775: tanh. *)
Definition x_tanh (a : ext) (p : Z) (rm : rmode) := x_wrap_r (fun v => f v p rm) (x_from_int 8 1 p) (x_from_int 8 (-1) p) a.
(** ext.rs 757-763, 777-789: atan and half_pi; [pi] is cc.pi_num. *)
Definition half_pi (pi : Z -> rmode -> result num) (s : sign) (p : Z) (rm : rmode) : result num :=
  do v <- pi p rm; Ok (set_sign (set_exponent v 1) s).
Definition x_atan (pi : Z -> rmode -> result num) (a : ext) (p : Z) (rm : rmode) : result ext :=
  x_wrap_r (fun v => f v p rm) (result_to_ext (half_pi pi Pos p rm) false true) (result_to_ext (half_pi pi Neg p rm) false true) a.
End ExtRest.

(** ext.rs 462-505: log. *)
Definition x_log (f : num -> num -> Z -> rmode -> result num) (a n : ext) (p : Z) (rm : rmode) : result ext :=
  match a with
  | Value v1 =>
      match n with
      | Value v2 => if is_zero v2 then Ok INF_NEG else result_to_ext (f v1 v2 p rm) false true
      | Inf s2 => if is_pos s2 then x_new p else Ok NAN
      | NaN err => Ok (NaN err)
      end
  | Inf s1 =>
      if is_pos s1 then
        match n with
        | Value v2 => Ok (if ne v2 <=? 0 then INF_NEG else INF_POS)
        | Inf _ => Ok NAN
        | NaN err => Ok (NaN err)
        end
      else Ok NAN
  | NaN err => Ok (NaN err)
  end.
