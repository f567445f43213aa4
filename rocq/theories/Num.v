(** Model of num.rs (BigFloatNumber), ops/sqrt.rs and ops/cbrt.rs.
    No proofs in this file. *)

From Coq Require Import ZArith List Bool.
From Verif Require Import Words IntModel MulModel DivModel RootModel Mantissa.
Import ListNotations.
Open Scope Z_scope.

(** num.rs 18-25. *)
Record num := mk_num { nm : mantissa; ns : sign; ne : Z; ninexact : bool }.

(** num.rs 29-35: isize::MAX / 2 + EXPONENT_MIN. *)
Notation P_LIM := 4611686016279904255.
Definition p_assertion (p : Z) : result unit :=
  if P_LIM <=? p then Err InvalidArgument else Ok tt.

(** num.rs 888-891, 1043-1046, 1213-1222, 760-763 etc.: accessors. *)
Definition is_subnormal (x : num) : bool := m_is_subnormal (nm x).
Definition is_zero (x : num) : bool := m_is_zero (nm x).
Definition is_positive (x : num) : bool := is_pos (ns x).
Definition is_negative (x : num) : bool := negb (is_pos (ns x)).
Definition mantissa_max_bit_len (x : num) : Z := max_bit_len (nm x).
Definition precision (x : num) : Z := mn (nm x).

Definition set_sign (x : num) (s : sign) : num := mk_num (nm x) s (ne x) (ninexact x).
Definition set_inexact (x : num) (b : bool) : num := mk_num (nm x) (ns x) (ne x) b.

(** num.rs 43-51, 60-68. *)
Definition n_new (p : Z) : result num :=
  do _ <- p_assertion p; Ok (mk_num (m_new p) Pos 0 false).
Definition n_new2 (p : Z) (s : sign) (inexact : bool) : result num :=
  do _ <- p_assertion p; Ok (mk_num (m_new p) s 0 inexact).

(** num.rs 78-140. *)
Definition max_value (p : Z) : result num :=
  do _ <- p_assertion p; Ok (mk_num (m_oned p) Pos EXPONENT_MAX false).
Definition min_value (p : Z) : result num :=
  do _ <- p_assertion p; Ok (mk_num (m_oned p) Neg EXPONENT_MAX false).
Definition min_positive (p : Z) : result num :=
  do _ <- p_assertion p; do m <- m_min p; Ok (mk_num m Pos EXPONENT_MIN false).
Definition min_positive_normal (p : Z) : result num :=
  do _ <- p_assertion p; do m <- m_from_word p WORD_SIG; Ok (mk_num m Pos EXPONENT_MIN false).

(** num.rs 148-166: from_word. *)
Definition from_word (d p : Z) : result num :=
  do _ <- p_assertion p;
  if d =? 0 then n_new p
  else
    let shift := clz d in
    do m <- m_from_word p (wshl d shift);
    Ok (mk_num m Pos (64 - shift) false).

(** common/consts.rs 14: ONE = from_word(1, DEFAULT_P). *)
Definition ONE : num := mk_num (mk_m [0; WORD_SIG] 128) Pos 1 false.

(** num.rs 216-220, 799-803, 1315-1322. *)
Definition n_neg (x : num) : num := set_sign x (sign_invert (ns x)).
Definition n_abs (x : num) : num := set_sign x Pos.

(** num.rs 550-568: normalize. Returns (exponent, normalized mantissa). *)
Definition normalize (x : num) : result (Z * mantissa) :=
  if is_subnormal x then
    let '(shift, m) := m_normilize (nm x) in
    if ne x - shift <=? -4611686018427387904 then Err (ExponentOverflow (ns x))
    else Ok (ne x - shift, m)
  else Ok (ne x, nm x).

(** num.rs 699-749: subnormalize. *)
Definition subnormalize (x : num) (e : Z) (rm : rmode) : num :=
  if is_zero x then x
  else
    let is_positive := is_positive x in
    if EXPONENT_MIN <? max_bit_len (nm x) + e then
      let shift := EXPONENT_MIN - e in
      let r := round_mantissa (mm (nm x)) shift rm is_positive false (max_bit_len (nm x)) (ninexact x) in
      let shift := if ro_ovf r then shift - 1 else shift in
      let m := mk_m (ro_m r) (mn (nm x)) in
      let m := if 0 <? shift then m_update_bit_len (m_shift_right m shift) else m in
      mk_num m (ns x) (ne x) (ninexact x || ro_inexact r)
    else if rounds_away rm is_positive then
      mk_num (mk_m (zupd 0 1 (zeros (mlen (nm x)))) 1) (ns x) (ne x) true
    else mk_num (m_set_zero (nm x)) (ns x) 0 true.

(** The common end of add_sub, mul, div (e.g. num.rs 339-362): exponent checks. *)
Definition finish_num (m : mantissa) (s : sign) (e : Z) (inexact : bool) (rm : rmode) : result num :=
  if EXPONENT_MAX <? e then Err (ExponentOverflow s)
  else if e <? EXPONENT_MIN then Ok (subnormalize (mk_num m s EXPONENT_MIN inexact) e rm)
  else Ok (mk_num m s e inexact).

(** num.rs 1359-1368, 1371-1378, 1380-1432: precision.  Returns (number, flag). *)
Definition set_precision_internal (x : num) (p : Z) (rm : rmode) (chk : bool) (s : Z)
  : result (num * bool) :=
  do _ <- p_assertion p;
  let done x := Ok (mk_num (m_set_length (nm x) p) (ns x) (ne x) (ninexact x), true) in
  if (p <? mantissa_max_bit_len x) && (0 <? p) then
    let r := round_mantissa (mm (nm x)) (mantissa_max_bit_len x - p) rm (is_positive x) chk s (ninexact x) in
    let inexact := ninexact x || ro_inexact r in
    let m := mk_m (ro_m r) (mn (nm x)) in
    let x1 := mk_num m (ns x) (ne x) inexact in
    if ro_chk r && inexact then Ok (x1, false)
    else if ro_ovf r then
      if ne x =? EXPONENT_MAX then Err (ExponentOverflow (ns x))
      else done (mk_num m (ns x) (ne x + 1) inexact)
    else if m_is_all_zero m then done (mk_num (mk_m (mm m) 0) (ns x) 0 inexact)
    else if m_is_subnormal m then done (mk_num (m_update_bit_len m) (ns x) (ne x) inexact)
    else done x1
  else if p =? 0 then
    if is_zero x then if chk && ninexact x then Ok (x, false) else done x
    else done (set_inexact x true)
  else done x.

Definition set_precision (x : num) (p : Z) (rm : rmode) : result num :=
  do (y, _) <- set_precision_internal x p rm false (mantissa_max_bit_len x); Ok y.

Definition try_set_precision (x : num) (p : Z) (rm : rmode) (s : Z) : result (num * bool) :=
  set_precision_internal x p rm (ninexact x) s.

(** num.rs 765-797: abs_cmp. *)
Definition n_abs_cmp (x y : num) : Z :=
  if is_zero x then if is_zero y then 0 else -1
  else
    let n1 := mantissa_max_bit_len x - precision x in
    let n2 := mantissa_max_bit_len y - precision y in
    let e := ne x - n1 - ne y + n2 in
    if 0 <? e then 1
    else if e <? 0 then -1
    else m_abs_cmp (nm x) (nm y) (n1 =? n2).

(** num.rs 751-761: cmp. *)
Definition n_cmp (x y : num) : Z :=
  if is_zero x && is_zero y then 0
  else if negb (sign_eqb (ns x) (ns y)) then sign_int (ns x)
  else n_abs_cmp x y * sign_int (ns x).

(** A conversion [isize as usize]. *)
Definition as_usize (z : Z) : Z := z mod WORD_BASE.

(** num.rs 576-696: add_sub; [op] is 1 or -1. *)
Definition add_sub (x y : num) (p op : Z) (rm : rmode) (full_prec : bool) : result num :=
  let p := round_p p in
  do _ <- p_assertion p;
  if is_zero x then set_precision (if op <? 0 then n_neg y else y) p rm
  else if is_zero y then set_precision x p rm
  else
    do (e1, m1) <- normalize x;
    do (e2, m2) <- normalize y;
    let inexact := ninexact x || ninexact y in
    let same := sign_eqb (ns x) (ns y) in
    if (negb same && (0 <=? op)) || ((op <? 0) && same) then
      let cmp := n_abs_cmp x y in
      if 0 <? cmp then
        let s := ns x in
        let '(shift, m3, inexact) := m_abs_sub m1 m2 p (as_usize (e1 - e2)) rm (is_pos s) full_prec inexact in
        finish_num m3 s (e1 - shift) inexact rm
      else if cmp <? 0 then
        let s := if 0 <=? op then ns y else sign_invert (ns y) in
        let '(shift, m3, inexact) := m_abs_sub m2 m1 p (as_usize (e2 - e1)) rm (is_pos s) full_prec inexact in
        finish_num m3 s (e2 - shift) inexact rm
      else
        do z <- n_new p; Ok (set_inexact z inexact)
    else
      let s := ns x in
      if e2 <=? e1 then
        let '(shift, m3, inexact) := m_abs_add m1 m2 p (as_usize (e1 - e2)) rm (is_pos s) full_prec inexact in
        finish_num m3 s (e1 - shift) inexact rm
      else
        let '(shift, m3, inexact) := m_abs_add m2 m1 p (as_usize (e2 - e1)) rm (is_pos s) full_prec inexact in
        finish_num m3 s (e2 - shift) inexact rm.

(** num.rs 231-297. *)
Definition n_add (x y : num) (p : Z) (rm : rmode) : result num := add_sub x y p 1 rm false.
Definition n_sub (x y : num) (p : Z) (rm : rmode) : result num := add_sub x y p (-1) rm false.
Definition n_add_full_prec (x y : num) : result num := add_sub x y 0 1 RNone true.
Definition n_sub_full_prec (x y : num) : result num := add_sub x y 0 (-1) RNone true.

Definition sign_mul (a b : sign) : sign := if sign_eqb a b then Pos else Neg.

(** num.rs 300-363: mul_general_case. *)
Definition mul_general_case (x y : num) (p : Z) (rm : rmode) (full_prec : bool) : result num :=
  let p := round_p p in
  do _ <- p_assertion p;
  let s := sign_mul (ns x) (ns y) in
  if is_zero x || is_zero y then do z <- n_new p; Ok (set_sign z s)
  else
    do (e1, m1) <- normalize x;
    do (e2, m2) <- normalize y;
    let inexact := ninexact x || ninexact y in
    do (shift, m3, inexact) <- m_mul m1 m2 p rm (is_pos s) full_prec inexact;
    finish_num m3 s (e1 + e2 - shift) inexact rm.

Definition n_mul (x y : num) (p : Z) (rm : rmode) : result num := mul_general_case x y p rm false.
Definition n_mul_full_prec (x y : num) : result num := mul_general_case x y 0 RNone true.

(** num.rs 373-430: div. *)
Definition n_div (x y : num) (p : Z) (rm : rmode) : result num :=
  if is_zero y then if is_zero x then Err InvalidArgument else Err DivisionByZero
  else
    let p := round_p p in
    do _ <- p_assertion p;
    let s := sign_mul (ns x) (ns y) in
    if is_zero x then do z <- n_new p; Ok (set_sign z s)
    else
      do (e1, m1) <- normalize x;
      do (e2, m2) <- normalize y;
      let inexact := ninexact x || ninexact y in
      do (shift, m3, inexact) <- m_div m1 m2 p rm (is_pos s) inexact;
      finish_num m3 s (e1 - e2 + shift) inexact rm.

(** num.rs 1442-1444: reciprocal. *)
Definition n_reciprocal (x : num) (p : Z) (rm : rmode) : result num := n_div ONE x p rm.

(** num.rs 456-497: the closure [finalize] of rem.  [usize::MAX as isize] is -1. *)
Definition rem_finalize (s : sign) (inexact : bool) (m3 : mantissa) (e : Z) : result num :=
  if 0 <? mn m3 then
    if EXPONENT_MAX <? e then Err (ExponentOverflow s)
    else if e <? EXPONENT_MIN then
      if -1 <? EXPONENT_MIN - e then Ok (mk_num (m_set_zero m3) s 0 inexact)
      else
        let excess := max_bit_len m3 - mn m3 in
        let shift := as_usize (EXPONENT_MIN - e) in
        let m3 := if excess <? shift then m_extend_subnormal m3 shift else m3 in
        let excess := max_bit_len m3 - mn m3 in
        let sh := excess - shift in
        let m3 := m_shift_left m3 sh in
        Ok (mk_num (mk_m (mm m3) (mn m3 + sh)) s EXPONENT_MIN inexact)
    else Ok (mk_num (snd (m_normilize2 m3)) s e inexact)
  else Ok (mk_num m3 s 0 inexact).

(** num.rs 437-547: rem. *)
Definition n_rem (x y : num) : result num :=
  if is_zero y then Err InvalidArgument
  else if is_zero x then Ok x
  else
    let e1eff := ne x - max_bit_len (nm x) in
    do (e, m2) <- normalize y;
    let e2eff := e - max_bit_len m2 in
    let finalize := rem_finalize (ns x) (ninexact x || ninexact y) in
    if e2eff <? e1eff then
      let two := mk_m [2] 2 in
      do powm <-
        (if max_bit_len m2 <=? e1eff - e2eff then m_pow_mod two (e1eff - e2eff) m2
         else Ok (m_pow2 two (e1eff - e2eff - 1)));
      do m3 <- m_rem (nm x) m2;
      do m3 <- m_mul_mod m3 powm m2;
      finalize m3 (e2eff + mn m3)
    else if mn (nm x) + ne x <? mn m2 + e then Ok x
    else
      let ediff := e2eff - e1eff in
      let m2l := max_bit_len m2 + ediff in
      let m2 := m_set_length m2 m2l in
      do m3 <-
        (if m2l <? max_bit_len m2 then m_rem (m_pow2 (nm x) (max_bit_len m2 - m2l)) m2
         else m_rem (nm x) m2);
      finalize m3 (e1eff + mn m3 - max_bit_len m2 + m2l).

(** num.rs 936-978: from_raw_parts (x86_64: no exponent range test, e is i32). *)
Definition from_raw_parts (m : words) (n : Z) (s : sign) (e : Z) (inexact : bool) : result num :=
  let p := zlen m * 64 in
  do _ <- p_assertion p;
  if p <? n then Err InvalidArgument
  else
    do m <- m_from_words p m;
    if negb (mn m =? n) then Err InvalidArgument
    else if (0 <? n) && (n <? p) && (EXPONENT_MIN <? e) then Err InvalidArgument
    else Ok (mk_num m s (if n =? 0 then 0 else e) inexact).

(** num.rs 988-1025: from_words. *)
Definition from_words (m : words) (s : sign) (e : Z) : result num :=
  let p := zlen m * 64 in
  do _ <- p_assertion p;
  do m <- m_from_words p m;
  let bl := mn m in
  if m_is_zero m then Ok (mk_num m s 0 false)
  else if bl <? p then
    let shift := p - bl in
    let '(shift, e) :=
      if e <? EXPONENT_MIN + shift then (e - EXPONENT_MIN, EXPONENT_MIN) else (shift, e - shift) in
    Ok (mk_num (mk_m (shift_slice_left (mm m) shift) (bl + shift)) s e false)
  else Ok (mk_num m s e false).

(** num.rs 1083-1109: fract.  [as_usize]: e > 0 there. *)
Definition n_fract (x : num) : num :=
  if 0 <? ne x then
    if ne x <? max_bit_len (nm x) then
      match find_one_from (mm (nm x)) (ne x) with
      | Some shift =>
          let e := ne x - shift in
          if e <? EXPONENT_MIN then
            let shift1 := ne x - EXPONENT_MIN in
            let m := m_mask_bits (m_shift_left (nm x) shift1) (shift - shift1) true in
            mk_num m (ns x) EXPONENT_MIN (ninexact x)
          else mk_num (m_shift_left (nm x) shift) (ns x) e (ninexact x)
      | None => mk_num (m_set_zero (nm x)) (ns x) 0 (ninexact x)
      end
    else mk_num (m_set_zero (nm x)) (ns x) 0 (ninexact x)
  else x.

(** num.rs 1116-1130: int. *)
Definition n_int (x : num) : num :=
  if 0 <? ne x then
    if ne x <? max_bit_len (nm x) then
      mk_num (m_mask_bits (nm x) (max_bit_len (nm x) - ne x) false) (ns x) (ne x) (ninexact x)
    else x
  else mk_num (m_set_zero (nm x)) (ns x) 0 (ninexact x).

(** num.rs 1057-1063, 1070-1076: floor, ceil. *)
Definition n_floor (x : num) : result num :=
  let i := n_int x in
  if is_negative x && negb (is_zero (n_fract x))
  then n_sub i ONE (mantissa_max_bit_len i) RToZero else Ok i.
Definition n_ceil (x : num) : result num :=
  let i := n_int x in
  if is_positive x && negb (is_zero (n_fract x))
  then n_add i ONE (mantissa_max_bit_len i) RToZero else Ok i.

(** num.rs 1133-1143: is_odd_int. *)
Definition n_is_odd_int (x : num) : bool :=
  if 0 <? ne x then if ne x <=? max_bit_len (nm x) then m_is_odd_int (nm x) (ne x) else false
  else is_zero x.

(** num.rs 1146-1156: is_int. *)
Definition n_is_int (x : num) : bool :=
  if 0 <? ne x then
    if ne x <? max_bit_len (nm x) then
      match find_one_from (mm (nm x)) (ne x) with None => true | Some _ => false end
    else true
  else is_zero x.

(** num.rs 1159-1172: int_as_usize. *)
Definition int_as_usize (x : num) : result Z :=
  if 0 <? ne x then
    if ne x <=? 64 then Ok (wshr (m_most_significant_word (nm x)) (64 - ne x))
    else Err InvalidArgument
  else Ok 0.

(** num.rs 1177-1207: set_exponent; [e] is an i32. *)
Definition set_exponent (x : num) (e : Z) : num :=
  if is_zero x then x
  else if is_subnormal x && (EXPONENT_MIN <? e) then
    let ediff := e - EXPONENT_MIN in
    let n := mantissa_max_bit_len x - precision x in
    if ediff <=? n then
      mk_num (mk_m (shift_slice_left (mm (nm x)) ediff) (mn (nm x) + ediff)) (ns x) (ne x) (ninexact x)
    else
      mk_num (mk_m (shift_slice_left (mm (nm x)) n) (max_bit_len (nm x))) (ns x) (e - n) (ninexact x)
  else mk_num (nm x) (ns x) e (ninexact x).

(** num.rs 1226-1288: round. *)
Definition n_round (x : num) (n : Z) (rm : rmode) : result num :=
  if 4611686018427387903 <=? n then Err InvalidArgument
  else
    let e := mantissa_max_bit_len x - ne x in
    if (0 <? e) && (n <? e) && negb (is_zero x) then
      let m := e - n in
      let mbl := mantissa_max_bit_len x in
      if mbl <=? m then
        let msb_set := negb (Z.land (m_most_significant_word (nm x)) WORD_SIG =? 0) in
        if rounds_away rm (is_positive x)
           || ((m =? mbl) &&
               ((msb_set && rmode_eqb rm RToOdd)
                || (rmode_eqb rm RToEven && msb_set
                    && negb (count_leading_zeroes_skip_first (mm (nm x)) =? mbl))))
        then
          let w := zupd (mlen (nm x) - 1) WORD_SIG (zeros (mlen (nm x))) in
          let mant := mk_m w mbl in
          let e := - (n - 1) in
          if e <? EXPONENT_MIN then
            let r := subnormalize (mk_num mant (ns x) EXPONENT_MIN (ninexact x)) e rm in
            Ok (set_inexact r true)
          else Ok (mk_num mant (ns x) e true)
        else Ok (mk_num (m_set_zero (nm x)) (ns x) 0 true)
      else
        let r := round_mantissa (mm (nm x)) m rm (is_positive x) false mbl (ninexact x) in
        let inexact := ninexact x || ro_inexact r in
        let mant := mk_m (ro_m r) (mn (nm x)) in
        if ro_ovf r then
          if ne x =? EXPONENT_MAX then Err (ExponentOverflow (ns x))
          else Ok (mk_num mant (ns x) (ne x + 1) inexact)
        else if m_is_all_zero mant then Ok (mk_num (mk_m (mm mant) 0) (ns x) 0 inexact)
        else if m_is_subnormal mant then Ok (mk_num (m_update_bit_len mant) (ns x) (ne x) inexact)
        else Ok (mk_num mant (ns x) (ne x) inexact)
    else Ok x.

(** num.rs 807-855: from_f64.  [bits] is the IEEE 754 binary64 bit pattern
    ([f.to_bits()]); the comparisons on f64 are decoded from the fields. *)
Definition f64_sign (bits : Z) : bool := negb (Z.shiftr bits 63 =? 0).
Definition f64_exp (bits : Z) : Z := Z.land (Z.shiftr bits 52) 2047.
Definition f64_frac (bits : Z) : Z := Z.land bits 4503599627370495.
Definition from_f64 (p bits : Z) : result num :=
  do _ <- p_assertion p;
  do ret <- n_new 0;
  if (f64_exp bits =? 0) && (f64_frac bits =? 0) then Ok ret
  else if (f64_exp bits =? 2047) && (f64_frac bits =? 0) then
    Err (ExponentOverflow (if f64_sign bits then Neg else Pos))
  else if f64_exp bits =? 2047 then Err InvalidArgument
  else
    let s := if f64_sign bits then Neg else Pos in
    let u := bits mod 9223372036854775808 in
    let mant := wshl u 12 in
    let e := Z.land (wshr u 52) 2047 in
    let '(mant, e) :=
      if negb (e =? 0) then (Z.lor (wshr mant 1) WORD_SIG, e + 1) else (mant, e) in
    do (shift, m) <- m_from_u64 p mant;
    Ok (mk_num m s (e - 1023 - shift) false).

(** num.rs 1457-1468: from_usize. *)
Definition from_usize (u : Z) : num :=
  let '(shift, m) := m_from_usize u in mk_num m Pos (max_bit_len m - shift) false.

(** num.rs 1570-1608: from_u8 .. from_u64 and from_i8 .. from_i64 with width
    [sz]; from_u64_internal is from_word on x86_64. *)
Definition from_uint (sz u p : Z) : result num :=
  if p <? sz then Err InvalidArgument else from_word u p.
Definition from_int (sz i p : Z) : result num :=
  do r <- from_uint sz (Z.abs i) p; Ok (set_sign r (if i <? 0 then Neg else Pos)).

(** num.rs 1517-1520: the loop [while v <= u128::MAX >> 1]: shift count. *)
Fixpoint clz128_loop (fuel : nat) (v : Z) : Z * Z :=
  match fuel with
  | O => (0, v)
  | S f =>
      if v <=? 170141183460469231731687303715884105727 then
        let '(s, v) := clz128_loop f (Z.shiftl v 1 mod 340282366920938463463374607431768211456) in
        (1 + s, v)
      else (0, v)
  end.

(** num.rs 1505-1536: from_u128; 1491-1496: from_i128. *)
Definition from_u128 (v p : Z) : result num :=
  if p <? 128 then Err InvalidArgument
  else
    do _ <- p_assertion p;
    if v =? 0 then n_new p
    else
      let '(shift, v) := clz128_loop 128 v in
      do m <- m_from_words p [v mod WORD_BASE; Z.shiftr v 64 mod WORD_BASE];
      Ok (mk_num m Pos (128 - shift) false).
Definition from_i128 (i p : Z) : result num :=
  do r <- from_u128 (Z.abs i) p; Ok (set_sign r (if i <? 0 then Neg else Pos)).

(** num.rs 1539-1545: add_correction. *)
Definition add_correction (x : num) (inv_corr_sign : bool) : result num :=
  let p := mantissa_max_bit_len x + 1 in
  do corr <- min_positive p;
  let corr := set_exponent corr (ne x) in
  let corr := set_sign corr (if inv_corr_sign then sign_invert (ns x) else ns x) in
  n_add x corr p RNone.

(** num.rs 1548-1555: div_by_2. *)
Definition div_by_2 (x : num) (rm : rmode) : num :=
  if ne x =? EXPONENT_MIN then subnormalize x (ne x - 1) rm else set_exponent x (ne x - 1).

(** ops/sqrt.rs 20-56: sqrt.  The exponent cannot exceed the maximum. *)
Definition n_sqrt (x : num) (p : Z) (rm : rmode) : result num :=
  let p := round_p p in
  do _ <- p_assertion p;
  if is_zero x then n_new2 p (ns x) (ninexact x)
  else if is_negative x then Err InvalidArgument
  else
    do (e1, m1) <- normalize x;
    do (e_shift, m3, inexact) <- m_sqrt m1 p rm true (ninexact x) (Z.land e1 1 =? 1);
    let e := (e1 + Z.land e1 1) / 2 + e_shift in
    if e <? EXPONENT_MIN then Ok (subnormalize (mk_num m3 Pos EXPONENT_MIN inexact) e rm)
    else Ok (mk_num m3 Pos e inexact).

(** ops/cbrt.rs 18-62: cbrt. *)
Definition n_cbrt (x : num) (p : Z) (rm : rmode) : result num :=
  let p := round_p p in
  do _ <- p_assertion p;
  if is_zero x then n_new2 p (ns x) (ninexact x)
  else
    do (e1, m1) <- normalize x;
    let exp_add :=
      if e1 <? 0 then Z.rem (- e1) 3 else if 0 <? e1 then 3 - Z.rem e1 3 else 0 in
    do (e_shift, m3, inexact) <- m_cbrt m1 p rm (is_positive x) (ninexact x) exp_add;
    let e := Z.quot (e1 + exp_add) 3 + e_shift in
    if e <? EXPONENT_MIN then Ok (subnormalize (mk_num m3 (ns x) EXPONENT_MIN inexact) e rm)
    else Ok (mk_num m3 (ns x) e inexact).
