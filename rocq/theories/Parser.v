(** Model of parser.rs, strop.rs format, ext.rs parse and format.
    A string is the list of the code points of its characters.  Memory
    reservation is not modelled.  No proofs in this file. *)

From Coq Require Import ZArith List Bool.
From Verif Require Import Words Mantissa Num Ext Conv.
Import ListNotations.
Open Scope Z_scope.

(** Characters that occur below. *)
Notation ch_plus := 43.
Notation ch_minus := 45.
Notation ch_dot := 46.
Notation ch_0 := 48.
Notation ch_underscore := 95.
Notation ch_a := 97.
Notation ch_e := 101.
Notation ch_f := 102.
Notation ch_i := 105.
Notation ch_n := 110.

(** parser.rs 14-37: ParserState.  [p_rest] are the characters not yet taken
    from the iterator; s_len is only used to reserve memory. *)
Record pstate := mk_ps {
  p_rest : list Z; p_cur : option Z; p_sign : sign; p_bytes : list Z; p_e : Z; p_inf : bool; p_nan : bool }.

(** char::to_ascii_lowercase. *)
Definition lower (c : Z) : Z := if (65 <=? c) && (c <=? 90) then c + 32 else c.

(** parser.rs 41-44: next_char. *)
Definition next_char (s : pstate) : pstate :=
  match p_rest s with
  | [] => mk_ps [] None (p_sign s) (p_bytes s) (p_e s) (p_inf s) (p_nan s)
  | c :: r => mk_ps r (Some (lower c)) (p_sign s) (p_bytes s) (p_e s) (p_inf s) (p_nan s)
  end.

(** Field updates. *)
Definition ps_sign (s : pstate) (v : sign) := mk_ps (p_rest s) (p_cur s) v (p_bytes s) (p_e s) (p_inf s) (p_nan s).
Definition ps_bytes (s : pstate) (v : list Z) := mk_ps (p_rest s) (p_cur s) (p_sign s) v (p_e s) (p_inf s) (p_nan s).
Definition ps_e (s : pstate) (v : Z) := mk_ps (p_rest s) (p_cur s) (p_sign s) (p_bytes s) v (p_inf s) (p_nan s).
Definition ps_flags (s : pstate) (i n : bool) := mk_ps (p_rest s) (p_cur s) (p_sign s) (p_bytes s) (p_e s) i n.

Definition is_ch (o : option Z) (c : Z) : bool := match o with Some d => d =? c | None => false end.

(** parser.rs 210-224: is_radix_digit. *)
Definition is_radix_digit (c : Z) (r : rdx) : bool :=
  match r with
  | Bin => (c =? ch_0) || (c =? 49)
  | Oct => (ch_0 <=? c) && (c <=? 55)
  | Dec => (ch_0 <=? c) && (c <=? 57)
  | Hex => ((ch_0 <=? c) && (c <=? 57)) || ((ch_a <=? c) && (c <=? ch_f))
  end.

(** char::to_digit. *)
Definition to_digit (c : Z) (radix : Z) : option Z :=
  let v := if (ch_0 <=? c) && (c <=? 57) then c - 48
           else if (97 <=? c) && (c <=? 122) then c - 87
           else if (65 <=? c) && (c <=? 90) then c - 55 else 36 in
  if v <? radix then Some v else None.

(** parser.rs 170-181: skipping zeros; recursion over the characters left. *)
Fixpoint skip_zeroes_loop (rest : list Z) (cur : option Z) (r : rdx) (int : bool) (len skip : Z)
  : result (list Z * option Z * Z * Z) :=
  match cur with
  | None => Ok (rest, cur, len, skip)
  | Some c =>
      if is_radix_digit c r then
        do d <- unwrap (to_digit c (rdx_num r));
        if d =? 0 then
          let len := if int then len else len + 1 in
          match rest with
          | [] => Ok ([], None, len, skip + 1)
          | c' :: t => skip_zeroes_loop t (Some (lower c')) r int len (skip + 1)
          end
        else Ok (rest, cur, len, skip)
      else Ok (rest, cur, len, skip)
  end.

(** parser.rs 189-199: collecting digits. *)
Fixpoint digits_loop (rest : list Z) (cur : option Z) (r : rdx) (bytes : list Z) (len : Z)
  : result (list Z * option Z * list Z * Z) :=
  match cur with
  | None => Ok (rest, cur, bytes, len)
  | Some c =>
      if is_radix_digit c r then
        do d <- unwrap (to_digit c (rdx_num r));
        match rest with
        | [] => Ok ([], None, bytes ++ [d], len + 1)
        | c' :: t => digits_loop t (Some (lower c')) r (bytes ++ [d]) (len + 1)
        end
      else Ok (rest, cur, bytes, len)
  end.

(** parser.rs 158-208: parse_digits.  Returns (state, len, skip_cnt). *)
Definition parse_digits (s : pstate) (skip_zeroes int : bool) (r : rdx) : result (pstate * Z * Z) :=
  do (rest, cur, len, skip) <-
    (if skip_zeroes then skip_zeroes_loop (p_rest s) (p_cur s) r int 0 0
     else Ok (p_rest s, p_cur s, 0, 0));
  do (rest, cur, bytes, len) <- digits_loop rest cur r (p_bytes s) len;
  let len := if negb int && (skip =? len) then 0 else len in
  Ok (mk_ps rest cur (p_sign s) bytes (p_e s) (p_inf s) (p_nan s), len, skip).

(** isize saturating arithmetic. *)
Definition sat (z : Z) : Z := Z.max (-9223372036854775808) (Z.min 9223372036854775807 z).

(** parser.rs 241: e_thres. *)
Notation E_THRES := 2147483648.

(** parser.rs 242-254: the loop of parse_exp. *)
Fixpoint exp_loop (rest : list Z) (cur : option Z) (r : rdx) (e : Z) : result (list Z * option Z * Z) :=
  match cur with
  | None => Ok (rest, cur, e)
  | Some c =>
      if is_radix_digit c r then
        if E_THRES <? e then Ok (rest, cur, e)
        else
          let e := sat (e * rdx_num r) in
          do d <- unwrap (to_digit c (rdx_num r));
          let e := sat (e + d) in
          match rest with
          | [] => Ok ([], None, e)
          | c' :: t => exp_loop t (Some (lower c')) r e
          end
      else Ok (rest, cur, e)
  end.

(** parser.rs 226-258: parse_exp.  Negating isize::MIN would panic. *)
Definition parse_exp (s : pstate) (r : rdx) : result pstate :=
  let '(s, neg) :=
    if is_ch (p_cur s) ch_plus then (next_char s, false)
    else if is_ch (p_cur s) ch_minus then (next_char s, true) else (s, false) in
  do (rest, cur, e) <- exp_loop (p_rest s) (p_cur s) r (p_e s);
  do e <- (if neg then if e =? -9223372036854775808 then Panic else Ok (- e) else Ok e);
  Ok (mk_ps rest cur (p_sign s) (p_bytes s) e (p_inf s) (p_nan s)).

(** parser.rs 117-156: parse_num. *)
Definition parse_num (s : pstate) (r : rdx) : result pstate :=
  do (s, int_len, skip_cnt1) <- parse_digits s true true r;
  let s := if is_ch (p_cur s) ch_dot then next_char s else s in
  do (s, frac_len, _) <- parse_digits s false false r;
  if (0 <? frac_len) || (0 <? int_len) then
    let s := ps_flags s (p_inf s) false in
    do s <-
      match r with
      | Hex =>
          if is_ch (p_cur s) ch_underscore then
            let s := next_char s in
            if is_ch (p_cur s) ch_e then parse_exp (next_char s) r else Ok s
          else Ok s
      | _ => if is_ch (p_cur s) ch_e then parse_exp (next_char s) r else Ok s
      end;
    let s := if negb (int_len =? 0) then ps_e s (sat (p_e s + int_len)) else s in
    if p_e s <? EXPONENT_MIN then Ok (ps_e (ps_bytes s [0]) 0)
    else if EXPONENT_MAX <? p_e s then Ok (ps_flags s true (p_nan s))
    else Ok s
  else if 0 <? skip_cnt1 then Ok (ps_flags s (p_inf s) false)
  else Ok s.

(** parser.rs 100-107: parse_inf. *)
Definition parse_inf (s : pstate) : pstate :=
  let s1 := next_char s in
  let s2 := next_char s1 in
  if is_ch (p_cur s1) ch_n && is_ch (p_cur s2) ch_f then ps_flags s2 true false else s2.

(** parser.rs 109-115: parse_nan. *)
Definition parse_nan (s : pstate) : pstate :=
  let s1 := next_char s in
  let s2 := next_char s1 in
  if is_ch (p_cur s2) ch_n && is_ch (p_cur s1) ch_a then ps_flags s2 (p_inf s2) true else s2.

(** parser.rs 69-98: parse. *)
Definition parse (str : list Z) (r : rdx) : result pstate :=
  let s := next_char (mk_ps str None Pos [] 0 false true) in
  let s :=
    if is_ch (p_cur s) ch_plus then next_char s
    else if is_ch (p_cur s) ch_minus then next_char (ps_sign s Neg) else s in
  match p_cur s with
  | None => Ok s
  | Some c =>
      if c =? ch_i then Ok (parse_inf s)
      else if c =? ch_n then Ok (parse_nan s)
      else
        let starts :=
          match r with
          | Bin => (c =? ch_dot) || (c =? ch_0) || (c =? 49)
          | Oct => (c =? ch_dot) || ((ch_0 <=? c) && (c <=? 55))
          | Dec => (c =? ch_dot) || ((ch_0 <=? c) && (c <=? 57))
          | Hex => (c =? ch_dot) || ((ch_0 <=? c) && (c <=? 57)) || ((ch_a <=? c) && (c <=? ch_f))
          end in
        if starts then parse_num s r else Ok s
  end.

(** [e as Exponent] (i32). *)
Definition as_i32 (z : Z) : Z := (z + 2147483648) mod 4294967296 - 2147483648.
(** parser.rs 63-65: raw_parts. *)
Definition raw_parts (s : pstate) : list Z * sign * Z := (p_bytes s, p_sign s, as_i32 (p_e s)).

(** strop.rs 17-18: DIGIT_CHARS[d]; an index out of range panics. *)
Definition digit_char (d : Z) : result Z :=
  if (0 <=? d) && (d <? 10) then Ok (48 + d) else if (10 <=? d) && (d <? 16) then Ok (55 + d) else Panic.
Fixpoint digit_chars (l : list Z) : result (list Z) :=
  match l with
  | [] => Ok []
  | d :: t => do c <- digit_char d; do r <- digit_chars t; Ok (c :: r)
  end.

(** The formatting of a nonnegative integer with {:b}, {:o}, {} and {:x} (lower
    case digits, "0" for zero). *)
Definition low_digit (d : Z) : Z := if d <? 10 then 48 + d else 87 + d.
Fixpoint fmt_loop (fuel : nat) (base v : Z) (acc : list Z) : list Z :=
  match fuel with
  | O => acc
  | S f =>
      let acc := low_digit (v mod base) :: acc in
      if v <? base then acc else fmt_loop f base (v / base) acc
  end.
Definition fmt_int (r : rdx) (v : Z) : list Z := fmt_loop 64 (rdx_num r) v [].

(** strop.rs 58-121: format.  [e as isize - 1] is printed with its sign cut off by
    unsigned_abs when e < 1. *)
Definition n_format (dec : num -> rmode -> result (sign * list Z * Z)) (x : num) (r : rdx) (rm : rmode)
  : result (list Z) :=
  do (s, m, e) <- convert_to_radix dec x r rm;
  let sgn := match s with Neg => [ch_minus] | Pos => [] end in
  match m with
  | [] => Ok (sgn ++ [ch_0; ch_dot; ch_0])
  | d :: t =>
      do mant <-
        (if is_subnormal x then do c <- digit_chars m; Ok (ch_0 :: ch_dot :: c)
         else do a <- digit_char d; do c <- digit_chars t; Ok (a :: ch_dot :: c));
      let us := match r with Hex => [ch_underscore] | _ => [] end in
      let ex :=
        if e <? 1 then
          ch_e :: ch_minus :: fmt_int r (if is_subnormal x then Z.abs e else Z.abs (e - 1))
        else ch_e :: ch_plus :: fmt_int r (e - 1) in
      Ok (sgn ++ mant ++ us ++ ex)
  end.

(** ext.rs 626-648: BigFloat::parse. *)
Definition x_parse (dec : sign -> list Z -> Z -> Z -> rmode -> result num)
  (str : list Z) (r : rdx) (p : Z) (rm : rmode) : result ext :=
  match parse str r with
  | Ok ps =>
      if p_inf ps then Ok (match p_sign ps with Pos => INF_POS | Neg => INF_NEG end)
      else if p_nan ps then Ok NAN
      else
        let '(m, s, e) := raw_parts ps in
        result_to_ext (convert_from_radix dec s m e r p rm) false true
  | Err e => Ok (NaN (Some e))
  | Panic => Panic
  end.

(** ext.rs 689-719: BigFloat::format. *)
Definition txt_inf : list Z := [73; 110; 102].
Definition txt_neg_inf : list Z := [45; 73; 110; 102].
Definition txt_nan : list Z := [78; 97; 78].
Definition txt_err : list Z := [69; 114; 114].
Definition x_format (dec : num -> rmode -> result (sign * list Z * Z)) (a : ext) (r : rdx) (rm : rmode)
  : result (list Z) :=
  match a with
  | Value v =>
      match n_format dec v r rm with
      | Ok s => Ok s
      | Err (ExponentOverflow s) => Ok (if is_pos s then txt_inf else txt_neg_inf)
      | Err _ => Ok txt_err
      | Panic => Panic
      end
  | Inf s => Ok (if is_pos s then txt_inf else txt_neg_inf)
  | NaN _ => Ok txt_nan
  end.
