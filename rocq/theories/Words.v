(** Model of the word-slice layer of astro-float-num (x86_64, Word = u64).

    A word is a [Z] in [0, 2^64).  A slice or [WordBuf] is a [list Z], least
    significant word first, as in the Rust code.  No proofs in this file. *)

From Coq Require Import ZArith List Bool.
Import ListNotations.
Open Scope Z_scope.

(** defs.rs 54-64: WORD_BASE, WORD_MAX, WORD_SIGNIFICANT_BIT, WORD_BIT_SIZE = 64. *)
Notation WORD_BASE := 18446744073709551616.
Notation WORD_MAX := 18446744073709551615.
Notation WORD_SIG := 9223372036854775808.

(** defs.rs 39-52, x86_64: Exponent = i32. *)
Notation EXPONENT_MAX := 2147483647.
Notation EXPONENT_MIN := (-2147483648).

(** defs.rs 73-105: Sign. *)
Inductive sign := Neg | Pos.

Definition sign_invert (s : sign) : sign := match s with Pos => Neg | Neg => Pos end.
Definition sign_eqb (a b : sign) : bool :=
  match a, b with Pos, Pos => true | Neg, Neg => true | _, _ => false end.
Definition is_pos (s : sign) : bool := match s with Pos => true | Neg => false end.
(** defs.rs 101-104: Sign as an integer, 1 or -1. *)
Definition sign_int (s : sign) : Z := match s with Pos => 1 | Neg => -1 end.

(** defs.rs 107-121: Error. *)
Inductive error :=
| ExponentOverflow (s : sign)
| DivisionByZero
| InvalidArgument
| MemoryAllocation.

(** Rust [Result<A, Error>] plus the panic outcome. *)
Inductive result (A : Type) :=
| Ok (a : A)
| Err (e : error)
| Panic.
Arguments Ok {A} a.
Arguments Err {A} e.
Arguments Panic {A}.

Definition bind {A C} (x : result A) (f : A -> result C) : result C :=
  match x with Ok a => f a | Err e => Err e | Panic => Panic end.
Notation "'do' x <- a ; b" := (bind a (fun x => b))
  (at level 200, x pattern, a at level 100, b at level 200, only parsing).

(** defs.rs 179-202: RoundingMode. *)
Inductive rmode := RNone | RUp | RDown | RToZero | RFromZero | RToEven | RToOdd.

Definition rmode_eqb (a b : rmode) : bool :=
  match a, b with
  | RNone, RNone | RUp, RUp | RDown, RDown | RToZero, RToZero
  | RFromZero, RFromZero | RToEven, RToEven | RToOdd, RToOdd => true
  | _, _ => false
  end.

(** common/util.rs 335-343: invert_rm_for_sign. *)
Definition invert_rm_for_sign (rm : rmode) : rmode :=
  match rm with RUp => RDown | RDown => RUp | _ => rm end.

(** ** Slices *)

Notation words := (list Z).

Definition zlen (l : words) : Z := Z.of_nat (length l).
Definition zeros (n : Z) : words := repeat 0 (Z.to_nat n).
Definition ztake (n : Z) (l : words) : words := firstn (Z.to_nat n) l.
Definition zdrop (n : Z) (l : words) : words := skipn (Z.to_nat n) l.
Definition znth (i : Z) (l : words) : Z := nth (Z.to_nat i) l 0.

(** [l[i] = v] (identity when [i] is out of range; callers stay in range). *)
Fixpoint upd (i : nat) (v : Z) (l : words) : words :=
  match l, i with
  | [], _ => []
  | _ :: t, O => v :: t
  | a :: t, S j => a :: upd j v t
  end.
Definition zupd (i v : Z) (l : words) : words := upd (Z.to_nat i) v l.

(** common/util.rs 119-147: add_carry, the portable branch (the x86_64
    intrinsic computes the same pair).  Returns (sum word, carry). *)
Definition add_carry (a b c : Z) : Z * Z :=
  let s := c + a + b in
  if WORD_BASE <=? s then (s - WORD_BASE, 1) else (s, 0).

(** common/util.rs 150-179: sub_borrow, the portable branch. *)
Definition sub_borrow (a b c : Z) : Z * Z :=
  if a <? b + c then (a + WORD_BASE - (b + c), 1) else (a - (b + c), 0).

(** The loop [for (d,a,b) in izip!(..) { c = add_carry(a,b,c,d) }] over two
    sequences; stops at the shorter one. Returns (words, last carry). *)
Fixpoint add_words (a b : words) (c : Z) : words * Z :=
  match a, b with
  | x :: a', y :: b' =>
      let '(r, c1) := add_carry x y c in
      let '(t, c2) := add_words a' b' c1 in (r :: t, c2)
  | _, _ => ([], c)
  end.

(** Same loop with sub_borrow. *)
Fixpoint sub_words (a b : words) (c : Z) : words * Z :=
  match a, b with
  | x :: a', y :: b' =>
      let '(r, c1) := sub_borrow x y c in
      let '(t, c2) := sub_words a' b' c1 in (r :: t, c2)
  | _, _ => ([], c)
  end.

(** Left shift of a word by [s] bits inside 64 bits ([<<] on u64, s < 64). *)
Definition wshl (a s : Z) : Z := Z.shiftl a s mod WORD_BASE.
(** Right shift of a word. *)
Definition wshr (a s : Z) : Z := Z.shiftr a s.

(** common/util.rs 182-212, bit part of shift_slice_left: each destination word
    is [src << shift | lower >> (64-shift)].  The Rust loop walks from the top
    in place; here it is a pass from the bottom carrying the previous word. *)
Fixpoint shl_go (s prev : Z) (l : words) : words :=
  match l with
  | [] => []
  | a :: t => Z.lor (wshl a s) (wshr prev (64 - s)) :: shl_go s a t
  end.

(** common/util.rs 182-212: shift_slice_left (in place, length kept). *)
Definition shift_slice_left (m : words) (n : Z) : words :=
  let idx := n / 64 in
  let s := n mod 64 in
  if zlen m <=? idx then zeros (zlen m)
  else if 0 <? s then zeros idx ++ shl_go s 0 (ztake (zlen m - idx) m)
  else if 0 <? idx then zeros idx ++ ztake (zlen m - idx) m
  else m.

(** common/util.rs 215-245: shift_slice_left_copy of [m] into a buffer of
    length [l2]. *)
Definition shift_slice_left_copy (m : words) (l2 n : Z) : words :=
  let idx := n / 64 in
  let s := n mod 64 in
  if l2 <=? idx then zeros l2
  else if 0 <? s then
    (* words of m, then the bits shifted out of the last word, then zeroes *)
    ztake l2 (zeros idx ++ shl_go s 0 (m ++ [0]) ++ zeros l2)
  else ztake l2 (zeros idx ++ m ++ zeros l2).

(** common/util.rs 248-278, bit part of shift_slice_right. *)
Fixpoint shr_go (s : Z) (l : words) : words :=
  match l with
  | [] => []
  | a :: t =>
      match t with
      | [] => [wshr a s]
      | b :: _ => Z.lor (wshr a s) (wshl b (64 - s)) :: shr_go s t
      end
  end.

(** common/util.rs 248-278: shift_slice_right (in place, length kept). *)
Definition shift_slice_right (m : words) (n : Z) : words :=
  let idx := n / 64 in
  let s := n mod 64 in
  if zlen m <=? idx then zeros (zlen m)
  else if 0 <? s then shr_go s (zdrop idx m) ++ zeros idx
  else if 0 <? idx then zdrop idx m ++ zeros idx
  else m.

(** The loop [while d & WORD_SIGNIFICANT_BIT == 0 { d <<= 1; n += 1 }]: number
    of iterations.  64 iterations are always enough for a nonzero word. *)
Fixpoint clz_loop (fuel : nat) (d : Z) : Z :=
  match fuel with
  | O => 0
  | S f => if Z.land d WORD_SIG =? 0 then 1 + clz_loop f (wshl d 1) else 0
  end.
Definition clz (d : Z) : Z := clz_loop 64 d.

(** Leading-zero count over a slice given from the most significant word down;
    [None] when all words are zero.  The shared core of Mantissa::maximize
    (mantissa.rs 153-178), Mantissa::find_bit_len (692-708). *)
Fixpoint lead_zeros (top_down : words) : option Z :=
  match top_down with
  | [] => None
  | d :: t =>
      if d =? 0 then option_map (fun n => 64 + n) (lead_zeros t) else Some (clz d)
  end.

(** mantissa/mantissa.rs 153-178: maximize, returns (shift, slice). *)
Definition maximize (m : words) : Z * words :=
  match lead_zeros (rev m) with
  | Some shift => (shift, shift_slice_left m shift)
  | None => (0, m)
  end.

(** mantissa/mantissa.rs 692-708: find_bit_len. *)
Definition find_bit_len (m : words) : Z :=
  match lead_zeros (rev m) with
  | Some n => zlen m * 64 - n
  | None => 0
  end.

(** common/util.rs 345-388: find_one_from: position (from the most significant
    bit) of the first one bit at or after [start_pos]. *)
Fixpoint find_one_rest (shift : Z) (top_down : words) : option Z :=
  match top_down with
  | [] => None
  | d :: t => if d =? 0 then find_one_rest (shift + 64) t else Some (shift + clz d)
  end.

Definition find_one_from (m : words) (start_pos : Z) : option Z :=
  let start_idx := start_pos / 64 in
  if zlen m <=? start_idx then None
  else
    match zdrop start_idx (rev m) with
    | [] => None
    | v :: rest =>
        let start_bit := start_pos mod 64 in
        let d := wshl v start_bit in
        if d =? 0 then find_one_rest (start_pos + (64 - start_bit)) rest
        else Some (start_pos + clz d)
    end.

(** common/util.rs 280-306: count_leading_zeroes_skip_first. *)
Definition count_leading_zeroes_skip_first (m : words) : Z :=
  match rev m with
  | [] => 0
  | v :: rest =>
      let w := Z.land v (wshr WORD_MAX 1) in
      if w =? 0 then
        match lead_zeros rest with
        | Some n => 64 + n
        | None => 64 * (1 + zlen rest)
        end
      else clz w
  end.

(** common/util.rs 308-327: count_leading_ones; inner loop and outer loop. *)
Fixpoint clo_loop (fuel : nat) (d : Z) : Z :=
  match fuel with
  | O => 0
  | S f => if Z.land d WORD_SIG =? 0 then 0 else 1 + clo_loop f (wshl d 1)
  end.
Fixpoint lead_ones (top_down : words) : Z :=
  match top_down with
  | [] => 0
  | d :: t => if d =? WORD_MAX then 64 + lead_ones t else clo_loop 64 d
  end.
Definition count_leading_ones (m : words) : Z := lead_ones (rev m).

(** common/util.rs 330-332: round_p ([saturating_add] at 2^64-1). *)
Definition round_p (p : Z) : Z := (Z.min (p + 63) 18446744073709551615 / 64) * 64.

(** common/util.rs 16-27 and 30-37: log2_ceil, log2_floor; the loop runs at most
    64 times on a 64-bit value. *)
Fixpoint log2_floor_loop (fuel : nat) (n ret : Z) : Z :=
  match fuel with
  | O => ret
  | S f => if 1 <? n then log2_floor_loop f (Z.shiftr n 1) (ret + 1) else ret
  end.
Definition log2_floor (n : Z) : Z := log2_floor_loop 64 n 0.

Fixpoint log2_ceil_loop (fuel : nat) (n ret sticky : Z) : Z :=
  match fuel with
  | O => ret + sticky
  | S f =>
      if 1 <? n then
        log2_ceil_loop f (Z.shiftr n 1) (ret + 1) (if Z.odd n then 1 else sticky)
      else ret + sticky
  end.
Definition log2_ceil (n : Z) : Z := log2_ceil_loop 64 n 0 0.

(** common/util.rs 39-49: sqrt_int on a u32; the argument is cut to 32 bits by the
    callers. *)
Fixpoint sqrt_int_loop (f : nat) (a x : Z) : Z :=
  match f with
  | O => x
  | S f => if x =? 0 then x else sqrt_int_loop f a ((a / x + x) / 2)
  end.
Definition sqrt_int (a : Z) : Z := let a := a mod 2 ^ 32 in sqrt_int_loop 20 a a mod 2 ^ 32.

(** ** WordBuf (common/buf.rs) *)

(** buf.rs 47-52: trunc_to, keeps the top [ceil(l/64)] words. *)
Definition trunc_to (m : words) (l : Z) : words :=
  let n := (l + 63) / 64 in
  ztake n (shift_slice_right m ((zlen m - n) * 64)).

(** buf.rs 61-71: try_extend: grow to [ceil(p/64)] words and shift the data to
    the top.  The new words are uninitialised in Rust; after the shift the low
    words are zero filled by shift_slice_left. *)
Definition try_extend (m : words) (p : Z) : words :=
  let n := (p + 63) / 64 in
  shift_slice_left (m ++ zeros (n - zlen m)) ((n - zlen m) * 64).

(** buf.rs 74-83: try_extend_2: grow with zero words on top. *)
Definition try_extend_2 (m : words) (p : Z) : words :=
  let n := (p + 63) / 64 in
  if zlen m <? n then m ++ zeros (n - zlen m) else m.

(** buf.rs 100-116: trunc_trailing_zeroes. *)
Fixpoint count_zero_words (l : words) : Z :=
  match l with
  | v :: t => if v =? 0 then 1 + count_zero_words t else 0
  | [] => 0
  end.
Definition trunc_trailing_zeroes (m : words) : words :=
  let n := count_zero_words m in
  if 0 <? n then ztake (zlen m - n) (shift_slice_right m (n * 64)) else m.

(** buf.rs 119-134: trunc_leading_zeroes. *)
Definition trunc_leading_zeroes (m : words) : words :=
  let n := count_zero_words (rev m) in
  if 0 <? n then ztake (zlen m - n) m else m.

(** ** Iterators (mantissa/util.rs) *)

(** mantissa/util.rs 10-43: ExtendedSlice with default 0. *)
Definition extended_slice (s : words) (extra : Z) : words := zeros extra ++ s.

(** mantissa/util.rs 46-125: RightShiftedSlice with default 0, as the list of
    its first [n] items (the iterator is infinite). *)
Definition right_shifted (s : words) (shift extend_sz n : Z) : words :=
  let idx := shift / 64 in
  let bits := shift mod 64 in
  let '(ext, idx') := if idx <? extend_sz then (extend_sz - idx, 0) else (0, idx - extend_sz) in
  let s' := zdrop idx' s in
  let body := if bits =? 0 then s' else shr_go bits s' in
  let head :=
    if ext =? 0 then []
    else zeros (ext - 1) ++
         [match s' with
          | hi :: _ => if bits =? 0 then 0 else wshl hi (64 - bits)
          | [] => 0
          end] in
  ztake n (head ++ body ++ zeros n).

(** mantissa/util.rs 128-198: NormalizedView over words given top down: the
    sequence of words from the first nonzero word on, shifted left. *)
Fixpoint skip_zero_words (l : words) : words :=
  match l with
  | v :: t => if v =? 0 then skip_zero_words t else l
  | [] => []
  end.
Fixpoint nview_go (s : Z) (l : words) : words :=
  match l with
  | [] => []
  | a :: t =>
      match t with
      | [] => [wshl a s]
      | b :: _ => Z.lor (wshl a s) (wshr b (64 - s)) :: nview_go s t
      end
  end.
Definition normalized_view (top_down : words) : words :=
  match skip_zero_words top_down with
  | [] => []
  | v :: t => let s := clz v in if s =? 0 then v :: t else nview_go s (v :: t)
  end.
