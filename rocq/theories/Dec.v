(** Model of the decimal conversion of mantissas (mantissa/conv.rs). *)

From Coq Require Import ZArith List Bool.
From Verif Require Import Words IntModel MulModel DivModel Mantissa.
Import ListNotations.
Open Scope Z_scope.

(** common/buf.rs 86-97: try_extend_3: grow to [ceil(p/64)] words and shift left by
    [d] bits.  Only the first new word is initialised in Rust; the others are not
    read by the shift, since [ceil(p/64)] is at most len + d/64 + 1. *)
Definition try_extend_3 (m : words) (p d : Z) : words :=
  shift_slice_left (m ++ zeros ((p + 63) / 64 - zlen m)) d.

(** mantissa/mantissa.rs 1136-1147: shift_left_resize. *)
Definition m_shift_left_resize (m : mantissa) (n : Z) : mantissa :=
  mk_m
    (if mn m + n <=? max_bit_len m then trunc_leading_zeroes (shift_slice_left (mm m) n)
     else try_extend_3 (mm m) (mn m + n) n)
    (mn m + n).

(** mantissa/mantissa.rs 1359-1362: from_word_buf. *)
Definition m_from_word_buf (w : words) : mantissa := mk_m w (find_bit_len w).

(** ops/consts/mod.rs 28: an entry of the cache of 10^(2^i): the power shifted to the
    top of its words, the power, the shift. *)
Record tenpower := mk_tp { tp_norm : words; tp_val : words; tp_shift : Z }.

(** mantissa/conv.rs 107-124: the next entry. *)
Definition next_tenpower (t : tenpower) : result tenpower :=
  do w <- mul_unbalanced (tp_val t) (tp_val t) (zlen (tp_val t) * 2);
  let w := trunc_leading_zeroes w in
  let '(s, w1) := maximize w in
  Ok (mk_tp w1 w s).
(** The loop [for _ in l..p]; [last] is the last entry. *)
Fixpoint tenpowers_loop (n : nat) (last : tenpower) : result (list tenpower) :=
  match n with
  | O => Ok []
  | S n => do t <- next_tenpower last; do r <- tenpowers_loop n t; Ok (t :: r)
  end.
(** mantissa/conv.rs 92-105. *)
Definition first_tenpower : tenpower := let '(s, w) := maximize [10] in mk_tp w [10] s.
(** mantissa/conv.rs 92-127: compute_tenpowers. *)
Definition compute_tenpowers (tp : list tenpower) (p : Z) : result (list tenpower) :=
  let tp := match tp with [] => [first_tenpower] | _ => tp end in
  do r <- tenpowers_loop (Z.to_nat (p - Z.of_nat (length tp))) (last tp first_tenpower);
  Ok (tp ++ r).
(** ops/consts/mod.rs 138-144: tenpowers. *)
Definition cc_tenpowers (tp : list tenpower) (p : Z) : result (list tenpower) :=
  if Z.of_nat (length tp) <=? p then compute_tenpowers tp p else Ok tp.

(** mantissa/conv.rs 46-52: the digits of one word, without leading zeros. *)
Fixpoint word_digits (fuel : nat) (v : Z) (acc : list Z) : list Z :=
  match fuel with
  | O => acc
  | S f => if v =? 0 then acc else word_digits f (v / 10) (v mod 10 :: acc)
  end.
(** mantissa/conv.rs 53-62: exactly [l] digits. *)
Fixpoint pad_digits (l : nat) (v : Z) (acc : list Z) : list Z :=
  match l with
  | O => acc
  | S l => pad_digits l (v / 10) (v mod 10 :: acc)
  end.

(** mantissa/conv.rs 23-89: conv_to_dec; the most significant digit first.  [p] is a
    nat; the usize underflow of p - 1 and an index past the end are panics. *)
Fixpoint m_conv_to_dec (p : nat) (m : mantissa) (l : Z) (tp : list tenpower) (ms : bool) : result (list Z) :=
  if m_is_zero m then Ok (if ms then [] else repeat 0 (Z.to_nat l))
  else if mn m <=? 64 then
    let v := znth 0 (mm m) in
    Ok (if ms then word_digits 20 v [] else pad_digits (Z.to_nat l) v [])
  else
    match nth_error tp p, p with
    | Some t, S p' =>
        let m := m_shift_left_resize m (tp_shift t) in
        do (q, r) <- div_unbalanced (mm m) (tp_norm t);
        let r := shift_slice_right r (tp_shift t) in
        let q := m_from_word_buf q in
        let r := m_from_word_buf r in
        if m_is_zero q then m_conv_to_dec p' r (l / 2) tp ms
        else
          do part1 <- m_conv_to_dec p' r (l / 2) tp false;
          do part2 <- m_conv_to_dec p' q (l / 2) tp ms;
          Ok (part2 ++ part1)
    | _, _ => Panic
    end.

(** mantissa/conv.rs 140-166: words of 16 decimal digits, the least significant
    first.  [ds] has the least significant digit first. *)
Fixpoint dec_chunks (ds : list Z) (word t i : Z) : result (list words) :=
  match ds with
  | [] => Ok (if 0 <? i then [[word]] else [])
  | v :: ds =>
      if 9 <? v then Err InvalidArgument
      else
        let word := word + v * t in
        let t := t * 10 in
        if i + 1 =? 16 then do r <- dec_chunks ds 0 1 0; Ok ([word] :: r) else dec_chunks ds word t (i + 1)
  end.
(** mantissa/conv.rs 180-203: one pass over the pairs. *)
Definition join_pair (a b tenpower : words) : result words :=
  do w <- mul_unbalanced b tenpower (zlen b + zlen tenpower);
  Ok (trunc_leading_zeroes (sw (sws_add_assign (mk_sws (w ++ [0]) 1) (mk_sws a 1)))).
Fixpoint join_pairs (l : list words) (tenpower : words) : result (list words) :=
  match l with
  | a :: b :: l => do c <- join_pair a b tenpower; do r <- join_pairs l tenpower; Ok (c :: r)
  | _ => Ok l
  end.
(** mantissa/conv.rs 168-206.  The number of chunks halves, its length is enough fuel. *)
Fixpoint join_loop (fuel : nat) (chunks : list words) (tp : list tenpower) (p : nat) : result words :=
  match chunks with
  | [c] => Ok c
  | _ =>
      match fuel, nth_error tp p with
      | S f, Some t => do r <- join_pairs chunks (tp_val t); join_loop f r tp (S p)
      | _, _ => Panic
      end
  end.
(** mantissa/conv.rs 130-207: conv_from_dec.  Empty input is a panic (the debug
    assertion reads input[0]); a leading zero violates the assertion as well. *)
Definition m_conv_from_dec (input : list Z) (tp : list tenpower) : result mantissa :=
  match input with
  | [] => Panic
  | d :: _ =>
      if d =? 0 then Panic
      else
        do chunks <- dec_chunks (rev input) 0 1 0;
        do w <- join_loop (length chunks) chunks tp 4;
        Ok (m_from_word_buf w)
  end.
