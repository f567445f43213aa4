(** Model of mantissa/mantissa.rs (Mantissa): rounding, addition, subtraction,
    multiplication, division, roots and modular powers.  No proofs here.

    Memory allocation is assumed to succeed: Err(MemoryAllocation) is not
    modelled.  usize arithmetic is modelled in Z where the precision limit
    (p_assertion, num.rs 29) excludes overflow. *)

From Coq Require Import ZArith List Bool.
From Verif Require Import Words IntModel MulModel DivModel RootModel.
Import ListNotations.
Open Scope Z_scope.

(** mantissa.rs 26-30. *)
Record mantissa := mk_m { mm : words; mn : Z }.

(** mantissa.rs 33-36. *)
Definition wlen_of_bits (p : Z) : Z := (p + 63) / 8 / 8.

(** mantissa.rs 855-863. *)
Definition mlen (m : mantissa) : Z := zlen (mm m).
Definition max_bit_len (m : mantissa) : Z := 64 * mlen m.

(** mantissa.rs 45-51. *)
Definition m_new (p : Z) : mantissa := mk_m (zeros (wlen_of_bits p)) 0.

(** mantissa.rs 54-62. *)
Definition m_oned (p : Z) : mantissa :=
  mk_m (repeat WORD_MAX (Z.to_nat (wlen_of_bits p))) (64 * wlen_of_bits p).

(** mantissa.rs 65-73: m[0] = 1 panics on an empty mantissa. *)
Definition m_min (p : Z) : result mantissa :=
  match zeros (wlen_of_bits p) with
  | [] => Panic
  | _ :: t => Ok (mk_m (1 :: t) 1)
  end.

(** mantissa.rs 76-98: from_word.  [d] is shifted left until its top bit is set. *)
Definition m_from_word (p d : Z) : result mantissa :=
  let l := wlen_of_bits p in
  if l =? 0 then Err InvalidArgument
  else
    let d := if 0 <? d then wshl d (clz d) else d in
    Ok (mk_m (zeros (l - 1) ++ [d]) (64 * l)).

(** mantissa.rs 101-115: from_words. *)
Definition m_from_words (p : Z) (w : words) : result mantissa :=
  let l := wlen_of_bits p in
  if l <? zlen w then Err InvalidArgument
  else
    let m := zeros (l - zlen w) ++ w in
    Ok (mk_m m (find_bit_len m)).

Definition m_is_zero (m : mantissa) : bool := mn m =? 0.

(** mantissa.rs 124-128. *)
Definition m_set_zero (m : mantissa) : mantissa := mk_m (zeros (mlen m)) 0.

(** mantissa.rs 135-139. *)
Definition m_update_bit_len (m : mantissa) : mantissa := mk_m (mm m) (find_bit_len (mm m)).

(** mantissa.rs 142-150. *)
Definition m_shift_right (m : mantissa) (n : Z) : mantissa := mk_m (shift_slice_right (mm m) n) (mn m).
Definition m_shift_left (m : mantissa) (n : Z) : mantissa := mk_m (shift_slice_left (mm m) n) (mn m).

(** mantissa.rs 205-230: cmp_iters.  [zip] takes an item of the first iterator
    before it looks at the second one, so that item is lost when the second one
    is exhausted. *)
Definition cmp_rest (a b : words) : Z :=
  if negb (all_zero a) then 1 else if negb (all_zero b) then -1 else 0.
Fixpoint cmp_iters (n : nat) (a b : words) : Z :=
  match n with
  | O => cmp_rest a b
  | S n' =>
      match a, b with
      | [], _ => cmp_rest [] b
      | _ :: a', [] => cmp_rest a' []
      | x :: a', y :: b' => if x - y =? 0 then cmp_iters n' a' b' else x - y
      end
  end.

(** mantissa.rs 186-203: abs_cmp. *)
Definition m_abs_cmp (m1 m2 : mantissa) (normalized : bool) : Z :=
  let n := Nat.min (length (mm m1)) (length (mm m2)) in
  if normalized then cmp_iters n (rev (mm m1)) (rev (mm m2))
  else cmp_iters n (normalized_view (rev (mm m1))) (normalized_view (rev (mm m2))).

(** ** Rounding: mantissa.rs 868-1112 *)

(** Result of round_mantissa: mantissa words, returned flag, check_roundable, inexact. *)
Record rm_out := mk_ro { ro_m : words; ro_ovf : bool; ro_chk : bool; ro_inexact : bool }.

(** State of the scan of the low words: check_roundable, cc, rem_zero. *)
Definition scan_word (td : Z) (st : bool * Z * bool) (v : Z) : bool * Z * bool :=
  let '(chk, cc, rz) := st in
  let '(chk, cc) :=
    if chk && (0 <? cc) then if negb (v =? td) then (false, cc) else (chk, cc - 1)
    else (chk, cc) in
  (chk, cc, if v =? 0 then rz else false).

(** mantissa.rs 1091-1103: add one to the words above; [None] when all of them overflow. *)
Fixpoint incr_words (l : words) : option words :=
  match l with
  | [] => None
  | v :: t =>
      if v <? WORD_MAX then Some (v + 1 :: t)
      else option_map (fun t' => 0 :: t') (incr_words t)
  end.

(** mantissa.rs 1079-1110: the common end: add one at bit [t] of word [i], or
    clear the bits below it. *)
Definition rm_finish (m : words) (i t : Z) (c : bool) : words * bool :=
  if c then
    let v := znth i m in
    if wshr v t + 1 <? wshr WORD_BASE t then (zupd i (wshl (wshr v t + 1) t) m, false)
    else
      let m := zupd i 0 m in
      match incr_words (zdrop (i + 1) m) with
      | Some hi => (ztake (i + 1) m ++ hi, false)
      | None =>
          let m := ztake (i + 1) m ++ zeros (zlen m - (i + 1)) in
          (zupd (zlen m - 1) WORD_SIG m, true)
      end
  else (zupd i (if 64 <=? t then 0 else wshl (wshr (znth i m) t) t) m, false).

(** mantissa.rs 913-939 and 998-1025: look at the bits below position [t] of
    word [i], or at the preceding word.  Returns (check_roundable, cc, rem_zero, td, z). *)
Definition rm_peek (m : words) (i t : Z) (chk : bool) (cc : Z) : bool * Z * bool * Z * Z :=
  if 0 <? t then
    let rb := wshl (znth i m) (64 - t) in
    if negb (rb =? 0) then
      if chk then
        let msk := Z.land rb (wshl WORD_MAX (64 - t)) in
        if msk =? rb then (chk, cc, false, WORD_MAX, i)
        else if negb (msk =? 0) then (false, cc, false, 0, i)
        else (chk, cc, false, 0, i)
      else (chk, cc, false, 0, i)
    else (chk, cc, true, 0, i)
  else if chk && (0 <? cc) && (0 <? i) then
    let z := i - 1 in
    let v := znth z m in
    if v =? WORD_MAX then (chk, cc - 1, false, WORD_MAX, z)
    else if negb (v =? 0) then (false, cc - 1, false, 0, z)
    else (chk, cc - 1, true, 0, z)
  else (chk, cc, true, 0, i).

(** mantissa.rs 868-1112: round_mantissa. *)
Definition round_mantissa (m : words) (n : Z) (rm : rmode) (is_positive chk : bool)
    (s : Z) (inexact : bool) : rm_out :=
  let mbl := 64 * zlen m in
  match rm with
  | RNone =>
      let inexact :=
        if negb inexact && (0 <? n) && (n <? mbl) then
          match find_one_from m (mbl - n) with Some _ => true | None => inexact end
        else inexact in
      mk_ro m false false inexact
  | _ =>
      if (0 <? n) && (n <? mbl) then
        let cc := ((n - (mbl - s)) mod WORD_BASE) / 64 in
        match rm with
        | RToEven | RToOdd =>
            let n1 := n - 1 in
            let i := n1 / 64 in
            let t := n1 mod 64 in
            let ip1 := n / 64 in
            let tp1 := n mod 64 in
            let num := Z.land (wshr (znth i m) t) 1 in
            let '(chk, cc, rem_zero, td, _) := rm_peek m i t chk cc in
            let nump1 := if ip1 <? zlen m then Z.land (wshr (znth ip1 m) tp1) 1 else 0 in
            let '(chk, _, rem_zero) := fold_left (scan_word td) (ztake i m) (chk, cc, rem_zero) in
            let m := zeros i ++ zdrop i m in
            if chk then mk_ro m false chk inexact
            else
              let inexact := inexact || negb rem_zero || (num =? 1) in
              let eq1 := (num =? 1) && rem_zero in
              let gt1 := (num =? 1) && negb rem_zero in
              let c :=
                match rm with
                | RToEven => gt1 || (eq1 && negb (nump1 =? 0))
                | _ => gt1 || (eq1 && (nump1 =? 0))
                end in
              let '(m, ovf) :=
                if c then
                  let m := if i <? ip1 then zupd i 0 m else m in
                  rm_finish m ip1 tp1 true
                else rm_finish m i (t + 1) false in
              mk_ro m ovf chk inexact
        | _ =>
            let i := n / 64 in
            let t := n mod 64 in
            let '(chk, cc, rem_zero, td, z) := rm_peek m i t chk cc in
            let '(chk, _, rem_zero) :=
              fold_left (scan_word td) (rev (ztake z m)) (chk, cc, rem_zero) in
            let m := zeros z ++ zdrop z m in
            if chk then mk_ro m false chk inexact
            else
              let inexact := inexact || negb rem_zero in
              let c :=
                match rm with
                | RFromZero => negb rem_zero
                | RUp => negb rem_zero && is_positive
                | RDown => negb rem_zero && negb is_positive
                | _ => false
                end in
              let '(m, ovf) := rm_finish m i t c in
              mk_ro m ovf chk inexact
        end
      else mk_ro m false chk inexact
  end.

(** The tail shared by abs_sub, abs_add, mul (e.g. mantissa.rs 306-330): fit [m]
    to [p] words.  Returns (words, overflow flag, inexact). *)
Definition fit_words (m : words) (p : Z) (rm : rmode) (is_positive full_prec inexact : bool)
  : words * bool * bool :=
  if full_prec then (trunc_trailing_zeroes m, false, inexact)
  else if zlen m <? p then (try_extend m (p * 64), false, inexact)
  else if p <? zlen m then
    let r := round_mantissa m ((zlen m - p) * 64) rm is_positive false (64 * zlen m) inexact in
    (trunc_to (ro_m r) (p * 64), ro_ovf r, ro_inexact r)
  else (m, false, inexact).

(** mantissa.rs 262-277: subtract one from the extended mantissa. *)
Fixpoint dec_words (l : words) (c : bool) : words :=
  match l with
  | [] => []
  | a :: t =>
      if c then if a =? 0 then WORD_MAX :: dec_words t true else a - 1 :: dec_words t false
      else a :: dec_words t false
  end.

(** mantissa.rs 234-334: abs_sub. Returns (shift, mantissa, inexact). *)
Definition m_abs_sub (m1 m2 : mantissa) (p m2_shift : Z) (rm : rmode)
    (is_positive full_prec inexact : bool) : Z * mantissa * bool :=
  let p := wlen_of_bits p in
  let l2 := (m2_shift + 62) / 64 in
  let '(m3, inexact) :=
    if (p <? l2) && (mlen m1 <? l2) && negb full_prec then
      let m3l := Z.max (mlen m1) p + 1 in
      (dec_words (extended_slice (mm m1) (m3l - mlen m1)) true, true)
    else
      let l := Z.max (mlen m1) ((m2_shift + 63) / 64 + mlen m2) in
      (fst (sub_words (extended_slice (mm m1) (l - mlen m1))
                      (right_shifted (mm m2) m2_shift (l - mlen m2) l) 0), inexact) in
  let '(shift, m3) := maximize m3 in
  let '(m3, ovf, inexact) := fit_words m3 p rm is_positive full_prec inexact in
  (if ovf : bool then shift - 1 else shift, mk_m m3 (64 * zlen m3), inexact).

(** mantissa.rs 337-450: abs_add. *)
Definition m_abs_add (m1 m2 : mantissa) (p m2_shift : Z) (rm : rmode)
    (is_positive full_prec inexact : bool) : Z * mantissa * bool :=
  let p := wlen_of_bits p in
  let '(m3, c, inexact) :=
    if m2_shift =? 0 then
      let l := Z.max (mlen m1) (mlen m2) + 1 in
      (fst (add_words (right_shifted (mm m1) 1 (l - mlen m1) l)
                      (right_shifted (mm m2) 1 (l - mlen m2) l) 0), 1, inexact)
    else
      let l2 := (m2_shift + 62) / 64 in
      if (p <? l2) && (mlen m1 <? l2) && negb full_prec then
        let m3 :=
          if mlen m1 <=? p + 1 then zeros (p + 1 - mlen m1) ++ mm m1
          else zdrop (mlen m1 - (p + 1)) (mm m1) in
        (zupd 0 (Z.lor (znth 0 m3) 1) m3, 0, true)
      else
        let l := Z.max (mlen m1) ((m2_shift + 63) / 64 + mlen m2) + 1 in
        let '(m3, c) :=
          add_words (extended_slice (mm m1) (l - mlen m1))
                    (right_shifted (mm m2) m2_shift (l - mlen m2) l) 0 in
        let m3 :=
          if 0 <? c then
            let m3 := shift_slice_right m3 1 in
            zupd (zlen m3 - 1) (Z.lor (znth (zlen m3 - 1) m3) WORD_SIG) m3
          else m3 in
        (m3, c, inexact) in
  let shift := - c in
  let '(m3, ovf, inexact) := fit_words m3 p rm is_positive full_prec inexact in
  (if ovf : bool then shift - 1 else shift, mk_m m3 (64 * zlen m3), inexact).

(** mantissa.rs 453-500: mul. *)
Definition m_mul (m1 m2 : mantissa) (p : Z) (rm : rmode) (is_positive full_prec inexact : bool)
  : result (Z * mantissa * bool) :=
  do m3 <- mul_unbalanced (mm m1) (mm m2) (mlen m1 + mlen m2);
  let '(shift, m3) := maximize m3 in
  let p := wlen_of_bits p in
  let '(m3, ovf, inexact) := fit_words m3 p rm is_positive full_prec inexact in
  Ok (if ovf : bool then shift - 1 else shift, mk_m m3 (64 * zlen m3), inexact).

Definition is_nearest (rm : rmode) : bool :=
  match rm with RToEven | RToOdd => true | _ => false end.

(** The test [rm == FromZero || (is_positive && rm == Up) || (!is_positive && rm == Down)]. *)
Definition rounds_away (rm : rmode) (is_positive : bool) : bool :=
  match rm with
  | RFromZero => true
  | RUp => is_positive
  | RDown => negb is_positive
  | _ => false
  end.

(** mantissa.rs 1209-1218: add_ulp. Returns (words, carry). *)
Fixpoint add_ulp (m : words) : words * bool :=
  match m with
  | [] => ([], true)
  | v :: t =>
      let '(r, c) := add_carry v 0 1 in
      if c =? 0 then (r :: t, false)
      else let '(t', b) := add_ulp t in (r :: t', b)
  end.

(** mantissa.rs 534-552 (also 1248-1266 and 1319-1337): rounding by the
    remainder. Returns (words, exponent shift, inexact). *)
Definition sticky_words (q : words) (r_sticky : bool) (rm : rmode) (is_positive inexact : bool)
  : words * Z * bool :=
  if r_sticky then
    if is_nearest rm then (zupd 0 (Z.lor (znth 0 q) 1) q, 0, true)
    else if rounds_away rm is_positive then
      let '(q, c) := add_ulp q in
      if c : bool then (zupd (zlen q - 1) WORD_SIG q, 1, true) else (q, 0, true)
    else (q, 0, true)
  else (q, 0, inexact).

(** The end shared by div, sqrt, cbrt (mantissa.rs 556-569): round to [p] words. *)
Definition round_to_words (m : words) (p : Z) (rm : rmode) (is_positive inexact : bool)
  : words * bool * bool :=
  let r := round_mantissa m ((zlen m - p) * 64) rm is_positive false (64 * zlen m) inexact in
  (trunc_to (ro_m r) (p * 64), ro_ovf r, ro_inexact r).

(** mantissa.rs 503-570: div. Returns (exponent shift, mantissa, inexact). *)
Definition m_div (m1 m2 : mantissa) (p : Z) (rm : rmode) (is_positive inexact : bool)
  : result (Z * mantissa * bool) :=
  let p := wlen_of_bits p in
  let k := Z.max (p + mlen m2) (mlen m1) + 1 in
  let e_shift := (mlen m2 - k) * 64 in
  do (q, r) <- div_unbalanced (zeros (k - mlen m1) ++ mm m1) (mm m2);
  let e_shift := e_shift + zlen q * 64 in
  let '(q, de, inexact) := sticky_words q (negb (all_zero r)) rm is_positive inexact in
  let e_shift := e_shift + de in
  let '(sh, q) := maximize q in
  let e_shift := e_shift - sh in
  let '(m3, ovf, inexact) := round_to_words q p rm is_positive inexact in
  Ok (if ovf : bool then e_shift + 1 else e_shift, mk_m m3 (64 * zlen m3), inexact).

(** mantissa.rs 1221-1286: sqrt. *)
Definition m_sqrt (m : mantissa) (p : Z) (rm : rmode) (is_positive inexact odd_exp : bool)
  : result (Z * mantissa * bool) :=
  let p := wlen_of_bits p in
  let k := (Z.max p (mlen m) + 1) * 2 in
  let m1 := zeros (k - mlen m) ++ mm m in
  let m1 := if odd_exp then shift_slice_right m1 1 else m1 in
  do (q, r) <- sqrt_rem m1;
  let '(q, e_shift, inexact) := sticky_words q (negb (all_zero r)) rm is_positive inexact in
  let '(_, q) := maximize q in
  let '(m3, ovf, inexact) := round_to_words q p rm is_positive inexact in
  Ok (if ovf : bool then e_shift + 1 else e_shift, mk_m m3 (64 * zlen m3), inexact).

(** mantissa.rs 1289-1357: cbrt. *)
Definition m_cbrt (m : mantissa) (p : Z) (rm : rmode) (is_positive inexact : bool) (add_exp : Z)
  : result (Z * mantissa * bool) :=
  let p := wlen_of_bits p in
  let k := Z.max p (mlen m) + 1 in
  let k3 := k * 3 in
  let e_shift := - (k * 64) in
  let m1 := shift_slice_right (zeros (k3 - mlen m) ++ mm m) add_exp in
  do (q, r) <- cbrt_rem m1;
  let '(q, de, inexact) := sticky_words q (negb (all_zero r)) rm is_positive inexact in
  let e_shift := e_shift + de + zlen q * 64 in
  let '(sh, q) := maximize q in
  let e_shift := e_shift - sh in
  let '(m3, ovf, inexact) := round_to_words q p rm is_positive inexact in
  Ok (if ovf : bool then e_shift + 1 else e_shift, mk_m m3 (64 * zlen m3), inexact).

(** ** Helpers of the remainder *)

(** mantissa.rs 614-622: pow2. *)
Definition m_pow2 (m : mantissa) (i : Z) : mantissa :=
  let w := if max_bit_len m <? mn m + i then try_extend_2 (mm m) (mn m + i) else mm m in
  mk_m (shift_slice_left w i) (mn m).

(** mantissa.rs 625-627: extend_subnormal. *)
Definition m_extend_subnormal (m : mantissa) (n : Z) : mantissa :=
  mk_m (try_extend_2 (mm m) (mn m + n)) (mn m).

(** mantissa.rs 630-645: mul_mod. *)
Definition m_mul_mod (a b n : mantissa) : result mantissa :=
  do t <- mul_unbalanced (mm a) (mm b) (mlen a + mlen b);
  do (_, r) <- div_unbalanced (trunc_leading_zeroes t) (mm n);
  Ok (mk_m r (find_bit_len r)).

(** mantissa.rs 686-690: rem. *)
Definition m_rem (a n : mantissa) : result mantissa :=
  do (_, r) <- div_unbalanced (mm a) (mm n);
  Ok (mk_m r (find_bit_len r)).

(** mantissa.rs 584-594: skip to the bit after the leading one bit of [i].
    Returns (bit_pos, i). *)
Fixpoint pow_mod_skip (bit_pos : nat) (i : Z) : nat * Z :=
  match bit_pos with
  | O => (O, i)
  | S b =>
      let i := wshl i 1 in
      if negb (Z.land i WORD_SIG =? 0) then (pred b, wshl i 1) else pow_mod_skip b i
  end.

(** mantissa.rs 598-608. *)
Fixpoint pow_mod_loop (bit_pos : nat) (i : Z) (x a n : mantissa) : result mantissa :=
  match bit_pos with
  | O => Ok x
  | S b =>
      do x <- m_mul_mod x x n;
      do x <- (if negb (Z.land i WORD_SIG =? 0) then m_mul_mod x a n else Ok x);
      pow_mod_loop b (wshl i 1) x a n
  end.

(** mantissa.rs 582-611: pow_mod. *)
Definition m_pow_mod (a : mantissa) (i : Z) (n : mantissa) : result mantissa :=
  let '(b, i) := pow_mod_skip 64 i in
  pow_mod_loop b i a a n.

(** ** Other operations *)

(** mantissa.rs 787-790. *)
Definition m_is_subnormal (m : mantissa) : bool := mn m <? max_bit_len m.

(** mantissa.rs 793-801: normilize. *)
Definition m_normilize (m : mantissa) : Z * mantissa :=
  let shift := max_bit_len m - mn m in
  if 0 <? shift then (shift, mk_m (shift_slice_left (mm m) shift) (max_bit_len m))
  else (shift, m).

(** mantissa.rs 804-807: normilize2. *)
Definition m_normilize2 (m : mantissa) : Z * mantissa :=
  let '(sh, w) := maximize (mm m) in (sh, mk_m w (max_bit_len m)).

(** mantissa.rs 810-833: mask_bits on a sequence of words starting from the
    side to be cleared. *)
Fixpoint mask_low (l : words) (n : Z) : words :=
  match l with
  | [] => []
  | v :: t => if 64 <=? n then 0 :: mask_low t (n - 64) else Z.land v (wshl WORD_MAX n) :: t
  end.
Fixpoint mask_high (top_down : words) (n : Z) : words :=
  match top_down with
  | [] => []
  | v :: t => if 64 <=? n then 0 :: mask_high t (n - 64) else Z.land v (wshr WORD_MAX n) :: t
  end.
Definition m_mask_bits (m : mantissa) (n : Z) (from_left : bool) : mantissa :=
  mk_m (if from_left then rev (mask_high (rev (mm m)) n) else mask_low (mm m) n) (mn m).

(** mantissa.rs 710-740: from_u64 (x86_64). Returns (shift, mantissa). *)
Definition m_from_u64 (p u : Z) : result (Z * mantissa) :=
  let l := wlen_of_bits p in
  if l <? 1 then Err InvalidArgument
  else
    let '(shift, m) := maximize (zeros (l - 1) ++ [u]) in
    Ok (shift, mk_m m (64 * l)).

(** mantissa.rs 742-764: from_usize. *)
Definition m_from_usize (u : Z) : Z * mantissa :=
  if u =? 0 then (0, mk_m [0] 0)
  else let '(shift, m) := maximize [u] in (shift, mk_m m 64).

(** mantissa.rs 849-852. *)
Definition m_is_all_zero (m : mantissa) : bool := all_zero (mm m).

(** mantissa.rs 1115-1133: set_length. *)
Definition m_set_length (m : mantissa) (p : Z) : mantissa :=
  let sz := wlen_of_bits p in
  let orig := mlen m in
  if sz <? orig then
    let nn := (orig - sz) * 64 in
    mk_m (trunc_to (mm m) p) (if nn <=? mn m then mn m - nn else 0)
  else if orig <? sz then
    mk_m (try_extend (mm m) p) (if mn m =? 0 then 0 else mn m + (sz - orig) * 64)
  else m.

(** mantissa.rs 1149-1155: most_significant_word. *)
Definition m_most_significant_word (m : mantissa) : Z :=
  if 0 <? mn m then znth ((mn m - 1) / 64) (mm m) else 0.

(** mantissa.rs 1193-1206: is_odd_int, for 0 < e <= max_bit_len. *)
Definition m_is_odd_int (m : mantissa) (e : Z) : bool :=
  let n := max_bit_len m - e in
  if n =? 0 then 0 <? Z.land (znth 0 (mm m)) 1
  else if negb (Z.land (wshr (znth (n / 64) (mm m)) (n mod 64)) 1 =? 0) then
    match find_one_from (mm m) e with None => true | Some _ => false end
  else false.
