(** Model of conv.rs: convert_from_radix and convert_to_radix for the radixes 2, 8
    and 16.  The decimal branch is a parameter here.  No proofs in this file. *)

From Coq Require Import ZArith List Bool.
From Verif Require Import Words Mantissa Num Ext.
Import ListNotations.
Open Scope Z_scope.

(** defs.rs 163-177: Radix, and [rdx as isize]. *)
Inductive rdx := Bin | Oct | Dec | Hex.
Definition rdx_num (r : rdx) : Z := match r with Bin => 2 | Oct => 8 | Dec => 10 | Hex => 16 end.

Notation USIZE_MAX := 18446744073709551615.

(** conv.rs 93-112: the loop of conv_from_binary over the reversed digits.
    [room] counts the words [dst] can still yield, [acc] holds the words written
    so far (latest first); [unwrap] of an exhausted iterator panics. *)
Fixpoint bin_fill (ds : list Z) (d shift room : Z) (acc : words) : result words :=
  match ds with
  | [] =>
      if 0 <? shift then
        if room =? 0 then Panic else Ok (rev acc ++ d :: zeros (room - 1))
      else Ok (rev acc ++ zeros room)
  | v :: t =>
      if 1 <? v then Err InvalidArgument
      else
        let d := Z.lor d (wshl v shift) in
        let shift := shift + 1 in
        if shift =? 64 then
          if room =? 0 then Panic else bin_fill t 0 0 (room - 1) (d :: acc)
        else bin_fill t d shift room acc
  end.

(** conv.rs 73-142: conv_from_binary. *)
Definition conv_from_binary (s : sign) (digits : list Z) (e p : Z) (rm : rmode) : result num :=
  match digits with
  | [] => n_new (if p <? USIZE_MAX then p else DEFAULT_P)
  | _ =>
      do _ <- p_assertion (round_p (zlen digits));
      let m := m_new (zlen digits) in
      let shift := zlen digits mod 64 in
      let shift := if shift =? 0 then shift else 64 - shift in
      do w <- bin_fill (rev digits) 0 shift (mlen m) [];
      let m := m_update_bit_len (mk_m w 0) in
      if p <? USIZE_MAX then set_precision (mk_num m s e false) p rm
      else
        let shift := max_bit_len m - mn m in
        if (0 <? shift) && (EXPONENT_MIN <? e) then
          let e_shift := e - EXPONENT_MIN in
          if shift <=? e_shift then Ok (mk_num (snd (m_normilize2 m)) s (e - shift) false)
          else Ok (mk_num (mk_m (mm (m_shift_left m e_shift)) (mn m + e_shift)) s EXPONENT_MIN false)
        else Ok (mk_num m s e false)
  end.

(** conv.rs 171-175: steps of the loop aligning the first nonzero digit
    (a u8, at most 8 steps). *)
Fixpoint sig_steps (fuel : nat) (sig v : Z) : Z :=
  match fuel with
  | O => 0
  | S f => if Z.land v sig =? 0 then 1 + sig_steps f sig (Z.shiftl v 1 mod 256) else 0
  end.

(** conv.rs 157-178: the scan for the first nonzero digit.
    Returns (zeroes, e_shift, first_shift). *)
Fixpoint cm_scan (shift : Z) (ds : list Z) (zeroes e_shift : Z) : result (Z * Z * Z) :=
  match ds with
  | [] => Ok (zeroes, e_shift, 0)
  | v :: t =>
      if v =? 0 then cm_scan shift t (zeroes + 1) (e_shift - shift)
      else if 2 ^ shift <=? v then Err InvalidArgument
      else let k := sig_steps 8 (2 ^ (shift - 1)) v in Ok (zeroes, e_shift - k, k)
  end.

(** conv.rs 226-230, and the words never written. *)
Definition cm_end (d room : Z) (acc : words) : words :=
  if (0 <? d) && negb (room =? 0) then zeros (room - 1) ++ d :: acc else zeros room ++ acc.

(** conv.rs 200-230: filling the mantissa from the top. *)
Fixpoint cm_fill (shift : Z) (ds : list Z) (filled d room : Z) (acc : words) : result words :=
  match ds with
  | [] => Ok (cm_end d room acc)
  | v :: t =>
      if 2 ^ shift <=? v then Err InvalidArgument
      else if filled <=? 64 then
        cm_fill shift t (filled + shift) (Z.lor d (wshl v (64 - filled))) room acc
      else
        let d := Z.lor d (wshr v (filled - 64)) in
        if room =? 0 then Ok (cm_end d room acc)
        else
          let filled := filled - 64 in
          cm_fill shift t (filled + shift) (if 0 <? filled then wshl v (64 - filled) else 0)
                  (room - 1) (d :: acc)
  end.

(** conv.rs 145-272: conv_from_commensurable. *)
Definition conv_from_commensurable (s : sign) (digits : list Z) (e shift p : Z) (rm : rmode) : result num :=
  do (zeroes, e_shift, first_shift) <- cm_scan shift digits 0 0;
  if zeroes =? zlen digits then Ok (mk_num (m_new (if p <? USIZE_MAX then p else DEFAULT_P)) s 0 false)
  else
    let msz := round_p ((zlen digits - zeroes) * shift + 64) in
    do _ <- p_assertion msz;
    let m := m_new msz in
    let e := e * shift + e_shift in
    if EXPONENT_MAX <? e then Err (ExponentOverflow s)
    else
      do w <- cm_fill shift (zdrop zeroes digits) (shift - first_shift) 0 (mlen m) [];
      let m := mk_m w (64 * zlen w) in
      do ret <-
        (if e <? EXPONENT_MIN then
           if p <? USIZE_MAX then
             let num := mk_num m s EXPONENT_MIN false in
             do num <- (if mantissa_max_bit_len num <? p + 64 then set_precision num (p + 64) RNone else Ok num);
             let num := subnormalize num e RNone in
             if ninexact num then
               match mm (nm num) with
               | [] => Panic
               | v :: t => Ok (mk_num (mk_m (Z.lor v 1 :: t) (mn (nm num))) (ns num) (ne num) true)
               end
             else Ok num
           else
             let e_shift := EXPONENT_MIN - e in
             let newbitlen := Z.min (mn m + e_shift) USIZE_MAX in
             do _ <- p_assertion (round_p newbitlen);
             let m := m_extend_subnormal m e_shift in
             Ok (mk_num (m_shift_left m (max_bit_len m - newbitlen)) s EXPONENT_MIN false)
         else Ok (mk_num m s e false));
      if p <? USIZE_MAX then set_precision ret p rm else Ok ret.

(** conv.rs 42-71: convert_from_radix; [dec] is the decimal branch. *)
Definition convert_from_radix (dec : sign -> list Z -> Z -> Z -> rmode -> result num)
  (s : sign) (digits : list Z) (e : Z) (r : rdx) (p : Z) (rm : rmode) : result num :=
  let go p :=
    match r with
    | Bin => conv_from_binary s digits e p rm
    | Oct => conv_from_commensurable s digits e 3 p rm
    | Dec => dec s digits e p rm
    | Hex => conv_from_commensurable s digits e 4 p rm
    end in
  if p <? USIZE_MAX then
    let p := round_p p in
    do _ <- p_assertion p;
    if p =? 0 then n_new 0 else go p
  else go p.

(** The output loops push digits and count the zeros at the end:
    the state is (digits pushed, latest first; cnt). *)
Definition push (st : list Z * Z) (digit : Z) : list Z * Z :=
  (digit :: fst st, if digit =? 0 then snd st + 1 else 0).
(** [ret.resize(ret.len() - cnt, 0)]. *)
Definition cut (st : list Z * Z) : list Z := let r := rev (fst st) in ztake (zlen r - snd st) r.

(** conv.rs 735-743: the bits of a word, [i] bits left. *)
Fixpoint push_bits (i : nat) (v : Z) (st : list Z * Z) : list Z * Z :=
  match i with
  | O => st
  | S j => push_bits j v (push st (Z.land (wshr v (Z.of_nat j)) 1))
  end.

(** conv.rs 729-750: conv_to_binary. *)
Definition conv_to_binary (x : num) : result (sign * list Z * Z) :=
  let st := fold_left (fun st v => push_bits 64 v st) (rev (mm (nm x))) ([], 0) in
  Ok (ns x, cut st, ne x).

(** conv.rs 686-710: the loop of conv_to_commensurable; [d] is a u128.  Returns
    the state at the break.  Running out of [fuel] counts as a panic; the
    theorems show that it does not happen. *)
Fixpoint cm_out (fuel : nat) (shift d done : Z) (rest : words) (st : list Z * Z)
  : result (Z * Z * (list Z * Z)) :=
  match fuel with
  | O => Panic
  | S f =>
      let st := push st (Z.land (wshr d done) (2 ^ shift - 1)) in
      if done <? shift then
        let d := Z.shiftl d 64 mod (WORD_BASE * WORD_BASE) in
        match rest with
        | v :: t => cm_out f shift (Z.lor d v) (done + 64 - shift) t st
        | [] => Ok (d, done, st)
        end
      else cm_out f shift d (done - shift) rest st
  end.

(** conv.rs 667-727: conv_to_commensurable. *)
Definition conv_to_commensurable (x : num) (shift : Z) : result (sign * list Z * Z) :=
  let e_shift := Z.abs (ne x) mod shift in
  let e := Z.quot (ne x) shift in
  let '(e_shift, e) :=
    if negb (e_shift =? 0) && (0 <? ne x) then (shift - e_shift, e + 1) else (e_shift, e) in
  match rev (mm (nm x)) with
  | [] => Panic
  | d :: rest =>
      do (d, done, st) <- cm_out (64 * length (mm (nm x))) shift d (64 - shift + e_shift) rest ([], 0);
      let st :=
        if 0 <? done then
          let done := if done <? shift then done + 64 - shift else done in
          let digit := Z.land (wshr d done) (2 ^ shift - 1) in
          if 0 <? digit then (digit :: fst st, 0) else st
        else st in
      Ok (ns x, cut st, e)
  end.

(** conv.rs 374-386: convert_to_radix; [dec] is the decimal branch. *)
Definition convert_to_radix (dec : num -> rmode -> result (sign * list Z * Z)) (x : num) (r : rdx) (rm : rmode)
  : result (sign * list Z * Z) :=
  match r with
  | Bin => conv_to_binary x
  | Oct => conv_to_commensurable x 3
  | Dec => dec x rm
  | Hex => conv_to_commensurable x 4
  end.
