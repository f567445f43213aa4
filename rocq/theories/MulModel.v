(** Model of multiplication of word slices: mantissa/mul.rs, toom2.rs, toom3.rs.
    No proofs in this file. *)

From Coq Require Import ZArith List Bool.
From Verif Require Import Words IntModel Fft.
Import ListNotations.
Open Scope Z_scope.

(** mul.rs 21-28: one row, [m3 += a * m2] with the carry added to the next word. *)
Fixpoint mul_row (a : Z) (m2 m3 : words) (k : Z) : words :=
  match m3 with
  | [] => []
  | z :: m3' =>
      match m2 with
      | y :: m2' =>
          let m := a * y + z + k in
          m mod WORD_BASE :: mul_row a m2' m3' (Z.shiftr m 64)
      | [] => (z + k mod WORD_BASE) mod WORD_BASE :: m3'
      end
  end.

(** mul.rs 12-30: the loop over m1; [m3] is the tail of the output from index i. *)
Fixpoint mul_basic_go (m1 m2 m3 : words) : words :=
  match m1 with
  | [] => m3
  | a :: t =>
      let m3' := if a =? 0 then m3 else mul_row a m2 m3 0 in
      match m3' with
      | [] => []
      | h :: r => h :: mul_basic_go t m2 r
      end
  end.

(** mul.rs 12-30: mul_basic into a buffer of [l3] words. *)
Definition mul_basic (m1 m2 : words) (l3 : Z) : words := mul_basic_go m1 m2 (zeros l3).

(** toom2.rs 13-32: add_slices into a buffer of max length + 1. *)
Definition add_slices (s1 s2 : words) : words :=
  let '(lg, sh) := if zlen s2 <? zlen s1 then (s1, s2) else (s2, s1) in
  let '(r, c) := add_ext lg sh 0 in r ++ [c].

(** toom2.rs 34-93: paired_sub, s3 -= s1 + s2; [c] is the borrow 0, 1 or 2.
    The three loops of the code are one pass with missing words read as 0. *)
Fixpoint psub_go (s3 lg sh : words) (c : Z) : words :=
  match s3 with
  | [] => []
  | v :: s3' =>
      let s := hd 0 sh + hd 0 lg + c in
      let '(x, c') :=
        if s <=? v then (v - s, 0)
        else if s <=? v + WORD_BASE then (v + WORD_BASE - s, 1)
        else (v + WORD_BASE * 2 - s, 2) in
      x :: psub_go s3' (tl lg) (tl sh) c'
  end.
Definition paired_sub (s1 s2 s3 : words) : words :=
  let '(lg, sh) := if zlen s2 <? zlen s1 then (s1, s2) else (s2, s1) in
  psub_go s3 lg sh 0.

(** toom2.rs 95-108: add_assign_slices (same loop as SliceWithSign::abs_add_assign). *)
Definition add_assign_slices (s1 s2 : words) : words := fst (add_ext s1 s2 0).

(** toom3.rs 11-25: toom3_get_splits. *)
Definition toom3_get_splits (m : words) (l : Z) : words * words * words :=
  let b11 := Z.min l (zlen m) in
  let b12 := Z.min l (zlen m - b11) + b11 in
  let b13 := Z.min l (zlen m - b12) + b12 in
  (ztake b11 m, ztake (b12 - b11) (zdrop b11 m), ztake (b13 - b12) (zdrop b12 m)).

(** toom3.rs 27-55: toom3_factors: evaluation at 1, -1, -2; buffers have l+1
    words.  Returns (p1, p2, p3) and the sign left in the scratch x1. *)
Definition toom3_factors (m0 m1 m2 : words) (x1s l : Z) : result (sws * sws * sws * Z) :=
  let m0 := mk_sws m0 1 in
  let m1 := mk_sws m1 1 in
  let m2 := mk_sws m2 1 in
  do x1 <- sws_add_sub m0 m2 (l + 1) x1s 1;
  do p1 <- sws_add_sub x1 m1 (l + 1) 1 1;
  do p2 <- sws_add_sub x1 m1 (l + 1) 1 (-1);
  do p3 <- sws_add_sub p2 m2 (l + 1) 1 1;
  let p3 := mk_sws (shift_slice_left (sw p3) 1) (sg p3) in
  let p3 := sws_sub_assign p3 m0 in
  Ok (p1, p2, p3, sg x1).

Section Toom.
(** The recursive call [mul_unbalanced m1 m2 l3]. *)
Variable mul_unb : words -> words -> Z -> result words.

(** toom2.rs 110-147: toom2 into a buffer of [l3] words. *)
Definition toom2 (m1 m2 : words) (l3 : Z) : result words :=
  let n := Z.shiftr (Z.min (zlen m1) (zlen m2) + 1) 1 in
  let n2 := Z.shiftl n 1 in
  let m11 := ztake n m1 in
  let m12 := zdrop n m1 in
  let m21 := ztake n m2 in
  let m22 := zdrop n m2 in
  let x1l := Z.max (zlen m11) (zlen m12) + 1 in
  let x2l := Z.max (zlen m21) (zlen m22) + 1 in
  let x1 := add_slices m11 m12 in
  let x2 := add_slices m21 m22 in
  do z2 <- mul_unb x1 x2 (x1l + x2l);
  do m31 <- mul_unb m11 m21 n2;
  do m32 <- mul_unb m12 m22 (l3 - n2);
  let z2 := paired_sub m31 m32 z2 in
  let m3 := m31 ++ m32 in
  Ok (ztake n m3 ++ add_assign_slices (zdrop n m3) z2).

(** toom3.rs 163-168: add one signed part at a word offset. *)
Definition toom3_add_part (d3 : words) (part : Z * sws) : words :=
  let '(start, w) := part in
  if start <? zlen d3 then
    ztake start d3 ++ sw (sws_add_assign (mk_sws (zdrop start d3) 1) w)
  else d3.

(** toom3.rs 60-171: toom3 into a buffer of [l3] words. *)
Definition toom3 (d1 d2 : words) (l3 : Z) : result words :=
  let l := (Z.max (zlen d1) (zlen d2) + 2) / 3 in
  let '(a0, a1, a2) := toom3_get_splits d1 l in
  let '(b0, b1, b2) := toom3_get_splits d2 l in
  do (p1, p2, p3, x1s) <- toom3_factors a0 a1 a2 1 l;
  do (q1, q2, q3, _) <- toom3_factors b0 b1 b2 x1s l;
  do s0 <- mul_unb a0 b0 (zlen a0 + zlen b0);
  do s1 <- mul_unb (sw p1) (sw q1) ((l + 1) * 2);
  do s2 <- mul_unb (sw p2) (sw q2) ((l + 1) * 2);
  do s3 <- mul_unb (sw p3) (sw q3) ((l + 1) * 2);
  do s4 <- mul_unb a2 b2 (zlen a2 + zlen b2);
  let s0 := mk_sws s0 1 in
  let s1 := mk_sws s1 (sg p1 * sg q1) in
  let s2 := mk_sws s2 (sg p2 * sg q2) in
  let s3 := mk_sws s3 (sg p3 * sg q3) in
  let s4 := mk_sws s4 1 in
  do w3 <- sws_add_sub s3 s1 ((l + 1) * 2) 1 (-1);
  let w3 := mk_sws (div_by_word (sw w3) 3) (sg w3) in
  do w1 <- sws_add_sub s1 s2 ((l + 1) * 2) 1 (-1);
  let w1 := mk_sws (shift_slice_right (sw w1) 1) (sg w1) in
  do w2 <- sws_add_sub s2 s0 ((l + 1) * 2) 1 (-1);
  let w3 := sws_sub_assign w3 w2 in
  let w3 := mk_sws (sw w3) (- sg w3) in
  let x3 := mk_sws (shift_slice_left_copy (sw s4) (2 * (l + 1)) 2) 1 in
  let w3 := sws_add_assign w3 x3 in
  let w3 := mk_sws (shift_slice_right (sw w3) 1) (sg w3) in
  let w2 := sws_add_assign w2 w1 in
  let w2 := sws_sub_assign w2 s4 in
  let w1 := sws_sub_assign w1 w3 in
  let l4 := 4 * l in
  let d3 :=
    if l4 <? l3 then
      if l3 <? l4 + zlen (sw s4) then
        sw s0 ++ zeros (l4 - zlen (sw s0)) ++ ztake (l3 - l4) (sw s4)
      else
        sw s0 ++ zeros (l4 - zlen (sw s0)) ++ sw s4 ++ zeros (l3 - l4 - zlen (sw s4))
    else sw s0 ++ zeros (l3 - zlen (sw s0)) in
  (* toom3.rs 151-161: both tests look at the sign of w1 *)
  let neg := sg w1 <? 0 in
  let parts :=
    if neg then [(3 * l, w3); (l, w1); (2 * l, w2)]
    else [(l, w1); (2 * l, w2); (3 * l, w3)] in
  Ok (fold_left toom3_add_part parts d3).

(** mul.rs 32-45: mul_slices.  SIMPLIFIED: where the operands have 2^26 words
    (2^32 bits) or more together, the FFT, whose parameters come from a 32-bit
    square root, is replaced by schoolbook multiplication. *)
Definition mul_slices (m1 m2 : words) (l3 : Z) : result words :=
  if (zlen m1 <=? 32) || (zlen m2 <=? 32) then Ok (mul_basic m1 m2 l3)
  else if (zlen m1 <=? 220) || (zlen m2 <=? 220) then toom2 m1 m2 l3
  else if (zlen m1 <=? 5400) && (zlen m2 <=? 5400) then toom3 m1 m2 l3
  else if zlen m1 + zlen m2 <? 2 ^ 26 then fft_mul mul_unb m1 m2 l3
  else Ok (mul_basic m1 m2 l3).

(** mul.rs 60-75: the balancing loop over one parity. Returns (ub, m3). *)
Fixpoint bal_loop (fuel : nat) (sm lg : words) (even : bool) (lb ub : Z) (m3 : words)
  : result (Z * words) :=
  match fuel with
  | O => Panic
  | S f =>
      if lb <? zlen lg then
        let ub := if lb + zlen sm <=? zlen lg then lb + zlen sm else zlen lg in
        do buf <- mul_slices (ztake (ub - lb) (zdrop lb lg)) sm (2 * zlen sm);
        let src := ztake (ub - lb + zlen sm) buf in
        let dst := zdrop lb m3 in
        let dst' := if even then src ++ zdrop (zlen src) dst
                    else sws_abs_add_assign dst src in
        bal_loop f sm lg even (lb + zlen sm * 2) ub (ztake lb m3 ++ dst')
      else Ok (ub, m3)
  end.

(** mul.rs 48-91: mul_unbalanced into a buffer of [l3] words (body). *)
Definition mul_unbalanced_body (m1 m2 : words) (l3 : Z) : result words :=
  let '(sm, lg) := if zlen m1 <? zlen m2 then (m1, m2) else (m2, m1) in
  if (zlen sm <=? zlen lg / 2) && (70 <? zlen sm) then
    do (ub, m3) <- bal_loop (S (length lg)) sm lg true 0 0 (zeros l3);
    let m3 := if ub + zlen sm <? l3 then ztake (ub + zlen sm) m3 ++ zeros (l3 - (ub + zlen sm))
              else m3 in
    do (_, m3) <- bal_loop (S (length lg)) sm lg false (zlen sm) ub m3;
    Ok m3
  else mul_slices sm lg l3.
End Toom.

(** Recursion through toom2/toom3; the depth is bounded by the total length. *)
Fixpoint mul_unbalanced_fuel (fuel : nat) (m1 m2 : words) (l3 : Z) : result words :=
  match fuel with
  | O => Panic
  | S f => mul_unbalanced_body (mul_unbalanced_fuel f) m1 m2 l3
  end.

Definition mul_unbalanced (m1 m2 : words) (l3 : Z) : result words :=
  mul_unbalanced_fuel (S (length m1 + length m2)) m1 m2 l3.
