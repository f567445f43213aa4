(** Model of the multiplication with the fast Fourier transform modulo
    2^n1 + 1: mantissa/fft.rs.  No proofs in this file.

    The parts are mutable slices with a sign ([sws] of IntModel); a slice of
    parts is modelled by a list of [sws].  Sub-slices taken with a stride or an
    offset are modelled by index arithmetic on the whole list.  Loops with no
    static bound carry fuel and end in [Panic] when it runs out; [unwrap] on an
    exhausted iterator is [Panic].  Memory allocation is assumed to succeed and
    [usize] arithmetic is unbounded. *)

From Coq Require Import ZArith List Bool.
From Verif Require Import Words IntModel.
Import ListNotations.
Open Scope Z_scope.

(** fft.rs 21-34: fft_w_shift, the reversal of the lowest [k] bits of [j]. *)
Definition swap_bits (j s mask : Z) : Z :=
  Z.lor (Z.land (wshr j s) mask) (wshl (Z.land j mask) s).
Definition fft_w_shift (j k : Z) : Z :=
  let j := swap_bits j 1 0x5555555555555555 in
  let j := swap_bits j 2 0x3333333333333333 in
  let j := swap_bits j 4 0x0F0F0F0F0F0F0F0F in
  let j := swap_bits j 8 0x00FF00FF00FF00FF in
  let j := swap_bits j 16 0x0000FFFF0000FFFF in
  let j := Z.lor (wshr j 32) (wshl j 32) in
  wshr j (64 - k).

Definition dec_at (i : Z) (m : words) : words := zupd i (znth i m - 1) m.

(** fft.rs 285-293: the loop of fft_normalize over a negative number. *)
Fixpoint norm_neg (f : nat) (num : sws) (last : Z) (md : sws) : result sws :=
  match f with
  | O => Panic
  | S f =>
      if sg num <? 0 then
        if (0 <? znth last (sw num)) && (0 <? znth 0 (sw num)) then
          norm_neg f (mk_sws (dec_at last (dec_at 0 (sw num))) (sg num)) last md
        else norm_neg f (sws_add_assign num md) last md
      else Ok num
  end.

(** fft.rs 297-305: the loop of fft_normalize over a nonnegative number. *)
Fixpoint norm_pos (f : nat) (num : sws) (last : Z) (md : sws) : result sws :=
  match f with
  | O => Panic
  | S f =>
      if 0 <? znth last (sw num) then
        if 0 <? znth 0 (sw num) then
          norm_pos f (mk_sws (dec_at last (dec_at 0 (sw num))) (sg num)) last md
        else norm_pos f (sws_sub_assign num md) last md
      else Ok num
  end.

(** fft.rs 281-312: fft_normalize.  Eight rounds of either loop are enough on
    the arguments that occur. *)
Definition fft_normalize (num : sws) (n : Z) (md : sws) : result sws :=
  let last := n / 64 in
  if (sg num <? 0) && negb (all_zero (sw num)) then norm_neg 8 num last md
  else
    do num <- norm_pos 8 num last md;
    if (sg num <? 0) && negb (all_zero (sw num)) then Ok (sws_add_assign num md)
    else Ok num.

(** fft.rs 37-78: fft_butterfly, (a, b) becomes (a + b, a - b).  The
    interleaved carry loops are two passes here. *)
Definition fft_butterfly (a b : sws) (n1 : Z) (md : sws) : result (sws * sws) :=
  let b_gt_a := cmp_top_down (rev (sw a)) (rev (sw b)) <? 0 in
  let s := fst (add_words (sw a) (sw b) 0) in
  let d := if b_gt_a then fst (sub_words (sw b) (sw a) 0)
           else fst (sub_words (sw a) (sw b) 0) in
  let db := if b_gt_a then - sg b else sg b in
  do a' <- fft_normalize (mk_sws s (sg a)) n1 md;
  do b' <- fft_normalize (mk_sws d db) n1 md;
  Ok (a', b').

(** fft.rs 265-270: the alternating sum of the remaining chunks. *)
Fixpoint chunk_loop (f : nat) (rest : words) (c : Z) (acc : sws) (sign : Z) : sws :=
  match f with
  | O => acc
  | S f =>
      match rest with
      | [] => acc
      | _ => chunk_loop f (zdrop c rest) c
               (sws_add_assign acc (mk_sws (ztake c rest) sign)) (- sign)
      end
  end.

(** fft.rs 248-278: fft_compute_chunks into a buffer of [tl] words. *)
Definition fft_compute_chunks (num : words) (n tl s : Z) : sws :=
  match num with
  | [] => mk_sws (zeros tl) 1
  | _ =>
      let c := n / 64 in
      let first := ztake c num in
      chunk_loop (length num) (zdrop c num) c
        (mk_sws (first ++ zeros (tl - zlen first)) s) (- s)
  end.

(** fft.rs 317-348: fft_mul_mod, num * 2^j mod 2^n + 1, with a work buffer of
    [tl] words.  [copy_from] (int.rs 169-179) copies the words and not the
    sign; the accumulator is as long as [num]. *)
Definition fft_mul_mod (num : sws) (j n : Z) (md : sws) (tl : Z) : result sws :=
  let l := zlen (sw num) in
  let acc :=
    if j =? 0 then fft_compute_chunks (sw num) n l 1
    else
      let acc := fft_compute_chunks (shift_slice_left_copy (sw num) (tl - l) (j mod n)) n l 1 in
      if Z.odd (j / n) then mk_sws (sw acc) (- sg acc) else acc in
  do acc <- fft_normalize acc n md;
  Ok (mk_sws (sw acc) (sg num)).

(** fft.rs 353-380: fft_div_mod, num / 2^j mod 2^n + 1. *)
Definition fft_div_mod (num : sws) (j n : Z) (md : sws) (tl : Z) : result sws :=
  let l := zlen (sw num) in
  let n2 := n * 2 in
  let shift := (j + n2 - 1) / n2 * n2 - j in
  let '(shift, s) := if n <=? shift then (shift - n, -1) else (shift, 1) in
  let acc := fft_compute_chunks (shift_slice_left_copy (sw num) (tl - l) shift) n l s in
  do acc <- fft_normalize acc n md;
  Ok (mk_sws (sw acc) (sg num)).

(** Access to the parts. *)
Definition no_part : sws := mk_sws [] 1.
Definition pget (i : Z) (ps : list sws) : sws := nth (Z.to_nat i) ps no_part.
Fixpoint lset (i : nat) (v : sws) (ps : list sws) : list sws :=
  match ps, i with
  | [], _ => []
  | _ :: t, O => v :: t
  | a :: t, S i => a :: lset i v t
  end.
Definition pset (i : Z) (v : sws) (ps : list sws) : list sws := lset (Z.to_nat i) v ps.

Section Transform.
Variable n1 : Z.
Variable md : sws.
(** Length of tmp_buf. *)
Variable tl : Z.

(** A butterfly on the parts [ia] and [ib], the latter given by [b]. *)
Definition butterfly_at (ia ib : Z) (b : sws) (ps : list sws) : result (list sws) :=
  do (a', b') <- fft_butterfly (pget ia ps) b n1 md;
  Ok (pset ib b' (pset ia a' ps)).

(** fft.rs 131-145: the loop of fft_forward over the chunks of [2 s] parts;
    [o] is the start of the sub-slice. *)
Fixpoint fwd_loop (f : nat) (j : Z) (ps : list sws) (o w kk s : Z) : result (list sws) :=
  match f with
  | O => Ok ps
  | S f =>
      let ia := o + j * (s * 2) in
      let ib := ia + s in
      do b <- fft_mul_mod (pget ib ps) (fft_w_shift j kk * w) n1 md tl;
      do ps <- butterfly_at ia ib b ps;
      fwd_loop f (j + 1) ps o w kk s
  end.

(** fft.rs 109-147: fft_forward on the parts from [o] on. *)
Fixpoint fft_forward (f : nat) (ps : list sws) (o w k1 k s : Z) : result (list sws) :=
  match f with
  | O => Panic
  | S f =>
      if k1 =? 2 then butterfly_at o (o + s) (pget (o + s) ps) ps
      else
        let k2 := k1 / 2 in
        let kk := k - 1 in
        let s2 := s * 2 in
        do ps <- fft_forward f ps o (w * 2) k2 kk s2;
        do ps <- fft_forward f ps (o + s) (w * 2) k2 kk s2;
        fwd_loop (Z.to_nat k2) 0 ps o w kk s
  end.

(** fft.rs 172-178: the loop of fft_reverse; [i] is the index of the pair. *)
Fixpoint rev_loop (f : nat) (i : Z) (ps : list sws) (o w k1 : Z) : result (list sws) :=
  match f with
  | O => Ok ps
  | S f =>
      let ia := o + i in
      let ib := o + k1 / 2 + i in
      do b <- fft_mul_mod (pget ib ps) (w * (k1 - i)) n1 md tl;
      do ps <- butterfly_at ia ib b ps;
      rev_loop f (i + 1) ps o w k1
  end.

(** fft.rs 149-181: fft_reverse on the parts from [o] on. *)
Fixpoint fft_reverse (f : nat) (ps : list sws) (o w k1 : Z) : result (list sws) :=
  match f with
  | O => Panic
  | S f =>
      if k1 =? 2 then butterfly_at o (o + 1) (pget (o + 1) ps) ps
      else
        let k2 := k1 / 2 in
        do ps <- fft_reverse f ps o (w * 2) k2;
        do ps <- fft_reverse f ps (o + k2) (w * 2) k2;
        do ps <- butterfly_at o (o + k2) (pget (o + k2) ps) ps;
        rev_loop (Z.to_nat (k2 - 1)) 1 ps o w k1
  end.
End Transform.

(** fft.rs 183-196: fft_params, returns (k1, k, m, n1, t).  [n as u32] is the
    cut to 32 bits inside [sqrt_int]. *)
Definition fft_params (n : Z) : Z * Z * Z * Z * Z :=
  let k1 := sqrt_int n in
  let k1 := if n / 64 <? 50000 then k1 / 2 else k1 in
  let k := Z.max (log2_ceil k1) 6 in
  let k1 := 2 ^ k in
  let m := (n + k1 - 1) / k1 in
  let n := m * k1 in
  let n1 := (2 * n + k1 - 1) / k1 + k in
  let n1 := (n1 + k1 - 1) / k1 * k1 in
  (k1, k, m, n1, n1 / k1).

(** fft.rs 205-208: the parts of [d] when [m] is a multiple of the word size,
    at most [room] of them. *)
Fixpoint decomp_words (room : nat) (d : words) (c pl : Z) : list sws :=
  match room with
  | O => []
  | S room =>
      match d with
      | [] => []
      | _ => let ch := ztake c d in
             mk_sws (ch ++ zeros (pl - zlen ch)) 1 :: decomp_words room (zdrop c d) c pl
      end
  end.

(** fft.rs 210-240: the parts of [d] when [m] is not a multiple of the word
    size, at most [room] of them; [cs] is chunk_sz. *)
Fixpoint decomp_bits (room : nat) (d : words) (m cs mask s pl : Z) : result (list sws) :=
  let idx := s / 64 in
  let shift := s mod 64 in
  if zlen d <? idx + cs then
    if idx <? zlen d then
      match room with
      | O => Panic
      | S _ =>
          Ok [mk_sws (shift_slice_right (zdrop idx d ++ zeros (pl - (zlen d - idx))) shift) 1]
      end
    else Ok []
  else
    match room with
    | O => Panic
    | S room =>
        let p := shift_slice_right (ztake cs (zdrop idx d) ++ zeros (pl - cs)) shift in
        let p := zupd (cs - 1) 0 p in
        let p := zupd (cs - 2) (Z.land (znth (cs - 2) p) mask) p in
        do r <- decomp_bits room d m cs mask (s + m) pl;
        Ok (mk_sws p 1 :: r)
    end.

(** fft.rs 199-246 with 382-401: fft_decompose into [k1] prepared parts of [pl]
    words. *)
Definition fft_decompose (d : words) (m k1 pl : Z) : result (list sws) :=
  do ps <-
    (if m mod 64 =? 0 then Ok (decomp_words (Z.to_nat k1) d (m / 64) pl)
     else decomp_bits (Z.to_nat k1) d m ((m + 63) / 64 + 1) (wshr WORD_MAX (64 - m mod 64)) 0 pl);
  Ok (ps ++ repeat (mk_sws (zeros pl) 1) (Z.to_nat k1 - length ps)).

(** fft.rs 435-438: the weights of one list of parts. *)
Fixpoint fft_weight (j : Z) (ps : list sws) (t n1 : Z) (md : sws) (tl : Z) : result (list sws) :=
  match ps with
  | [] => Ok []
  | p :: ps =>
      do p <- fft_mul_mod p (t * j) n1 md tl;
      do ps <- fft_weight (j + 1) ps t n1 md tl;
      Ok (p :: ps)
  end.

(** fft.rs 443-452: the products of the parts. *)
Fixpoint fft_products (mul_unb : words -> words -> Z -> result words)
  (ps1 ps2 : list sws) (n1 pl : Z) (md : sws) (tl : Z) : result (list sws) :=
  match ps1, ps2 with
  | p1 :: ps1, p2 :: ps2 =>
      do r <- mul_unb (sw p1) (sw p2) (2 * pl);
      let s := sg p1 * sg p2 in
      do t0 <- fft_mul_mod (mk_sws r s) 0 n1 md tl;
      do ps <- fft_products mul_unb ps1 ps2 n1 pl md tl;
      Ok (mk_sws (ztake pl (sw t0)) s :: ps)
  | _, _ => Ok []
  end.

(** fft.rs 461-463. *)
Fixpoint add_until_pos (f : nat) (p md : sws) : result sws :=
  match f with
  | O => Panic
  | S f =>
      if (sg p <? 0) && negb (all_zero (sw p)) then add_until_pos f (sws_add_assign p md) md
      else Ok p
  end.

(** fft.rs 458-489: the sum of the shifted coefficients. *)
Fixpoint fft_output (j : Z) (ps : list sws) (d3 : words) (k t m n1 pl : Z) (md : sws) (tl : Z)
  : result words :=
  match ps with
  | [] => Ok d3
  | p :: ps =>
      do p <- fft_div_mod p (k + t * j) n1 md tl;
      do p <- add_until_pos 2 p md;
      let jm := j * m in
      let idx := jm / 64 in
      let shift := jm mod 64 in
      if zlen d3 <=? idx then Ok d3
      else
        let hi := if idx + pl + 2 <? zlen d3 then idx + pl + 2 else zlen d3 in
        let out := sws_add_assign (mk_sws (ztake (hi - idx) (zdrop idx d3)) 1)
                     (mk_sws (shift_slice_left (sw p) shift) (sg p)) in
        fft_output (j + 1) ps (ztake idx d3 ++ sw out ++ zdrop hi d3) k t m n1 pl md tl
  end.

(** fft.rs 404-492: fft_mul into a buffer of [l3] words; [mul_unb] is the
    multiplication of the parts. *)
Definition fft_mul (mul_unb : words -> words -> Z -> result words) (d1 d2 : words) (l3 : Z)
  : result words :=
  let l := (zlen d1 + zlen d2) * 64 in
  let '(k1, k, m, n1, t) := fft_params l in
  let w := t * 2 in
  let pl := n1 / 64 + 1 in
  let tl := 3 * pl in
  do ps1 <- fft_decompose d1 m k1 pl;
  do ps2 <- fft_decompose d2 m k1 pl;
  let md := mk_sws (zupd (n1 / 64) 1 (zupd 0 1 (zeros pl))) 1 in
  do ps1 <- fft_weight 0 ps1 t n1 md tl;
  do ps2 <- fft_weight 0 ps2 t n1 md tl;
  do ps1 <- fft_forward n1 md tl (Z.to_nat k) ps1 0 w k1 k 1;
  do ps2 <- fft_forward n1 md tl (Z.to_nat k) ps2 0 w k1 k 1;
  do ps3 <- fft_products mul_unb ps1 ps2 n1 pl md tl;
  do ps3 <- fft_reverse n1 md tl (Z.to_nat k) ps3 0 w k1;
  fft_output 0 ps3 (zeros l3) k t m n1 pl md tl.
