(** Model of integer square and cube roots of word slices:
    mantissa/sqrt.rs, mantissa/cbrt.rs, mantissa/util.rs.  No proofs here. *)

From Coq Require Import ZArith List Bool.
From Verif Require Import Words IntModel MulModel DivModel.
Import ListNotations.
Open Scope Z_scope.

(** mantissa/util.rs 259-270: root_estimate ([unwrap] panics on an empty slice). *)
Definition root_estimate (m : words) (n : Z) : result words :=
  match rev m with
  | [] => Panic
  | top :: _ =>
      let nbits := log2_floor top in
      Ok (zeros (zlen m / n) ++ [wshl 1 (nbits / n + 1)])
  end.

(** sqrt.rs 35-64: the Newton loop of sqrt_rem_basic. *)
Fixpoint sqrt_loop (fuel : nat) (m sbuf : words) : result (words * words) :=
  match fuel with
  | O => Panic
  | S f =>
      do (qbuf, _) <- div_basic m sbuf;
      let qbuf := try_extend_2 qbuf ((zlen m + 1) * 64) in
      let q := sws_add_assign (mk_sws qbuf 1) (mk_sws sbuf 1) in
      let q := mk_sws (shift_slice_right (sw q) 1) (sg q) in
      if 0 <=? sws_cmp q (mk_sws sbuf 1) then
        let sq := mul_basic sbuf sbuf (zlen sbuf * 2) in
        let r := sws_sub_assign (mk_sws m 1) (mk_sws sq 1) in
        Ok (sbuf, sw r)
      else sqrt_loop f m (trunc_leading_zeroes (sw q))
  end.

(** sqrt.rs 17-65: sqrt_rem_basic; the loop needs at most one step per bit. *)
Definition sqrt_rem_basic (m : words) : result (words * words) :=
  let zc := count_zero_words (rev m) in
  if zc =? zlen m then Ok ([0], [0])
  else
    let m := ztake (zlen m - zc) m in
    do s <- root_estimate m 2;
    sqrt_loop (Z.to_nat (64 * zlen m + 200)) m s.

(** sqrt.rs 68-157: sqrt_rem; recursion by fuel on the length. *)
Fixpoint sqrt_rem_fuel (fuel : nat) (m : words) : result (words * words) :=
  match fuel with
  | O => Panic
  | S f =>
      if zlen m =? 0 then Panic (* m.len() - 1 underflows *)
      else
      let l := (zlen m - 1) / 4 in
      let zc := count_zero_words (rev m) in
      if zc =? zlen m then Ok ([0], [0])
      else
        let m := ztake (zlen m - zc) m in
        if l =? 0 then sqrt_rem_basic m
        else if zlen m <? 2 * l then Panic
        else
          (* sqrt_rem_split, sqrt.rs 159-168 *)
          let m2 := zdrop (2 * l) m in
          let m1 := zdrop l (ztake (2 * l) m) in
          let m0 := ztake l m in
          do (sbuf, rbuf) <- sqrt_rem_fuel f m2;
          let rbuf := try_extend rbuf ((zlen rbuf + l) * 64) in
          let rbuf := sw (sws_add_assign (mk_sws rbuf 1) (mk_sws m1 1)) in
          let s2buf := sbuf ++ [0] in
          match find_one_from s2buf 0 with
          | None => Panic
          | Some pos =>
              let s2buf := shift_slice_left s2buf pos in
              let scale := pos - 1 in
              let rbuf := try_extend_2 rbuf ((zlen rbuf + 1) * 64) in
              let rbuf := shift_slice_left rbuf scale in
              do (qbuf, ubuf) <- div_unbalanced rbuf s2buf;
              let ubuf := shift_slice_right ubuf scale in
              do qs <- mul_unbalanced qbuf qbuf (zlen qbuf * 2);
              let sbuf := try_extend sbuf ((zlen sbuf + l) * 64) in
              let sbuf := try_extend_2 sbuf ((zlen sbuf + 1) * 64) in
              let ubuf := try_extend ubuf ((zlen ubuf + l) * 64) in
              let s := sws_add_assign (mk_sws sbuf 1) (mk_sws qbuf 1) in
              let r := sws_add_assign (mk_sws ubuf 1) (mk_sws m0 1) in
              let r := sws_sub_assign r (mk_sws qs 1) in
              let one := mk_sws [1] 1 in
              let '(s, r) :=
                if (sg r <? 0) && negb (all_zero (sw r)) then
                  let r := sws_add_assign r s in
                  let r := sws_add_assign r s in
                  let r := sws_sub_assign r one in
                  (sws_sub_assign s one, r)
                else (s, r) in
              Ok (ztake (zlen (sw s) - 1) (sw s), sw r)
          end
  end.
Definition sqrt_rem (m : words) : result (words * words) := sqrt_rem_fuel (S (length m)) m.

(** cbrt.rs 17-35: crbt_normalize_div. Returns (m1, m2, shift). *)
Definition crbt_normalize_div (m1 m2 : words) (m_shift : Z) : words * words * Z :=
  match find_one_from m2 0 with
  | Some shift =>
      let m2 := shift_slice_left m2 shift in
      let m1 :=
        if shift <? m_shift then shift_slice_right m1 (m_shift - shift)
        else if m_shift <? shift then shift_slice_left m1 (shift - m_shift)
        else m1 in
      (m1, m2, shift)
  | None => (m1, m2, m_shift)
  end.

(** cbrt.rs 47-92: the Newton loop; [wl] is the length of the buffer wb. *)
Fixpoint cbrt_loop (fuel : nat) (m sbuf : words) (wl m_shift : Z) : result (words * words) :=
  match fuel with
  | O => Panic
  | S f =>
      do sq <- mul_unbalanced sbuf sbuf (zlen sbuf * 2);
      let '(m, sq, m_shift) := crbt_normalize_div m sq m_shift in
      do (qbuf, _) <- div_unbalanced m sq;
      (* w = s * 2 *)
      let wb := right_shifted sbuf 63 1 wl in
      let qbuf := try_extend_2 qbuf ((Z.max (zlen qbuf) wl + 1) * 64) in
      let q := sws_add_assign (mk_sws qbuf 1) (mk_sws wb 1) in
      let q := mk_sws (div_by_word (sw q) 3) (sg q) in
      if 0 <=? sws_cmp q (mk_sws sbuf 1) then
        let m := shift_slice_right m m_shift in
        let r := ztake (zlen m - 2) m in
        (* cbrt_remainder, cbrt.rs 95-111 *)
        do sq <- mul_unbalanced sbuf sbuf (zlen sbuf * 2);
        do sc <- mul_unbalanced sq sbuf (zlen sbuf * 3);
        Ok (sbuf, sw (sws_sub_assign (mk_sws r 1) (mk_sws sc 1)))
      else cbrt_loop f m (trunc_leading_zeroes (sw q)) wl m_shift
  end.

(** cbrt.rs 38-92: cbrt_rem. *)
Definition cbrt_rem (m : words) : result (words * words) :=
  do s <- root_estimate m 3;
  cbrt_loop (Z.to_nat (128 * zlen m + 400)) (try_extend_2 m ((zlen m + 2) * 64)) s (zlen s + 1) 0.
