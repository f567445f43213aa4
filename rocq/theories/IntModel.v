(** Model of the lightweight signed integer on slices: common/int.rs
    (SliceWithSign).  No proofs in this file. *)

From Coq Require Import ZArith List Bool.
From Verif Require Import Words.
Import ListNotations.
Open Scope Z_scope.

(** int.rs 11-38: a slice with a sign (1 or -1). *)
Record sws := mk_sws { sw : words; sg : Z }.

Definition all_zero (m : words) : bool := forallb (fun v => v =? 0) m.

(** int.rs 314-319: comparison of equally long slices from the top word down. *)
Fixpoint cmp_top_down (a b : words) : Z :=
  match a, b with
  | x :: a', y :: b' => if x - y =? 0 then cmp_top_down a' b' else x - y
  | _, _ => 0
  end.

(** int.rs 299-322: abs_cmp. *)
Definition sws_abs_cmp (s1 s2 : words) : Z :=
  let len := Z.min (zlen s1) (zlen s2) in
  if negb (all_zero (zdrop len s1)) then 1
  else if negb (all_zero (zdrop len s2)) then -1
  else cmp_top_down (rev (ztake len s1)) (rev (ztake len s2)).

(** Carry loop over all of [b] with the words of [a] while they last. *)
Fixpoint add_ext (b a : words) (c : Z) : words * Z :=
  match b with
  | [] => ([], c)
  | y :: b' =>
      let '(r, c1) := add_carry (hd 0 a) y c in
      let '(t, c2) := add_ext b' (tl a) c1 in (r :: t, c2)
  end.

(** Borrow loop over all of [b] with the words of [a] while they last. *)
Fixpoint sub_ext (b a : words) (c : Z) : words * Z :=
  match b with
  | [] => ([], c)
  | y :: b' =>
      let '(r, c1) := sub_borrow y (hd 0 a) c in
      let '(t, c2) := sub_ext b' (tl a) c1 in (r :: t, c2)
  end.

(** int.rs 181-207: abs_add into a destination of [d] words; panics when the
    carry does not fit. *)
Definition sws_abs_add (s1 s2 : words) (d : Z) : result words :=
  let '(sh, lg) := if zlen s1 <? zlen s2 then (s1, s2) else (s2, s1) in
  let '(r, c) := add_ext (ztake d lg) sh 0 in
  if 0 <? c then
    if zlen r <? d then Ok (r ++ [c] ++ zeros (d - zlen r - 1)) else Panic
  else Ok (r ++ zeros (d - zlen r)).

(** int.rs 251-275: abs_sub into a destination of [d] words. *)
Definition sws_abs_sub (s1 s2 : words) (d : Z) : words :=
  let r := fst (sub_ext (ztake d s1) s2 0) in
  r ++ zeros (d - zlen r).

(** int.rs 209-221: abs_add_assign; a carry out of the top is dropped. *)
Definition sws_abs_add_assign (s1 s2 : words) : words := fst (add_ext s1 s2 0).

(** int.rs 224-238: abs_sub_assign_1, s1 - s2. *)
Definition sws_abs_sub_assign_1 (s1 s2 : words) : words := fst (sub_ext s1 s2 0).

(** int.rs 241-249: abs_sub_assign_2, s2 - s1 written over s1; words of s1
    beyond the length of s2 are left alone. *)
Definition sws_abs_sub_assign_2 (s1 s2 : words) : words :=
  let n := Z.min (zlen s1) (zlen s2) in
  fst (sub_words (ztake n s2) (ztake n s1) 0) ++ zdrop n s1.

(** int.rs 60-78: add_sub into a destination with [d] words and initial sign [ds]. *)
Definition sws_add_sub (a b : sws) (d ds op : Z) : result sws :=
  if (negb (sg a =? sg b) && (0 <? op)) || ((op <? 0) && (sg a =? sg b)) then
    let cmp := sws_abs_cmp (sw a) (sw b) in
    if 0 <? cmp then Ok (mk_sws (sws_abs_sub (sw a) (sw b) d) (sg a))
    else if cmp <? 0 then Ok (mk_sws (sws_abs_sub (sw b) (sw a) d) (sg b * op))
    else Ok (mk_sws (zeros d) ds)
  else
    do r <- sws_abs_add (sw a) (sw b) d;
    Ok (mk_sws r (sg a)).

(** int.rs 80-95: add_sub_assign. *)
Definition sws_add_sub_assign (a b : sws) (op : Z) : sws :=
  if (negb (sg a =? sg b) && (0 <? op)) || ((op <? 0) && (sg a =? sg b)) then
    let cmp := sws_abs_cmp (sw a) (sw b) in
    if 0 <? cmp then mk_sws (sws_abs_sub_assign_1 (sw a) (sw b)) (sg a)
    else if cmp <? 0 then mk_sws (sws_abs_sub_assign_2 (sw a) (sw b)) (sg b * op)
    else mk_sws (zeros (zlen (sw a))) (sg a)
  else mk_sws (sws_abs_add_assign (sw a) (sw b)) (sg a).

Definition sws_add_assign (a b : sws) : sws := sws_add_sub_assign a b 1.
Definition sws_sub_assign (a b : sws) : sws := sws_add_sub_assign a b (-1).

(** int.rs 129-167: div_by_word, from the top word down.  The special case of a
    small first word computes the same quotient word 0 and remainder. *)
Fixpoint divw_go (d rh : Z) (top_down : words) : words * Z :=
  match top_down with
  | [] => ([], rh)
  | v :: t =>
      let qh := rh * WORD_BASE + v in
      let '(q, r) := divw_go d (qh mod d) t in
      (qh / d :: q, r)
  end.
Definition div_by_word (m : words) (d : Z) : words := rev (fst (divw_go d 0 (rev m))).

(** int.rs 278-288: decrement_abs; panics on zero. *)
Fixpoint decrement_abs (m : words) : result words :=
  match m with
  | [] => Panic
  | v :: t =>
      if v =? 0 then do t' <- decrement_abs t; Ok (WORD_MAX :: t')
      else Ok (v - 1 :: t)
  end.

(** int.rs 334-344: cmp. *)
Definition sws_cmp (a b : sws) : Z :=
  if all_zero (sw a) && all_zero (sw b) then 0
  else if negb (sg a =? sg b) then sg a
  else sws_abs_cmp (sw a) (sw b) * sg a.
