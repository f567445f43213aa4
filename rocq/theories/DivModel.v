(** Model of division of word slices: mantissa/div.rs.  No proofs in this file. *)

From Coq Require Import ZArith List Bool.
From Verif Require Import Words IntModel MulModel.
Import ListNotations.
Open Scope Z_scope.

(** mantissa.rs 572-579: mul_by_word; the output has one more word. *)
Fixpoint mul_by_word_go (d1 : words) (d m : Z) : words :=
  match d1 with
  | [] => [m / WORD_BASE mod WORD_BASE]
  | v :: t =>
      let m' := v * d + m / WORD_BASE in
      m' mod WORD_BASE :: mul_by_word_go t d m'
  end.
Definition mul_by_word (d1 : words) (d : Z) : words := mul_by_word_go d1 d 0.

(** div.rs 110-122: [b -= a * qh] over the window; returns (window, borrow). *)
Fixpoint mulsub_go (a b : words) (qh k c : Z) : words * Z :=
  match a, b with
  | x :: a', y :: b' =>
      let k' := x * qh + k / WORD_BASE in
      let v := k' mod WORD_BASE + c in
      let '(r, c') := if y <? v then (y + (WORD_BASE - v), 1) else (y - v, 0) in
      let '(t, c2) := mulsub_go a' b' qh k' c' in (r :: t, c2)
  | _, _ => ([], c)
  end.

(** div.rs 97-107: the quotient digit estimate with at most two corrections. *)
Definition qhat (buf12 buf11 buf10 v1 v2 : Z) : Z :=
  let num := buf12 * WORD_BASE + buf11 in
  let rh := num mod v1 in
  let qh := num / v1 in
  if (WORD_BASE <=? qh) || (WORD_BASE * rh + buf10 <? qh * v2) then
    let qh1 := qh - 1 in
    let rh1 := rh + v1 in
    if (rh1 <? WORD_BASE) && ((WORD_BASE <=? qh1) || (WORD_BASE * rh1 + buf10 <? qh1 * v2))
    then qh1 - 1 else qh1
  else qh.

(** div.rs 92-149: one iteration on the window buf1[j .. j+n+2), which has the
    length of buf2[.. n+2].  Returns (quotient word, window). *)
Definition div_step (buf2 w : words) (n v1 v2 : Z) : Z * words :=
  let qh := qhat (znth (n + 1) w) (znth n w) (znth (n - 1) w) v1 v2 in
  let '(w1, c) := mulsub_go (ztake (n + 2) buf2) w qh 0 0 in
  if 0 <? c then
    (* compensate *)
    let '(w2, _) := add_words (ztake (n + 2) buf2) w1 0 in
    ((qh - 1) mod WORD_BASE, w2)
  else (qh mod WORD_BASE, w1).

(** div.rs 92-149: the loop for j, j-1, .., 0.  Returns (quotient words 0..j, buf1). *)
Fixpoint div_loop (j : nat) (buf1 buf2 : words) (n v1 v2 : Z) : words * words :=
  let w := ztake (n + 2) (skipn j buf1) in
  let '(q, w') := div_step buf2 w n v1 v2 in
  let buf1' := firstn j buf1 ++ w' ++ skipn (j + Z.to_nat (n + 2)) buf1 in
  match j with
  | O => ([q], buf1')
  | S j' => let '(qs, b) := div_loop j' buf1' buf2 n v1 v2 in (qs ++ [q], b)
  end.

(** div.rs 17-191: div_basic.  The single-word loops (36-68 and 155-185) are
    [divw_go]; their special first step yields the same words. Panics when m2 is
    empty or longer than m1 (usize underflow), or on division by a zero word. *)
Definition div_basic (m1 m2 : words) : result (words * words) :=
  let l1 := zlen m1 in
  let l2 := zlen m2 in
  if (l2 =? 0) || (l1 <? l2) then Panic
  else
    let n := l2 - 1 in
    let m := l1 - 1 in
    if n =? 0 then
      let d := znth 0 m2 in
      if d =? 0 then Panic
      else
        let '(q, r) := divw_go d 0 (rev m1) in
        Ok (rev q, [r])
    else
      let d := WORD_BASE / (znth n m2 + 1) in
      let '(buf1, buf2) :=
        if d =? 1 then (m1 ++ [0], m2 ++ [0]) else (mul_by_word m1 d, mul_by_word m2 d) in
      let v1 := znth n buf2 in
      let v2 := znth (n - 1) buf2 in
      if v1 =? 0 then Panic
      else
        let '(q, buf1) := div_loop (Z.to_nat (m - n)) buf1 buf2 n v1 v2 in
        let r :=
          if 1 <? d then rev (fst (divw_go d 0 (rev (ztake l2 buf1)))) else ztake l2 buf1 in
        Ok (q, r).

(** div.rs 194-199: div_correction, a while loop.  [div_corr_n n] runs up to
    2^n iterations and tells whether the loop condition was found false; the
    bound used is 2^(64 * length of q + 1), more than the value of q. *)
Fixpoint div_corr_n (n : nat) (a : sws) (q : words) (step : sws) : result (bool * sws * words) :=
  match n with
  | O =>
      if (sg a <? 0) && negb (all_zero (sw a)) then
        do q' <- decrement_abs q;
        Ok (false, sws_add_assign a step, q')
      else Ok (true, a, q)
  | S n' =>
      do (fin, a', q') <- div_corr_n n' a q step;
      if fin : bool then Ok (true, a', q') else div_corr_n n' a' q' step
  end.
Definition div_correction (a : sws) (q : words) (step : sws) : result (sws * words) :=
  do (fin, a', q') <- div_corr_n (S (64 * length q)) a q step;
  if fin : bool then Ok (a', q') else Panic.

(** Words from the top which are zero are cut off: div.rs 261-268. *)
Definition effective_len (m : words) : Z := zlen m - count_zero_words (rev m).

(** div.rs 203-307: div_recursive. Recursion by fuel on the length of m1. *)
Fixpoint div_recursive_fuel (fuel : nat) (m1 m2 : words) : result (words * words) :=
  match fuel with
  | O => Panic
  | S f =>
      if zlen m1 <? zlen m2 then Ok ([0], m1)
      else
        let m := zlen m1 - zlen m2 in
        if m <? 70 then div_basic m1 m2
        else
          let k := m / 2 in
          let k2 := Z.shiftl k 1 in
          let a1 := zdrop k2 m1 in
          let a0 := ztake k2 m1 in
          let b1 := zdrop k m2 in
          let b0 := ztake k m2 in
          do (q1, r1) <- div_recursive_fuel f a1 b1;
          (* a3 = a0 + r1*2^(2k) - q1*b0*2^k *)
          let rembuf := a0 ++ r1 ++ zeros (zlen m1 - k2 - zlen r1) in
          do t <- mul_unbalanced q1 b0 (zlen m1 - k);
          let qbk := ztake (zlen q1 + zlen b0 + k) (zeros k ++ t) in
          let a3 := sws_sub_assign (mk_sws rembuf 1) (mk_sws qbk 1) in
          do (a3, q1) <-
            (if sg a3 <? 0 then
               let b := zeros k ++ m2 ++ zeros (zlen m1 - k - zlen m2) in
               div_correction a3 q1 (mk_sws b 1)
             else Ok (a3, q1));
          let rembuf := sw a3 in
          let ub := effective_len rembuf in
          let q1 := try_extend q1 ((m + 1) * 64) in
          if k <? ub then
            let a31 := ztake (ub - k) (zdrop k rembuf) in
            do (q0, r0) <- div_recursive_fuel f a31 b1;
            (* a4 = r0*2^k + (a3 mod 2^k) - q0*b0 *)
            let rembuf := ztake k rembuf ++ r0 ++ zeros (zlen m1 - k - zlen r0) in
            do t <- mul_unbalanced q0 b0 (zlen m1);
            let qb := ztake (zlen q0 + zlen b0) t in
            let a4 := sws_sub_assign (mk_sws rembuf 1) (mk_sws qb 1) in
            do (a4, q0) <-
              (if sg a4 <? 0 then div_correction a4 q0 (mk_sws m2 1) else Ok (a4, q0));
            let q :=
              if k <? zlen q0 then
                ztake k q0 ++ sws_abs_add_assign (zdrop k q1) (zdrop k q0)
              else q0 ++ zdrop (zlen q0) q1 in
            Ok (q, sw a4)
          else Ok (q1, rembuf)
  end.
Definition div_recursive (m1 m2 : words) : result (words * words) :=
  div_recursive_fuel (S (length m1)) m1 m2.

(** div.rs 310-315: div_basic_prefer. *)
Definition div_basic_prefer (n m : Z) : bool :=
  (n <? 160) || (let lm := log2_ceil m in (13 <=? lm) && (n <? 50 * (lm - 13) + 200)).

(** div.rs 343-359: the loop of div_unbalanced. Returns (m, ub, buf1, buf3). *)
Fixpoint div_unb_loop (fuel : nat) (m2 : words) (n m ub : Z) (buf1 buf3 : words)
  : result (Z * Z * words * words) :=
  match fuel with
  | O => Panic
  | S f =>
      if n <? m then
        let mn := m - n in
        do (q, r) <- div_recursive (ztake (ub - mn) (zdrop mn buf3)) m2;
        let hi := sws_abs_add_assign (zdrop m buf1) (zdrop n q) in
        let buf1 := ztake mn buf1 ++ ztake n q ++ hi in
        let ub' := mn + Z.min (zlen r) n in
        let buf3 := ztake mn buf3 ++ ztake (ub' - mn) r ++ zeros (ub - ub') ++ zdrop ub buf3 in
        div_unb_loop f m2 n (m - n) ub' buf1 buf3
      else Ok (m, ub, buf1, buf3)
  end.

(** div.rs 318-370: div_unbalanced.  [buf1] starts uninitialised except its top word. *)
Definition div_unbalanced (m1 m2 : words) : result (words * words) :=
  if zlen m1 <? zlen m2 then Ok ([0], m1)
  else
    let m := zlen m1 - zlen m2 in
    let n := zlen m2 in
    if m <=? n then div_recursive m1 m2
    else if div_basic_prefer n m then div_basic m1 m2
    else
      do (m', ub, buf1, buf3) <-
        div_unb_loop (S (length m1)) m2 n m (zlen m1) (zeros (m + 1)) m1;
      do (q, r) <- div_recursive (ztake ub buf3) m2;
      let hi := sws_abs_add_assign (zdrop m' buf1) (zdrop m' q) in
      Ok (ztake m' q ++ hi, r).
