(** Model of ops/consts: binary splitting for e, pi, ln 2 and ln 10, the caches and
    their [for_prec], and the functions of [Consts] that use them.  No proofs in
    this file. *)

From Coq Require Import ZArith List Bool.
From Verif Require Import Words Mantissa Num Ext.
Import ListNotations.
Open Scope Z_scope.

(** u64/usize arithmetic: overflow panics (as in builds with overflow checks). *)
Definition chk (v : Z) : result Z := if (0 <=? v) && (v <? WORD_BASE) then Ok v else Panic.

(** The recursion shared by e.rs 9-27 (pq), pi.rs 8-45, ln2.rs 11-33 and ln10.rs
    9-31 (pqr): a leaf for a range of length one, otherwise both halves and a
    join.  Each level halves the range, so 64 levels are enough for usize; running
    out of fuel is a panic. *)
Fixpoint splitting {T : Type} (leaf : Z -> result T) (join : T -> T -> result T) (f : nat) (a b : Z) : result T :=
  match f with
  | O => Panic
  | S f =>
      if a =? b - 1 then leaf b
      else
        let m := (a + b) / 2 in
        do x <- splitting leaf join f a m;
        do y <- splitting leaf join f m b;
        join x y
  end.

(** ** e.rs *)

(** e.rs 10-14: the leaf. *)
Definition e_leaf (b : Z) : result (num * num) :=
  do b <- chk b;
  let q := from_usize b in
  do p <- from_word 1 1;
  Ok (p, q).
(** e.rs 21-25, and 38-40 in pqr_inc. *)
Definition e_join (x y : num * num) : result (num * num) :=
  let '(pa, qa) := x in
  let '(pb, qb) := y in
  do q <- n_mul_full_prec qa qb;
  do n0 <- n_mul_full_prec pa qb;
  do p <- n_add_full_prec n0 pb;
  Ok (p, q).
(** e.rs 9-27: pq. *)
Definition e_pq (a b : Z) : result (num * num) := splitting e_leaf e_join 65 a b.
(** e.rs 29-43: pqr_inc. *)
Definition e_inc (x : num * num) (m : Z) : result (num * num * Z) :=
  do b <- chk (m * 2);
  do y <- e_pq m b;
  do r <- e_join x y;
  Ok (r, b).

(** e.rs 55-60: calc_e. *)
Definition calc_e (x : num * num) : result num :=
  let '(p, q) := x in
  let prec := Z.max (mantissa_max_bit_len p) (mantissa_max_bit_len q) in
  do f0 <- n_div p q prec RNone;
  n_add f0 ONE prec RNone.

(** e.rs 77-94: b_factor; the divisor must be positive. *)
Definition b_factor (x : Z) : result Z :=
  let ln := log2_floor x in
  let lln := log2_floor ln in
  if ln - lln - 3 <=? 0 then Panic else Ok (x / (ln - lln - 3)).

(** ** pi.rs *)

(** pi.rs 9-29: the leaf. *)
Definition pi_leaf (b : Z) : result (num * num * num) :=
  do v0 <- chk (6 * b - 5);
  do n0 <- from_uint 64 v0 64;
  do v1 <- chk (2 * b - 1);
  do n1 <- from_uint 64 v1 64;
  do v2 <- chk (6 * b - 1);
  do n2 <- from_uint 64 v2 64;
  do n3 <- n_mul_full_prec n0 n1;
  do r <- n_mul_full_prec n3 n2;
  do n0 <- from_uint 64 10939058860032000 64;
  do n1 <- from_uint 64 b 64;
  do n2 <- n_mul_full_prec n1 n1;
  do n3 <- n_mul_full_prec n2 n1;
  do q <- n_mul_full_prec n0 n3;
  do v <- chk (13591409 + 545140134 * b);
  do n0 <- from_uint 64 v 64;
  do p <- n_mul_full_prec r n0;
  let p := if negb (Z.land b 1 =? 0) then n_neg p else p in
  Ok (p, q, r).
(** pi.rs 36-40, and 58-62 in pqr_inc. *)
Definition pi_join (x y : num * num * num) : result (num * num * num) :=
  let '(pa, qa, ra) := x in
  let '(pb, qb, rb) := y in
  do r <- n_mul_full_prec ra rb;
  do q <- n_mul_full_prec qa qb;
  do n0 <- n_mul_full_prec pa qb;
  do n1 <- n_mul_full_prec pb ra;
  do p <- n_add_full_prec n0 n1;
  Ok (p, q, r).
(** pi.rs 8-45: pqr. *)
Definition pi_pqr (a b : Z) : result (num * num * num) := splitting pi_leaf pi_join 65 a b.

(** ** ln2.rs and ln10.rs *)

(** ln2.rs 12-17: the leaf. *)
Definition ln2_leaf (b : Z) : result (num * num * num) :=
  do p <- from_word 1 1;
  do v <- chk ((2 * b + 1) * 9);
  let q := from_usize v in
  do v <- chk (2 * b + 1);
  let r := from_usize v in
  Ok (p, q, r).
(** ln10.rs 10-15: the leaf. *)
Definition ln10_leaf (b : Z) : result (num * num * num) :=
  do p <- from_word 81 1;
  do v <- chk ((2 * b + 1) * 121);
  let q := from_usize v in
  do v <- chk ((2 * b + 1) * 81);
  let r := from_usize v in
  Ok (p, q, r).
(** ln2.rs 24-29 and 45-50, ln10.rs 22-27 and 43-48. *)
Definition ln_join (x y : num * num * num) : result (num * num * num) :=
  let '(pa, qa, ra) := x in
  let '(pb, qb, rb) := y in
  do pq <- n_mul_full_prec pa qb;
  do pr <- n_mul_full_prec pb ra;
  do p <- n_add_full_prec pq pr;
  do q <- n_mul_full_prec qa qb;
  do r <- n_mul_full_prec ra rb;
  Ok (p, q, r).
(** ln2.rs 11-33, ln10.rs 9-31: pqr. *)
Definition ln2_pqr (a b : Z) : result (num * num * num) := splitting ln2_leaf ln_join 65 a b.
Definition ln10_pqr (a b : Z) : result (num * num * num) := splitting ln10_leaf ln_join 65 a b.

(** pi.rs 47-65, ln2.rs 35-53, ln10.rs 33-51: pqr_inc. *)
Definition pi_inc (x : num * num * num) (m : Z) : result (num * num * num * Z) :=
  do b <- chk (m * 2); do y <- pi_pqr m b; do r <- pi_join x y; Ok (r, b).
Definition ln2_inc (x : num * num * num) (m : Z) : result (num * num * num * Z) :=
  do b <- chk (m * 2); do y <- ln2_pqr m b; do r <- ln_join x y; Ok (r, b).
Definition ln10_inc (x : num * num * num) (m : Z) : result (num * num * num * Z) :=
  do b <- chk (m * 2); do y <- ln10_pqr m b; do r <- ln_join x y; Ok (r, b).

(** pi.rs 78-97: calc_pi. *)
Definition calc_pi (x : num * num * num) (k : Z) : result num :=
  let '(p, q, _) := x in
  do n0 <- from_word 4270934400 1;
  do n1 <- from_word 13591409 1;
  do q0 <- n_mul_full_prec q n0;
  do q1 <- n_mul_full_prec q n1;
  do p0 <- n_add_full_prec p q1;
  do f3 <- from_word 10005 1;
  do f4 <- n_sqrt f3 k RNone;
  let prec := Z.max (mantissa_max_bit_len p0) (mantissa_max_bit_len f4) in
  do f5 <- n_mul p0 f4 prec RNone;
  let prec := Z.max (mantissa_max_bit_len q0) (mantissa_max_bit_len f5) in
  n_div q0 f5 prec RNone.

(** common/consts.rs 32: THREE = from_word(3, DEFAULT_P). *)
Definition THREE : num := mk_num (mk_m [0; 13835058055282163712] 128) Pos 2 false.

(** ln2.rs 69-74 and 112-117: 2 * (1 + p / q) / 3. *)
Definition calc_ln2 (x : num * num * num) : result num :=
  let '(p, q, _) := x in
  let prec := Z.max (mantissa_max_bit_len p) (mantissa_max_bit_len q) in
  do v <- n_div p q prec RNone;
  do v <- n_add v ONE prec RNone;
  do v <- n_div v THREE prec RNone;
  Ok (set_exponent v (ne v + 1)).

(** ln10.rs 78-87: calc_ln10. *)
Definition calc_ln10 (x : num * num * num) : result num :=
  let '(p, q, _) := x in
  let prec := Z.max (mantissa_max_bit_len p) (mantissa_max_bit_len q) in
  do v <- n_div p q prec RNone;
  do v <- n_add v ONE prec RNone;
  do f0 <- from_word 18 1;
  do f1 <- from_word 11 1;
  do v <- n_mul v f0 prec RNone;
  n_div v f1 prec RNone.

(** ** The caches *)

(** e.rs 46-52, pi.rs 69-75, ln2.rs 57-63, ln10.rs 55-61: a number of terms, the
    sums and the value computed from them.  [T] is a pair for e, else a triple. *)
Record cache (T : Type) := mk_cache { c_b : Z; c_sum : T; c_val : num }.
Arguments mk_cache {T}.
Arguments c_b {T}.
Arguments c_sum {T}.
Arguments c_val {T}.

(** The four [for_prec] (e.rs 97-129, pi.rs 114-153, ln2.rs 85-126, ln10.rs 91-132)
    differ in [inc] (pqr_inc), [calc] (the value from the sums and the number of
    terms) and [kext] (terms needed, from k and p_wrk). *)
Section ForPrec.
Context {T : Type} (inc : T -> Z -> result (T * Z)) (calc : T -> Z -> result num) (kext : Z -> Z -> result Z).

(** e.rs 119-121 and the like: while bb <= kext.  [b] doubles, so 65 steps leave
    the usize range. *)
Fixpoint grow (f : nat) (x : T) (b k : Z) : result (T * Z) :=
  if b <=? k then
    match f with
    | O => Panic
    | S f => do (x, b) <- inc x b; grow f x b k
    end
  else Ok (x, b).

(** The part of the loop body after the test: e.rs 112-127 and the like. *)
Definition extend_cache (c : cache T) (kx : Z) : result (cache T) :=
  do (x, b) <- inc (c_sum c) (c_b c);
  do (x, b) <- grow 65 x b kx;
  do v <- calc x b;
  Ok (mk_cache b x v).

(** The loop.  Returns the cache and the result; None is out of fuel. *)
Fixpoint for_prec_loop (f : nat) (c : cache T) (k : Z) (rm : rmode) (p_wrk p_inc : Z) : option (cache T * result num) :=
  match f with
  | O => None
  | S f =>
      match kext k p_wrk with
      | Err e => Some (c, Err e)
      | Panic => Some (c, Panic)
      | Ok kx =>
          let next p_wrk p_inc :=
            match extend_cache c kx with
            | Ok c' => for_prec_loop f c' k rm p_wrk p_inc
            | Err e => Some (c, Err e)
            | Panic => Some (c, Panic)
            end in
          if kx <? c_b c then
            match try_set_precision (c_val c) k rm p_wrk with
            | Ok (r, true) => Some (c, Ok r)
            | Ok (_, false) => next (p_wrk + p_inc) (round_p ((p_wrk + p_inc) / 5))
            | Err e => Some (c, Err e)
            | Panic => Some (c, Panic)
            end
          else next p_wrk p_inc
      end
  end.

Definition for_prec (f : nat) (c : cache T) (k : Z) (rm : rmode) : option (cache T * result num) :=
  for_prec_loop f c k rm (round_p k + 64) 64.

(** The caches' [new]: sums over 0..b. *)
Definition new_cache (first : result T) (b : Z) : result (cache T) :=
  do x <- first; do v <- calc x b; Ok (mk_cache b x v).
End ForPrec.

(** e.rs 62-75, 97-129. *)
Definition e_calc (x : num * num) (_ : Z) : result num := calc_e x.
Definition e_kext (_ p_wrk : Z) : result Z := b_factor p_wrk.
Definition e_new : result (cache (num * num)) := new_cache e_calc (e_pq 0 64) 64.
Definition e_for_prec := for_prec e_inc e_calc e_kext.

(** pi.rs 99-153: the square root gets 47 bits per term, but 1 bit in [new]. *)
Definition pi_calc (x : num * num * num) (b : Z) : result num := calc_pi x (b * 47).
Definition pi_kext (k _ : Z) : result Z := Ok ((k + 46 + 64) / 47).
Definition pi_new : result (cache (num * num * num)) := new_cache (fun x _ => calc_pi x 1) (pi_pqr 0 1) 1.
Definition pi_for_prec := for_prec pi_inc pi_calc pi_kext.

(** ln2.rs 66-126. *)
Definition ln2_calc (x : num * num * num) (_ : Z) : result num := calc_ln2 x.
Definition ln2_kext (k _ : Z) : result Z := Ok (k / 2 + 4).
Definition ln2_new : result (cache (num * num * num)) := new_cache ln2_calc (ln2_pqr 0 1) 1.
Definition ln2_for_prec := for_prec ln2_inc ln2_calc ln2_kext.

(** ln10.rs 64-132. *)
Definition ln10_calc (x : num * num * num) (_ : Z) : result num := calc_ln10 x.
Definition ln10_kext (k _ : Z) : result Z := Ok (k * 1728 / 1000 + 4).
Definition ln10_new : result (cache (num * num * num)) := new_cache ln10_calc (ln10_pqr 0 1) 1.
Definition ln10_for_prec := for_prec ln10_inc ln10_calc ln10_kext.

(** ops/consts/mod.rs 60-107 and 111-145: pi_num .. ln_10_num round the precision
    up first; pi .. ln_10 turn an error into NaN. *)
Definition const_num {T} (fp : nat -> cache T -> Z -> rmode -> option (cache T * result num)) (f : nat) (c : cache T) (p : Z) (rm : rmode) :=
  fp f c (round_p p) rm.
Definition const_ext {T} (fp : nat -> cache T -> Z -> rmode -> option (cache T * result num)) (f : nat) (c : cache T) (p : Z) (rm : rmode)
  : option (cache T * result ext) :=
  match const_num fp f c p rm with
  | None => None
  | Some (c, Ok v) => Some (c, Ok (Value v))
  | Some (c, Err e) => Some (c, Ok (NaN (Some e)))
  | Some (c, Panic) => Some (c, Panic)
  end.
