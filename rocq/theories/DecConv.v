(** Model of the decimal branch of the text conversion of numbers (conv.rs).
    Loops that repeat until a result can be rounded take [fuel] and return [None]
    when it does not suffice.  Products of lengths with 10-digit constants are not
    reduced modulo 2^64: the model is meant for precisions below 2^30 or so. *)

From Coq Require Import ZArith List Bool.
From Verif Require Import Words Mantissa Num Pow Conv Dec.
Import ListNotations.
Open Scope Z_scope.

(** Results of loops. *)
Definition obind {A B} (a : option (result A)) (f : A -> option (result B)) : option (result B) :=
  match a with
  | None => None
  | Some (Ok x) => f x
  | Some (Err e) => Some (Err e)
  | Some Panic => Some Panic
  end.

(** common/consts.rs 38: TEN = from_word(10, DEFAULT_P). *)
Definition TEN : num := mk_num (mk_m [0; 11529215046068469760] 128) Pos 4 false.
(** conv.rs 25-26. *)
Definition TEN_PWR_MAX_TO_DEC : Z := 536870911.
Definition TEN_PWR_MAX_FROM_DEC : Z := 646456991.

(** conv.rs 337-343: [k] multiplications or divisions by [t]; also 424-432. *)
Fixpoint scale_by (k : nat) (f t : num) (neg : bool) (p : Z) : result num :=
  match k with
  | O => Ok f
  | S k => do f <- (if neg then n_div f t p RNone else n_mul f t p RNone); scale_by k f t neg p
  end.
(** conv.rs 334-345: the full powers, when there are any. *)
Definition scale_full (fuel : nat) (npow : Z) (f : num) (neg : bool) (pw p : Z) : option (result num) :=
  if npow =? 0 then Some (Ok f)
  else obind (n_powi fuel TEN pw p RNone) (fun t => Some (scale_by (Z.to_nat npow) f t neg p)).
(** conv.rs 347-354: the rest. *)
Definition scale_rest (fuel : nat) (rem : Z) (f : num) (neg : bool) (p : Z) : option (result num) :=
  if rem =? 0 then Some (Ok f)
  else obind (n_powi fuel TEN rem p RNone) (fun t => Some (if neg then n_div f t p RNone else n_mul f t p RNone)).

(** conv.rs 326-362: the loop. *)
Fixpoint from_dec_loop (fuel : nat) (s : sign) (x : num) (n p : Z) (rm : rmode) (err p_wrk p_inc : Z) : option (result num) :=
  match fuel with
  | O => None
  | S fuel' =>
      let p_f := p_wrk + err in
      obind (scale_full fuel (Z.abs n / TEN_PWR_MAX_FROM_DEC) x (n <? 0) TEN_PWR_MAX_FROM_DEC p_f) (fun f =>
      obind (scale_rest fuel (Z.abs n mod TEN_PWR_MAX_FROM_DEC) f (n <? 0) p_f) (fun f =>
      match try_set_precision (set_sign f s) p rm p_wrk with
      | Ok (r, true) => Some (Ok r)
      | Ok (_, false) =>
          let p_wrk := p_wrk + p_inc in
          from_dec_loop fuel' s x n p rm err p_wrk (round_p (p_wrk / 5))
      | Err e => Some (Err e)
      | Panic => Some Panic
      end))
  end.

(** The leading zeros of the digits. *)
Fixpoint skip_zeros (ds : list Z) : list Z :=
  match ds with d :: ds' => if d =? 0 then skip_zeros ds' else ds | [] => [] end.

(** conv.rs 308-314: the precision. *)
Definition from_dec_p (digits : list Z) (p : Z) : result Z :=
  if p <? USIZE_MAX then Ok p
  else
    let p := round_p (zlen digits * 3321928095 / 1000000000 + 1) in
    do _ <- p_assertion p; Ok p.

(** conv.rs 274-363: conv_from_dec. *)
Definition n_conv_from_dec (fuel : nat) (tp : list tenpower) (s : sign) (digits : list Z) (e p : Z) (rm : rmode)
  : option (result num) :=
  match skip_zeros digits with
  | [] => Some (n_new (if p <? USIZE_MAX then p else 128))
  | ds =>
      obind (Some (cc_tenpowers tp (log2_ceil (zlen ds)))) (fun tp =>
      obind (Some (m_conv_from_dec ds tp)) (fun m =>
      if EXPONENT_MAX <? mn m then Some (Err (ExponentOverflow s))
      else
        let x := mk_num (snd (m_normilize2 m)) s (mn m) false in
        let n := e - zlen digits in
        obind (Some (from_dec_p digits p)) (fun p =>
        let npowmax := Z.abs n / TEN_PWR_MAX_FROM_DEC in
        let tenpowrem := Z.abs n mod TEN_PWR_MAX_FROM_DEC in
        let err := 3 * npowmax + (if tenpowrem =? 0 then 0 else 3) in
        from_dec_loop fuel s x n p rm err (p + 64) 64)))
  end.

(** conv.rs 68: the decimal branch of convert_from_radix, as a plain result; too
    little fuel shows as a panic. *)
Definition dec_branch (fuel : nat) (tp : list tenpower) (s : sign) (digits : list Z) (e p : Z) (rm : rmode) : result num :=
  match n_conv_from_dec fuel tp s digits e p rm with Some r => r | None => Panic end.

(** conv.rs 560-571: get_rem. *)
Definition get_rem (ds : list Z) : bool * bool := (forallb (fun d => d =? 0) ds, forallb (fun d => d =? 9) ds).

(** conv.rs 643-656: add 1; [rds] has the least significant digit first. *)
Fixpoint inc_digits (rds : list Z) : list Z * bool :=
  match rds with
  | [] => ([], true)
  | d :: r => if d <? 9 then (d + 1 :: r, false) else let '(r, c) := inc_digits r in (0 :: r, c)
  end.

(** conv.rs 551-662: round_dec.  Returns the digits, check_roundable and the carry. *)
Definition round_dec (ds : list Z) (n : Z) (rm : rmode) (pos chk : bool) : list Z * bool * bool :=
  match rm with
  | RNone => (ds, false, false)
  | _ =>
      if (0 <? n) && (n <? zlen ds) then
        let nearest_mode := match rm with RToEven | RToOdd => true | _ => false end in
        let tail := if nearest_mode then zdrop (n + 1) ds else zdrop n ds in
        let '(rem0, rem9) := get_rem tail in
        if chk && (rem0 || rem9) then (ds, chk, false)
        else
          let is_even := znth (n - 1) ds mod 2 =? 0 in
          let dn := znth n ds in
          let c :=
            match rm with
            | RToEven => if dn =? 5 then negb is_even || negb rem0 else 5 <? dn
            | RToOdd => if dn =? 5 then is_even || negb rem0 else 5 <? dn
            | RFromZero => negb rem0
            | RUp => negb rem0 && pos
            | RDown => negb rem0 && negb pos
            | RToZero | RNone => false
            end in
          let hd := ztake n ds in
          let z := zeros (zlen ds - n) in
          if c then
            let '(r, carry) := inc_digits (rev hd) in
            let h := rev r in
            ((if carry then 1 :: tl h else h) ++ z, false, carry)
          else (hd ++ z, false, false)
      else (ds, chk, false)
  end.

(** conv.rs 517-546: try_round_dec: the digits, the exponent and the verdict. *)
Definition try_round_dec (ds : list Z) (n : Z) (rm : rmode) (s : sign) (e : Z) (inexact : bool)
  : result (list Z * Z * bool) :=
  if 0 <? n then
    let '(ds, chk, ovf) := round_dec ds n rm (is_pos s) inexact in
    if chk then Ok (ds, e, false)
    else if ovf then if e =? EXPONENT_MAX then Err (ExponentOverflow s) else Ok (ds, e + 1, true)
    else Ok (ds, e, true)
  else Ok (ds, e, true).

(** Vec::resize with zeros. *)
Definition resize (ds : list Z) (n : Z) : list Z := ztake n ds ++ zeros (n - zlen ds).
(** conv.rs 497-500: remove trailing zeros. *)
Definition drop_zeros (ds : list Z) : list Z := rev (skip_zeros (rev ds)).

(** conv.rs 410-513: the loop.  [conv] is the conversion of an integer to digits
    ([m_conv_to_dec]).  The conversion of e_out to i32 cannot wrap: it is about 0.3
    times the exponent of [x]. *)
Fixpoint to_dec_loop (conv : nat -> mantissa -> Z -> list tenpower -> bool -> result (list Z))
  (fuel : nat) (tp : list tenpower) (x0 : num) (rm : rmode) (n p_wrk p_inc err : Z) : option (result (sign * list Z * Z)) :=
  match fuel with
  | O => None
  | S fuel' =>
      let subn_e := mantissa_max_bit_len x0 - precision x0 in
      let x := set_inexact x0 false in
      let n_wrk := Z.quot ((p_wrk - ne x0 + subn_e) * 301029996) 1000000000 + 1 in
      let pwr := Z.abs n_wrk in
      let neg := n_wrk <? 0 in
      let full := if TEN_PWR_MAX_TO_DEC <? pwr then (pwr - 1) / TEN_PWR_MAX_TO_DEC else 0 in
      obind (scale_full fuel full x neg TEN_PWR_MAX_TO_DEC p_wrk) (fun x =>
      let pwr := pwr - full * TEN_PWR_MAX_TO_DEC in
      obind (scale_rest fuel pwr x neg p_wrk) (fun x =>
      let err_acc := (if full =? 0 then 0 else 1 + 2 * full) + (if pwr =? 0 then 0 else 3) in
      if err <? err_acc then
        let err_acc := err_acc + (err_acc / TEN_PWR_MAX_TO_DEC + 3) in
        to_dec_loop conv fuel' tp x0 rm n (p_wrk + round_p (err_acc - err)) p_inc err_acc
      else
        let shift := ne x - p_wrk in
        if shift <? 0 then Some Panic
        else
          let m := if 0 <? shift then m_shift_left_resize (nm x) shift else nm x in
          let l := mn m * 301029996 / 1000000000 + 1 in
          let k := log2_ceil l in
          if k <? 1 then Some Panic
          else
            obind (Some (cc_tenpowers tp k)) (fun tp =>
            obind (Some (conv (Z.to_nat (k - 1)) m (2 ^ k) tp true)) (fun digits =>
            let e_out := zlen digits - n_wrk in
            let e_subn := Z.max 0 (EXPONENT_MIN - e_out) in
            let e_out := Z.max e_out EXPONENT_MIN in
            let valid := zlen digits - (shift + err_acc) * 301029996 / 1000000000 - 1 in
            let again :=
              let p_wrk := p_wrk + p_inc in
              to_dec_loop conv fuel' tp x0 rm n p_wrk (round_p (p_wrk / 5)) err in
            if (n <? zlen digits) && (n <? valid) then
              match try_round_dec (ztake valid digits) n rm (ns x0) e_out (ninexact x) with
              | Ok (ds, e_out, true) =>
                  let digits := ds ++ zdrop valid digits in
                  let '(digits, e_out) :=
                    if 0 <? e_subn then
                      let '(e_subn, e_out) := if EXPONENT_MIN <? e_out then (e_subn - 1, EXPONENT_MIN) else (e_subn, e_out) in
                      let rsz := if n <? zlen digits then n else zlen digits in
                      (zeros e_subn ++ ztake rsz digits, e_out)
                    else (if n <? zlen digits then resize digits n else digits, e_out) in
                  Some (Ok (ns x0, drop_zeros digits, e_out))
              | Ok (_, _, false) => again
              | Err e => Some (Err e)
              | Panic => Some Panic
              end
            else again))))
  end.

(** conv.rs 388-515: conv_to_dec. *)
Definition n_conv_to_dec_with conv (fuel : nat) (tp : list tenpower) (x : num) (rm : rmode) : option (result (sign * list Z * Z)) :=
  if precision x =? 0 then Some (Ok (ns x, [], 0))
  else
    let n := mantissa_max_bit_len x * 301029996 / 1000000000 + 1 in
    to_dec_loop conv fuel tp x rm n (round_p (n * 3321928095 / 1000000000 + 1 + 64)) 64 64.
Definition n_conv_to_dec := n_conv_to_dec_with m_conv_to_dec.
