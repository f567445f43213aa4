(** Specification vocabulary for digit strings and numeric literals.  Only
    integers, reals and lists; nothing here refers to the algorithms of the model. *)

From Coq Require Import ZArith Reals List Bool.
From Flocq Require Import Core.
From Verif Require Import Words Mantissa Num Ext Conv Parser SpecZ Spec.
Import ListNotations.
Open Scope Z_scope.

(** The natural number denoted by digits in base [b], most significant first. *)
Definition dig_val (b : Z) (ds : list Z) : Z := fold_left (fun a d => a * b + d) ds 0.

Definition digits_ok (b : Z) (ds : list Z) : Prop := Forall (fun d => 0 <= d < b) ds.

(** The radix as a Flocq radix. *)
Definition radix_of (r : rdx) : radix :=
  match r with
  | Bin => Build_radix 2 eq_refl
  | Oct => Build_radix 8 eq_refl
  | Dec => Build_radix 10 eq_refl
  | Hex => Build_radix 16 eq_refl
  end.

(** The real number  sign * 0.d1d2...dn * radix^e. *)
Definition digits_value (r : rdx) (s : sign) (ds : list Z) (e : Z) : R :=
  F2R (Float (radix_of r) (sgnZ s * dig_val (rdx_num r) ds) (e - Z.of_nat (length ds))).

(** What reading a nonzero real [r] with precision [p] (a number of bits) must
    return: one rounding with gradual underflow. *)
Definition reads_as (p : Z) (rm : rmode) (r : R) (s : sign) (res : result num) : Prop :=
  let z := rnd_grad p rm r in
  ((bpow radix2 EMAX <= Rabs z)%R -> res = Err (ExponentOverflow s)) /\
  ((Rabs z < bpow radix2 EMAX)%R ->
   exists q, res = Ok q /\ wf q /\ 64 * wlen q = p /\ ns q = s /\ value q = z /\
     (ninexact q = true <-> z <> r)).

(** Modes that move a tiny value of sign [s] away from zero. *)
Definition outward (rm : rmode) (s : sign) : Prop :=
  match rm, s with
  | RFromZero, _ | RUp, Pos | RDown, Neg => True
  | _, _ => False
  end.

(** The values for which reading octal and hexadecimal digits rounds correctly:
    zero, the normal range, and below it every mode but None, except that the
    outward modes need a magnitude not below the smallest positive number. *)
Definition readable (p : Z) (rm : rmode) (s : sign) (r : R) : Prop :=
  r = 0%R \/ (bpow radix2 (EMIN - 1) <= Rabs r)%R \/
  (rm <> RNone /\ (~ outward rm s \/ (bpow radix2 (EMIN - p) <= Rabs r)%R)).

(** The digit strings on which the base-2 reader builds a well-formed number. *)
Definition bin_norm (ds : list Z) (e : Z) (rm : rmode) : Prop :=
  hd 0 ds = 1 \/ (ds <> [] /\ dig_val 2 ds = 0 /\ e = 0) \/ (dig_val 2 ds <> 0 /\ e = EMIN /\ rm <> RNone).

(** Bits per digit (not used for the decimal radix). *)
Definition bits_of (r : rdx) : Z := match r with Bin => 1 | Oct => 3 | Dec => 0 | Hex => 4 end.

(** ** Numeric literals *)

(** The digit a character stands for. *)
Definition char_digit (c : Z) : option Z :=
  if (48 <=? c) && (c <=? 57) then Some (c - 48)
  else if (65 <=? c) && (c <=? 70) then Some (c - 55)
  else if (97 <=? c) && (c <=? 102) then Some (c - 87)
  else None.
Definition digit_at (c : Z) : Z := match char_digit c with Some d => d | None => 0 end.
Definition digit_chars_ok (r : rdx) (l : list Z) : Prop :=
  Forall (fun c => exists d, char_digit c = Some d /\ d < rdx_num r) l.
(** The number written by a list of digit characters. *)
Definition number_of (r : rdx) (l : list Z) : Z := dig_val (rdx_num r) (map digit_at l).

(** [+-] digits [. digits] [e [+-] digits]; the exponent mark is "e" or "E", in
    hexadecimal "_e" or "_E". *)
Record literal := mk_lit {
  l_sign : option sign; l_int : list Z; l_frac : option (list Z); l_exp : option (bool * option sign * list Z) }.

Definition sign_chars (s : option sign) : list Z := match s with None => [] | Some Pos => [43] | Some Neg => [45] end.
Definition frac_digits (l : literal) : list Z := match l_frac l with None => [] | Some f => f end.
Definition lit_sign (l : literal) : sign := match l_sign l with Some s => s | None => Pos end.
Definition lit_exp (r : rdx) (l : literal) : Z :=
  match l_exp l with
  | None => 0
  | Some (_, s, ds) => sgnZ (match s with Some s => s | None => Pos end) * number_of r ds
  end.

Definition lit_text (r : rdx) (l : literal) : list Z :=
  sign_chars (l_sign l) ++ l_int l ++ match l_frac l with None => [] | Some f => 46 :: f end ++
  match l_exp l with
  | None => []
  | Some (up, s, ds) => match r with Hex => [95] | _ => [] end ++ (if up : bool then 69 else 101) :: sign_chars s ++ ds
  end.

Definition lit_ok (r : rdx) (l : literal) : Prop :=
  digit_chars_ok r (l_int l) /\ digit_chars_ok r (frac_digits l) /\ (l_int l <> [] \/ frac_digits l <> []) /\
  match l_exp l with None => True | Some (_, _, ds) => digit_chars_ok r ds end.

(** The real number the literal denotes. *)
Definition lit_value (r : rdx) (l : literal) : R :=
  F2R (Float (radix_of r) (sgnZ (lit_sign l) * number_of r (l_int l ++ frac_digits l)) (lit_exp r l - Z.of_nat (length (frac_digits l)))).

(** The integer digits without leading zeros, and the exponent of the first of them. *)
Fixpoint drop_zeros (ds : list Z) : list Z :=
  match ds with
  | [] => []
  | d :: t => if d =? 0 then drop_zeros t else ds
  end.
Definition int_digits (l : literal) : list Z := drop_zeros (map digit_at (l_int l)).
Definition lit_adjusted (r : rdx) (l : literal) : Z := lit_exp r l + Z.of_nat (length (int_digits l)).
(** All digits of the literal without the leading zeros of the integer part. *)
Definition lit_digits (l : literal) : list Z := int_digits l ++ map digit_at (frac_digits l).

(** The condition under which the reader of radix [r] rounds once. *)
Definition text_readable (r : rdx) (p : Z) (rm : rmode) (s : sign) (ds : list Z) (e : Z) : Prop :=
  match r with Bin => bin_norm ds e rm | _ => readable p rm s (digits_value r s ds e) end.
