(** Property theorems: digits and text in base 2, 8 and 16, and the parser. *)

From Coq Require Import ZArith List Bool Lia Reals Lra.
From Flocq Require Import Core.
From Verif Require Import Words Mantissa Num Ext Conv Parser SpecZ Spec SpecText WordsP RealP RealP2 SetP RadixP RadixNum ParserP TextTop Refute1 Refute4.
Import ListNotations.
Open Scope Z_scope.

(** -11.25 *)
Definition ex_text : num := mk_num (mk_m [45 * 2 ^ 58] 64) Neg 4 false.
Lemma ex_text_wf : wf ex_text /\ normal ex_text.
Proof.
  split; [|split; [reflexivity|vm_compute; discriminate]]. constructor.
  - constructor; [split; [discriminate|reflexivity]|constructor].
  - reflexivity.
  - reflexivity.
  - cbn [ne ex_text]. lia.
  - intros H. vm_compute in H. discriminate H.
  - intros [_ H]. vm_compute in H. discriminate H.
Qed.
(** "-0B.4_e+0" *)
Definition ex_lit : literal := mk_lit (Some Neg) [48; 66] (Some [52]) (Some (false, Some Pos, [48])).
Lemma ex_lit_ok : lit_ok Hex ex_lit.
Proof. split; [|split; [|split; [left; discriminate|]]]; repeat constructor; eexists; (split; [reflexivity|cbn; lia]). Qed.

(** ** C37: the digits of a number *)
Theorem C37_to_digits : forall x r, r <> Dec -> wf x -> 0 < wlen x ->
  exists ds e, (forall dec rm, convert_to_radix dec x r rm = Ok (ns x, ds, e)) /\
    digits_ok (rdx_num r) ds /\ digits_value r (ns x) ds e = value x /\
    (ds = [] <-> magnitude x = 0) /\ (ds = [] \/ last ds 0 <> 0).
Proof.
  intros x r Hr W L. destruct (to_digits_value x r Hr W L) as (ds & e & A & B & C & D & E & _).
  exists ds, e. split; [exact A|]. split; [exact B|]. split; [exact C|]. split; [exact D|exact E].
Qed.
Theorem C37_first_digit : forall x r, r <> Dec -> wf x -> normal x ->
  exists ds e, (forall dec rm, convert_to_radix dec x r rm = Ok (ns x, ds, e)) /\ hd 0 ds <> 0.
Proof. exact to_digits_first. Qed.
Example C37_case : wf ex_text /\ normal ex_text /\ forall dec rm, convert_to_radix dec ex_text Oct rm = Ok (Neg, [1; 3; 2], 2).
Proof. split; [apply ex_text_wf|]. split; [apply ex_text_wf|]. reflexivity. Qed.

(** ** C38: reading digits *)
Theorem C38_from_digits : forall dec r s ds e p rm, r <> Dec -> digits_ok (rdx_num r) ds -> 0 < p -> prec_up p + 64 < P_LIM -> bits_of r * zlen ds + 128 < P_LIM ->
  EMIN <= e <= EMAX -> (r = Bin -> bin_norm ds e rm) -> (r <> Bin -> readable (prec_up p) rm s (digits_value r s ds e)) ->
  reads_as (prec_up p) rm (digits_value r s ds e) s (convert_from_radix dec s ds e r p rm).
Proof. exact from_radix_reads. Qed.
Theorem C38_rejects : forall dec r s ds e p rm, r <> Dec -> Forall (fun v => 0 <= v) ds -> Exists (fun v => rdx_num r <= v) ds -> zlen ds < 2 ^ 60 -> 0 < p ->
  convert_from_radix dec s ds e r p rm = Err InvalidArgument \/ convert_from_radix dec s ds e r p rm = Err (ExponentOverflow s).
Proof. exact from_radix_rejects. Qed.
(** Precision zero reads every digit string as the zero without words, in base 10 too. *)
Theorem C38_precision_zero : forall dec r s ds e rm, exists q, convert_from_radix dec s ds e r 0 rm = Ok q /\ magnitude q = 0 /\ wlen q = 0 /\ ns q = Pos /\ ninexact q = false.
Proof. intros. exists (mk_num (mk_m [] 0) Pos 0 false). split; [reflexivity|]. repeat split. Qed.
Example C38_case : digits_ok (rdx_num Oct) [1; 3; 2] /\ readable (prec_up 64) RToEven Neg (digits_value Oct Neg [1; 3; 2] 2) /\ bin_norm [1; 0; 1] 7 RUp.
Proof.
  split; [repeat constructor; cbn; lia|]. split; [right; right; split; [discriminate|left; intros []]|left; reflexivity].
Qed.

(** ** C39: text round trip *)
Theorem C39_round_trip : forall dec dec' x r p rm rm', r <> Dec -> wf x -> 0 < wlen x -> 64 * wlen x <= p -> prec_up p + 256 < P_LIM ->
  (rm <> RNone \/ normal x \/ magnitude x = 0) ->
  exists txt q, x_format dec (Value x) r rm' = Ok txt /\ x_parse dec' txt r p rm = Ok (Value q) /\
    wf q /\ value q = value x /\ ns q = ns x /\ 64 * wlen q = prec_up p /\ ninexact q = false.
Proof. exact round_trip. Qed.
Theorem C39_special : forall dec dec' r p rm rm',
  (forall s, exists txt, x_format dec (Inf s) r rm' = Ok txt /\ x_parse dec' txt r p rm = Ok (Inf s)) /\
  (forall e, exists txt, x_format dec (NaN e) r rm' = Ok txt /\ x_parse dec' txt r p rm = Ok NAN).
Proof. exact round_trip_special. Qed.
Theorem C39_format : forall x r, r <> Dec -> wf x -> 0 < wlen x ->
  exists l, (forall dec rm, n_format dec x r rm = Ok (lit_text r l)) /\ lit_ok r l /\ lit_sign l = ns x /\ lit_value r l = value x.
Proof.
  intros x r Hr W L. destruct (format_literal x r Hr W L) as (l & A & B & C & D & _). exists l. split; [exact A|]. split; [exact B|]. split; [exact C|exact D].
Qed.
(** "-B.4_e+0" *)
Example C39_case : wf ex_text /\ forall dec rm, n_format dec ex_text Hex rm = Ok [45; 66; 46; 52; 95; 101; 43; 48].
Proof. split; [apply ex_text_wf|]. reflexivity. Qed.

(** ** C40: the parser *)
Theorem C40_literal : forall r l, lit_ok r l -> Z.abs (lit_exp r l) < 2 ^ 32 -> zlen (l_int l) < 2 ^ 62 ->
  exists ps, parse (lit_text r l) r = Ok ps /\ p_sign ps = lit_sign l /\ p_nan ps = false /\
  (lit_digits l = [] -> p_inf ps = false /\ p_bytes ps = [] /\ p_e ps = 0) /\
  (lit_digits l <> [] -> lit_adjusted r l < EMIN -> p_inf ps = false /\ p_bytes ps = [0] /\ p_e ps = 0) /\
  (lit_digits l <> [] -> EMAX < lit_adjusted r l -> p_inf ps = true) /\
  (lit_digits l <> [] -> EMIN <= lit_adjusted r l <= EMAX -> p_inf ps = false /\ p_bytes ps = lit_digits l /\ p_e ps = lit_adjusted r l).
Proof. exact parse_literal. Qed.
Theorem C40_same_number : forall r l, digits_value r (lit_sign l) (lit_digits l) (lit_adjusted r l) = lit_value r l.
Proof. exact lit_digits_value. Qed.
Theorem C40_total : forall str r, exists ps, parse str r = Ok ps /\ digits_ok (rdx_num r) (p_bytes ps) /\
  (p_inf ps = false -> p_nan ps = false -> EMIN <= p_e ps <= EMAX).
Proof. exact parse_total. Qed.
Theorem C40_words : forall r sg c1 c2 c3 rest,
  (map lower [c1; c2; c3] = [105; 110; 102] -> exists ps, parse (sign_chars sg ++ c1 :: c2 :: c3 :: rest) r = Ok ps /\ p_inf ps = true /\ p_sign ps = match sg with Some s => s | None => Pos end) /\
  (map lower [c1; c2; c3] = [110; 97; 110] -> exists ps, parse (sign_chars sg ++ c1 :: c2 :: c3 :: rest) r = Ok ps /\ p_inf ps = false /\ p_nan ps = true).
Proof. exact parse_words. Qed.
Theorem C40_literal_value : forall dec r l p rm, r <> Dec -> lit_ok r l -> Z.abs (lit_exp r l) < 2 ^ 32 ->
  bits_of r * (zlen (l_int l) + zlen (frac_digits l)) + 128 < P_LIM -> 0 < p -> prec_up p + 64 < P_LIM ->
  lit_digits l <> [] -> EMIN <= lit_adjusted r l <= EMAX ->
  text_readable r (prec_up p) rm (lit_sign l) (lit_digits l) (lit_adjusted r l) ->
  let z := rnd_grad (prec_up p) rm (lit_value r l) in
  ((bpow radix2 EMAX <= Rabs z)%R -> x_parse dec (lit_text r l) r p rm = Ok (Inf (lit_sign l))) /\
  ((Rabs z < bpow radix2 EMAX)%R -> exists q, x_parse dec (lit_text r l) r p rm = Ok (Value q) /\ wf q /\ 64 * wlen q = prec_up p /\
     ns q = lit_sign l /\ value q = z /\ (ninexact q = true <-> z <> lit_value r l)).
Proof. exact literal_reads. Qed.
Example C40_case : lit_ok Hex ex_lit /\ lit_text Hex ex_lit = [45; 48; 66; 46; 52; 95; 101; 43; 48] /\ lit_exp Hex ex_lit = 0 /\
  lit_digits ex_lit = [11; 4] /\ lit_adjusted Hex ex_lit = 1 /\ text_readable Hex 64 RToEven Neg (lit_digits ex_lit) 1 /\ map lower [73; 110; 70] = [105; 110; 102].
Proof.
  split; [exact ex_lit_ok|]. do 4 (split; [reflexivity|]). split; [right; right; split; [discriminate|left; intros []]|reflexivity].
Qed.

(** ** C41: zero with a huge exponent (claim refuted) *)
Theorem C41_zero_exponent_refuted : lit_ok Dec lit_zero_huge /\ lit_value Dec lit_zero_huge = 0%R /\
  forall dec p rm, x_parse dec (lit_text Dec lit_zero_huge) Dec p rm = Ok (Inf Pos).
Proof. exact zero_huge_refuted. Qed.

(** ** C55: formatting a number without mantissa words (claim refuted) *)
Theorem C55_format_empty_refuted : wf empty_zero /\ from_f64 64 0 = Ok empty_zero /\
  forall dec rm, x_format dec (Value empty_zero) Oct rm = Panic /\ x_format dec (Value empty_zero) Hex rm = Panic.
Proof. exact format_empty_refuted. Qed.

(** ** C64: base-2 text with leading zeros (claim refuted) *)
Theorem C64_leading_zeros_refuted : lit_ok Bin lit_lead /\ lit_value Bin lit_lead = bpow radix2 (-65) /\
  rnd_grad 64 RToEven (bpow radix2 (-65)) = bpow radix2 (-65) /\
  exists q, (forall dec, x_parse dec (lit_text Bin lit_lead) Bin 64 RToEven = Ok (Value q)) /\ value q = 0%R.
Proof. exact lead_zero_refuted. Qed.
Theorem C64_invariant_refuted : exists q, (forall dec, convert_from_radix dec Pos [0; 0; 1] 0 Bin 64 RToEven = Ok q) /\ ~ wf q.
Proof. exact lead_zero_wf_refuted. Qed.

(** ** C65: a far underflow in an outward mode (claim refuted) *)
Theorem C65_far_underflow_refuted : exists q, (forall dec, convert_from_radix dec Pos [8] (-600000000) Hex 64 RUp = Ok q) /\
  value q = bpow radix2 (-64) /\ (0 < digits_value Hex Pos [8%Z] (-600000000)%Z < bpow radix2 (EMIN - 1))%R /\
  rnd_grad 64 RUp (digits_value Hex Pos [8%Z] (-600000000)%Z) = bpow radix2 (EMIN - 64).
Proof. exact read_far_refuted. Qed.

(** ** C66: automatic precision (claims refuted) *)
Theorem C66_auto_subnormal_refuted : exists q, (forall dec, convert_from_radix dec Pos [8] (-536870913) Hex USIZE_MAX RToEven = Ok q) /\
  mn (nm q) = 128 /\ bitlen (magnitude q) = 188.
Proof. exact auto_subnormal_refuted. Qed.
Theorem C66_auto_zero_refuted : exists q, (forall dec, convert_from_radix dec Pos [0] 0 Bin USIZE_MAX RToEven = Ok q) /\ value q = 0%R /\ is_zero q = false.
Proof. exact auto_zero_refuted. Qed.

(** ** C67: exponents of the text out of range (claims refuted) *)
Theorem C67_exponent_cut_refuted : lit_exp Bin lit_exp_cut = - (2 ^ 32 + 2) /\ (forall rm, nearest rm = true -> rnd_grad 64 rm (lit_value Bin lit_exp_cut) = 0%R) /\
  exists q, (forall dec, x_parse dec (lit_text Bin lit_exp_cut) Bin 64 RToEven = Ok (Value q)) /\ value q = bpow radix2 (EMIN - 1).
Proof. exact exp_cut_refuted. Qed.
Theorem C67_adjusted_exponent_refuted : lit_ok Bin lit_adj /\ lit_value Bin lit_adj = bpow radix2 (EMAX - 1) /\
  forall dec p rm, x_parse dec (lit_text Bin lit_adj) Bin p rm = Ok (Inf Pos).
Proof. exact adjusted_refuted. Qed.

(** ** C68: the sign of a zero (claim refuted) *)
Theorem C68_negative_zero_refuted : exists q, (forall dec rm, x_parse dec (lit_text Bin lit_neg_zero) Bin 64 rm = Ok (Value q)) /\ lit_sign lit_neg_zero = Neg /\ ns q = Pos /\
  exists q', (forall dec rm, x_parse dec (lit_text Hex lit_neg_zero) Hex 64 rm = Ok (Value q')) /\ ns q' = Neg.
Proof. exact neg_zero_refuted. Qed.

Definition all_text := (C37_to_digits, C37_first_digit, C38_from_digits, C38_rejects, C38_precision_zero, C39_round_trip, C39_special, C39_format, C40_literal, C40_same_number, C40_total, C40_words,
  C40_literal_value, C41_zero_exponent_refuted, C55_format_empty_refuted, C64_leading_zeros_refuted, C64_invariant_refuted, C65_far_underflow_refuted, C66_auto_subnormal_refuted,
  C66_auto_zero_refuted, C67_exponent_cut_refuted, C67_adjusted_exponent_refuted, C68_negative_zero_refuted).
Print Assumptions all_text.
