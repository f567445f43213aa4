(** Text conversion: concrete inputs on which the code departs from the
    documented behaviour. *)

From Coq Require Import ZArith Reals List Bool Lia Lra.
From Flocq Require Import Core.
From Verif Require Import Words Mantissa Num Ext Conv Parser SpecZ SpecText WordsP RoundP Spec RealP RealP2 NumP SetP RadixP RadixNum ParserP Refute1.
Import ListNotations.
Open Scope Z_scope.
Arguments Z.mul : simpl never.
Arguments Z.add : simpl never.
Arguments Z.pow : simpl never.
Arguments Z.sub : simpl never.

(** Zero with a huge exponent: "0.0e3000000000". *)
Definition lit_zero_huge : literal := mk_lit None [48] (Some [48]) (Some (false, None, [51; 48; 48; 48; 48; 48; 48; 48; 48; 48])).

Lemma zero_huge_ok : lit_ok Dec lit_zero_huge.
Proof. split; [|split; [|split; [left; discriminate|]]]; repeat constructor; eexists; (split; [reflexivity|cbn; lia]). Qed.

Lemma zero_huge_refuted : lit_ok Dec lit_zero_huge /\ lit_value Dec lit_zero_huge = 0%R /\
  forall dec p rm, x_parse dec (lit_text Dec lit_zero_huge) Dec p rm = Ok (Inf Pos).
Proof.
  split; [exact zero_huge_ok|]. split.
  - unfold lit_value. change (number_of Dec (l_int lit_zero_huge ++ frac_digits lit_zero_huge)) with 0. rewrite Z.mul_0_r. apply F2R_0.
  - intros. unfold x_parse. assert (H : exists ps, parse (lit_text Dec lit_zero_huge) Dec = Ok ps /\ p_inf ps = true /\ p_sign ps = Pos) by (vm_compute; eexists; split; [reflexivity|split; reflexivity]).
    destruct H as (ps & -> & -> & ->). reflexivity.
Qed.

(** A number with an empty mantissa. *)
Definition empty_zero : num := mk_num (mk_m [] 0) Pos 0 false.
Lemma empty_zero_wf : wf empty_zero.
Proof. constructor; unfold magnitude, wlen, empty_zero; cbn; try lia; constructor. Qed.

Lemma format_empty_refuted : wf empty_zero /\ from_f64 64 0 = Ok empty_zero /\
  forall dec rm, x_format dec (Value empty_zero) Oct rm = Panic /\ x_format dec (Value empty_zero) Hex rm = Panic.
Proof. split; [exact empty_zero_wf|]. split; [reflexivity|]. intros. split; reflexivity. Qed.

(** Base 2 with leading zeros: the number is not normalised, its bits are cut at
    the end.  "0.0...01" with 64 zeros denotes 2^-65, which has 64-bit precision. *)
Definition lit_lead : literal := mk_lit None [48] (Some (repeat 48 64 ++ [49])) None.

Lemma lead_zero_refuted : lit_ok Bin lit_lead /\ lit_value Bin lit_lead = bpow radix2 (-65) /\
  rnd_grad 64 RToEven (bpow radix2 (-65)) = bpow radix2 (-65) /\
  exists q, (forall dec, x_parse dec (lit_text Bin lit_lead) Bin 64 RToEven = Ok (Value q)) /\ value q = 0%R.
Proof.
  split; [|split; [|split]].
  - assert (Z0 : exists d, char_digit 48 = Some d /\ d < rdx_num Bin) by (exists 0; split; [reflexivity|cbn; lia]).
    assert (Z1 : exists d, char_digit 49 = Some d /\ d < rdx_num Bin) by (exists 1; split; [reflexivity|cbn; lia]).
    split; [constructor; [exact Z0|constructor]|]. split; [|split; [left; discriminate|exact I]].
    apply Forall_app. split; [apply Forall_forall; intros x Hx; apply repeat_spec in Hx; subst x; exact Z0|constructor; [exact Z1|constructor]].
  - unfold lit_value, F2R. cbn [Fnum Fexp]. assert (sgnZ (lit_sign lit_lead) * number_of Bin (l_int lit_lead ++ frac_digits lit_lead) = 1) as -> by (vm_compute; reflexivity).
    assert (lit_exp Bin lit_lead - Z.of_nat (length (frac_digits lit_lead)) = -65) as -> by (vm_compute; reflexivity). rewrite Rmult_1_l. reflexivity.
  - unfold rnd_grad. apply round_generic; [apply rnd_valid|]. apply generic_format_bpow. unfold FLT_exp. lia.
  - exists (mk_num (mk_m [0] 0) Pos 0 true). split; [intros dec; vm_compute; reflexivity|].
    unfold value, magnitude. cbn [nm mm]. rewrite val_cons, val_nil. change (0 + 2 ^ 64 * 0) with 0. rewrite Z.mul_0_r. apply F2R_0.
Qed.

(** "0.001" in base 2: the bits kept are right but the invariant is lost (a
    subnormal mantissa whose exponent is not the smallest one). *)
Lemma lead_zero_wf_refuted : exists q, (forall dec, convert_from_radix dec Pos [0; 0; 1] 0 Bin 64 RToEven = Ok q) /\ ~ wf q.
Proof.
  eexists. split; [intros dec; vm_compute; reflexivity|]. intros W. 
  assert (E : 0 = EMIN) by (apply (wf_sub _ W); vm_compute; split; reflexivity). discriminate E.
Qed.

(** Far below the smallest number the outward modes give 2^-64 in place of the
    smallest positive number. *)
Lemma read_far_refuted : exists q, (forall dec, convert_from_radix dec Pos [8] (-600000000) Hex 64 RUp = Ok q) /\
  value q = bpow radix2 (-64) /\ (0 < digits_value Hex Pos [8%Z] (-600000000)%Z < bpow radix2 (EMIN - 1))%R /\
  rnd_grad 64 RUp (digits_value Hex Pos [8%Z] (-600000000)%Z) = bpow radix2 (EMIN - 64).
Proof.
  exists (mk_num (mk_m [1] 1) Pos 0 true). split; [intros dec; vm_compute; reflexivity|]. split; [|].
  - unfold value, magnitude, wlen, F2R. cbn [nm mm ns ne sgnZ Fnum Fexp]. rewrite val_cons, val_nil. change (1 * (1 + 2 ^ 64 * 0)) with 1. change (0 - 64 * zlen [1]) with (-64). apply Rmult_1_l.
  - rewrite digits_value_eq by discriminate. cbn [bits_of]. change (dig_val (2 ^ 4) [8]) with 8. change (zlen [8]) with 1.
    assert (E : F2 Pos 8 (4 * (-600000000 - 1)) = bpow radix2 (-2400000001)).
    { replace 8 with (1 * 2 ^ 3) by reflexivity. rewrite F2R_shift by lia. unfold F2R. cbn [Fnum Fexp sgnZ]. rewrite Z.mul_1_l, Rmult_1_l. f_equal. }
    rewrite E. split; [split; [apply bpow_gt_0|apply bpow_lt; lia]|].
    rewrite <- E. rewrite grad_small; [|lia|vm_compute; discriminate|lia].
    cbn [is_pos]. unfold rndN, rup. cbn [andb]. rewrite Z.div_small, Z.mod_small.
    + cbn [Z.eqb negb Z.b2z sgnZ]. unfold F2R. cbn [Fnum Fexp]. apply Rmult_1_l.
    + split; [lia|]. change 8 with (2 ^ 3). apply Z.pow_lt_mono_r; lia.
    + split; [lia|]. change 8 with (2 ^ 3). apply Z.pow_lt_mono_r; lia.
Qed.

(** Automatic precision (p = usize::MAX): a subnormal hexadecimal value gets a
    wrong bit length, and a binary zero is not recognised as zero. *)
Lemma auto_subnormal_refuted : exists q, (forall dec, convert_from_radix dec Pos [8] (-536870913) Hex USIZE_MAX RToEven = Ok q) /\
  mn (nm q) = 128 /\ bitlen (magnitude q) = 188.
Proof. eexists. split; [intros dec; vm_compute; reflexivity|]. split; vm_compute; reflexivity. Qed.

Lemma auto_zero_refuted : exists q, (forall dec, convert_from_radix dec Pos [0] 0 Bin USIZE_MAX RToEven = Ok q) /\ value q = 0%R /\ is_zero q = false.
Proof.
  eexists. split; [intros dec; vm_compute; reflexivity|]. split; [|reflexivity]. unfold value, magnitude. cbn [nm mm]. rewrite val_cons, val_nil. change (0 + 2 ^ 64 * 0) with 0. rewrite Z.mul_0_r. apply F2R_0.
Qed.

Lemma tiny_grad rm k : nearest rm = true -> k <= EMIN - 66 -> rnd_grad 64 rm (F2 Pos 1 k) = 0%R.
Proof.
  intros Hrm Hk. rewrite grad_small; [|lia|change (bitlen 1) with 1; lia|lia].
  rewrite rndN_tiny; [rewrite Z.mul_0_r; apply F2R_0|lia|lia| |destruct rm; try discriminate; reflexivity].
  change (2 * 1) with (2 ^ 1). apply Z.pow_lt_mono_r; lia.
Qed.

(** Exponent digits after the threshold are dropped: in base 2, "1.e-" followed by
    the digits of 2^32+2 is read as the smallest normal number. *)
Definition lit_exp_cut : literal := mk_lit None [49] (Some []) (Some (false, Some Neg, fmt_int Bin (2 ^ 32 + 2))).
Lemma exp_cut_refuted : lit_exp Bin lit_exp_cut = - (2 ^ 32 + 2) /\ (forall rm, nearest rm = true -> rnd_grad 64 rm (lit_value Bin lit_exp_cut) = 0%R) /\
  exists q, (forall dec, x_parse dec (lit_text Bin lit_exp_cut) Bin 64 RToEven = Ok (Value q)) /\ value q = bpow radix2 (EMIN - 1).
Proof.
  assert (El : lit_exp Bin lit_exp_cut = - (2 ^ 32 + 2)) by (vm_compute; reflexivity).
  split; [exact El|]. split.
  - intros rm Hrm. assert (E : lit_value Bin lit_exp_cut = F2 Pos 1 (- (2 ^ 32 + 2))).
    { unfold lit_value. rewrite El. change (number_of Bin (l_int lit_exp_cut ++ frac_digits lit_exp_cut)) with 1.
      change (Z.of_nat (length (frac_digits lit_exp_cut))) with 0. rewrite Z.sub_0_r. reflexivity. }
    rewrite E. apply tiny_grad; [exact Hrm|vm_compute; discriminate].
  - eexists. split; [intros dec; vm_compute; reflexivity|]. unfold value, magnitude, wlen, F2R. cbn [nm mm ns ne sgnZ Fnum Fexp]. rewrite val_cons, val_nil.
    match goal with |- (IZR ?a * bpow radix2 ?b)%R = _ => replace a with (2 ^ 63) by reflexivity; replace b with (EMIN - 1 - 63) by reflexivity end.
    rewrite <- (bpow_IZR 63) by lia. rewrite <- bpow_plus. f_equal.
Qed.

(** The range test looks at the exponent of the first digit written, not of the
    first significant one: base 2 "0.01e+" 2^31 denotes 2^(2^31-2), which is in
    range, but is read as infinity. *)
Definition lit_adj : literal := mk_lit None [48] (Some [48; 49]) (Some (false, Some Pos, fmt_int Bin (2 ^ 31))).
Lemma adjusted_refuted : lit_ok Bin lit_adj /\ lit_value Bin lit_adj = bpow radix2 (EMAX - 1) /\
  forall dec p rm, x_parse dec (lit_text Bin lit_adj) Bin p rm = Ok (Inf Pos).
Proof.
  split; [|split].
  - assert (Z0 : exists d, char_digit 48 = Some d /\ d < rdx_num Bin) by (exists 0; split; [reflexivity|cbn; lia]).
    assert (Z1 : exists d, char_digit 49 = Some d /\ d < rdx_num Bin) by (exists 1; split; [reflexivity|cbn; lia]).
    split; [constructor; [exact Z0|constructor]|]. split; [constructor; [exact Z0|constructor; [exact Z1|constructor]]|]. split; [left; discriminate|].
    cbn [lit_adj l_exp]. match goal with |- digit_chars_ok _ ?x => let y := eval vm_compute in x in change x with y end.
    repeat (constructor; [first [exact Z0|exact Z1]|]). constructor.
  - unfold lit_value, F2R. cbn [Fnum Fexp]. assert (sgnZ (lit_sign lit_adj) * number_of Bin (l_int lit_adj ++ frac_digits lit_adj) = 1) as -> by (vm_compute; reflexivity).
    assert (lit_exp Bin lit_adj - Z.of_nat (length (frac_digits lit_adj)) = EMAX - 1) as -> by (vm_compute; reflexivity). rewrite Rmult_1_l. reflexivity.
  - intros. unfold x_parse. assert (H : exists ps, parse (lit_text Bin lit_adj) Bin = Ok ps /\ p_inf ps = true /\ p_sign ps = Pos) by (vm_compute; eexists; split; [reflexivity|split; reflexivity]).
    destruct H as (ps & -> & -> & ->). reflexivity.
Qed.

(** A leading minus is lost on a zero without fraction digits in base 2. *)
Definition lit_neg_zero : literal := mk_lit (Some Neg) [48] None None.
Lemma neg_zero_refuted : exists q, (forall dec rm, x_parse dec (lit_text Bin lit_neg_zero) Bin 64 rm = Ok (Value q)) /\ lit_sign lit_neg_zero = Neg /\ ns q = Pos /\
  exists q', (forall dec rm, x_parse dec (lit_text Hex lit_neg_zero) Hex 64 rm = Ok (Value q')) /\ ns q' = Neg.
Proof. eexists. split; [intros; vm_compute; reflexivity|]. split; [reflexivity|]. split; [reflexivity|]. eexists. split; [intros; vm_compute; reflexivity|reflexivity]. Qed.
