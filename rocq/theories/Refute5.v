(** Decimal conversion: concrete inputs on which the code departs from the
    documented behaviour. *)

From Coq Require Import ZArith Reals List Bool Lia Lra.
From Flocq Require Import Core.
From Verif Require Import Words Mantissa Num Ext Conv Parser Dec DecConv SpecZ SpecText SpecDec WordsP RoundP Spec RealP RealP2 NumP SetP Refute1.
Import ListNotations.
Open Scope Z_scope.
Ltac Zify.zify_post_hook ::= idtac.
Arguments Z.mul : simpl never.
Arguments Z.add : simpl never.
Arguments Z.pow : simpl never.
Arguments Z.sub : simpl never.

(** ** Zeros lost inside an integer: 10^64 + 10^25 *)
Definition gap_int : mantissa :=
  let v := 10 ^ 64 + 10 ^ 25 in mk_m [v mod 2 ^ 64; v / 2 ^ 64 mod 2 ^ 64; v / 2 ^ 128 mod 2 ^ 64; v / 2 ^ 192] 213.
Definition gap_digits : list Z := [1; 0; 0; 0; 0; 0; 0; 1] ++ repeat 0 25.

Lemma gap_int_ok : nat_mant gap_int /\ val (mm gap_int) = 10 ^ 64 + 10 ^ 25.
Proof.
  split; [split|].
  - let w := eval vm_compute in (mm gap_int) in change (mm gap_int) with w. repeat constructor; lia.
  - vm_compute. reflexivity.
  - vm_compute. reflexivity.
Qed.
Lemma gap_int_refuted : exists tp, cc_tenpowers [] 7 = Ok tp /\ m_conv_to_dec 6 gap_int (2 ^ 7) tp true = Ok gap_digits /\
  dig_val 10 gap_digits = 10 ^ 32 + 10 ^ 25.
Proof.
  assert (H : match cc_tenpowers [] 7 with Ok tp => m_conv_to_dec 6 gap_int (2 ^ 7) tp true = Ok gap_digits | _ => False end) by (vm_compute; reflexivity).
  destruct (cc_tenpowers [] 7) as [tp| |]; [|contradiction|contradiction]. exists tp. split; [reflexivity|]. split; [exact H|]. vm_compute. reflexivity.
Qed.

(** ** "3.6107365060103e-21" read with 128 bits and written again *)
Definition gap_text : list Z := [51; 46; 54; 49; 48; 55; 51; 54; 53; 48; 54; 48; 49; 48; 51; 101; 45; 50; 49].
Definition gap_num : num := mk_num (mk_m [9007848422372458262; 9829359716744193873] 128) Pos (-67) true.
Definition gap_out : list Z := [3;6;1;0;7;3;6;5;0;6;0;1;0;3;0;0;0;0;0;0;1;1;4;5;6;9;5;1;5;6;4;2;6;9;0;0;4;8;5].
(** The decimal branch with enough fuel. *)
Definition dec_reader (f : nat) (s : sign) (ds : list Z) (e p : Z) (rm : rmode) : result num :=
  match n_conv_from_dec f [] s ds e p rm with Some r => r | None => Panic end.

Lemma gap_num_wf : wf gap_num /\ normal gap_num.
Proof. split; [unfold gap_num; wf_concrete|]. split; [reflexivity|vm_compute; discriminate]. Qed.
Lemma gap_read f : x_parse (dec_reader (S f)) gap_text Dec 128 RToEven = Ok (Value gap_num).
Proof. vm_compute. reflexivity. Qed.
Lemma gap_write f : n_conv_to_dec (S f) [] gap_num RToEven = Some (Ok (Pos, gap_out, -52)).
Proof. vm_compute. reflexivity. Qed.

Lemma ten_two a : 0 <= a -> bpow (radix_of Dec) a = IZR (10 ^ a).
Proof. intros. rewrite (IZR_Zpower (radix_of Dec)) by auto. reflexivity. Qed.

Lemma gap_values : (bpow radix2 (-68) <= value gap_num)%R /\ (0 < digits_value Dec Pos gap_out (-52) <= bpow radix2 (-172))%R.
Proof.
  split.
  - unfold value, F2R. cbn [Fnum Fexp sgnZ ns ne gap_num]. change (-67 - 64 * wlen gap_num) with (-195).
    replace (-68) with (127 + -195) by lia. rewrite bpow_plus. apply Rmult_le_compat_r; [apply bpow_ge_0|].
    change (bpow radix2 127) with (IZR (2 ^ 127)). apply IZR_le. vm_compute. discriminate.
  - unfold digits_value, F2R. cbn [Fnum Fexp sgnZ]. change (-52 - Z.of_nat (length gap_out)) with (Z.opp 91). change (1 * dig_val (rdx_num Dec) gap_out) with 361073650601030000001145695156426900485.
    assert (B : (0 < IZR (10 ^ 91))%R) by (apply IZR_lt; reflexivity).
    rewrite bpow_opp, ten_two by lia. split.
    + apply Rmult_lt_0_compat; [apply IZR_lt; reflexivity|]. now apply Rinv_0_lt_compat.
    + apply Rmult_le_reg_r with (IZR (10 ^ 91)); auto. rewrite Rmult_assoc, Rinv_l, Rmult_1_r by lra.
      apply Rmult_le_reg_l with (bpow radix2 172); [apply bpow_gt_0|]. rewrite <- Rmult_assoc, <- bpow_plus. change (bpow radix2 (172 + -172)) with 1%R.
      rewrite Rmult_1_l. change (bpow radix2 172) with (IZR (2 ^ 172)). rewrite <- mult_IZR. apply IZR_le. vm_compute. discriminate.
Qed.

(** ** An exact midpoint written with all its digits: (2^129 - 3) / 2^129 *)
Definition tie_digits : list Z := [9;9;9;9;9;9;9;9;9;9;9;9;9;9;9;9;9;9;9;9;9;9;9;9;9;9;9;9;9;9;9;9;9;9;9;9;9;9;5;5;9;1;8;9;6;1;8;4;4;1;6;4;2;1;8;4;5;1;1;7;2;3;7;9;8;5;4;1;6;5;7;8;7;0;8;1;8;0;0;0;4;1;6;2;1;0;4;6;7;1;7;9;4;3;4;2;1;8;1;1;0;1;4;5;5;9;3;5;2;7;7;0;4;4;7;7;3;1;0;1;8;0;6;6;4;0;6;2;5].
Definition tie_num : num := mk_num (mk_m [18446744073709551615; 18446744073709551615] 128) Pos 0 true.

Lemma tie_read f : n_conv_from_dec (S f) [] Pos tie_digits (0) 128 RToEven = Some (Ok tie_num).
Proof. vm_compute. reflexivity. Qed.
Lemma tie_value : digits_value Dec Pos tie_digits (0) = F2 Pos (2 ^ 129 - 3) (-129).
Proof.
  unfold digits_value, F2R. cbn [Fnum Fexp sgnZ]. change (0 - Z.of_nat (length tie_digits)) with (Z.opp 129).
  assert (1 * dig_val (rdx_num Dec) tie_digits = (2 ^ 129 - 3) * 5 ^ 129) as -> by (vm_compute; reflexivity).
  rewrite mult_IZR, Rmult_assoc, Z.mul_1_l. f_equal. change (-129) with (Z.opp 129). rewrite !bpow_opp, ten_two by lia.
  change (bpow radix2 129) with (IZR (2 ^ 129)).
  assert (10 ^ 129 = 5 ^ 129 * 2 ^ 129) as -> by (vm_compute; reflexivity). rewrite mult_IZR, Rinv_mult.
  rewrite <- Rmult_assoc, Rinv_r; [apply Rmult_1_l|]. apply IZR_neq. vm_compute. discriminate.
Qed.
Lemma tie_refuted : value tie_num <> rnd_prec 128 RToEven (digits_value Dec Pos tie_digits (0)).
Proof.
  rewrite tie_value. rewrite (round_prec_down 128 RToEven Pos (2 ^ 129 - 3) (-129)) by (vm_compute; try reflexivity; discriminate).
  change (bitlen (2 ^ 129 - 3) - 128) with 1. replace (rndN RToEven (is_pos Pos) (2 ^ 129 - 3) 1) with (2 ^ 128 - 2) by (vm_compute; reflexivity).
  unfold value. change (magnitude tie_num) with (2 ^ 128 - 1). change (ne tie_num - 64 * wlen tie_num) with (-128). change (-129 + 1) with (-128). change (ns tie_num) with Pos.
  rewrite F2R_inj_num. vm_compute. discriminate.
Qed.
