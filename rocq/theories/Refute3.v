(** Counterexamples for the roundability test. *)

From Coq Require Import ZArith List Bool Lia Reals Lra.
From Flocq Require Import Core.
From Verif Require Import Words IntModel Mantissa Num SpecZ WordsP WordsP2 RoundP Spec RealP RealP2 NumP AddP SetP Refute1.
Import ListNotations.
Open Scope Z_scope.
Ltac Zify.zify_post_hook ::= idtac.
Arguments Z.mul : simpl never.
Arguments Z.add : simpl never.
Arguments Z.pow : simpl never.
Arguments Z.sub : simpl never.

(** An inexact number whose bits below the 64-bit rounding position are one half
    of the last place plus 2^-128 of it. *)
Definition ex_half : num := mk_num (mk_m [1; 0; 2 ^ 63; 2 ^ 63] 256) Pos 0 true.

Lemma ex_half_wf : wf ex_half /\ normal ex_half.
Proof. split; [unfold ex_half; wf_concrete|]. split; [reflexivity|vm_compute; discriminate]. Qed.

(** A real closer to it than 2^-192 (the 192 leading bits are "correct") whose
    bits below the rounding position are less than one half. *)
Definition ex_half_true : R := F2 Pos (2 ^ 255 + 2 ^ 191 + 1 - 2 ^ 63) (- 256).

Lemma ex_half_near : (Rabs (ex_half_true - value ex_half) < bpow radix2 (ne ex_half - 192))%R.
Proof.
  unfold ex_half_true, value, F2R. cbn [Fnum Fexp sgnZ ns ne ex_half].
  change (magnitude ex_half) with (2 ^ 255 + 2 ^ 191 + 1). change (0 - 64 * wlen ex_half) with (-256). change (0 - 192) with (-192).
  rewrite <- Rmult_minus_distr_r, <- minus_IZR, Rabs_mult, (Rabs_pos_eq (bpow _ _)) by apply bpow_ge_0.
  rewrite <- abs_IZR. replace (-192) with (64 + -256) by lia. rewrite bpow_plus. apply Rmult_lt_compat_r; [apply bpow_gt_0|].
  change (bpow radix2 64) with (IZR (2 ^ 64)). apply IZR_lt. vm_compute. reflexivity.
Qed.

Theorem nearest_test_unsound : exists x r, wf x /\ normal x /\ ninexact x = true /\ (Rabs (r - value x) < bpow radix2 (ne x - 192))%R /\
  forall rm, nearest rm = true -> exists y, try_set_precision x 64 rm 192 = Ok (y, true) /\ value y <> rnd_prec 64 rm r.
Proof.
  destruct ex_half_wf as [W N]. exists ex_half, ex_half_true. split; [exact W|]. split; [exact N|]. split; [reflexivity|]. split; [exact ex_half_near|].
  intros rm Hn. assert (H : exists y, try_set_precision ex_half 64 rm 192 = Ok (y, true) /\ magnitude y = 2 ^ 63 + 1 /\ ne y = 0 /\ wlen y = 1 /\ ns y = Pos).
  { destruct rm; try discriminate Hn; eexists; split; try (vm_compute; reflexivity); repeat split; vm_compute; reflexivity. }
  destruct H as (y & E & M & X & L & S). exists y. split; [exact E|]. unfold value. rewrite M, X, L, S. unfold ex_half_true.
  rewrite (round_prec_down 64 rm Pos (2 ^ 255 + 2 ^ 191 + 1 - 2 ^ 63) (-256)) by (vm_compute; try reflexivity; discriminate).
  change (bitlen (2 ^ 255 + 2 ^ 191 + 1 - 2 ^ 63) - 64) with 192.
  replace (rndN rm (is_pos Pos) (2 ^ 255 + 2 ^ 191 + 1 - 2 ^ 63) 192) with (2 ^ 63) by (destruct rm; try discriminate Hn; vm_compute; reflexivity).
  change (0 - 64 * 1) with (-64). change (-256 + 192) with (-64). rewrite F2R_inj_num. vm_compute. discriminate.
Qed.

(** An inexact number just above a 65-bit number; 130 leading bits are correct. *)
Definition ex_unaligned : num := mk_num (mk_m [0; 1; 0; 2 ^ 63] 256) Pos 0 true.
Definition ex_unaligned_true : R := F2 Pos (2 ^ 255 - 2 ^ 64) (- 256).

Lemma ex_unaligned_wf : wf ex_unaligned /\ normal ex_unaligned.
Proof. split; [unfold ex_unaligned; wf_concrete|]. split; [reflexivity|vm_compute; discriminate]. Qed.

Lemma ex_unaligned_near : (Rabs (ex_unaligned_true - value ex_unaligned) < bpow radix2 (ne ex_unaligned - 130))%R.
Proof.
  unfold ex_unaligned_true, value, F2R. cbn [Fnum Fexp sgnZ ns ne ex_unaligned].
  change (magnitude ex_unaligned) with (2 ^ 255 + 2 ^ 64). change (0 - 64 * wlen ex_unaligned) with (-256). change (0 - 130) with (-130).
  rewrite <- Rmult_minus_distr_r, <- minus_IZR, Rabs_mult, (Rabs_pos_eq (bpow _ _)) by apply bpow_ge_0.
  rewrite <- abs_IZR. replace (-130) with (126 + -256) by lia. rewrite bpow_plus. apply Rmult_lt_compat_r; [apply bpow_gt_0|].
  change (bpow radix2 126) with (IZR (2 ^ 126)). apply IZR_lt. vm_compute. reflexivity.
Qed.

Theorem unaligned_test_unsound : exists x r y, wf x /\ normal x /\ ninexact x = true /\ (Rabs (r - value x) < bpow radix2 (ne x - 130))%R /\
  try_set_precision x 65 RDown 130 = Ok (y, true) /\ value y <> rnd_prec 65 RDown r.
Proof.
  destruct ex_unaligned_wf as [W N]. exists ex_unaligned, ex_unaligned_true.
  assert (H : exists y, try_set_precision ex_unaligned 65 RDown 130 = Ok (y, true) /\ magnitude y = 2 ^ 127 /\ ne y = 0 /\ wlen y = 2 /\ ns y = Pos).
  { eexists; split; try (vm_compute; reflexivity); repeat split; vm_compute; reflexivity. }
  destruct H as (y & E & M & X & L & S). exists y. split; [exact W|]. split; [exact N|]. split; [reflexivity|]. split; [exact ex_unaligned_near|]. split; [exact E|].
  unfold value. rewrite M, X, L, S. unfold ex_unaligned_true.
  rewrite (round_prec_down 65 RDown Pos (2 ^ 255 - 2 ^ 64) (-256)) by (vm_compute; try reflexivity; discriminate).
  change (bitlen (2 ^ 255 - 2 ^ 64) - 65) with 190. replace (rndN RDown (is_pos Pos) (2 ^ 255 - 2 ^ 64) 190) with (2 ^ 65 - 1) by (vm_compute; reflexivity).
  change (0 - 64 * 2) with (-128). change (-256 + 190) with (-66). intros F. replace (2 ^ 127) with (2 ^ 65 * 2 ^ 62) in F by (vm_compute; reflexivity).
  rewrite F2R_shift in F by lia. change (-128 + 62) with (-66) in F. rewrite F2R_inj_num in F. vm_compute in F. discriminate F.
Qed.
