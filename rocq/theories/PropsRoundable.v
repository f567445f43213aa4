(** Property theorems, part 5: the roundability test (try_set_precision). *)

From Coq Require Import ZArith Reals List Bool Lia Lra.
From Flocq Require Import Core.
From Verif Require Import Words Mantissa Num SpecZ Spec WordsP RoundableNum Refute1 Refute3.
Import ListNotations.
Open Scope Z_scope.

(** ** C49 *)
(** [x] approximates an unknown real [r] with an error below 2^(e - s): its [s]
    leading bits are correct.  An accepted rounding is the correct rounding of [r]. *)
Theorem C49_directed_sound : forall x p rm s r, wf x -> normal x -> ninexact x = true -> 0 < p < 64 * wlen x -> s mod 64 = 0 -> p <= s <= 64 * wlen x ->
  rm <> RNone -> nearest rm = false -> (Rabs (r - value x) < bpow radix2 (ne x - s))%R ->
  match try_set_precision x p rm s with
  | Ok (y, true) => wf y /\ wlen y = (p + 63) / 64 /\ ns y = ns x /\ ninexact y = true /\ value y = rnd_prec p rm r /\ value y <> r /\ (Rabs (rnd_prec p rm r) < bpow radix2 EMAX)%R
  | Ok (_, false) => True
  | Err e => e = ExponentOverflow (ns x) /\ (bpow radix2 EMAX <= Rabs (rnd_prec p rm r))%R
  | Panic => False
  end.
Proof.
  intros x p rm s r Wx Nx Ix Hp Hs Hps Hrm Hd. apply try_sound; auto. intros E. rewrite E in Hd. discriminate Hd.
Qed.

(** The test is not vacuous: it accepts whenever the whole words between the
    rounding position and the last correct bit are not all zeros and not all ones. *)
Theorem C49_accepts : forall x p rm s, wf x -> 0 < p < 64 * wlen x -> s mod 64 = 0 -> p <= s <= 64 * wlen x -> rm <> RNone -> nearest rm = false ->
  1 <= (magnitude x / 2 ^ (64 * wlen x - s)) mod 2 ^ (64 * ((s - p) / 64)) <= 2 ^ (64 * ((s - p) / 64)) - 2 ->
  match try_set_precision x p rm s with Ok (_, b) => b = true | Err e => e = ExponentOverflow (ns x) | Panic => False end.
Proof.
  intros x p rm s Wx Hp Hs Hps Hrm Hd HW. apply try_succeeds; auto.
  - intros E. rewrite E in Hd. discriminate Hd.
  - rewrite Hd. cbv zeta. change (Z.b2z false) with 0. rewrite Z.sub_0_r. exact HW.
Qed.

Definition ex_approx : num := mk_num (mk_m [7; 5; 3; 2 ^ 63 + 9] 256) Neg 17 true.
Example C49_case : wf ex_approx /\ normal ex_approx /\ ninexact ex_approx = true /\
  1 <= (magnitude ex_approx / 2 ^ (64 * wlen ex_approx - 192)) mod 2 ^ (64 * ((192 - 64) / 64)) <= 2 ^ (64 * ((192 - 64) / 64)) - 2 /\
  (exists y, try_set_precision ex_approx 64 RUp 192 = Ok (y, true)) /\ exists y, try_set_precision ex_half 64 RUp 128 = Ok (y, true).
Proof.
  split; [unfold ex_approx; wf_concrete|]. split; [split; [reflexivity|vm_compute; discriminate]|]. split; [reflexivity|].
  split; [vm_compute; split; discriminate|]. split; eexists; vm_compute; reflexivity.
Qed.
Example C49_rejects : exists y, try_set_precision ex_unaligned 64 RUp 128 = Ok (y, false).
Proof. eexists. vm_compute. reflexivity. Qed.

(** ** C50 *)
(** The nearest modes, when all words of the mantissa are correct. *)
Theorem C50_nearest_sound_all_words : forall x p rm r, wf x -> normal x -> ninexact x = true -> 0 < p < 64 * wlen x -> nearest rm = true ->
  (Rabs (r - value x) < bpow radix2 (ne x - 64 * wlen x))%R ->
  match try_set_precision x p rm (64 * wlen x) with
  | Ok (y, true) => wf y /\ wlen y = (p + 63) / 64 /\ ns y = ns x /\ ninexact y = true /\ value y = rnd_prec p rm r /\ value y <> r /\ (Rabs (rnd_prec p rm r) < bpow radix2 EMAX)%R
  | Ok (_, false) => True
  | Err e => e = ExponentOverflow (ns x) /\ (bpow radix2 EMAX <= Rabs (rnd_prec p rm r))%R
  | Panic => False
  end.
Proof.
  intros x p rm r Wx Nx Ix Hp Hd Hr. apply try_sound; auto.
  - rewrite Z.mul_comm. apply Z.mod_mul. lia.
  - lia.
  - intros E. rewrite E in Hd. discriminate Hd.
Qed.
Theorem C50_accepts : forall x p rm, wf x -> 0 < p < 64 * wlen x -> nearest rm = true ->
  1 <= magnitude x mod 2 ^ (64 * ((64 * wlen x - p - 1) / 64)) <= 2 ^ (64 * ((64 * wlen x - p - 1) / 64)) - 2 ->
  match try_set_precision x p rm (64 * wlen x) with Ok (_, b) => b = true | Err e => e = ExponentOverflow (ns x) | Panic => False end.
Proof.
  intros x p rm Wx Hp Hd HW. apply try_succeeds; auto.
  - rewrite Z.mul_comm. apply Z.mod_mul. lia.
  - lia.
  - intros E. rewrite E in Hd. discriminate Hd.
  - rewrite Hd. cbv zeta. change (Z.b2z true) with 1. rewrite Z.sub_diag. change (2 ^ 0) with 1. rewrite Z.div_1_r. exact HW.
Qed.
Example C50_case : 1 <= magnitude ex_approx mod 2 ^ (64 * ((64 * wlen ex_approx - 64 - 1) / 64)) <= 2 ^ (64 * ((64 * wlen ex_approx - 64 - 1) / 64)) - 2 /\
  exists y, try_set_precision ex_approx 64 RToEven 256 = Ok (y, true).
Proof. split; [vm_compute; split; discriminate|]. eexists; vm_compute; reflexivity. Qed.

(** With words below the last correct one the nearest test looks at the wrong
    words and accepts a wrong rounding, in both nearest modes. *)
Theorem C50_nearest_refuted : exists x r, wf x /\ normal x /\ ninexact x = true /\ (Rabs (r - value x) < bpow radix2 (ne x - 192))%R /\
  forall rm, nearest rm = true -> exists y, try_set_precision x 64 rm 192 = Ok (y, true) /\ value y <> rnd_prec 64 rm r.
Proof. exact nearest_test_unsound. Qed.

(** ** C59 *)
(** When the number of correct bits is not a multiple of the word size (only a
    debug assertion forbids it) a directed rounding may be accepted wrongly. *)
Theorem C59_unaligned_refuted : exists x r y, wf x /\ normal x /\ ninexact x = true /\ (Rabs (r - value x) < bpow radix2 (ne x - 130))%R /\
  try_set_precision x 65 RDown 130 = Ok (y, true) /\ value y <> rnd_prec 65 RDown r.
Proof. exact unaligned_test_unsound. Qed.

Definition all_roundable := (C49_directed_sound, C49_accepts, C50_nearest_sound_all_words, C50_accepts, C50_nearest_refuted, C59_unaligned_refuted).
Print Assumptions all_roundable.
