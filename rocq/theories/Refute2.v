(** Claims that the code does not meet, part 2: subnormal remainders, rounding of a
    subnormal number to 2^31 fractional digits, subnormal doubles. *)

From Coq Require Import ZArith Reals List Bool Lia Lra.
From Flocq Require Import Core.
From Verif Require Import Words Mantissa Num SpecZ WordsP WordsP2 RoundP Spec SpecOps RealP RealP2 NumP CmpP AddP SetP AddNum ArithTop RemNum IntNum ConvNum Refute1.
Import ListNotations.
Open Scope Z_scope.
Ltac Zify.zify_post_hook ::= idtac.
Arguments Z.mul : simpl never.
Arguments Z.add : simpl never.
Arguments Z.pow : simpl never.
Arguments Z.sub : simpl never.
Arguments Z.of_nat : simpl never.

(** 2^(EMIN-1), the smallest normal number. *)
Definition ex_min_normal : num := mk_num (mk_m [9223372036854775808] 64) Pos EXPONENT_MIN false.
Lemma ex_min_normal_wf : wf ex_min_normal.
Proof. unfold ex_min_normal. wf_concrete. Qed.

(** 2^(EMIN-2), the remainder, is a well-formed (subnormal) number, but the result is zero and not marked. *)
Definition ex_rem_exact : num := mk_num (mk_m [4611686018427387904] 63) Pos EXPONENT_MIN false.
Lemma ex_rem_exact_wf : wf ex_rem_exact.
Proof. unfold ex_rem_exact. wf_concrete. Qed.

Theorem rem_subnormal_flushed : exists x y r q, wf x /\ wf y /\ wf r /\ nonzero y /\ value r = rem_real (value x) (value y) /\ nonzero r /\
  n_rem x y = Ok q /\ value q = 0%R /\ ninexact q = false.
Proof.
  exists ex_three_quarters, ex_min_normal, ex_rem_exact. eexists. split; [exact ex_three_quarters_wf|]. split; [exact ex_min_normal_wf|]. split; [exact ex_rem_exact_wf|].
  split; [vm_compute; discriminate|]. split.
  { unfold value. change (ns ex_three_quarters) with Pos. change (ns ex_min_normal) with Pos. change (ns ex_rem_exact) with Pos.
    change (ne ex_three_quarters - 64 * wlen ex_three_quarters) with (EMIN - 64). change (ne ex_min_normal - 64 * wlen ex_min_normal) with (EMIN - 64).
    rewrite rem_real_scaled by (vm_compute; first [reflexivity|discriminate]). reflexivity. }
  split; [vm_compute; discriminate|]. split; [vm_compute; reflexivity|]. split; [apply value_zero; reflexivity|reflexivity].
Qed.

(** A subnormal number far below half a unit of the last kept digit is rounded up to a unit. *)
Definition ex_round_sub : num := mk_num (mk_m [9223372036854775808; 0] 64) Pos EXPONENT_MIN false.
Lemma ex_round_sub_wf : wf ex_round_sub.
Proof. unfold ex_round_sub. wf_concrete. Qed.

Theorem round_subnormal_wrong : exists x n, wf x /\ 0 <= n < 4611686018427387903 /\ forall rm, nearest rm = true ->
  exists q, n_round x n rm = Ok q /\ value q <> rnd_frac n rm (value x).
Proof.
  exists ex_round_sub, (2 ^ 31). split; [exact ex_round_sub_wf|]. split; [split; [discriminate|reflexivity]|]. intros rm Hn.
  assert (H : exists q, n_round ex_round_sub (2 ^ 31) rm = Ok q /\ magnitude q <> 0).
  { destruct rm; try discriminate Hn; eexists; (split; [vm_compute; reflexivity|]); vm_compute; discriminate. }
  destruct H as (q & Q1 & Q2). exists q. split; [exact Q1|]. intros E. apply Q2. apply value_zero_iff. rewrite E. unfold value.
  change (ne ex_round_sub - 64 * wlen ex_round_sub) with (EMIN - 128). rewrite rnd_frac_scaled; [|vm_compute; discriminate|vm_compute; discriminate].
  replace (rndN rm (is_pos (ns ex_round_sub)) (magnitude ex_round_sub) (- 2 ^ 31 - (EMIN - 128))) with 0 by (destruct rm; try discriminate Hn; reflexivity).
  rewrite Z.mul_0_r. apply F2R_0.
Qed.
