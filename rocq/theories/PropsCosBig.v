(** C112: the cosine of an argument between one and two in magnitude. *)

From Coq Require Import ZArith List Bool Lia Reals Lra.
From Flocq Require Import Core.
From Verif Require Import Words IntModel Mantissa Num Consts Elem Series Exp Sin Cos SpecZ Spec SpecOps SpecConst SpecReach SpecPow SpecElem RealP CmpP SetP ExpTop HypTop PiNum AtanBig SinTop SinBig CosTop CosBig PropsConst PropsExp PropsHyp Refute1.
Import ListNotations.
Open Scope Z_scope.

(** As in C111.  The cosine vanishes at half of pi; the argument is at least 2^-60 away
    from it.  Closer arguments make the code raise the precision to the exponent of the
    distance, which leaves no margin for the errors (section 4 of DESIGN.md). *)

(** ** C112: cos *)
Theorem C112_cos : forall f g c x p rm, reachable pi_new pi_for_prec c -> wf x -> 0 < p -> (1 <= Rabs (value x) < 2)%R -> (bpow radix2 (-60) <= Rabs (Rabs (value x) - PI / 2))%R ->
  work f (Z.max (prec_up p) (64 * wlen x) + 64) 64 + 192 <= 2048 ->
  match f_cos f g 31 c x p rm with
  | None => True
  | Some (c', res) => reachable pi_new pi_for_prec c' /\
      match res with Ok q => elem_result (cos (value x)) (prec_up p) rm q | Err (ExponentOverflow _) => True | _ => False end
  end.
Proof. intros f g c x p rm R W Hp HV HF HB. pose proof (cos_big_ok f g c x p rm R W Hp HV HF ltac:(lia)) as O. destruct (f_cos f g 31 c x p rm) as [[c' [q|[s| | |]|]]|]; exact O. Qed.

(** ** Cases *)
Definition ex_minus_13 : num := mk_num (mk_m [5 * 2 ^ 61] 64) Neg 1 false.
Definition ex_minus_19 : num := mk_num (mk_m [15 * 2 ^ 60] 64) Neg 1 false.
(** Minus fifteen eighths, where the cosine is negative, rounded down to 64 bits with a new cache. *)
Definition C112_run := Eval vm_compute in match pi_new with Ok c => match f_cos 1 100 31 c ex_minus_19 64 RDown with Some (_, Ok q) => Some q | _ => None end | _ => None end.
Example C112_run_is : C112_run = Some (mk_num (mk_m [11050835860359939457] 64) Neg (-1) true).
Proof. reflexivity. Qed.
Example C112_case : exists c, reachable pi_new pi_for_prec c /\ wf ex_minus_13 /\ (1 <= Rabs (value ex_minus_13) < 2)%R /\ (bpow radix2 (-60) <= Rabs (Rabs (value ex_minus_13) - PI / 2))%R /\ work 1 (Z.max (prec_up 64) (64 * wlen ex_minus_13) + 64) 64 + 192 <= 2048.
Proof.
  destruct C72_case as (c & _ & R). exists c. split; [exact R|]. assert (W : wf ex_minus_13) by (unfold ex_minus_13; wf_concrete). split; [exact W|].
  assert (V : Rabs (value ex_minus_13) = (5 / 4)%R). { unfold value. change (magnitude ex_minus_13) with (5 * 2 ^ 61). change (ne ex_minus_13 - 64 * wlen ex_minus_13) with (-63). unfold F2R. cbn [ns ex_minus_13 sgnZ Fnum Fexp]. rewrite !mult_IZR. change (bpow radix2 (-63)) with (/ 9223372036854775808)%R. change (2 ^ 61) with 2305843009213693952. rewrite Rabs_left by lra. lra. }
  rewrite V. split; [lra|]. split; [|vm_compute; discriminate]. pose proof PI2_3_2. rewrite Rabs_left by lra. apply Rle_trans with (bpow radix2 (-3)); [apply bpow_le; lia|]. change (bpow radix2 (-3)) with (/ 8)%R. lra.
Qed.

Definition all_cos_big := (C112_cos, C112_case).
Print Assumptions all_cos_big.
