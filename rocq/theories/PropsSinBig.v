(** C111: the sine of an argument between one and two in magnitude. *)

From Coq Require Import ZArith List Bool Lia Reals Lra.
From Flocq Require Import Core.
From Verif Require Import Words IntModel Mantissa Num Consts Elem Series Exp Sin SpecZ Spec SpecOps SpecConst SpecReach SpecPow SpecElem RealP CmpP SetP ExpTop HypTop PiNum AtanBig SinTop SinBig PropsConst PropsExp PropsHyp Refute1.
Import ListNotations.
Open Scope Z_scope.

(** As in C101, but the distance to half of pi is computed on the way, with pi 64 bits
    longer than the working precision; pi is known here to 2048 bits.  An exponent of one
    means that the magnitude is at least one and below two.  The cache of pi may have been
    filled by whatever calls, as in C107. *)

(** ** C111: sin *)
Theorem C111_sin : forall f g c x p rm, reachable pi_new pi_for_prec c -> wf x -> 0 < p -> (1 <= Rabs (value x) < 2)%R ->
  work f (Z.max (prec_up p) (64 * wlen x) + 64) 64 + 192 <= 2048 ->
  match f_sin f g 31 c x p rm with
  | None => True
  | Some (c', res) => reachable pi_new pi_for_prec c' /\
      match res with Ok q => elem_result (sin (value x)) (prec_up p) rm q | Err (ExponentOverflow _) => True | _ => False end
  end.
Proof. intros f g c x p rm R W Hp HV HB. pose proof (sin_big_val f g c x p rm R W Hp HV ltac:(lia)) as O. destruct (f_sin f g 31 c x p rm) as [[c' [q|[s| | |]|]]|]; exact O. Qed.

(** ** Cases *)
Definition ex_minus_18 : num := mk_num (mk_m [9 * 2 ^ 60] 64) Neg 1 false.
(** Minus nine eighths, rounded up to 64 bits with a new cache. *)
Definition C111_run := Eval vm_compute in match pi_new with Ok c => match f_sin 1 100 31 c ex_minus_18 64 RUp with Some (_, Ok q) => Some q | _ => None end | _ => None end.
Example C111_run_is : C111_run = Some (mk_num (mk_m [16643899394347658900] 64) Neg 0 true).
Proof. reflexivity. Qed.
Example C111_case : exists c, reachable pi_new pi_for_prec c /\ wf ex_minus_18 /\ (1 <= Rabs (value ex_minus_18) < 2)%R /\ work 1 (Z.max (prec_up 64) (64 * wlen ex_minus_18) + 64) 64 + 192 <= 2048.
Proof.
  destruct C72_case as (c & _ & R). exists c. split; [exact R|]. assert (W : wf ex_minus_18) by (unfold ex_minus_18; wf_concrete). split; [exact W|]. split; [|vm_compute; discriminate].
  destruct (ConstNum.normal_range ex_minus_18 W ltac:(split; [reflexivity|intros H; vm_compute in H; discriminate])) as [L U]. change (bpow radix2 (ne ex_minus_18 - 1)) with 1%R in L. change (bpow radix2 (ne ex_minus_18)) with 2%R in U. lra.
Qed.

Definition all_sin_big := (C111_sin, C111_case).
Print Assumptions all_sin_big.
