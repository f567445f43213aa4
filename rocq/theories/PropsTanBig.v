(** C115 and C116: the tangent of an argument between one and four in magnitude. *)

From Coq Require Import ZArith List Bool Lia Reals Lra.
From Flocq Require Import Core.
From Verif Require Import Words IntModel Mantissa Num Consts Elem Series Exp Sin Tan SpecZ Spec SpecOps SpecConst SpecReach SpecPow SpecElem RealP CmpP SetP ExpTop HypTop PiNum AtanBig TanTop SinBig TanBig TanFour PropsConst PropsExp PropsHyp PropsCosBig PropsTrigFour Refute1.
Import ListNotations.
Open Scope Z_scope.

(** As in C112: half of pi is the pole of the tangent, and the argument is at least 2^-60
    away from it. *)

(** ** C115: tan *)
Theorem C115_tan : forall f g c x p rm, reachable pi_new pi_for_prec c -> wf x -> 0 < p -> (1 <= Rabs (value x) < 2)%R -> (bpow radix2 (-60) <= Rabs (Rabs (value x) - PI / 2))%R ->
  work f (Z.max (prec_up p) (64 * wlen x) + 64) 64 + 192 <= 2048 ->
  match f_tan f g 31 c x p rm with
  | None => True
  | Some (c', res) => reachable pi_new pi_for_prec c' /\
      match res with Ok q => elem_result (tan (value x)) (prec_up p) rm q | Err (ExponentOverflow _) => True | _ => False end
  end.
Proof. intros f g c x p rm R W Hp HV HF HB. pose proof (tan_big_ok f g c x p rm R W Hp HV HF ltac:(lia)) as O. destruct (f_tan f g 31 c x p rm) as [[c' [q|[s| | |]|]]|]; exact O. Qed.

(** ** C116: tan beyond two
    Here the tangent is zero at pi, and the code passes the pole on the way. *)
Theorem C116_tan : forall f g c x p rm, reachable pi_new pi_for_prec c -> wf x -> 0 < p -> (2 <= Rabs (value x) < 4)%R -> (bpow radix2 (-60) <= Rabs (Rabs (value x) - PI))%R ->
  work f (Z.max (prec_up p) (64 * wlen x) + 64) 64 + 192 <= 2048 ->
  match f_tan f g 31 c x p rm with
  | None => True
  | Some (c', res) => reachable pi_new pi_for_prec c' /\
      match res with Ok q => elem_result (tan (value x)) (prec_up p) rm q | Err (ExponentOverflow _) => True | _ => False end
  end.
Proof. intros f g c x p rm R W Hp HV HF HB. pose proof (tan_four_ok f g c x p rm R W Hp HV HF ltac:(lia)) as O. destruct (f_tan f g 31 c x p rm) as [[c' [q|[s| | |]|]]|]; exact O. Qed.

(** ** Cases *)
(** Minus fifteen eighths, beyond the pole, where the tangent is positive. *)
Definition C115_run := Eval vm_compute in match pi_new with Ok c => match f_tan 1 100 31 c ex_minus_19 64 RDown with Some (_, Ok q) => Some q | _ => None end | _ => None end.
Example C115_run_is : C115_run = Some (mk_num (mk_m [14689321790414578682] 64) Pos 2 true).
Proof. reflexivity. Qed.
Example C115_case : exists c, reachable pi_new pi_for_prec c /\ wf ex_minus_13 /\ (1 <= Rabs (value ex_minus_13) < 2)%R /\ (bpow radix2 (-60) <= Rabs (Rabs (value ex_minus_13) - PI / 2))%R /\ work 1 (Z.max (prec_up 64) (64 * wlen ex_minus_13) + 64) 64 + 192 <= 2048.
Proof. exact C112_case. Qed.

(** Minus seven halves, beyond pi. *)
Definition C116_run := Eval vm_compute in match pi_new with Ok c => match f_tan 1 100 31 c ex_minus_72 64 RUp with Some (_, Ok q) => Some q | _ => None end | _ => None end.
Example C116_run_is : C116_run = Some (mk_num (mk_m [13819770875384509574] 64) Neg (-1) true).
Proof. reflexivity. Qed.
Example C116_case : exists c, reachable pi_new pi_for_prec c /\ wf ex_minus_154 /\ (2 <= Rabs (value ex_minus_154) < 4)%R /\ (bpow radix2 (-60) <= Rabs (Rabs (value ex_minus_154) - PI))%R /\ work 1 (Z.max (prec_up 64) (64 * wlen ex_minus_154) + 64) 64 + 192 <= 2048.
Proof. exact C113_case. Qed.

Definition all_tan_big := (C115_tan, C115_case, C116_tan, C116_case).
Print Assumptions all_tan_big.
