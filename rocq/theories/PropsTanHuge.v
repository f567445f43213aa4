(** C119: the tangent of an argument from four to 2^64 in magnitude. *)

From Coq Require Import ZArith List Bool Lia Reals Lra.
From Flocq Require Import Core.
From Verif Require Import Words IntModel Mantissa Num Consts Elem Series Exp Sin Tan SpecZ Spec SpecOps SpecConst SpecReach SpecPow SpecElem RealP CmpP SetP ExpTop HypTop PiNum AtanBig TanTop SinBig SinHuge TanBig TanFour TanEight TanHuge PropsConst PropsExp PropsHyp PropsSinHuge Refute1.
Import ListNotations.
Open Scope Z_scope.

(** The argument is first replaced by its remainder by twice a rounded pi (util.rs 7-17). Both the
    sine and the cosine are at least 2^-59 in magnitude: the argument is near neither a zero nor a
    pole of the tangent. *)

(** ** C119: tan *)
Theorem C119_tan : forall f g c x p rm, reachable pi_new pi_for_prec c -> wf x -> 0 < p -> (4 <= Rabs (value x) < bpow radix2 64)%R -> (bpow radix2 (-59) <= Rabs (sin (value x)))%R -> (bpow radix2 (-59) <= Rabs (cos (value x)))%R ->
  work f (Z.max (prec_up p) (64 * wlen x) + 64) 64 + 128 <= 1792 ->
  match f_tan f g 31 c x p rm with
  | None => True
  | Some (c', res) => reachable pi_new pi_for_prec c' /\
      match res with Ok q => elem_result (tan (value x)) (prec_up p) rm q | Err (ExponentOverflow _) => True | _ => False end
  end.
Proof. intros f g c x p rm R W Hp HV HF HC HB. pose proof (tan_huge_ok f g c x p rm R W Hp HV HF HC ltac:(lia)) as O. destruct (f_tan f g 31 c x p rm) as [[c' [q|[s| | |]|]]|]; exact O. Qed.

(** ** Cases *)
(** Minus 10^18, which the remainder reduces, and four, which meets the hypotheses. *)
Definition C119_run := Eval vm_compute in match pi_new with Ok c => match f_tan 1 100 31 c ex_minus_1e18 64 RDown with Some (_, Ok q) => Some q | _ => None end | _ => None end.
Example C119_run_is : C119_run = Some (mk_num (mk_m [9671339319219360388] 64) Pos 4 true).
Proof. reflexivity. Qed.
Example C119_case : exists c, reachable pi_new pi_for_prec c /\ wf ex_four /\ (4 <= Rabs (value ex_four) < bpow radix2 64)%R /\ (bpow radix2 (-59) <= Rabs (sin (value ex_four)))%R /\ (bpow radix2 (-59) <= Rabs (cos (value ex_four)))%R /\ work 1 (Z.max (prec_up 64) (64 * wlen ex_four) + 64) 64 + 128 <= 1792.
Proof. exact C118_case. Qed.

Definition all_tan_huge := (C119_tan, C119_case).
Print Assumptions all_tan_huge.
