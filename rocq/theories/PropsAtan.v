(** C102: the arctangent of an argument below one in magnitude. *)

From Coq Require Import ZArith List Bool Lia Reals Lra.
From Flocq Require Import Core.
From Verif Require Import Words IntModel Mantissa Num Consts Elem Series Exp Sin Atan SpecZ Spec SpecOps SpecConst SpecPow SpecElem RealP CmpP SetP AddNum ArithTop ApproxR SmallP ElemNum ElemDom Refute1 ExpTop HypTop AtanTop PropsConst PropsExp PropsHyp.
Import ListNotations.
Open Scope Z_scope.

(** [f] bounds the retries, [g] the terms and reduction estimates, [h] the attempts at pi;
    [None] is running out of them.  The working precisions are at most 2^20 bits.  An
    argument with exponent 0 or less is below one, needs no pi, and leaves its cache alone. *)

(** ** C102: atan *)
Theorem C102_atan : forall f g h c x p rm, wf x -> nonzero x -> 0 < p -> (rm <> RNone \/ EMIN < ne x) -> ne x <= 0 ->
  work f (Z.max (prec_up p) (64 * wlen x) + 64) 64 + 64 <= 2 ^ 20 ->
  match f_atan f g h c x p rm with
  | None => True
  | Some (c', res) => c' = c /\ exists q, res = Ok q /\ (elem_result (atan (value x)) (prec_up p) rm q \/ rounded_to (prec_up p) rm (ns x) (atan (value x)) q)
  end.
Proof. exact atan_ok. Qed.
Theorem C102_atan_zero : forall f g h c x p rm, wf x -> magnitude x = 0 -> 0 < p -> prec_up p < P_LIM ->
  exists res, f_atan f g h c x p rm = Some (c, res) /\ exactly (prec_up p) 0 (ns x) (ninexact x) res.
Proof. intros f g h c x p rm W Z Hp HP. unfold f_atan, odd_in. cbv zeta. rewrite is_zero_true by auto. eexists. split; [reflexivity|]. now apply new2_exact. Qed.

(** ** Cases *)
(** One half, rounded up to 64 bits. *)
Definition C102_run := Eval vm_compute in match f_atan 1 100 0 (mk_cache 0 (ONE, ONE, ONE) ONE) ex_half 64 RUp with Some (_, Ok q) => Some q | _ => None end.
Example C102_run_is : C102_run = Some (mk_num (mk_m [17105577567250447174] 64) Pos (-1) true).
Proof. reflexivity. Qed.
Example C102_case : wf ex_half /\ nonzero ex_half /\ (RUp <> RNone \/ EMIN < ne ex_half) /\ ne ex_half <= 0 /\ work 1 (Z.max (prec_up 64) (64 * wlen ex_half) + 64) 64 + 64 <= 2 ^ 20.
Proof. split; [exact half_wf|]. split; [exact half_nonzero|]. split; [exact up_rounds|]. split; vm_compute; discriminate. Qed.

Definition all_atan := (C102_atan, C102_atan_zero, C102_case).
Print Assumptions all_atan.
