(** C105: the tangent of an argument below one in magnitude. *)

From Coq Require Import ZArith List Bool Lia Reals Lra.
From Flocq Require Import Core.
From Verif Require Import Words IntModel Mantissa Num Consts Elem Series Exp Tan SpecZ Spec SpecOps SpecConst SpecPow SpecElem RealP CmpP SetP AddNum ArithTop ApproxR SmallP ElemNum ElemDom Refute1 ExpTop HypTop TanTop PropsConst PropsExp PropsHyp.
Import ListNotations.
Open Scope Z_scope.

(** [f] bounds the retries, [g] the terms and restoration steps, [h] the attempts at pi;
    [None] is running out of them.  The working precisions are at most 8000 bits.  An
    argument with exponent 0 or less is below one, needs no pi, and leaves its cache alone. *)

(** ** C105: tan *)
Theorem C105_tan : forall f g h c x p rm, wf x -> nonzero x -> 0 < p -> (rm <> RNone \/ EMIN < ne x) -> ne x <= 0 ->
  work f (Z.max (prec_up p) (64 * wlen x) + 64) 64 + Z.max (prec_up p) (64 * wlen x) + 192 <= 8000 ->
  match f_tan f g h c x p rm with
  | None => True
  | Some (c', res) => c' = c /\ exists q, res = Ok q /\ (elem_result (tan (value x)) (prec_up p) rm q \/ rounded_to (prec_up p) rm (ns x) (tan (value x)) q)
  end.
Proof. exact tan_ok. Qed.
Theorem C105_tan_zero : forall f g h c x p rm, wf x -> magnitude x = 0 -> 0 < p -> prec_up p < P_LIM ->
  exists res, f_tan f g h c x p rm = Some (c, res) /\ exactly (prec_up p) 0 (ns x) (ninexact x) res.
Proof. intros f g h c x p rm W Z Hp HP. unfold f_tan, odd_in. cbv zeta. rewrite is_zero_true by auto. eexists. split; [reflexivity|]. now apply new2_exact. Qed.

(** ** Cases *)
(** One half, rounded up to 64 bits. *)
Definition C105_run := Eval vm_compute in match f_tan 1 100 0 (mk_cache 0 (ONE, ONE, ONE) ONE) ex_half 64 RUp with Some (_, Ok q) => Some q | _ => None end.
Example C105_run_is : C105_run = Some (mk_num (mk_m [10077502216978715161] 64) Pos 0 true).
Proof. reflexivity. Qed.
Example C105_case : wf ex_half /\ nonzero ex_half /\ (RUp <> RNone \/ EMIN < ne ex_half) /\ ne ex_half <= 0 /\ work 1 (Z.max (prec_up 64) (64 * wlen ex_half) + 64) 64 + Z.max (prec_up 64) (64 * wlen ex_half) + 192 <= 8000.
Proof. split; [exact half_wf|]. split; [exact half_nonzero|]. split; [exact up_rounds|]. split; vm_compute; discriminate. Qed.

Definition all_tan := (C105_tan, C105_tan_zero, C105_case).
Print Assumptions all_tan.
