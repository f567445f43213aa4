(** C104: the cosine of an argument below one in magnitude. *)

From Coq Require Import ZArith List Bool Lia Reals Lra.
From Flocq Require Import Core.
From Verif Require Import Words IntModel Mantissa Num Consts Elem Series Exp Sin Cos SpecZ Spec SpecOps SpecConst SpecPow SpecElem RealP CmpP SetP AddNum ArithTop ApproxR SmallP ElemNum ElemDom Refute1 ExpTop HypTop CosTop PropsConst PropsExp PropsHyp.
Import ListNotations.
Open Scope Z_scope.

(** [f] bounds the retries, [g] the terms and restoration steps, [h] the attempts at pi;
    [None] is running out of them.  The working precisions are at most 2^15 bits.  An
    argument with exponent 0 or less is below one, needs no pi, and leaves its cache alone. *)

(** ** C104: cos *)
Theorem C104_cos : forall f g h c x p rm, wf x -> nonzero x -> 0 < p -> ne x <= 0 ->
  work f (Z.max (prec_up p) (64 * wlen x) + 64) 64 + 128 <= 2 ^ 15 ->
  match f_cos f g h c x p rm with
  | None => True
  | Some (c', res) => c' = c /\ exists q, res = Ok q /\ elem_result (cos (value x)) (prec_up p) rm q
  end.
Proof. exact cos_ok. Qed.
Theorem C104_cos_zero : forall f g h c x p rm, wf x -> magnitude x = 0 -> 0 < p -> prec_up p < P_LIM ->
  exists res, f_cos f g h c x p rm = Some (c, res) /\ exactly (prec_up p) 1 Pos (ninexact x) res.
Proof. intros f g h c x p rm W Z Hp HP. unfold f_cos, even_in. cbv zeta. rewrite is_zero_true by auto. eexists. split; [reflexivity|]. now apply one_exact. Qed.

(** ** Cases *)
(** One half, rounded up to 64 bits. *)
Definition C104_run := Eval vm_compute in match f_cos 1 100 0 (mk_cache 0 (ONE, ONE, ONE) ONE) ex_half 64 RUp with Some (_, Ok q) => Some q | _ => None end.
Example C104_run_is : C104_run = Some (mk_num (mk_m [16188540922742078702] 64) Pos 0 true).
Proof. reflexivity. Qed.
Example C104_case : wf ex_half /\ nonzero ex_half /\ ne ex_half <= 0 /\ work 1 (Z.max (prec_up 64) (64 * wlen ex_half) + 64) 64 + 128 <= 2 ^ 15.
Proof. split; [exact half_wf|]. split; [exact half_nonzero|]. split; vm_compute; discriminate. Qed.

Definition all_cos := (C104_cos, C104_cos_zero, C104_case).
Print Assumptions all_cos.
