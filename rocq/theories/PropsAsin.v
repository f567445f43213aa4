(** C103: the arcsine of an argument up to 7/10 in magnitude. *)

From Coq Require Import ZArith List Bool Lia Reals Lra.
From Flocq Require Import Core.
From Verif Require Import Words IntModel Mantissa Num Consts Elem Series Exp Sin Atan Asin SpecZ Spec SpecOps SpecConst SpecPow SpecElem RealP CmpP SetP AddNum ArithTop ApproxR SmallP ElemNum ElemDom Refute1 ExpTop HypTop AtanTop AsinTop PropsConst PropsExp PropsHyp.
Import ListNotations.
Open Scope Z_scope.

(** [f] bounds the retries, [e] those of the arctangent inside, [g] its terms and reduction
    estimates, [h] the attempts at pi; [None] is running out of them.  The working
    precisions are at most 2^20 bits.  Up to 7/10 (the code could go to 1/sqrt 2) the
    arctangent is that of an argument below one and needs no pi. *)

(** ** C103: asin *)
Theorem C103_asin : forall f e g h c x p rm, wf x -> nonzero x -> 0 < p -> (rm <> RNone \/ EMIN < ne x) -> (Rabs (value x) <= 7 / 10)%R ->
  work e (work f (Z.max (prec_up p) (64 * wlen x) + 64) 64 + 128) 64 + 64 <= 2 ^ 20 ->
  match f_asin f e g h c x p rm with
  | None => True
  | Some (c', res) => c' = c /\ exists q, res = Ok q /\ (elem_result (asin (value x)) (prec_up p) rm q \/ rounded_to (prec_up p) rm (ns x) (asin (value x)) q)
  end.
Proof. exact asin_ok. Qed.
Theorem C103_asin_zero : forall f e g h c x p rm, wf x -> magnitude x = 0 -> 0 < p -> prec_up p < P_LIM ->
  exists res, f_asin f e g h c x p rm = Some (c, res) /\ exactly (prec_up p) 0 (ns x) (ninexact x) res.
Proof. intros f e g h c x p rm W Z Hp HP. unfold f_asin. cbv zeta. rewrite is_zero_true by auto. eexists. split; [reflexivity|]. now apply new2_exact. Qed.
Theorem C103_asin_outside : forall f e g h c x p rm, wf x -> (1 < Rabs (value x))%R -> f_asin f e g h c x p rm = Some (c, Err InvalidArgument).
Proof. exact asin_out. Qed.

(** ** Cases *)
(** One half, rounded up to 64 bits: pi/6. *)
Definition C103_run := Eval vm_compute in match f_asin 1 1 100 0 (mk_cache 0 (ONE, ONE, ONE) ONE) ex_half 64 RUp with Some (_, Ok q) => Some q | _ => None end.
Example C103_run_is : C103_run = Some (mk_num (mk_m [9658692610769497124] 64) Pos 0 true).
Proof. reflexivity. Qed.
Lemma half_value : value ex_half = (/ 2)%R.
Proof.
  transitivity (bpow radix2 63 * bpow radix2 (-64))%R; [|rewrite <- bpow_plus; reflexivity]. unfold value, F2R. change (ne ex_half - 64 * wlen ex_half) with (-64). cbn [Fnum Fexp]. f_equal.
Qed.
Example C103_case : wf ex_half /\ nonzero ex_half /\ (RUp <> RNone \/ EMIN < ne ex_half) /\ (Rabs (value ex_half) <= 7 / 10)%R /\ work 1 (work 1 (Z.max (prec_up 64) (64 * wlen ex_half) + 64) 64 + 128) 64 + 64 <= 2 ^ 20.
Proof. split; [exact half_wf|]. split; [exact half_nonzero|]. split; [exact up_rounds|]. split; [|vm_compute; discriminate]. rewrite half_value. rewrite Rabs_pos_eq; lra. Qed.

Definition all_asin := (C103_asin, C103_asin_zero, C103_asin_outside, C103_case).
Print Assumptions all_asin.
