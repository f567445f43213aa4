(** C108: the arccosine of an argument up to 7/10 in magnitude. *)

From Coq Require Import ZArith List Bool Lia Reals Lra.
From Flocq Require Import Core.
From Verif Require Import Words IntModel Mantissa Num Consts Elem Series Exp Sin Atan Asin Acos SpecZ Spec SpecOps SpecConst SpecReach SpecPow SpecElem RealP CmpP SetP ArithTop ElemDom ExpTop HypTop AtanTop PiNum AtanBig AcosTop PropsConst PropsExp PropsHyp PropsAsin Refute1.
Import ListNotations.
Open Scope Z_scope.

(** [f], [a] and [e] bound the retries of acos, asin and atan, [g] the terms and reduction
    estimates; [None] is running out of them.  Pi is known here to 2048 bits: the working
    precisions of acos are at most that.  Whatever calls filled the cache of pi; an
    overflow can come from a cache filled with an enormous precision. *)

(** ** C108: acos *)
Theorem C108_acos : forall f a e g c x p rm, reachable pi_new pi_for_prec c -> wf x -> nonzero x -> 0 < p -> EMIN < ne x -> (Rabs (value x) <= 7 / 10)%R ->
  work f (Z.max (prec_up p) (64 * wlen x) + 64) 64 + 64 <= 2048 ->
  work e (work a (work f (Z.max (prec_up p) (64 * wlen x) + 64) 64 + 128) 64 + 128) 64 + 64 <= 2 ^ 20 ->
  match f_acos f a e g 31 c x p rm with
  | None => True
  | Some (c', res) => reachable pi_new pi_for_prec c' /\
      match res with Ok q => elem_result (acos (value x)) (prec_up p) rm q | Err (ExponentOverflow _) => True | _ => False end
  end.
Proof. intros f a e g c x p rm R W N Hp He HV HB HC. pose proof (acos_ok f a e g c x p rm R W N Hp He HV HB HC) as O. destruct (f_acos f a e g 31 c x p rm) as [[c' [q|[s| | |]|]]|]; exact O. Qed.
(** The arccosine of one is plus zero; above one there is none. *)
Theorem C108_acos_one : forall f a e g h c x p rm, wf x -> value x = 1%R -> 0 < p -> prec_up p < P_LIM ->
  exists res, f_acos f a e g h c x p rm = Some (c, res) /\ exactly (prec_up p) 0 Pos (ninexact x) res.
Proof. exact acos_one. Qed.
Theorem C108_acos_domain : forall f a e g h c x p rm, wf x -> (1 < Rabs (value x))%R -> f_acos f a e g h c x p rm = Some (c, Err InvalidArgument).
Proof. exact acos_out. Qed.

(** ** Cases *)
(** One half (a third of pi), rounded up to 64 bits with a new cache. *)
Definition C108_run := Eval vm_compute in match pi_new with Ok c => match f_acos 1 1 1 100 31 c ex_half 64 RUp with Some (_, Ok q) => Some q | _ => None end | _ => None end.
Example C108_run_is : C108_run = Some (mk_num (mk_m [9658692610769497124] 64) Pos 1 true).
Proof. reflexivity. Qed.
Example C108_case : exists c, reachable pi_new pi_for_prec c /\ wf ex_half /\ nonzero ex_half /\ EMIN < ne ex_half /\ (Rabs (value ex_half) <= 7 / 10)%R /\
  work 1 (Z.max (prec_up 64) (64 * wlen ex_half) + 64) 64 + 64 <= 2048 /\ work 1 (work 1 (work 1 (Z.max (prec_up 64) (64 * wlen ex_half) + 64) 64 + 128) 64 + 128) 64 + 64 <= 2 ^ 20.
Proof.
  destruct C72_case as (c & _ & R). exists c. split; [exact R|]. split; [exact half_wf|]. split; [exact half_nonzero|]. split; [reflexivity|]. split; [|split; vm_compute; discriminate].
  rewrite half_value, Rabs_pos_eq; lra.
Qed.

Definition all_acos := (C108_acos, C108_acos_one, C108_acos_domain, C108_case).
Print Assumptions all_acos.
