(** C107: the arctangent of an argument of magnitude one or more. *)

From Coq Require Import ZArith List Bool Lia Reals Lra.
From Flocq Require Import Core.
From Verif Require Import Words IntModel Mantissa Num Consts Elem Series Exp Sin Atan SpecZ Spec SpecOps SpecConst SpecReach SpecPow SpecElem RealP CmpP SetP ExpTop HypTop AtanTop PiNum AtanBig PropsConst PropsExp PropsHyp Refute1.
Import ListNotations.
Open Scope Z_scope.

(** As in C102, but pi is needed and is known here to 2048 bits: the working precisions
    are at most that.  The exponent is at most 2^21.  Whatever calls filled the cache of
    pi; an overflow can come from a cache filled with an enormous precision. *)

(** ** C107: atan *)
Theorem C107_atan : forall f g c x p rm, reachable pi_new pi_for_prec c -> wf x -> nonzero x -> 0 < p -> (1 <= Rabs (value x))%R -> ne x <= 2 ^ 21 ->
  work f (Z.max (prec_up p) (64 * wlen x) + 64) 64 + 64 <= 2048 ->
  match f_atan f g 31 c x p rm with
  | None => True
  | Some (c', res) => reachable pi_new pi_for_prec c' /\
      match res with Ok q => elem_result (atan (value x)) (prec_up p) rm q | Err (ExponentOverflow _) => True | _ => False end
  end.
Proof. intros f g c x p rm R W N Hp H1 He HB. pose proof (atan_big_ok f g c x p rm R W N Hp H1 He HB) as O. destruct (f_atan f g 31 c x p rm) as [[c' [q|[s| | |]|]]|]; exact O. Qed.

(** ** Cases *)
Definition ex_three : num := mk_num (mk_m [3 * 2 ^ 62] 64) Neg 2 false.
(** Minus three, rounded down to 64 bits with a new cache. *)
Definition C107_run := Eval vm_compute in match pi_new with Ok c => match f_atan 1 100 31 c ex_three 64 RDown with Some (_, Ok q) => Some q | _ => None end | _ => None end.
Example C107_run_is : C107_run = Some (mk_num (mk_m [11520413849889734636] 64) Neg 1 true).
Proof. reflexivity. Qed.
Example C107_case : exists c, reachable pi_new pi_for_prec c /\ wf ex_three /\ nonzero ex_three /\ (1 <= Rabs (value ex_three))%R /\ ne ex_three <= 2 ^ 21 /\ work 1 (Z.max (prec_up 64) (64 * wlen ex_three) + 64) 64 + 64 <= 2048.
Proof.
  destruct C72_case as (c & _ & R). exists c. split; [exact R|]. split; [|split; [|split; [|split; vm_compute; discriminate]]].
  - unfold ex_three. wf_concrete.
  - intros H; vm_compute in H; discriminate.
  - destruct (ConstNum.normal_range ex_three ltac:(unfold ex_three; wf_concrete) ltac:(split; [reflexivity|intros H; vm_compute in H; discriminate])) as [L _]. change (bpow radix2 (ne ex_three - 1)) with 2%R in L. lra.
Qed.

Definition all_atan_big := (C107_atan, C107_case).
Print Assumptions all_atan_big.
