(** C110: the arccosine of zero, of minus one and above 7/10 in magnitude. *)

From Coq Require Import ZArith List Bool Lia Reals Lra.
From Flocq Require Import Core.
From Verif Require Import Words IntModel Mantissa Num Consts Elem Series Exp Sin Atan Asin Acos SpecZ Spec SpecOps SpecConst SpecReach SpecPow SpecElem RealP CmpP SetP ExpTop HypTop AtanTop PiNum AtanBig AcosBig PropsConst PropsExp PropsHyp PropsAsinBig Refute1.
Import ListNotations.
Open Scope Z_scope.

(** As in C108 and C109.  At a distance of 2^-62 and more from one and minus one the
    precision added for cancellation is never raised. *)

(** ** C110: acos *)
Theorem C110_acos : forall f a e g c x p rm, reachable pi_new pi_for_prec c -> wf x -> 0 < p -> (7 / 10 < Rabs (value x) <= 1 - bpow radix2 (-62))%R ->
  work e (2 * work a (work f (Z.max (prec_up p) (64 * wlen x) + 64) 64 + 64 + 64) 64 + 128) 64 + 64 <= 2048 ->
  match f_acos f a e g 31 c x p rm with
  | None => True
  | Some (c', res) => reachable pi_new pi_for_prec c' /\
      match res with Ok q => elem_result (acos (value x)) (prec_up p) rm q | Err (ExponentOverflow _) => True | _ => False end
  end.
Proof. intros f a e g c x p rm R W Hp HV HB. pose proof (acos_near_ok f a e g c x p rm R W Hp HV HB) as O. destruct (f_acos f a e g 31 c x p rm) as [[c' [q|[s| | |]|]]|]; exact O. Qed.
(** The arccosine of zero is half of pi, that of minus one pi. *)
Theorem C110_acos_zero : forall f a e g c x p rm, reachable pi_new pi_for_prec c -> wf x -> 0 < p -> magnitude x = 0 ->
  work f (Z.max (prec_up p) (64 * wlen x) + 64) 64 + 64 <= 2048 ->
  match f_acos f a e g 31 c x p rm with
  | None => True
  | Some (c', res) => reachable pi_new pi_for_prec c' /\
      match res with Ok q => elem_result (PI / 2) (prec_up p) rm q | Err (ExponentOverflow _) => True | _ => False end
  end.
Proof. intros f a e g c x p rm R W Hp HV HB. pose proof (acos_zero_ok f a e g c x p rm R W Hp HV HB) as O. destruct (f_acos f a e g 31 c x p rm) as [[c' [q|[s| | |]|]]|]; exact O. Qed.
Theorem C110_acos_minus_one : forall f a e g c x p rm, reachable pi_new pi_for_prec c -> wf x -> 0 < p -> value x = (-1)%R ->
  work f (Z.max (prec_up p) (64 * wlen x) + 64) 64 + 64 <= 2048 ->
  match f_acos f a e g 31 c x p rm with
  | None => True
  | Some (c', res) => reachable pi_new pi_for_prec c' /\
      match res with Ok q => elem_result PI (prec_up p) rm q | Err (ExponentOverflow _) => True | _ => False end
  end.
Proof. intros f a e g c x p rm R W Hp HV HB. pose proof (acos_minus_ok f a e g c x p rm R W Hp HV HB) as O. destruct (f_acos f a e g 31 c x p rm) as [[c' [q|[s| | |]|]]|]; exact O. Qed.

(** ** Cases *)
(** Minus three quarters, rounded down to 64 bits with a new cache. *)
Definition C110_run := Eval vm_compute in match pi_new with Ok c => match f_acos 1 1 1 100 31 c ex_minus_75 64 RDown with Some (_, Ok q) => Some q | _ => None end | _ => None end.
Example C110_run_is : C110_run = Some (mk_num (mk_m [11155015490474481962] 64) Pos 2 true).
Proof. reflexivity. Qed.
(** Minus one, to nearest: pi. *)
Definition C110_run_one := Eval vm_compute in match pi_new with Ok c => match f_acos 1 1 1 100 31 c (n_neg ONE) 64 RToEven with Some (_, Ok q) => Some q | _ => None end | _ => None end.
Example C110_run_one_is : C110_run_one = Some (mk_num (mk_m [14488038916154245685] 64) Pos 2 true).
Proof. reflexivity. Qed.
Example C110_case : exists c, reachable pi_new pi_for_prec c /\ wf ex_minus_75 /\ (7 / 10 < Rabs (value ex_minus_75) <= 1 - bpow radix2 (-62))%R /\
  work 1 (2 * work 1 (work 1 (Z.max (prec_up 64) (64 * wlen ex_minus_75) + 64) 64 + 64 + 64) 64 + 128) 64 + 64 <= 2048.
Proof.
  destruct C109_case as (c & R & W & _ & _). exists c. split; [exact R|]. split; [exact W|]. split; [|vm_compute; discriminate]. rewrite three_quarters_value. assert (B : (bpow radix2 (-62) <= bpow radix2 (-2))%R) by (apply bpow_le; lia). change (bpow radix2 (-2)) with (/ 4)%R in *. rewrite Rabs_left by lra. lra.
Qed.
Example C110_case_ends : exists c, reachable pi_new pi_for_prec c /\ wf (n_neg ONE) /\ value (n_neg ONE) = (-1)%R /\ work 1 (Z.max (prec_up 64) (64 * wlen (n_neg ONE)) + 64) 64 + 64 <= 2048.
Proof.
  destruct C72_case as (c & _ & R). exists c. split; [exact R|]. split; [apply AddNum.n_neg_wf, DivNum.ONE_wf|]. split; [|vm_compute; discriminate].
  rewrite AddNum.n_neg_value, DivNum.ONE_value. lra.
Qed.

Definition all_acos_big := (C110_acos, C110_acos_zero, C110_acos_minus_one, C110_case, C110_case_ends).
Print Assumptions all_acos_big.
