(** C109: the arcsine of an argument between 7/10 and one in magnitude. *)

From Coq Require Import ZArith List Bool Lia Reals Lra.
From Flocq Require Import Core.
From Verif Require Import Words IntModel Mantissa Num Consts Elem Series Exp Sin Atan Asin SpecZ Spec SpecOps SpecConst SpecReach SpecPow SpecElem RealP CmpP SetP ExpTop HypTop AtanTop PiNum AtanBig AsinBig PropsConst PropsExp PropsHyp Refute1.
Import ListNotations.
Open Scope Z_scope.

(** As in C103, but the argument of the arctangent can exceed one, so that pi is needed,
    which is known here to 2048 bits: the working precisions are at most that.  Whatever
    calls filled the cache of pi; an overflow can come from a cache filled with an enormous
    precision. *)

(** ** C109: asin *)
Theorem C109_asin : forall f e g c x p rm, reachable pi_new pi_for_prec c -> wf x -> 0 < p -> (7 / 10 < Rabs (value x) < 1)%R ->
  work e (2 * work f (Z.max (prec_up p) (64 * wlen x) + 64) 64 + 128) 64 + 64 <= 2048 ->
  match f_asin f e g 31 c x p rm with
  | None => True
  | Some (c', res) => reachable pi_new pi_for_prec c' /\
      match res with Ok q => elem_result (asin (value x)) (prec_up p) rm q | Err (ExponentOverflow _) => True | _ => False end
  end.
Proof. intros f e g c x p rm R W Hp HV HB. pose proof (asin_near_ok f e g c x p rm R W Hp HV HB) as O. destruct (f_asin f e g 31 c x p rm) as [[c' [q|[s| | |]|]]|]; exact O. Qed.
(** At plus and minus one the call always returns, the exact rounding of half of pi in
    every mode. *)
Theorem C109_asin_one : forall f e g c x p rm, reachable pi_new pi_for_prec c -> wf x -> 0 < p <= 2048 -> Rabs (value x) = 1%R ->
  exists c' res, f_asin f e g 31 c x p rm = Some (c', res) /\ reachable pi_new pi_for_prec c' /\
    match res with
    | Ok q => wf q /\ 64 * wlen q = prec_up p /\ ns q = ns x /\ ninexact q = true /\ value q = rnd_prec (prec_up p) rm (asin (value x))
    | Err (ExponentOverflow _) => True
    | _ => False
    end.
Proof. intros f e g c x p rm R W Hp HV. destruct (asin_end_ok f e g c x p rm R W Hp HV) as (c' & [q|[s| | |]|] & E & R' & O); exists c'; eexists; (split; [exact E|split; [exact R'|exact O]]). Qed.

(** ** Cases *)
Definition ex_minus_75 : num := mk_num (mk_m [3 * 2 ^ 62] 64) Neg 0 false.
(** Minus three quarters, rounded down to 64 bits with a new cache. *)
Definition C109_run := Eval vm_compute in match pi_new with Ok c => match f_asin 1 1 100 31 c ex_minus_75 64 RDown with Some (_, Ok q) => Some q | _ => None end | _ => None end.
Example C109_run_is : C109_run = Some (mk_num (mk_m [15643984129589436481] 64) Neg 0 true).
Proof. reflexivity. Qed.
Lemma three_quarters_value : value ex_minus_75 = (-3 * bpow radix2 (-2))%R.
Proof.
  transitivity (-3 * bpow radix2 62 * bpow radix2 (-64))%R; [|rewrite Rmult_assoc, <- bpow_plus; reflexivity]. unfold value, F2R. change (ne ex_minus_75 - 64 * wlen ex_minus_75) with (-64). cbn [Fnum Fexp]. f_equal. rewrite <- (IZR_Zpower radix2 62) by lia. rewrite <- mult_IZR. reflexivity.
Qed.
Example C109_case : exists c, reachable pi_new pi_for_prec c /\ wf ex_minus_75 /\ (7 / 10 < Rabs (value ex_minus_75) < 1)%R /\ work 1 (2 * work 1 (Z.max (prec_up 64) (64 * wlen ex_minus_75) + 64) 64 + 128) 64 + 64 <= 2048.
Proof.
  destruct C72_case as (c & _ & R). exists c. split; [exact R|]. split; [unfold ex_minus_75; wf_concrete|]. split; [|vm_compute; discriminate].
  rewrite three_quarters_value. change (bpow radix2 (-2)) with (/ 4)%R. rewrite Rabs_left by lra. lra.
Qed.

Definition all_asin_big := (C109_asin, C109_asin_one, C109_case).
Print Assumptions all_asin_big.
