(** C113 and C114: the sine and the cosine of an argument between two and four in magnitude. *)

From Coq Require Import ZArith List Bool Lia Reals Lra.
From Flocq Require Import Core.
From Verif Require Import Words IntModel Mantissa Num Consts Elem Series Exp Sin Cos SpecZ Spec SpecOps SpecConst SpecReach SpecPow SpecElem RealP CmpP SetP ExpTop HypTop PiNum AtanBig SinTop SinBig SinFour CosTop CosBig CosFour PropsConst PropsExp PropsHyp Refute1.
Import ListNotations.
Open Scope Z_scope.

(** As in C111 and C112, but the proximity is to pi itself.  The sine vanishes there; the
    cosine does not, but the cosine of half the argument, which the code doubles, does.
    In both cases the argument is at least 2^-60 away from pi. *)

(** ** C113: sin *)
Theorem C113_sin : forall f g c x p rm, reachable pi_new pi_for_prec c -> wf x -> 0 < p -> (2 <= Rabs (value x) < 4)%R -> (bpow radix2 (-60) <= Rabs (Rabs (value x) - PI))%R ->
  work f (Z.max (prec_up p) (64 * wlen x) + 64) 64 + 192 <= 2048 ->
  match f_sin f g 31 c x p rm with
  | None => True
  | Some (c', res) => reachable pi_new pi_for_prec c' /\
      match res with Ok q => elem_result (sin (value x)) (prec_up p) rm q | Err (ExponentOverflow _) => True | _ => False end
  end.
Proof. intros f g c x p rm R W Hp HV HF HB. pose proof (sin_four_ok f g c x p rm R W Hp HV HF ltac:(lia)) as O. destruct (f_sin f g 31 c x p rm) as [[c' [q|[s| | |]|]]|]; exact O. Qed.

(** ** C114: cos *)
Theorem C114_cos : forall f g c x p rm, reachable pi_new pi_for_prec c -> wf x -> 0 < p -> (2 <= Rabs (value x) < 4)%R -> (bpow radix2 (-60) <= Rabs (Rabs (value x) - PI))%R ->
  work f (Z.max (prec_up p) (64 * wlen x) + 64) 64 + 192 <= 2048 ->
  match f_cos f g 31 c x p rm with
  | None => True
  | Some (c', res) => reachable pi_new pi_for_prec c' /\
      match res with Ok q => elem_result (cos (value x)) (prec_up p) rm q | Err (ExponentOverflow _) => True | _ => False end
  end.
Proof. intros f g c x p rm R W Hp HV HF HB. pose proof (cos_four_ok f g c x p rm R W Hp HV HF ltac:(lia)) as O. destruct (f_cos f g 31 c x p rm) as [[c' [q|[s| | |]|]]|]; exact O. Qed.

(** ** Cases *)
Definition ex_minus_72 : num := mk_num (mk_m [7 * 2 ^ 61] 64) Neg 2 false.
(** Minus seven halves, beyond pi, with a new cache: the sine is positive, the cosine negative. *)
Definition C113_run := Eval vm_compute in match pi_new with Ok c => match f_sin 1 100 31 c ex_minus_72 64 RUp with Some (_, Ok q) => Some q | _ => None end | _ => None end.
Example C113_run_is : C113_run = Some (mk_num (mk_m [12941616853080406447] 64) Pos (-1) true).
Proof. reflexivity. Qed.
Definition C114_run := Eval vm_compute in match pi_new with Ok c => match f_cos 1 100 31 c ex_minus_72 64 RDown with Some (_, Ok q) => Some q | _ => None end | _ => None end.
Example C114_run_is : C114_run = Some (mk_num (mk_m [17274576846567176126] 64) Neg 0 true).
Proof. reflexivity. Qed.
Definition ex_minus_154 : num := mk_num (mk_m [15 * 2 ^ 60] 64) Neg 2 false.
Example C113_case : exists c, reachable pi_new pi_for_prec c /\ wf ex_minus_154 /\ (2 <= Rabs (value ex_minus_154) < 4)%R /\ (bpow radix2 (-60) <= Rabs (Rabs (value ex_minus_154) - PI))%R /\ work 1 (Z.max (prec_up 64) (64 * wlen ex_minus_154) + 64) 64 + 192 <= 2048.
Proof.
  destruct C72_case as (c & _ & R). exists c. split; [exact R|]. assert (W : wf ex_minus_154) by (unfold ex_minus_154; wf_concrete). split; [exact W|].
  assert (V : Rabs (value ex_minus_154) = (15 / 4)%R). { unfold value. change (magnitude ex_minus_154) with (15 * 2 ^ 60). change (ne ex_minus_154 - 64 * wlen ex_minus_154) with (-62). unfold F2R. cbn [ns ex_minus_154 sgnZ Fnum Fexp]. rewrite !mult_IZR. change (bpow radix2 (-62)) with (/ 4611686018427387904)%R. change (2 ^ 60) with 1152921504606846976. rewrite Rabs_left by lra. lra. }
  rewrite V. split; [lra|]. split; [|vm_compute; discriminate]. pose proof PI_low. rewrite Rabs_pos_eq by lra. apply Rle_trans with (bpow radix2 (-3)); [apply bpow_le; lia|]. change (bpow radix2 (-3)) with (/ 8)%R. lra.
Qed.

Definition all_trig_four := (C113_sin, C114_cos, C113_case).
Print Assumptions all_trig_four.
