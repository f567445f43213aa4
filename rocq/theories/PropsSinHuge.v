(** C117 and C118: the sine and the cosine of an argument from four to 2^64 in magnitude. *)

From Coq Require Import ZArith List Bool Lia Reals Lra.
From Flocq Require Import Core.
From Verif Require Import Words IntModel Mantissa Num Consts Elem Series Exp Sin Cos SpecZ Spec SpecOps SpecConst SpecReach SpecPow SpecElem RealP CmpP SetP ExpTop HypTop PiNum AtanBig SinTop SinBig SinFour SinEight SinHuge CosTop CosBig CosFour CosHuge PropsConst PropsExp PropsHyp Refute1.
Import ListNotations.
Open Scope Z_scope.

(** The argument is first replaced by its remainder by twice a rounded pi (util.rs 7-17).
    The condition that keeps the result away from zero is now on the sine itself: its
    magnitude is at least 2^-59, that is, the argument is not near any multiple of pi. *)

(** ** C117: sin *)
Theorem C117_sin : forall f g c x p rm, reachable pi_new pi_for_prec c -> wf x -> 0 < p -> (4 <= Rabs (value x) < bpow radix2 64)%R -> (bpow radix2 (-59) <= Rabs (sin (value x)))%R ->
  work f (Z.max (prec_up p) (64 * wlen x) + 64) 64 + 128 <= 1792 ->
  match f_sin f g 31 c x p rm with
  | None => True
  | Some (c', res) => reachable pi_new pi_for_prec c' /\
      match res with Ok q => elem_result (sin (value x)) (prec_up p) rm q | Err (ExponentOverflow _) => True | _ => False end
  end.
Proof. intros f g c x p rm R W Hp HV HF HB. pose proof (sin_huge_ok f g c x p rm R W Hp HV HF ltac:(lia)) as O. destruct (f_sin f g 31 c x p rm) as [[c' [q|[s| | |]|]]|]; exact O. Qed.

(** ** Cases *)
(** Five, which the remainder leaves as it is, and minus 10^18, which it reduces. *)
Definition ex_five : num := mk_num (mk_m [5 * 2 ^ 61] 64) Pos 3 false.
Definition C117_run := Eval vm_compute in match pi_new with Ok c => match f_sin 1 100 31 c ex_five 64 RUp with Some (_, Ok q) => Some q | _ => None end | _ => None end.
Example C117_run_is : C117_run = Some (mk_num (mk_m [17689030680778479891] 64) Neg 0 true).
Proof. reflexivity. Qed.
Definition ex_minus_1e18 : num := mk_num (mk_m [10 ^ 18 * 16] 64) Neg 60 false.
Definition C117_run2 := Eval vm_compute in match pi_new with Ok c => match f_sin 1 100 31 c ex_minus_1e18 64 RDown with Some (_, Ok q) => Some q | _ => None end | _ => None end.
Example C117_run2_is : C117_run2 = Some (mk_num (mk_m [18317050932743466297] 64) Pos 0 true).
Proof. reflexivity. Qed.
Example C117_case : exists c, reachable pi_new pi_for_prec c /\ wf ex_five /\ (4 <= Rabs (value ex_five) < bpow radix2 64)%R /\ (bpow radix2 (-59) <= Rabs (sin (value ex_five)))%R /\ work 1 (Z.max (prec_up 64) (64 * wlen ex_five) + 64) 64 + 128 <= 1792.
Proof.
  destruct C72_case as (c & _ & R). exists c. split; [exact R|]. assert (W : wf ex_five) by (unfold ex_five; wf_concrete). split; [exact W|].
  assert (V : value ex_five = 5%R). { unfold value. change (magnitude ex_five) with (5 * 2 ^ 61). change (ne ex_five - 64 * wlen ex_five) with (-61). unfold F2R. cbn [ns ex_five sgnZ Fnum Fexp]. rewrite !mult_IZR. change (bpow radix2 (-61)) with (/ 2305843009213693952)%R. change (2 ^ 61) with 2305843009213693952. lra. }
  rewrite V, (Rabs_pos_eq 5) by lra. split; [split; [lra|]; apply Rlt_le_trans with (bpow radix2 3); [change (bpow radix2 3) with 8%R; lra|apply bpow_le; lia]|]. split; [|vm_compute; discriminate].
  pose proof PI_lower. pose proof PI_high. rewrite <- (sin_turns 5 1), Rmult_1_l, <- Rabs_Ropp, <- sin_neg. pose proof (sin_big (- (5 - 2 * PI)) ltac:(lra)) as SB. rewrite Rabs_pos_eq by lra. apply Rle_trans with (bpow radix2 (-1)); [apply bpow_le; lia|]. change (bpow radix2 (-1)) with (/ 2)%R. lra.
Qed.

(** ** C118: cos
    Both the sine and the cosine are at least 2^-59 in magnitude: near a multiple of pi the cosine of
    half the reduced argument, which the code doubles, may vanish. *)
Theorem C118_cos : forall f g c x p rm, reachable pi_new pi_for_prec c -> wf x -> 0 < p -> (4 <= Rabs (value x) < bpow radix2 64)%R -> (bpow radix2 (-59) <= Rabs (sin (value x)))%R -> (bpow radix2 (-59) <= Rabs (cos (value x)))%R ->
  work f (Z.max (prec_up p) (64 * wlen x) + 64) 64 + 128 <= 1792 ->
  match f_cos f g 31 c x p rm with
  | None => True
  | Some (c', res) => reachable pi_new pi_for_prec c' /\
      match res with Ok q => elem_result (cos (value x)) (prec_up p) rm q | Err (ExponentOverflow _) => True | _ => False end
  end.
Proof. intros f g c x p rm R W Hp HV HF HC HB. pose proof (cos_huge_ok f g c x p rm R W Hp HV HF HC ltac:(lia)) as O. destruct (f_cos f g 31 c x p rm) as [[c' [q|[s| | |]|]]|]; exact O. Qed.

Definition C118_run := Eval vm_compute in match pi_new with Ok c => match f_cos 1 100 31 c ex_minus_1e18 64 RDown with Some (_, Ok q) => Some q | _ => None end | _ => None end.
Example C118_run_is : C118_run = Some (mk_num (mk_m [17468622472481657739] 64) Pos (-3) true).
Proof. reflexivity. Qed.
Definition ex_four : num := mk_num (mk_m [2 ^ 63] 64) Pos 3 false.
Example C118_case : exists c, reachable pi_new pi_for_prec c /\ wf ex_four /\ (4 <= Rabs (value ex_four) < bpow radix2 64)%R /\ (bpow radix2 (-59) <= Rabs (sin (value ex_four)))%R /\ (bpow radix2 (-59) <= Rabs (cos (value ex_four)))%R /\ work 1 (Z.max (prec_up 64) (64 * wlen ex_four) + 64) 64 + 128 <= 1792.
Proof.
  destruct C72_case as (c & _ & R). exists c. split; [exact R|]. assert (W : wf ex_four) by (unfold ex_four; wf_concrete). split; [exact W|].
  assert (V : value ex_four = 4%R). { unfold value. change (magnitude ex_four) with (2 ^ 63). change (ne ex_four - 64 * wlen ex_four) with (-61). unfold F2R. cbn [ns ex_four sgnZ Fnum Fexp]. rewrite !mult_IZR. change (bpow radix2 (-61)) with (/ 2305843009213693952)%R. change (2 ^ 63) with 9223372036854775808. lra. }
  rewrite V, (Rabs_pos_eq 4) by lra. split; [split; [lra|]; apply Rlt_le_trans with (bpow radix2 3); [change (bpow radix2 3) with 8%R; lra|apply bpow_le; lia]|].
  pose proof PI_lower. assert (B : (bpow radix2 (-59) <= / 16)%R) by (change (/ 16)%R with (bpow radix2 (-4)); apply bpow_le; lia). split; [|split; [|vm_compute; discriminate]].
  - pose proof (sin_far 4 (/ 2) ltac:(lra) ltac:(lra) ltac:(rewrite Rabs_pos_eq by lra; lra)). lra.
  - pose proof (cos_two_four 4 ltac:(lra)). lra.
Qed.

Definition all_huge := (C117_sin, C117_case, C118_cos, C118_case).
Print Assumptions all_huge.
