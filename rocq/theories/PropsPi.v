(** C106: pi up to 2048 bits. *)

From Coq Require Import ZArith List Bool Lia Reals Lra.
From Flocq Require Import Core.
From Verif Require Import Words Mantissa Num Consts SpecZ Spec SpecConst SpecReach PiNum PropsConst.
Import ListNotations.
Open Scope Z_scope.

(** ** C106: pi *)
(** Whatever calls filled the cache, of whatever precision. *)
Theorem C106_pi : forall c p rm, reachable pi_new pi_for_prec c -> 0 < p <= 2048 ->
  delivers pi_for_prec c p rm (fun y => wf y /\ 64 * wlen y = prec_up p /\ ns y = Pos /\ ninexact y = true /\ value y = rnd_prec (prec_up p) rm PI /\ value y <> PI).
Proof.
  intros c p rm R Hp. assert (HL : 2048 <= P_LIM) by (vm_compute; discriminate). destruct (proj2 C72_pi_partial c p rm R ltac:(lia)) as (c' & r & E & H). exists c', r. split; [exact E|]. destruct r as [y|[s| | |]|]; try exact H.
  apply pi_result; [|apply Z.mod_mul_r || (unfold prec_up; rewrite Z.mul_comm; apply Z.mod_mul; lia)|exact H].
  unfold prec_up. pose proof (Z.div_le_mono 64 (p + 63) 64 ltac:(lia) ltac:(lia)) as A. pose proof (Z.div_le_mono (p + 63) (2048 + 63) 64 ltac:(lia) ltac:(lia)) as B. change (64 / 64) with 1 in A. change ((2048 + 63) / 64) with 32 in B. lia.
Qed.
(** The Chudnovsky value that C72 speaks about is pi to 2183 bits. *)
Theorem C106_chudnovsky : forall S, chud_limit S -> (Rabs (PI - chud_value S) <= bpow radix2 (-2183))%R.
Proof. exact (proj1 pi_known). Qed.

(** ** Cases *)
(** A new cache gives pi to nearest with 128 bits. *)
Definition C106_run := Eval vm_compute in match pi_new with Ok c => match const_num pi_for_prec 31 c 100 RToEven with Some (_, Ok y) => Some y | _ => None end | _ => None end.
Example C106_run_is : C106_run = Some (mk_num (mk_m [14179128828124470481; 14488038916154245684] 128) Pos 2 true).
Proof. reflexivity. Qed.
Example C106_case : exists c, reachable pi_new pi_for_prec c /\ 0 < 100 <= 2048.
Proof. destruct C72_case as (c & _ & R). exists c. split; [exact R|lia]. Qed.

Definition all_pi := (C106_pi, C106_chudnovsky, C106_case).
Print Assumptions all_pi.
