(** C97, C98: log10. *)

From Coq Require Import ZArith List Bool Lia Reals Lra.
From Flocq Require Import Core.
From Verif Require Import Words IntModel Mantissa Num Pow Consts Elem Series Exp Ln Log10 SpecZ Spec SpecOps SpecConst SpecReach SpecPow SpecElem SpecLog10 RealP CmpP SetP AddNum ArithTop PowExt IntNum ElemNum ConstTop ConstReach Refute1 ElemDom Log10Top PropsConst PropsLn PropsInvHyp PropsRealPow.
Import ListNotations.
Open Scope Z_scope.

(** [f] bounds the retries, [h] those of ln and [g] the loops of its series; [None] is
    running out of them.  The last working precision is at most 2^14 bits. *)
Definition ten_caches_ok (c : tcache) : Prop := reachable ln2_new ln2_for_prec (fst c) /\ reachable ln10_new ln10_for_prec (snd c).

(** ** C97: log10 is correctly rounded *)
Theorem C97_log10 : forall f h g c x p rm, ten_caches_ok c -> wf x -> (0 < value x)%R -> value x <> 1%R -> 0 < p ->
  work h (work f (Z.max (prec_up p) (64 * wlen x) + 64) 64 + 128) 64 <= 2 ^ 14 ->
  match log10_num f h g c x p rm with
  | None => True
  | Some (c', res) => ten_caches_ok c' /\ log10_post (value x) (prec_up p) rm res
  end.
Proof. exact log10_ok. Qed.
(** log10(1) needs one round; the result is not marked inexact. *)
Theorem C97_log10_one : forall f h g c x p rm, ten_caches_ok c -> wf x -> value x = 1%R -> 0 < p -> Z.max (prec_up p) (64 * wlen x) + 128 <= 2 ^ 14 ->
  exists c' res, log10_num (S f) h g c x p rm = Some (c', res) /\ ten_caches_ok c' /\ exactly (prec_up p) 0 Pos false res.
Proof. exact log10_one. Qed.
Theorem C97_log10_domain : forall f h g c x p rm, wf x -> (value x <= 0)%R -> 0 < p -> Z.max (prec_up p) (64 * wlen x) + 128 < P_LIM ->
  log10_num (S f) h g c x p rm = Some (c, Err InvalidArgument).
Proof. exact log10_outside. Qed.

(** ** C98: the inexact flag of log10 *)
(** The logarithm of a power of ten is always marked inexact. *)
Theorem C98_power_flag_refuted : forall f h g c x m p rm c' q, ten_caches_ok c -> wf x -> value x = powerRZ 10 m -> m <> 0 -> 0 < p ->
  work h (work f (Z.max (prec_up p) (64 * wlen x) + 64) 64 + 128) 64 <= 2 ^ 14 ->
  log10_num f h g c x p rm = Some (c', Ok q) -> ninexact q = true.
Proof.
  intros f h g c x m p rm c' q Hc W V Hm Hp HB E. assert (P0 : (0 < value x)%R) by (rewrite V; apply powerRZ_lt; lra).
  assert (N1 : value x <> 1%R).
  { intros H. rewrite V in H. apply (f_equal ln) in H. rewrite ln_ten, ln_1 in H. pose proof ln10_range as L. apply Rmult_integral in H as [H|H]; [apply eq_IZR in H; contradiction|lra]. }
  pose proof (C97_log10 f h g c x p rm Hc W P0 N1 Hp HB) as T. rewrite E in T. destruct T as [_ [(q' & Q & R)|(n & _ & _ & R)]].
  - injection Q as <-. apply R.
  - apply R.
Qed.
(** The mark of an inexact 1 is lost. *)
Definition ex_one_inexact := mk_num (mk_m [2 ^ 63] 64) Pos 1 true.
Theorem C98_one_flag_refuted : forall f h g c, ten_caches_ok c -> wf ex_one_inexact /\ value ex_one_inexact = 1%R /\ ninexact ex_one_inexact = true /\
  exists c' q, log10_num (S f) h g c ex_one_inexact 64 RToEven = Some (c', Ok q) /\ value q = 0%R /\ ninexact q = false.
Proof.
  intros f h g c Hc. assert (W : wf ex_one_inexact) by (unfold ex_one_inexact; wf_concrete). assert (V : value ex_one_inexact = 1%R).
  { change (value (mk_num (mk_m [2 ^ 63] 64) Pos 1 false) = 1%R). rewrite one_word. change (1 - 64) with (-63). change (bpow radix2 (-63)) with (/ 9223372036854775808)%R. change (2 ^ 63) with 9223372036854775808. field. }
  split; [exact W|]. split; [exact V|]. split; [reflexivity|].
  destruct (C97_log10_one f h g c ex_one_inexact 64 RToEven Hc W V ltac:(lia) ltac:(vm_compute; discriminate)) as (c' & res & E & _ & q & -> & _ & _ & _ & Vq & Iq). exists c', q. auto.
Qed.

(** ** Cases.  The runs are evaluated when the file is compiled: log10(2) up, and log10(100) down. *)
Definition run_log10 (l : result ln2_cache) (t : result ln10_cache) (x : num) (p : Z) (rm : rmode) : option num :=
  match l, t with
  | Ok l, Ok t => match log10_num 1 1 100 (l, t) x p rm with Some (_, Ok q) => Some q | _ => None end
  | _, _ => None
  end.
Definition ex_hundred := mk_num (mk_m [100 * 2 ^ 57] 64) Pos 7 false.
Definition C97_run := Eval vm_compute in run_log10 ln2_new ln10_new ex_two 64 RUp.
Example C97_run_is : C97_run = Some (mk_num (mk_m [11106046577046714265] 64) Pos (-1) true).
Proof. reflexivity. Qed.
Definition C98_run := Eval vm_compute in run_log10 ln2_new ln10_new ex_hundred 64 RDown.
Theorem C98_hundred_refuted : C98_run = Some (mk_num (mk_m [2 ^ 63] 64) Pos 2 true).
Proof. reflexivity. Qed.
Lemma ten_caches_new : exists c, ten_caches_ok c.
Proof. destruct C70_case as (l & _ & L). destruct (gives_spec _ _ _ _ _ C71_case) as (t & _ & _ & E & _). apply (reach_new ln10_new ln10_for_prec) in E. exists (l, t). split; assumption. Qed.
Example C97_case : exists c, ten_caches_ok c /\ wf ex_two /\ (0 < value ex_two)%R /\ value ex_two <> 1%R /\ work 1 (work 1 (Z.max (prec_up 64) (64 * wlen ex_two) + 64) 64 + 128) 64 <= 2 ^ 14.
Proof. destruct ten_caches_new as (c & C). exists c. split; [exact C|]. split; [exact ex_two_wf|]. rewrite ex_two_value. split; [lra|]. split; [lra|]. vm_compute. discriminate. Qed.
Example C98_case : exists c, ten_caches_ok c /\ wf ex_hundred /\ value ex_hundred = powerRZ 10 2 /\ work 1 (work 1 (Z.max (prec_up 64) (64 * wlen ex_hundred) + 64) 64 + 128) 64 <= 2 ^ 14.
Proof.
  destruct ten_caches_new as (c & C). exists c. split; [exact C|]. split; [unfold ex_hundred; wf_concrete|]. split; [|vm_compute; discriminate].
  unfold ex_hundred. rewrite one_word. change (7 - 64) with (-57). change (bpow radix2 (-57)) with (/ 144115188075855872)%R. rewrite mult_IZR. change (2 ^ 57) with 144115188075855872. change (powerRZ 10 2) with (10 * (10 * 1))%R. field.
Qed.

Definition all_log10 := (C97_log10, C97_log10_one, C97_log10_domain, C97_case, C98_power_flag_refuted, C98_one_flag_refuted, C98_hundred_refuted, C98_case).
Print Assumptions all_log10.
