(** C99, C100: log. *)

From Coq Require Import ZArith List Bool Lia Reals Lra.
From Flocq Require Import Core.
From Verif Require Import Words IntModel Mantissa Num Pow Consts Elem Series Exp Ln RealPow Log SpecZ Spec SpecOps SpecConst SpecReach SpecPow SpecElem SpecLog RealP CmpP SetP AddNum ArithTop PowExt IntNum ElemNum ConstTop ConstReach Refute1 ElemDom LogTop PropsConst PropsLn PropsInvHyp PropsRealPow.
Import ListNotations.
Open Scope Z_scope.

(** [f] bounds the retries, [h] those of ln, pow and exp and [g] the loops of their series;
    [None] is running out of them.  The last working precision is at most 2^14 bits. *)

(** ** C99: log is correctly rounded *)
Theorem C99_log : forall f h g c x n p rm, caches_ok c -> wf x -> wf n -> (0 < value x)%R -> value x <> 1%R -> (0 < value n)%R -> value n <> 1%R -> 0 < p ->
  work h (work h (work f (Z.max (prec_up p) (Z.max (64 * wlen x) (64 * wlen n)) + 64) 64 + 128) 64 + 128) 64 <= 2 ^ 14 ->
  match log_num f h g c x n p rm with
  | None => True
  | Some (c', res) => caches_ok c' /\ log_post (value x) (value n) (prec_up p) rm res
  end.
Proof. exact log_num_ok. Qed.
(** The logarithm of 1 is a zero with the sign of the logarithm of the base. *)
Theorem C99_log_one : forall f h g c x n p rm, caches_ok c -> wf x -> wf n -> value x = 1%R -> (0 < value n)%R -> value n <> 1%R -> 0 < p ->
  work h (Z.max (prec_up p) (Z.max (64 * wlen x) (64 * wlen n)) + 64 + 128) 64 <= 2 ^ 14 ->
  log_num (S f) h g c x n p rm = None \/ exists c' res s, caches_ok c' /\ log_num (S f) h g c x n p rm = Some (c', res) /\ has_sign s (ln (value n)) /\ exactly (prec_up p) 0 s (ninexact x || ninexact n) res.
Proof. exact log_num_one. Qed.
Theorem C99_log_base_one : forall f h g c x n p rm, caches_ok c -> wf x -> wf n -> (0 < value x)%R -> value n = 1%R -> 0 < p ->
  work h (Z.max (prec_up p) (Z.max (64 * wlen x) (64 * wlen n)) + 64 + 128) 64 <= 2 ^ 14 ->
  log_num (S f) h g c x n p rm = None \/ exists c' e, caches_ok c' /\ log_num (S f) h g c x n p rm = Some (c', Err e) /\ (value x = 1%R -> e = InvalidArgument) /\ (value x <> 1%R -> e = DivisionByZero).
Proof. exact log_num_base_one. Qed.
Theorem C99_log_domain : forall f h g c x n p rm, wf x -> wf n -> (value x <= 0)%R \/ (value n <= 0)%R ->
  log_num f h g c x n p rm = Some (c, Err InvalidArgument).
Proof. exact log_num_outside. Qed.

(** ** C100: the inexact flag of log *)
(** The logarithm of a power of the base is always marked inexact. *)
Theorem C100_power_flag_refuted : forall f h g c x n m p rm c' q, caches_ok c -> wf x -> wf n -> (0 < value n)%R -> value n <> 1%R -> value x = powerRZ (value n) m -> m <> 0 -> 0 < p ->
  work h (work h (work f (Z.max (prec_up p) (Z.max (64 * wlen x) (64 * wlen n)) + 64) 64 + 128) 64 + 128) 64 <= 2 ^ 14 ->
  log_num f h g c x n p rm = Some (c', Ok q) -> ninexact q = true.
Proof.
  intros f h g c x n m p rm c' q Hc W Wn N0 N1 V Hm Hp HB E. assert (P0 : (0 < value x)%R) by (rewrite V; apply powerRZ_lt; lra).
  assert (X1 : value x <> 1%R).
  { intros H. rewrite V, powerRZ_Rpower in H by exact N0. apply (f_equal ln) in H. rewrite ln_1 in H. unfold Rpower in H. rewrite ln_exp in H. apply Rmult_integral in H as [H|H]; [apply eq_IZR in H; contradiction|].
    apply N1. apply ln_inv; [exact N0|lra|now rewrite ln_1]. }
  pose proof (C99_log f h g c x n p rm Hc W Wn P0 X1 N0 N1 Hp HB) as T. rewrite E in T. destruct T as [_ [(q' & Q & R)|(a & _ & R)]].
  - injection Q as <-. apply R.
  - apply R.
Qed.

(** ** Cases.  The runs are evaluated when the file is compiled: log of 3 to the base 2 up,
    and log of 6 to the base 6 up. *)
Definition run_log (l : result ln2_cache) (t : result e_cache) (x n : num) (p : Z) (rm : rmode) : option num :=
  match l, t with
  | Ok l, Ok t => match log_num 1 1 100 (l, t) x n p rm with Some (_, Ok q) => Some q | _ => None end
  | _, _ => None
  end.
Definition ex_six := mk_num (mk_m [3 * 2 ^ 62] 64) Pos 3 false.
Definition C99_run := Eval vm_compute in run_log ln2_new e_new ex_three ex_two 64 RUp.
Example C99_run_is : C99_run = Some (mk_num (mk_m [14618698808614929360] 64) Pos 1 true).
Proof. reflexivity. Qed.
Definition C100_run := Eval vm_compute in run_log ln2_new e_new ex_six ex_six 64 RUp.
Theorem C100_six_refuted : C100_run = Some (mk_num (mk_m [2 ^ 63] 64) Pos 1 true).
Proof. reflexivity. Qed.
Example C99_case : exists c, caches_ok c /\ wf ex_three /\ wf ex_two /\ (0 < value ex_three)%R /\ value ex_three <> 1%R /\ (0 < value ex_two)%R /\ value ex_two <> 1%R /\
  work 1 (work 1 (work 1 (Z.max (prec_up 64) (Z.max (64 * wlen ex_three) (64 * wlen ex_two)) + 64) 64 + 128) 64 + 128) 64 <= 2 ^ 14.
Proof.
  destruct caches_new as (c & C). exists c. split; [exact C|]. split; [exact ex_three_wf|]. split; [exact ex_two_wf|]. rewrite ex_two_value, ex_three_value. repeat (split; [lra|]). vm_compute. discriminate.
Qed.
Example C100_case : exists c, caches_ok c /\ wf ex_six /\ value ex_six = powerRZ (value ex_six) 1 /\ (0 < value ex_six)%R /\ value ex_six <> 1%R /\
  work 1 (work 1 (work 1 (Z.max (prec_up 64) (Z.max (64 * wlen ex_six) (64 * wlen ex_six)) + 64) 64 + 128) 64 + 128) 64 <= 2 ^ 14.
Proof.
  assert (V : value ex_six = 6%R).
  { unfold ex_six. rewrite one_word. change (3 - 64) with (-61). change (bpow radix2 (-61)) with (/ 2305843009213693952)%R. rewrite mult_IZR. change (2 ^ 62) with 4611686018427387904. field. }
  destruct caches_new as (c & C). exists c. split; [exact C|]. split; [unfold ex_six; wf_concrete|]. rewrite V. split; [symmetry; apply powerRZ_1|]. split; [lra|]. split; [lra|]. vm_compute. discriminate.
Qed.

Definition all_log := (C99_log, C99_log_one, C99_log_base_one, C99_log_domain, C99_case, C100_power_flag_refuted, C100_six_refuted, C100_case).
Print Assumptions all_log.
