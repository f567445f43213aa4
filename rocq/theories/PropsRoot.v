(** Property theorems, part 2: square and cube roots. *)

From Coq Require Import ZArith Reals List Bool Lia Lra.
From Flocq Require Import Core.
From Verif Require Import Words RootModel Mantissa Num SpecZ Spec WordsP RootP RootP2 ArithTop RootTop Refute1 PropsArith.
Import ListNotations.
Open Scope Z_scope.

(** ** C05 *)
Theorem C05_sqrt_correctly_rounded : forall x p rm, wf x -> 0 < p -> prec_up p < P_LIM ->
  ((0 <= value x)%R -> rounds_to_normal (prec_up p) rm (sqrt (value x)) (n_sqrt x p rm)) /\
  (value x = 0%R -> zero_result (prec_up p) (n_sqrt x p rm)) /\
  ((value x < 0)%R -> n_sqrt x p rm = Err InvalidArgument).
Proof. exact sqrt_top. Qed.

(** With mantissas of at most 2^31 bits the result is always in the normal range. *)
Theorem C05_sqrt_total : forall x p rm, wf x -> nonzero x -> (0 <= value x)%R -> 64 * wlen x <= 2 ^ 31 -> 0 < p -> prec_up p < P_LIM ->
  exists q, n_sqrt x p rm = Ok q /\ wf q /\ 64 * wlen q = prec_up p /\ value q = rnd_prec (prec_up p) rm (sqrt (value x)) /\ normal q.
Proof. exact sqrt_total. Qed.

Example C05_case : wf ex_a /\ nonzero ex_a /\ 64 * wlen ex_a <= 2 ^ 31 /\ (0 <= value ex_a)%R.
Proof.
  destruct ex_a_ok as (A & B & _). split; [exact A|]. split; [exact B|]. split; [vm_compute; discriminate|]. unfold value. apply F2R_ge_0. vm_compute. discriminate.
Qed.

(** ** C06 *)
Theorem C06_cbrt_correctly_rounded : forall x p rm c, wf x -> 0 < p -> prec_up p < P_LIM -> (c * c * c = value x)%R ->
  rounds_to_normal (prec_up p) rm c (n_cbrt x p rm) /\ (value x = 0%R -> zero_result (prec_up p) (n_cbrt x p rm)).
Proof. exact cbrt_top. Qed.

Theorem C06_cbrt_total : forall x p rm c, wf x -> nonzero x -> (c * c * c = value x)%R -> 64 * wlen x <= 2 ^ 31 -> 0 < p -> prec_up p < P_LIM ->
  exists q, n_cbrt x p rm = Ok q /\ wf q /\ 64 * wlen q = prec_up p /\ value q = rnd_prec (prec_up p) rm c /\ normal q.
Proof. exact cbrt_total. Qed.

(** The hypothesis on [c] can be met for every value, and [ex_b] is a negative subnormal operand. *)
Example C06_case : wf ex_b /\ nonzero ex_b /\ 64 * wlen ex_b <= 2 ^ 31 /\ exists c, (c * c * c = value ex_b)%R.
Proof. destruct ex_b_ok as (A & B & _). split; [exact A|]. split; [exact B|]. split; [vm_compute; discriminate|]. apply cube_root_exists. Qed.

(** ** C07, roots *)
Theorem C07_sqrt_inexact : forall x p rm q, wf x -> 0 < p -> prec_up p < P_LIM -> n_sqrt x p rm = Ok q ->
  (ninexact q = true <-> ninexact x = true \/ value q <> sqrt (value x)).
Proof. exact sqrt_flag. Qed.

Theorem C07_cbrt_inexact : forall x p rm q c, wf x -> 0 < p -> prec_up p < P_LIM -> (c * c * c = value x)%R -> n_cbrt x p rm = Ok q ->
  (ninexact q = true <-> ninexact x = true \/ value q <> c).
Proof. exact cbrt_flag. Qed.

Example C07_root_case : exists q r, n_sqrt ex_a 64 RUp = Ok q /\ ninexact q = true /\ n_cbrt ex_b 64 RToEven = Ok r /\ ninexact r = true.
Proof. eexists _, _. split; [vm_compute; reflexivity|]. split; [reflexivity|]. split; [vm_compute; reflexivity|reflexivity]. Qed.

(** ** C44 *)
Theorem C44_sqrt_remainder : forall m, words_ok m -> 1 <= zlen m -> 2 ^ (64 * (zlen m - 1)) <= val m ->
  exists s r, sqrt_rem m = Ok (s, r) /\ words_ok s /\ words_ok r /\ val s * val s + val r = val m /\
    val s * val s <= val m < (val s + 1) * (val s + 1) /\ zlen s = (zlen m + 1) / 2.
Proof.
  intros m H1 H2 H3. destruct (sqrt_rem_spec m H1 (conj H2 H3)) as (s & r & A & B & C & D & E & F & _).
  exists s, r. repeat split; auto; lia.
Qed.

Theorem C44_cbrt_remainder : forall m k, words_ok m -> 1 <= zlen m -> 2 ^ (64 * (zlen m - 1)) <= val m -> zlen m = 3 * k ->
  exists s r, cbrt_rem m = Ok (s, r) /\ words_ok s /\ words_ok r /\ val s * val s * val s + val r = val m /\
    val s * val s * val s <= val m < (val s + 1) * (val s + 1) * (val s + 1) /\ zlen s = k.
Proof.
  intros m k H1 H2 H3 H4. destruct (cbrt_rem_spec m k H1 (conj H2 H3) H4) as (s & r & A & B & C & D & E & F & _).
  exists s, r. repeat split; auto; lia.
Qed.

Example C44_case : let m := [1; 2; 3; 4; 5; 6] in words_ok m /\ 2 ^ (64 * (zlen m - 1)) <= val m /\ zlen m = 3 * 2.
Proof. cbv zeta. split; [unfold words_ok; repeat constructor; lia|]. split; [vm_compute; discriminate|reflexivity]. Qed.

Definition all_props_root := (
  C05_sqrt_correctly_rounded,
  C05_sqrt_total,
  C06_cbrt_correctly_rounded,
  C06_cbrt_total,
  C07_sqrt_inexact,
  C07_cbrt_inexact,
  C44_sqrt_remainder,
  C44_cbrt_remainder).
Print Assumptions all_props_root.
