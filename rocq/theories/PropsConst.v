(** Properties of the constants: the series behind e, pi, ln 2 and ln 10. *)

From Coq Require Import ZArith Reals List Bool Lia Lra.
From Flocq Require Import Core.
From Verif Require Import Words Mantissa Num Consts SpecZ Spec SpecConst SpecReach ConstP LoopP ConstNum ConstTop ConstReach PiP.
Import ListNotations.
Open Scope Z_scope.

(** ** C51: e *)
(** P / Q is the sum of a!/k! over a < k <= b, exactly, and Q = b!/a!.  The only
    other outcome is an exponent overflow, for ranges of more than 2^24 terms. *)
Theorem C51_e_series : forall a b, 0 <= a < b -> b <= 2 ^ 63 ->
  match e_pq a b with
  | Ok (p, q) => exists P Q, whole p P /\ whole q Q /\ 0 < Q /\ (IZR P / IZR Q = factR a * rsum e_term a b)%R /\ (IZR Q * factR a = factR b)%R
  | Err (ExponentOverflow _) => 2 ^ 24 < b - a
  | _ => False
  end.
Proof.
  intros a b Ha Hb. pose proof (e_pq_ok a b Ha Hb) as H. unfold outcome in H. destruct (e_pq a b) as [[p q]|[s| | |]|]; try exact H.
  destruct H as (P & Q & H1 & H2 & _ & [H3 _] & H4 & H5). exists P, Q. exact (conj H1 (conj H2 (conj H3 (conj H4 H5)))).
Qed.
Lemma factR_val k n : Z.of_nat (fact (Z.to_nat k)) = n -> factR k = IZR n.
Proof. intros <-. unfold factR. apply INR_IZR_INZ. Qed.
Example C51_case : exists p q, e_pq 3 6 = Ok (p, q) /\ whole p 37 /\ whole q 120.
Proof.
  pose proof (C51_e_series 3 6 ltac:(lia) ltac:(lia)) as H. destruct (e_pq 3 6) as [[p q]|[s| | |]|]; try (exfalso; revert H; try easy; lia).
  exists p, q. split; [reflexivity|]. destruct H as (P & Q & Hp & Hq & HQ & E & F). assert (S : rsum e_term 3 6 = (0 + e_term (3 + Z.of_nat 1) + e_term (3 + Z.of_nat 2) + e_term (3 + Z.of_nat 3))%R) by reflexivity.
  rewrite S in E. unfold e_term in E.
  change (3 + Z.of_nat 1) with 4 in E. change (3 + Z.of_nat 2) with 5 in E. change (3 + Z.of_nat 3) with 6 in E.
  rewrite (factR_val 3 6 eq_refl), (factR_val 4 24 eq_refl), (factR_val 5 120 eq_refl), (factR_val 6 720 eq_refl) in E. rewrite (factR_val 3 6 eq_refl), (factR_val 6 720 eq_refl) in F.
  assert (IZR Q = 120)%R by lra. assert (Q = 120) by (apply eq_IZR; exact H). subst Q. assert (IZR P = 37)%R. { replace (IZR P) with (IZR P / IZR 120 * 120)%R by field. rewrite E. field. }
  assert (P = 37) by (apply eq_IZR; exact H0). subst P. split; assumption.
Qed.

(** The range is extended, not recomputed: the same pair as from scratch. *)
Theorem C51_e_extend : forall m x, 0 < m <= 2 ^ 62 -> e_pq 0 m = Ok x -> e_inc x m = (do y <- e_pq 0 (2 * m); Ok (y, 2 * m)).
Proof. exact e_extends. Qed.

(** ** C52: pi, ln 2 and ln 10 *)
(** The ratio P/Q is the sum of the terms u(k), a < k <= b, in units of the weight
    w(a), and R/Q takes w(a) to w(b). *)
Definition series (w u : Z -> R) (a b : Z) (t : num * num * num) : Prop :=
  let '(p, q, r) := t in
  exists P Q R, whole p P /\ whole q Q /\ whole r R /\ 0 < Q /\ (IZR P / IZR Q * w a = rsum u a b)%R /\ (IZR R / IZR Q * w a = w b)%R.

Lemma tri_series w u B a b t : tri_good w u B a b t -> series w u a b t.
Proof. destruct t as [[p q] r]. intros (P & Q & R & H1 & H2 & H3 & _ & _ & [H4 _] & _ & H5 & H6). exists P, Q, R. exact (conj H1 (conj H2 (conj H3 (conj H4 (conj H5 H6))))). Qed.

Theorem C52_ln2_series : forall a b, 0 <= a < b -> b <= 2 ^ 55 ->
  match ln2_pqr a b with Ok t => series (powR (/ 9)) ln2_term a b t | Err (ExponentOverflow _) => 2 ^ 24 < b - a | _ => False end.
Proof.
  intros a b Ha Hb. pose proof (ln2_pqr_ok a b Ha Hb) as H. unfold outcome in H. destruct (ln2_pqr a b) as [t|[s| | |]|]; try exact H. exact (tri_series _ _ _ _ _ _ H).
Qed.
Theorem C52_ln10_series : forall a b, 0 <= a < b -> b <= 2 ^ 55 ->
  match ln10_pqr a b with Ok t => series (powR (81 / 121)) ln10_term a b t | Err (ExponentOverflow _) => 2 ^ 24 < b - a | _ => False end.
Proof.
  intros a b Ha Hb. pose proof (ln10_pqr_ok a b Ha Hb) as H. unfold outcome in H. destruct (ln10_pqr a b) as [t|[s| | |]|]; try exact H. exact (tri_series _ _ _ _ _ _ H).
Qed.
Theorem C52_pi_series : forall a b, 0 <= a < b -> b <= 2 ^ 33 ->
  match pi_pqr a b with Ok t => series chud_weight chud_term a b t | Err (ExponentOverflow _) => 2 ^ 23 < b - a | _ => False end.
Proof.
  intros a b Ha Hb. pose proof (pi_pqr_ok a b Ha Hb) as H. unfold outcome in H. destruct (pi_pqr a b) as [t|[s| | |]|]; try exact H. exact (tri_series _ _ _ _ _ _ H).
Qed.
Example C52_ln2_case : exists t, ln2_pqr 2 7 = Ok t /\ series (powR (/ 9)) ln2_term 2 7 t.
Proof.
  pose proof (C52_ln2_series 2 7 ltac:(lia) ltac:(lia)) as H. destruct (ln2_pqr 2 7) as [t|[s| | |]|]; [|exfalso; revert H; clear; intros; lia|contradiction..].
  exists t. split; [reflexivity|exact H].
Qed.
Example C52_ln10_case : exists t, ln10_pqr 2 7 = Ok t /\ series (powR (81 / 121)) ln10_term 2 7 t.
Proof.
  pose proof (C52_ln10_series 2 7 ltac:(lia) ltac:(lia)) as H. destruct (ln10_pqr 2 7) as [t|[s| | |]|]; [|exfalso; revert H; clear; intros; lia|contradiction..].
  exists t. split; [reflexivity|exact H].
Qed.
Example C52_pi_case : exists t, pi_pqr 2 7 = Ok t /\ series chud_weight chud_term 2 7 t.
Proof.
  pose proof (C52_pi_series 2 7 ltac:(lia) ltac:(lia)) as H. destruct (pi_pqr 2 7) as [t|[s| | |]|]; [|exfalso; revert H; clear; intros; lia|contradiction..].
  exists t. split; [reflexivity|exact H].
Qed.

Theorem C52_extend : forall m x, 0 < m <= 2 ^ 62 ->
  (pi_pqr 0 m = Ok x -> pi_inc x m = (do y <- pi_pqr 0 (2 * m); Ok (y, 2 * m))) /\
  (ln2_pqr 0 m = Ok x -> ln2_inc x m = (do y <- ln2_pqr 0 (2 * m); Ok (y, 2 * m))) /\
  (ln10_pqr 0 m = Ok x -> ln10_inc x m = (do y <- ln10_pqr 0 (2 * m); Ok (y, 2 * m))).
Proof. intros m x H. split; [exact (pi_extends m x H)|]. split; [exact (ln2_extends m x H)|exact (ln10_extends m x H)]. Qed.

(** ** C69 - C72: the values *)
Theorem C69_e : forall c p rm, reachable e_new e_for_prec c -> 0 < p <= P_LIM -> delivers e_for_prec c p rm (const_result (exp 1) 2 (prec_up p) rm).
Proof. exact (deliver e_new e_for_prec e_cache_ok (const_result (exp 1) 2) e_new_ok e_for_prec_ok). Qed.
Theorem C70_ln2 : forall c p rm, reachable ln2_new ln2_for_prec c -> 0 < p <= P_LIM -> delivers ln2_for_prec c p rm (const_result (ln 2) 0 (prec_up p) rm).
Proof. exact (deliver ln2_new ln2_for_prec ln2_cache_ok (const_result (ln 2) 0) ln2_new_ok ln2_for_prec_ok). Qed.
Theorem C71_ln10 : forall c p rm, reachable ln10_new ln10_for_prec c -> 0 < p <= P_LIM -> delivers ln10_for_prec c p rm (const_near (ln 10) 2 9 (prec_up p) rm).
Proof. exact (deliver ln10_new ln10_for_prec ln10_cache_ok (const_near (ln 10) 2 9) ln10_new_ok ln10_for_prec_ok). Qed.
(** Missing for the full statement "rounded pi": the Chudnovsky identity
    [chud_value S = PI]. *)
Theorem C72_pi_partial : (exists S, chud_limit S) /\
  forall c p rm, reachable pi_new pi_for_prec c -> 0 < p <= P_LIM -> delivers pi_for_prec c p rm (fun y => forall S, chud_limit S -> const_result (chud_value S) 2 (prec_up p) rm y).
Proof. exact (conj chud_limit_ex (deliver pi_new pi_for_prec pi_cache_ok (fun k rm y => forall S, chud_limit S -> const_result (chud_value S) 2 k rm y) pi_new_ok pi_for_prec_ok)). Qed.

(** The cases are not vacuous: new caches deliver values, not overflows. *)
Definition gives {T} (new : result (cache T)) (fp : nat -> cache T -> Z -> rmode -> option (cache T * result num)) (p : Z) (rm : rmode) (b : Z) : bool :=
  match new with
  | Ok c => match const_num fp 31 c p rm with Some (c', Ok _) => c_b c' =? b | _ => false end
  | _ => false
  end.
Definition is_ok {A} (r : result A) : bool := match r with Ok _ => true | _ => false end.
Lemma is_ok_spec {A} (r : result A) : is_ok r = true -> exists c, r = Ok c.
Proof. destruct r as [c| |]; try discriminate. now exists c. Qed.
Example C69_case : gives e_new e_for_prec 100 RUp 128 = true.
Proof. vm_compute. reflexivity. Qed.
(** A run of C70 is [ln2_down_run] in PropsExp. *)
Example C70_case : exists c, ln2_new = Ok c /\ reachable ln2_new ln2_for_prec c.
Proof. destruct (is_ok_spec ln2_new) as (c & E); [vm_compute; reflexivity|]. exists c. split; [exact E|]. apply reach_new. exact E. Qed.
Example C71_case : gives ln10_new ln10_for_prec 64 RDown 128 = true.
Proof. vm_compute. reflexivity. Qed.
(** A run of C72, evaluated when the file is compiled. *)
Definition C72_run := Eval vm_compute in gives pi_new pi_for_prec 100 RDown 8.
Example C72_run_is : C72_run = true.
Proof. reflexivity. Qed.
Example C72_case : exists c, pi_new = Ok c /\ reachable pi_new pi_for_prec c.
Proof. destruct (is_ok_spec pi_new) as (c & E); [vm_compute; reflexivity|]. exists c. split; [exact E|]. apply reach_new. exact E. Qed.
Lemma gives_spec {T} (new : result (cache T)) fp p rm b : gives new fp p rm b = true -> exists c c' y, new = Ok c /\ const_num fp 31 c p rm = Some (c', Ok y) /\ c_b c' = b.
Proof.
  unfold gives. destruct new as [c| |]; try discriminate. destruct (const_num fp 31 c p rm) as [[c' [y| |]]|] eqn:E; try discriminate. intros H. exists c, c', y. split; [reflexivity|]. split; [exact E|]. now apply Z.eqb_eq.
Qed.

(** ln10.rs hands the value to try_set_precision as correct to k + 64 bits, that is
    with an error below 2^(2 - (k + 64)).  At k = 64 the error exceeds 2^-84, and the
    value is accepted. *)
Theorem C71_ln10_working_precision_refuted : exists c c' y, ln10_new = Ok c /\ const_num ln10_for_prec 31 c 64 RDown = Some (c', Ok y) /\ (bpow radix2 (-84) <= Rabs (ln 10 - value (c_val c')))%R /\ (bpow radix2 (2 - (64 + 64)) < bpow radix2 (-84))%R.
Proof.
  destruct (gives_spec _ _ _ _ _ C71_case) as (c & c' & y & E & F & B). exists c, c', y. split; [exact E|]. split; [exact F|]. split; [|apply bpow_lt; lia].
  assert (K : ln10_cache_ok c'). { apply (reach_ok ln10_new ln10_for_prec ln10_cache_ok (const_near (ln 10) 2 9) ln10_new_ok ln10_for_prec_ok). apply (reach_call _ _ c 64 RDown c' (Ok y)); [now apply reach_new|lia|exact F]. }
  destruct K as (i & K1 & _ & [->|K3]); [rewrite B in K1; discriminate K1|]. rewrite B in K3. eapply Rle_trans; [apply (ln10_short _ K3)|]. apply Rle_abs.
Qed.

Definition all_const := (C51_e_series, C51_e_extend, C52_ln2_series, C52_ln10_series, C52_pi_series, C52_extend, C69_e, C70_ln2, C71_ln10, C71_ln10_working_precision_refuted, C72_pi_partial).
Print Assumptions all_const.
