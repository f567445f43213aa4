(** C90, C91: the natural and the binary logarithm. *)

From Coq Require Import ZArith List Bool Lia Reals Lra.
From Flocq Require Import Core.
From Verif Require Import Words IntModel Mantissa Num Consts Elem Series Ln SpecZ Spec SpecOps SpecConst SpecReach SpecPow SpecElem RealP CmpP SetP AddNum ArithTop ElemNum ElemDom ConstTop ConstReach Refute1 LnTop Log2Top.
Import ListNotations.
Open Scope Z_scope.

(** ** C90.  [f] bounds the retries and [g] the loops of the series; [None] is running out
    of them.  The last working precision is at most 2^14 bits. *)
Theorem C90_ln : forall f g c x p rm, reachable ln2_new ln2_for_prec c -> wf x -> (0 < value x)%R -> value x <> 1%R -> 0 < p -> work f (Z.max (prec_up p) (64 * wlen x) + 64) 64 <= 2 ^ 14 ->
  match ln_num f g c x p rm with
  | None => True
  | Some (c', res) => reachable ln2_new ln2_for_prec c' /\ exists q, res = Ok q /\ elem_result (ln (value x)) (prec_up p) rm q
  end.
Proof. exact ln_ok. Qed.
Theorem C90_ln_one : forall f g c x p rm, wf x -> value x = 1%R -> 0 < p -> prec_up p < P_LIM ->
  exists res, ln_num f g c x p rm = Some (c, res) /\ exactly (prec_up p) 0 Pos (ninexact x) res.
Proof. intros f g c x p rm W V Hp HP. rewrite (ln_num_special f g c x p rm W (or_intror (conj V (conj Hp HP))) (fun _ _ _ => Panic)). eexists. split; [reflexivity|]. now apply ln_one. Qed.
Theorem C90_ln_domain : forall f g c x p rm, wf x -> (value x <= 0)%R -> ln_num f g c x p rm = Some (c, Err InvalidArgument).
Proof. intros f g c x p rm W V. rewrite (ln_num_special f g c x p rm W (or_introl V) (fun _ _ _ => Panic)), (ln_outside _ x p rm W V). reflexivity. Qed.

Definition run_log (op : nat -> nat -> ln2_cache -> num -> Z -> rmode -> lrun num) (new : result ln2_cache) (f g : nat) (x : num) (p : Z) (rm : rmode) : option num :=
  match new with
  | Ok c => match op f g c x p rm with Some (_, Ok q) => Some q | _ => None end
  | _ => None
  end.
Lemma run_log_spec op new f g x p rm q : run_log op new f g x p rm = Some q -> exists c c', new = Ok c /\ op f g c x p rm = Some (c', Ok q).
Proof.
  unfold run_log. destruct new as [c| |]; try discriminate. destruct (op f g c x p rm) as [[c' [r| |]]|] eqn:E; try discriminate. intros H. injection H as ->. exists c, c'. split; [reflexivity|exact E].
Qed.
(** ln 3, rounded up, and the logarithm of the number after 1, rounded down. *)
Definition ex_three := mk_num (mk_m [3 * 2 ^ 62] 64) Pos 2 false.
Definition ex_near := mk_num (mk_m [2 ^ 63 + 1] 64) Pos 1 false.
Definition ex_ln3 := mk_num (mk_m [10132909862646469820] 64) Pos 1 true.
Definition ex_ln_near := mk_num (mk_m [18446744073709551615] 64) Pos (-63) true.
Example C90_case_run : run_log ln_num ln2_new 1 100 ex_three 64 RUp = Some ex_ln3.
Proof. vm_compute. reflexivity. Qed.
(** This run is evaluated when the file is compiled. *)
Definition C90_near_run := Eval vm_compute in run_log ln_num ln2_new 1 100 ex_near 64 RDown.
Example C90_near_run_is : C90_near_run = Some ex_ln_near.
Proof. reflexivity. Qed.
Lemma one_word w e : value (mk_num (mk_m [w] 64) Pos e false) = (IZR w * bpow radix2 (e - 64))%R.
Proof. unfold value, magnitude, wlen, Words.zlen. cbn [ns nm mm ne sgnZ length]. change (64 * Z.of_nat 1) with 64. cbn [val]. unfold F2R. cbn [Fnum Fexp]. f_equal. f_equal. lia. Qed.
Lemma ex_three_value : value ex_three = 3%R.
Proof. unfold ex_three. rewrite one_word. change (2 - 64) with (-62). rewrite mult_IZR. change (bpow radix2 (-62)) with (/ 4611686018427387904)%R. change (2 ^ 62) with 4611686018427387904. field. Qed.
Lemma ex_near_value : value ex_near = (1 + / 9223372036854775808)%R.
Proof. unfold ex_near. rewrite one_word. change (1 - 64) with (-63). rewrite plus_IZR. change (bpow radix2 (-63)) with (/ 9223372036854775808)%R. change (2 ^ 63) with 9223372036854775808. field. Qed.
Example C90_case : exists c c', ln2_new = Ok c /\ ln_num 1 100 c ex_three 64 RUp = Some (c', Ok ex_ln3) /\ elem_result (ln 3) 64 RUp ex_ln3 /\ work 1 (Z.max (prec_up 64) (64 * wlen ex_three) + 64) 64 <= 2 ^ 14.
Proof.
  destruct (run_log_spec _ _ _ _ _ _ _ _ C90_case_run) as (c & c' & E & F). exists c, c'. split; [exact E|]. split; [exact F|].
  assert (HB : work 1 (Z.max (prec_up 64) (64 * wlen ex_three) + 64) 64 <= 2 ^ 14) by (vm_compute; discriminate). split; [|exact HB]. assert (W : wf ex_three) by (unfold ex_three; wf_concrete).
  pose proof (C90_ln 1 100 c ex_three 64 RUp (reach_new _ _ c E) W ltac:(rewrite ex_three_value; lra) ltac:(rewrite ex_three_value; lra) ltac:(lia) HB) as H. rewrite F in H. destruct H as (_ & q & Q & R). injection Q as <-. rewrite ex_three_value in R. exact R.
Qed.
Example C90_near : wf ex_near /\ (0 < value ex_near)%R /\ value ex_near <> 1%R /\ work 1 (Z.max (prec_up 64) (64 * wlen ex_near) + 64) 64 <= 2 ^ 14.
Proof. split; [unfold ex_near; wf_concrete|]. rewrite ex_near_value. split; [lra|]. split; [lra|]. vm_compute. discriminate. Qed.

(** ** C91.  The logarithm of a power of two is C79. *)
Theorem C91_log2 : forall f g c x p rm, reachable ln2_new ln2_for_prec c -> wf x -> (0 < value x)%R -> (forall k, value x <> bpow radix2 k) -> 0 < p -> work f (Z.max (prec_up p) (64 * wlen x) + 64) 64 <= 2 ^ 14 ->
  match log2_num f g c x p rm with
  | None => True
  | Some (c', res) => reachable ln2_new ln2_for_prec c' /\ exists q, res = Ok q /\ elem_result (ln (value x) / ln 2) (prec_up p) rm q
  end.
Proof. exact log2_ok. Qed.
Theorem C91_log2_power : forall f g c x p rm k, wf x -> value x = bpow radix2 k -> k <> 0 -> 0 < p -> prec_up p < P_LIM ->
  exists res, log2_num f g c x p rm = Some (c, res) /\ exactly (prec_up p) (IZR k) (if k <? 0 then Neg else Pos) (ninexact x) res.
Proof. intros f g c x p rm k W V K Hp HP. rewrite (log2_num_special f g c x p rm W (or_intror (conj (ex_intro _ k V) (conj Hp HP))) (fun _ _ _ => Panic)). eexists. split; [reflexivity|]. now apply log2_power. Qed.
Theorem C91_log2_domain : forall f g c x p rm, wf x -> (value x <= 0)%R -> log2_num f g c x p rm = Some (c, Err InvalidArgument).
Proof. intros f g c x p rm W V. rewrite (log2_num_special f g c x p rm W (or_introl V) (fun _ _ _ => Panic)), (log2_outside _ x p rm W V). reflexivity. Qed.

Definition ex_log3 := mk_num (mk_m [14618698808614929360] 64) Pos 1 true.
(** This run is evaluated when the file is compiled. *)
Definition C91_run := Eval vm_compute in run_log log2_num ln2_new 1 100 ex_three 64 RUp.
Example C91_run_is : C91_run = Some ex_log3.
Proof. reflexivity. Qed.
Lemma three_odd k : 3%R <> bpow radix2 k.
Proof.
  intros H. assert (A : 1 < k) by (apply (lt_bpow radix2); rewrite <- H; change (bpow radix2 1) with 2%R; lra). assert (B : k < 2) by (apply (lt_bpow radix2); rewrite <- H; change (bpow radix2 2) with 4%R; lra). lia.
Qed.
Example C91_case : exists c, reachable ln2_new ln2_for_prec c /\ wf ex_three /\ (0 < value ex_three)%R /\ (forall k, value ex_three <> bpow radix2 k) /\ work 1 (Z.max (prec_up 64) (64 * wlen ex_three) + 64) 64 <= 2 ^ 14.
Proof.
  destruct C90_case as (c & _ & E & _ & _ & HB). exists c. split; [exact (reach_new _ _ c E)|]. split; [unfold ex_three; wf_concrete|]. rewrite ex_three_value. split; [lra|]. split; [exact three_odd|exact HB].
Qed.

Definition all_ln := (C90_ln, C90_ln_one, C90_ln_domain, C90_case, C90_near, C91_log2, C91_log2_power, C91_log2_domain, C91_case).
Print Assumptions all_ln.
