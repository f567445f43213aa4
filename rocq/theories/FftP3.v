(** Decomposition of the factors, convolution and bounds (Fft.v). *)

From Coq Require Import ZArith List Bool Lia.
From Verif Require Import Words IntModel Fft SpecZ WordsP WordsP2 IntP MulP MulToom FftP1 FftP2.
Import ListNotations.
Open Scope Z_scope.
Ltac Zify.zify_post_hook ::= idtac.
Ltac dlia := Z.div_mod_to_equations; lia.
Arguments Z.mul : simpl never.
Arguments Z.add : simpl never.
Arguments Z.pow : simpl never.
Arguments Z.sub : simpl never.
#[local] Arguments Z.opp : simpl never.
Arguments Z.of_nat : simpl never.
#[local] Arguments Nat.pow : simpl never.

(** ** Convolution *)
Definition cv (a b : Z -> Z) (j : Z) : Z := sm (Z.to_nat (j + 1)) (fun i => a i * b (j - i)).

Lemma cauchy a b e : (forall i j, 0 <= i -> 0 <= j -> e (i + j) = e i * e j) -> forall K,
  sm K (fun j => cv a b j * e j) = sm K (fun i => a i * e i * sm (K - Z.to_nat i) (fun l => b l * e l)).
Proof.
  intros He. induction K as [|K IH]; [reflexivity|].
  rewrite (sm_ext (S K) (fun i => a i * e i * sm (S K - Z.to_nat i) (fun l => b l * e l))
    (fun i => a i * e i * sm (K - Z.to_nat i) (fun l => b l * e l) + e (Z.of_nat K) * (a i * b (Z.of_nat K - i)))).
  - rewrite sm_add, sm_scale. assert (E : sm (S K) (fun j => cv a b j * e j) = sm K (fun j => cv a b j * e j) + cv a b (Z.of_nat K) * e (Z.of_nat K)) by reflexivity.
    rewrite E, IH. clear E IH.
    assert (E : sm (S K) (fun i => a i * e i * sm (K - Z.to_nat i) (fun l => b l * e l)) = sm K (fun i => a i * e i * sm (K - Z.to_nat i) (fun l => b l * e l))).
    { cbn [sm]. rewrite Nat2Z.id, Nat.sub_diag. cbn [sm]. ring. }
    rewrite E. unfold cv. replace (Z.to_nat (Z.of_nat K + 1)) with (S K) by lia. ring.
  - intros i Hi. replace (S K - Z.to_nat i)%nat with (S (K - Z.to_nat i)) by lia. cbn [sm].
    replace (Z.of_nat (K - Z.to_nat i)) with (Z.of_nat K - i) by lia.
    replace (e (Z.of_nat K)) with (e i * e (Z.of_nat K - i)) by (rewrite <- He by lia; f_equal; ring). ring.
Qed.

(** The product of two sums whose product has no high terms. *)
Lemma cauchy_product a b e K : (forall i j, 0 <= i -> 0 <= j -> e (i + j) = e i * e j) ->
  (forall i l, 0 <= i -> 0 <= l -> Z.of_nat K <= i + l -> a i * b l = 0) ->
  sm K (fun i => a i * e i) * sm K (fun i => b i * e i) = sm K (fun j => cv a b j * e j).
Proof.
  intros He H0. rewrite (cauchy a b e He). rewrite Z.mul_comm, <- sm_scale. apply sm_ext. intros i Hi.
  assert (E : a i * e i * sm K (fun l => b l * e l) = a i * e i * sm (K - Z.to_nat i) (fun l => b l * e l)).
  { replace (sm K (fun l => b l * e l)) with (sm (K - Z.to_nat i + Z.to_nat i) (fun l => b l * e l)) by (f_equal; lia). rewrite sm_app, Z.mul_add_distr_l.
    rewrite <- (sm_scale (Z.to_nat i)). rewrite (sm_zero (Z.to_nat i)); [ring|]. intros l Hl.
    replace (a i * e i * (b (Z.of_nat (K - Z.to_nat i) + l) * e (Z.of_nat (K - Z.to_nat i) + l))) with (a i * b (Z.of_nat (K - Z.to_nat i) + l) * e i * e (Z.of_nat (K - Z.to_nat i) + l)) by ring.
    rewrite H0 by lia. ring. }
  rewrite <- E. ring.
Qed.

(** ** Coefficient bounds *)
Lemma sm_window B : 0 <= B -> forall n lo hi, lo <= hi -> sm n (fun i => if (lo <=? i) && (i <? hi) then B else 0) <= (hi - lo) * B.
Proof.
  intros HB. induction n as [|n IH]; intros lo hi Hlh; cbn [sm]; [nia|].
  destruct (Z.leb_spec lo (Z.of_nat n)) as [H1|H1]; cbn [andb].
  - destruct (Z.ltb_spec (Z.of_nat n) hi) as [H2|H2]; [|specialize (IH lo hi Hlh); lia].
    assert (E : sm n (fun i => if (lo <=? i) && (i <? hi) then B else 0) = sm n (fun i => if (lo <=? i) && (i <? Z.of_nat n) then B else 0)).
    { apply sm_ext. intros j Hj. rewrite (proj2 (Z.ltb_lt j hi)), (proj2 (Z.ltb_lt j (Z.of_nat n))) by lia. reflexivity. }
    rewrite E. specialize (IH lo (Z.of_nat n) H1). nia.
  - specialize (IH lo hi Hlh). lia.
Qed.

Lemma sm_point C : 0 <= C -> forall n p, sm n (fun i => if i =? p then C else 0) <= C.
Proof.
  intros HC. induction n as [|n IH]; intros p; cbn [sm]; [lia|]. destruct (Z.eqb_spec (Z.of_nat n) p) as [E|E]; [|specialize (IH p); lia].
  rewrite (sm_zero n); [lia|]. intros j Hj. rewrite (proj2 (Z.eqb_neq j p)) by lia. reflexivity.
Qed.

(** A sequence of parts of [m] bits with a last one of at most [M] bits. *)
Record seq_ok (m M na : Z) (a : Z -> Z) : Prop := {
  so_na : 1 <= na; so_nn : forall i, 0 <= i -> 0 <= a i; so_lo : forall i, 0 <= i < na - 1 -> a i < 2 ^ m;
  so_top : a (na - 1) < 2 ^ M; so_hi : forall i, na <= i -> a i = 0 }.

Lemma cv_nonneg m M na nb a b j : seq_ok m M na a -> seq_ok m M nb b -> 0 <= j -> 0 <= cv a b j.
Proof.
  intros A B J. unfold cv. apply Z.le_trans with (sm (Z.to_nat (j + 1)) (fun _ => 0)); [rewrite sm_zero by auto; lia|]. apply sm_le.
  intros i Hi. apply Z.mul_nonneg_nonneg; [apply (so_nn _ _ _ _ A); lia|apply (so_nn _ _ _ _ B); lia].
Qed.

Lemma cv_bound m M na nb a b j R : seq_ok m M na a -> seq_ok m M nb b -> 0 <= j -> 0 <= m <= M -> na <= R \/ nb <= R -> j <> na + nb - 2 ->
  cv a b j <= R * (2 ^ m * 2 ^ m) + 2 * (2 ^ m * 2 ^ M).
Proof.
  intros A B J HM HR Hj. unfold cv. set (P := 2 ^ m). set (Q := 2 ^ M). pose proof (so_na _ _ _ _ A) as Ha. pose proof (so_na _ _ _ _ B) as Hb.
  assert (HP : 1 <= P) by (unfold P; pose proof (pow2_gt0 m ltac:(lia)); lia). assert (HQ : P <= Q) by (unfold P, Q; apply Z.pow_le_mono_r; lia).
  assert (W : exists lo hi, lo <= hi /\ hi - lo <= R /\ forall i, 0 <= i <= j -> i < na -> j - i < nb -> lo <= i < hi).
  { destruct HR as [HR|HR]; [exists 0, na|exists (j + 1 - nb), (j + 1)]; split; try lia; split; try lia; intros; lia. }
  destruct W as (lo & hi & W1 & W2 & W3).
  apply Z.le_trans with (sm (Z.to_nat (j + 1)) (fun i => (if (lo <=? i) && (i <? hi) then P * P else 0) + ((if i =? na - 1 then P * Q else 0) + (if i =? j - (nb - 1) then P * Q else 0)))).
  - apply sm_le. intros i Hi. destruct (Z.lt_ge_cases i na) as [Hia|Hia]; [|rewrite (so_hi _ _ _ _ A i) by lia; rewrite Z.mul_0_l; destruct (_ && _), (_ =? _), (_ =? _); nia].
    destruct (Z.lt_ge_cases (j - i) nb) as [Hib|Hib]; [|rewrite (so_hi _ _ _ _ B (j - i)) by lia; rewrite Z.mul_0_r; destruct (_ && _), (_ =? _), (_ =? _); nia].
    pose proof (W3 i ltac:(lia) Hia Hib) as W. rewrite (proj2 (Z.leb_le lo i)), (proj2 (Z.ltb_lt i hi)) by lia. cbn [andb].
    pose proof (so_nn _ _ _ _ A i ltac:(lia)) as A0. pose proof (so_nn _ _ _ _ B (j - i) ltac:(lia)) as B0.
    destruct (Z.eqb_spec i (na - 1)) as [E1|E1]; destruct (Z.eqb_spec i (j - (nb - 1))) as [E2|E2]; [lia| | |].
    + pose proof (so_top _ _ _ _ A) as T1. pose proof (so_lo _ _ _ _ B (j - i) ltac:(lia)) as T2. rewrite <- E1 in T1. fold P in T2. fold Q in T1. nia.
    + pose proof (so_lo _ _ _ _ A i ltac:(lia)) as T1. pose proof (so_top _ _ _ _ B) as T2. replace (nb - 1) with (j - i) in T2 by lia. fold P in T1. fold Q in T2. nia.
    + pose proof (so_lo _ _ _ _ A i ltac:(lia)) as T1. pose proof (so_lo _ _ _ _ B (j - i) ltac:(lia)) as T2. fold P in T1, T2. nia.
  - rewrite !sm_add. pose proof (sm_window (P * P) ltac:(nia) (Z.to_nat (j + 1)) lo hi W1). pose proof (sm_point (P * Q) ltac:(nia) (Z.to_nat (j + 1)) (na - 1)).
    pose proof (sm_point (P * Q) ltac:(nia) (Z.to_nat (j + 1)) (j - (nb - 1))). assert ((hi - lo) * (P * P) <= R * (P * P)) by (apply Z.mul_le_mono_nonneg_r; [nia|lia]). lia.
Qed.

Lemma cv_bound_top m M na nb a b : seq_ok m M na a -> seq_ok m M nb b -> 0 <= M -> cv a b (na + nb - 2) <= 2 ^ M * 2 ^ M.
Proof.
  intros A B HM. unfold cv. pose proof (so_na _ _ _ _ A) as Ha. pose proof (so_na _ _ _ _ B) as Hb. pose proof (pow2_gt0 M HM) as HQ.
  apply Z.le_trans with (sm (Z.to_nat (na + nb - 2 + 1)) (fun i => if i =? na - 1 then 2 ^ M * 2 ^ M else 0)); [|apply sm_point; nia].
  apply sm_le. intros i Hi. destruct (Z.eqb_spec i (na - 1)) as [->|Hne].
  - replace (na + nb - 2 - (na - 1)) with (nb - 1) by ring. pose proof (so_top _ _ _ _ A). pose proof (so_top _ _ _ _ B).
    pose proof (so_nn _ _ _ _ A (na - 1) ltac:(lia)). pose proof (so_nn _ _ _ _ B (nb - 1) ltac:(lia)). nia.
  - destruct (Z.lt_ge_cases i na) as [H|H]; [rewrite (so_hi _ _ _ _ B) by lia|rewrite (so_hi _ _ _ _ A i) by lia]; lia.
Qed.
