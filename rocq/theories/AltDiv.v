(** The series of series.rs with divisors of alternating sign.

    The generator is described by [C], the reciprocals of the magnitudes of its divisors, and [at_ j], the
    states in which the next divisor is number [j].  The first divisor is negative. *)

From Coq Require Import ZArith List Bool Lia Reals Lra.
From Flocq Require Import Core.
From Verif Require Import Words IntModel Mantissa Num Series SpecZ WordsP Spec RealP RealP2 NumP CmpP AddP SetP AddNum MulNum DivNum ArithTop ConvNum ConstNum ExtP PowExt ElemDom ApproxR ApproxNum SeriesNum AltNum.
Import ListNotations.
Open Scope Z_scope.
Ltac Zify.zify_post_hook ::= idtac.
Arguments Z.mul : simpl never.
Arguments Z.add : simpl never.
Arguments Z.pow : simpl never.
Arguments Z.sub : simpl never.
Arguments Z.of_nat : simpl never.
Ltac dlia := Z.div_mod_to_equations; lia.

(** ** Alternating sums *)
Section Sums.
Variables (C : nat -> R) (X : R).
Hypothesis HC : forall j, (0 < C j <= 1)%R.
Hypothesis HCd : forall j, (C (S j) <= C j)%R.
Lemma alt_term : (0 < X <= / 2)%R -> forall j i, (0 < C (j + i) * X ^ i <= C j * (/ 2) ^ i)%R.
Proof.
  intros HX0 j i. assert (T : (C (j + i) <= C j)%R). { induction i as [|i IH]; [rewrite Nat.add_0_r; lra|]. rewrite Nat.add_succ_r. pose proof (HCd (j + i)). lra. }
  pose proof (HC (j + i)) as [C0 _]. pose proof (pow_lt X i ltac:(lra)) as G. assert (X ^ i <= (/ 2) ^ i)%R by (apply pow_incr; lra). split; [now apply Rmult_lt_0_compat|]. apply Rmult_le_compat; lra.
Qed.
Hypothesis HX0 : (0 < X <= / 16)%R.
Lemma alt_range n : forall j, (0 <= psum C (- X) j n <= C j)%R.
Proof.
  induction n as [|n IH]; intros j; [cbn [psum]; pose proof (HC j); lra|]. rewrite psum_cons. destruct (IH (S j)) as [A B]. pose proof (HC j) as [C0 _]. pose proof (HCd j) as R. assert (0 <= X * psum C (- X) (S j) n <= / 16 * C (S j))%R by (split; [apply Rmult_le_pos; lra|apply Rmult_le_compat; lra]). lra.
Qed.
Lemma alt_lower j n : (15 / 16 * C j <= psum C (- X) j (S n) <= C j)%R.
Proof.
  split; [|apply alt_range]. rewrite psum_cons. destruct (alt_range n (S j)) as [A B]. pose proof (HCd j) as R. pose proof (HC j) as [C0 _]. assert (0 <= X * psum C (- X) (S j) n <= / 16 * C (S j))%R by (split; [apply Rmult_le_pos; lra|apply Rmult_le_compat; lra]). lra.
Qed.
End Sums.

Lemma apx_recip P p rm : 128 <= P <= prec_up p -> prec_up p < P_LIM -> forall t k b w, apx P t k b w -> k <= 2 ^ 60 -> mid (/ b) ->
  exists q, n_reciprocal w p rm = Ok q /\ apx P t (k + 1) (/ b) q /\ 64 * wlen q = prec_up p.
Proof.
  intros HP HL t k b w Hw Hk M. pose proof (apx_nonzero _ _ _ _ _ Hw) as Nw. destruct Hw as (Ww & _ & <- & Lw).
  pose proof (reciprocal_nonzero w p rm Ww Nw (p_pos P p HP) HL) as C. destruct (apx_round P _ rm _ _ _ _ k (/ b) C HP) as (v & E & A & L & _); [|exact Hk|exact M|exists v; auto].
  rewrite Rabs_inv. now apply lc_inv.
Qed.

Section Alt.
Variables (P PO : Z) (G : Type) (next : G -> result (num * G)) (at_ : nat -> G -> Prop) (C : nat -> R) (JM : nat) (KC QC : Z).
Hypothesis HP : 128 <= P <= PO.
Hypothesis HPO : PO <= 2 ^ 22.
Hypothesis HP64 : prec_up PO = PO.
Hypothesis HKC : 0 <= KC <= 2 ^ 27.
Hypothesis HQC : QC <= 2 ^ 20.
Hypothesis HC : forall j, (0 < C j <= 1)%R.
Hypothesis HCd : forall j, (C (S j) <= C j)%R.
Hypothesis HCl : forall j, (j <= JM)%nat -> (bpow radix2 (- QC) <= C j)%R.
Hypothesis HN : forall j g, at_ j g -> (j <= JM)%nat -> exists c g', next g = Ok (c, g') /\ at_ (S j) g' /\ apx P (sg j) KC (/ C j) c /\ 64 * wlen c <= PO.
Variable xs : num.
Hypothesis Wx : wf xs.
Hypothesis Nx : normal xs.
Hypothesis Sx : ns xs = Pos.
Hypothesis Lx : 64 * wlen xs = PO.
Hypothesis Ex : ne xs <= -4.
Notation X := (Rabs (value xs)).
Notation S_ := (psum C (- X)).
Notation lx := (1 - ne xs).

Let HPP : 128 <= P <= prec_up PO.
Proof. clear - HP HP64. lia. Qed.
Let HL : prec_up PO < P_LIM.
Proof. rewrite HP64. eapply Z.le_lt_trans; [exact HPO|]. vm_compute. reflexivity. Qed.
Let X_range : (bpow radix2 (- lx) <= X <= / 2)%R.
Proof.
  destruct (normal_range xs Wx Nx) as [A B]. split; [eapply Rle_trans; [|exact A]; apply bpow_le; lia|]. left. eapply Rlt_le_trans; [exact B|]. change (/ 2)%R with (bpow radix2 (-1)). apply bpow_le. clear - Ex. lia.
Qed.
Let X_16 : (X <= / 16)%R.
Proof. destruct (normal_range xs Wx Nx) as [_ B]. left. eapply Rlt_le_trans; [exact B|]. change (/ 16)%R with (bpow radix2 (-4)). now apply bpow_le. Qed.
Let X_half : (0 < X <= / 2)%R.
Proof. destruct X_range as [A B]. split; [|exact B]. eapply Rlt_le_trans; [apply bpow_gt_0|exact A]. Qed.
Let Xpow_low n M : Z.of_nat n * lx <= M -> (bpow radix2 (- M) <= X ^ n)%R.
Proof. intros H. eapply Rle_trans; [|apply low_pow; apply X_range]. apply bpow_le. clear - H. lia. Qed.
Let Xpow_high n : (0 < X ^ n <= 1)%R.
Proof. apply pow_le1. pose proof X_half. lra. Qed.
Let C_le i j : (C (i + j) <= C i)%R.
Proof. induction j as [|j IH]; [rewrite Nat.add_0_r; lra|]. rewrite Nat.add_succ_r. eapply Rle_trans; [apply HCd|exact IH]. Qed.
Let S_lower j n := alt_lower C X HC HCd (conj (proj1 X_half) X_16) j n.
Let C_low j : (j <= JM)%nat -> (bpow radix2 (- (2 ^ 29 - 4)) <= C j <= 1)%R.
Proof. intros H. split; [|apply HC]. eapply Rle_trans; [|apply HCl; exact H]. apply bpow_le. clear - HQC. lia. Qed.
Let S_low j n : (j <= JM)%nat -> (bpow radix2 (- 2 ^ 29) <= S_ j (S n) <= 1)%R.
Proof.
  intros H. destruct (S_lower j n) as [A B]. destruct (C_low j H) as [C1 C2]. split; [|lra]. replace (- 2 ^ 29) with (- (2 ^ 29 - 4) + -4) by reflexivity. rewrite bpow_plus. change (bpow radix2 (-4)) with (/ 16)%R. pose proof (bpow_gt_0 radix2 (- (2 ^ 29 - 4))). lra.
Qed.
Let mid_low a : (bpow radix2 (- (2 ^ 29 + 2 ^ 28 + 2 ^ 27)) <= a <= 16)%R -> mid a.
Proof. intros H. apply (mid_range (- (2 ^ 29 + 2 ^ 28 + 2 ^ 27)) 4); [vm_compute; discriminate|vm_compute; discriminate|exact H]. Qed.
Let mid_prod a b : (bpow radix2 (- 2 ^ 29) <= a <= 2)%R -> (bpow radix2 (- (2 ^ 28 + 2 ^ 27)) <= b <= 4)%R -> mid (a * b).
Proof.
  intros [A1 A2] [B1 B2]. apply mid_low. split; [replace (- (2 ^ 29 + 2 ^ 28 + 2 ^ 27)) with (- 2 ^ 29 + - (2 ^ 28 + 2 ^ 27)) by reflexivity; now apply low_mul|].
  assert (0 <= b)%R by (eapply Rle_trans; [apply bpow_ge_0|exact B1]). apply Rle_trans with (2 * b)%R; [apply Rmult_le_compat_r; [assumption|exact A2]|lra].
Qed.
Let Ep : (0 < eps P)%R. Proof. apply eps_pos. Qed.
(** Sums of errors are small against a sum. *)
Let Esmall : (bpow radix2 60 * eps P <= / 1024)%R.
Proof. unfold eps. rewrite <- bpow_plus. change (/ 1024)%R with (bpow radix2 (-10)). apply bpow_le. lia. Qed.
Let Eb k c : (0 <= c)%R -> (k <= bpow radix2 60)%R -> (k * eps P * c <= / 1024 * c)%R.
Proof. intros H K. apply Rmult_le_compat_r; [exact H|]. eapply Rle_trans; [|exact Esmall]. apply Rmult_le_compat_r; lra. Qed.

(** *** Rows *)
Fixpoint powers (i : nat) (l : list num) : Prop :=
  match l with [] => True | v :: l => apx P Pos (Z.of_nat i) (X ^ i) v /\ powers (S i) l end.

Definition rowE (Q : R) (i : nat) : R := (Q * (2 - 2 * (/ 2) ^ i) + 4 * INR i)%R.
Lemma rowE_S Q i : (rowE Q (S i) = rowE Q i + (Q * (/ 2) ^ i + 4))%R.
Proof. unfold rowE. rewrite S_INR. cbn [pow]. field. Qed.
Lemma rowE_bound Q i M : (0 <= Q)%R -> Z.of_nat i <= M -> (rowE Q i <= 2 * Q + 4 * IZR M)%R.
Proof. intros HQ Hi. unfold rowE. pose proof (pow_lt (/ 2) i ltac:(lra)) as GG. assert (0 <= Q * (/ 2) ^ i)%R by (apply Rmult_le_pos; lra). rewrite INR_IZR_INZ. apply IZR_le in Hi. lra. Qed.
Lemma rowE_one Q : (rowE Q 1 = Q + 4)%R.
Proof. unfold rowE. cbn. lra. Qed.
Lemma rowE_pos Q i : (0 <= Q)%R -> (0 <= rowE Q i)%R.
Proof. intros HQ. unfold rowE. assert (0 < (/ 2) ^ i <= 1)%R by (apply pow_le1; lra). pose proof (pos_INR i). assert (0 <= Q * (2 - 2 * (/ 2) ^ i))%R by (apply Rmult_le_pos; lra). lra. Qed.

(** Adding term [i] to a sum whose first coefficient is number [j]. *)
Lemma add_term Q j i acc t : (1 <= i)%nat -> (j + i <= JM)%nat -> (0 <= Q)%R -> (rowE Q (S i) <= bpow radix2 58)%R ->
  sab (eps P * C j * rowE Q i) (sr (sg j) * S_ j i) acc -> sab (Q * eps P * (C (j + i) * X ^ i)) (sr (sg (j + i)) * (C (j + i) * X ^ i)) t ->
  exists q, n_add acc t PO RNone = Ok q /\ sab (eps P * C j * rowE Q (S i)) (sr (sg j) * S_ j (S i)) q /\ 64 * wlen q = PO.
Proof.
  intros Hi HJ HQ HB Ha Ht. assert (EV : (sr (sg j) * S_ j i + sr (sg (j + i)) * (C (j + i) * X ^ i) = sr (sg j) * S_ j (S i))%R). { cbn [psum]. rewrite sg_add, neg_pow. ring. }
  destruct (S_lower j i) as [L1 L2]. pose proof (HC j) as [C0 C1]. pose proof (alt_term C X HC HCd X_half j i) as [T0 T1].
  assert (S0 : (0 <= S_ j (S i))%R) by lra. assert (EA : Rabs (sr (sg j) * S_ j i + sr (sg (j + i)) * (C (j + i) * X ^ i)) = S_ j (S i)) by (rewrite EV; now apply sr_abs).
  assert (ET : (Q * eps P * (C (j + i) * X ^ i) <= eps P * C j * (Q * (/ 2) ^ i))%R). { replace (eps P * C j * (Q * (/ 2) ^ i))%R with (Q * eps P * (C j * (/ 2) ^ i))%R by ring. apply Rmult_le_compat_l; [apply Rmult_le_pos; lra|exact T1]. }
  pose proof (rowE_S Q i) as RS. assert (EC : (0 < eps P * C j)%R) by (apply Rmult_lt_0_compat; lra).
  assert (TOT : (eps P * C j * rowE Q i + Q * eps P * (C (j + i) * X ^ i) + 4 * (eps P * C j) <= eps P * C j * rowE Q (S i))%R) by (rewrite RS; lra).
  assert (SM : (eps P * C j * rowE Q (S i) <= / 1024 * C j)%R). { replace (eps P * C j * rowE Q (S i))%R with (rowE Q (S i) * eps P * C j)%R by ring. apply Eb; [lra|]. eapply Rle_trans; [exact HB|]. apply bpow_le. lia. }
  destruct (sab_add P PO RNone HPP HL _ _ _ _ _ _ Ha Ht) as (q & Eq & Hq & Lq & _).
  - rewrite EA. lra.
  - rewrite EA. apply mid_low. destruct (S_low j i ltac:(lia)) as [M1 M2]. split; [|lra]. eapply Rle_trans; [|exact M1]. apply bpow_le. clear. lia.
  - exists q. split; [exact Eq|]. split; [|rewrite Lq; exact HP64]. rewrite EA, EV in Hq. eapply sab_weak; [|exact Hq]. assert (3 * eps P * S_ j (S i) <= 3 * eps P * C j)%R by (apply Rmult_le_compat_l; lra). lra.
Qed.

Definition QR : R := bpow radix2 30.
Lemma row_loop_ok l : forall i j acc g, powers i l -> (1 <= i)%nat -> (j + i + length l <= JM)%nat -> Z.of_nat (i + length l) * lx <= 2 ^ 27 -> Z.of_nat (i + length l) <= 2 ^ 27 ->
  at_ (j + i)%nat g -> sab (eps P * C j * rowE QR i) (sr (sg j) * S_ j i) acc -> 64 * wlen acc = PO ->
  exists q g', row_loop next true PO l acc g = Ok (q, g') /\ at_ (j + i + length l)%nat g' /\ sab (eps P * C j * rowE QR (i + length l)) (sr (sg j) * S_ j (i + length l)) q /\ 64 * wlen q = PO.
Proof.
  assert (Q0 : (0 <= QR)%R) by apply bpow_ge_0.
  induction l as [|v l IH]; intros i j acc g Hl Hi HJ HXl HK Hg Ha Hla.
  - cbn [length row_loop] in *. rewrite !Nat.add_0_r in *. exists acc, g. auto.
  - cbn [length row_loop powers] in *. destruct Hl as [Hv Hl]. destruct (HN (j + i) g Hg ltac:(lia)) as (c & g' & -> & Hg' & Hc & Lc). cbn [bind].
    assert (M1 : (bpow radix2 (- 2 ^ 27) <= X ^ i)%R) by (apply Xpow_low; clear - HXl Ex; nia).
    assert (B1 : Z.of_nat i + KC <= 2 ^ 60) by (clear - HKC HK; lia).
    destruct (HC (j + i)) as [Cp _]. assert (ED : (X ^ i / / C (j + i) = X ^ i * C (j + i))%R) by (field; lra).
    destruct (apx_div P PO RNone HPP HL _ _ _ _ _ _ _ _ Hv Hc B1) as (a & Ea & Ha' & La & _).
    { rewrite ED, Rmult_comm. apply mid_prod; [destruct (C_low (j + i) ltac:(lia)) as [C1 C2]; split; [eapply Rle_trans; [|exact C1]; apply bpow_le; clear; lia|lra]|]. split; [eapply Rle_trans; [|exact M1]; apply bpow_le; clear; lia|]. pose proof (Xpow_high i). lra. }
    unfold times_coeff. rewrite Ea. cbn [bind]. rewrite sign_mul_pos, ED in Ha'.
    destruct (add_term QR j i acc a Hi ltac:(lia) Q0) as (q & Eq & Hq & Lq).
    { eapply Rle_trans; [apply (rowE_bound QR (S i) (2 ^ 27) Q0); clear - HK; lia|]. unfold QR. change (bpow radix2 30) with 1073741824%R. change (2 ^ 27) with 134217728. apply Rle_trans with (bpow radix2 33); [change (bpow radix2 33) with 8589934592%R; lra|apply bpow_le; lia]. }
    { exact Ha. }
    { apply apx_sab in Ha'; [|lia|clear - B1 HKC HK; lia]. replace (X ^ i * C (j + i))%R with (C (j + i) * X ^ i)%R in Ha' by ring. eapply sab_weak; [|exact Ha']. pose proof (alt_term C X HC HCd X_half j i) as [T0 _]. apply Rmult_le_compat_r; [lra|]. apply Rmult_le_compat_r; [lra|].
      unfold QR. change (bpow radix2 30) with (IZR (2 ^ 30)). rewrite <- (mult_IZR 2). apply IZR_le. clear - HKC HK. lia. }
    rewrite Eq. cbn [bind].
    replace (j + i + S (length l))%nat with (j + S i + length l)%nat by lia. replace (i + S (length l))%nat with (S i + length l)%nat in * by lia.
    apply IH; [exact Hl|lia|lia|exact HXl|exact HK|rewrite Nat.add_succ_r; exact Hg'|exact Hq|exact Lq].
Qed.

Lemma compute_row_ok l j g : powers 1 l -> (j + S (length l) <= JM)%nat -> Z.of_nat (S (length l)) * lx <= 2 ^ 27 -> Z.of_nat (S (length l)) <= 2 ^ 27 -> at_ j g ->
  exists q g', compute_row next true PO l g = Ok (q, g') /\ at_ (j + S (length l))%nat g' /\ apx P (sg j) KR (S_ j (S (length l))) q /\ 64 * wlen q = PO.
Proof.
  intros Hl HJ HXl HK Hg. unfold compute_row. destruct (zero_wf_value PO ltac:(lia) HL) as (z & Ez & Wz & _ & Vz & _). rewrite Ez. cbn [bind].
  destruct (HN j g Hg ltac:(lia)) as (c & g' & -> & Hg' & Hc & Lc). cbn [bind].
  destruct (apx_recip P PO RNone HPP HL _ _ _ _ Hc) as (c' & Ec & Hc' & Lc'); [clear - HKC; lia| |].
  { rewrite Rinv_inv. destruct (C_low j ltac:(lia)) as [M1 M2]. apply mid_low. split; [|lra]. eapply Rle_trans; [|exact M1]. apply bpow_le. clear. lia. }
  rewrite Rinv_inv in Hc'. rewrite Ec. cbn [bind].
  destruct (apx_add_zero P (sg j) (KC + 1) (C j) z c' PO Wz) as (q & Eq & Hq & Lq).
  { now apply value_zero_iff. }
  { exact Hc'. } { rewrite Lc'. lia. } { lia. } { exact HL. }
  rewrite Eq. cbn [bind]. assert (Q0 : (0 <= QR)%R) by apply bpow_ge_0. pose proof (HC j) as [C0 _].
  destruct (row_loop_ok l 1 j q g' Hl ltac:(lia) ltac:(lia) HXl HK) as (r & g'' & Er & Hg'' & Hr & Lr).
  { rewrite Nat.add_1_r; exact Hg'. }
  { apply apx_sab in Hq; [|lia|clear - HKC; lia]. replace (S_ j 1) with (C j) by (cbn [psum pow]; rewrite Nat.add_0_r; ring). eapply sab_weak; [|exact Hq]. rewrite rowE_one. replace (2 * IZR (KC + 1) * eps P * C j)%R with (eps P * C j * (2 * IZR (KC + 1)))%R by ring. apply Rmult_le_compat_l; [apply Rmult_le_pos; lra|].
    unfold QR. change (bpow radix2 30) with (IZR (2 ^ 30)). rewrite <- (mult_IZR 2), <- plus_IZR. apply IZR_le. clear - HKC. lia. }
  { rewrite Lq. exact HP64. }
  change (S (length l)) with (1 + length l)%nat in *. replace (j + (1 + length l))%nat with (j + 1 + length l)%nat by lia. exists r, g''. split; [exact Er|]. split; [exact Hg''|]. split; [|exact Lr].
  destruct (S_lower j (length l)) as [L1 L2]. change (S (length l)) with (1 + length l)%nat in *.
  apply (sab_apx P (sg j) KR (S_ j (1 + length l)) _ r ltac:(lia) ltac:(lra) ltac:(unfold KR; clear; lia) Hr).
  pose proof (rowE_bound QR (1 + length l) (2 ^ 27) Q0 ltac:(exact HK)) as RB. assert (RB2 : (rowE QR (1 + length l) <= bpow radix2 32)%R). { eapply Rle_trans; [exact RB|]. unfold QR. change (bpow radix2 30) with 1073741824%R. change (2 ^ 27) with 134217728. change (bpow radix2 32) with 4294967296%R. lra. }
  assert (EC : (0 < eps P * C j)%R) by (apply Rmult_lt_0_compat; lra). assert (eps P * C j * rowE QR (1 + length l) <= eps P * C j * bpow radix2 32)%R by (apply Rmult_le_compat_l; lra).
  assert (IZR KR * eps P * (15 / 16 * C j) <= IZR KR * eps P * S_ j (1 + length l))%R by (apply Rmult_le_compat_l; [apply Rmult_le_pos; [apply IZR_le; unfold KR; clear; lia|lra]|exact L1]).
  unfold KR in *. change (2 ^ 34) with 17179869184 in *. change (bpow radix2 32) with 4294967296%R in *. lra.
Qed.

(** The sum of a first part [A] and the remaining terms. *)
Lemma final_add (sw : bool) s t k kt A B add a : apx P s k A add -> apx P (sign_mul t s) kt B a -> 0 <= k <= 2 ^ 50 -> 0 <= kt <= 2 ^ 50 -> (bpow radix2 (- (2 ^ 28 + 2 ^ 27)) <= A <= 4)%R -> (0 <= B <= A / 2)%R ->
  exists q, n_add (if sw then a else add) (if sw then add else a) PO RNone = Ok q /\ apx P s (8 * k + 4 * kt + 32) (A + sr t * B) q /\ 64 * wlen q = PO.
Proof.
  intros Ha Hb Hk Hkt [A1 A2] [B1 B2]. assert (A0 : (0 < A)%R) by (eapply Rlt_le_trans; [apply bpow_gt_0|exact A1]).
  apply apx_sab in Ha; [|lia|lia]. apply apx_sab in Hb; [|lia|lia]. rewrite sr_mul in Hb.
  assert (TB : (A / 2 <= A + sr t * B <= 3 / 2 * A)%R) by (unfold sr; destruct t; cbn [sgnZ]; lra).
  assert (EV : (sr s * A + sr t * sr s * B = sr s * (A + sr t * B))%R) by ring. assert (EA : Rabs (sr s * A + sr t * sr s * B) = (A + sr t * B)%R) by (rewrite EV; apply sr_abs; lra).
  assert (K1 : (0 <= IZR k)%R) by (apply IZR_le; lia). assert (K2 : (0 <= IZR kt)%R) by (apply IZR_le; lia). assert (EP : (0 < eps P * A)%R) by (apply Rmult_lt_0_compat; lra).
  assert (E2 : (2 * IZR kt * eps P * B <= IZR kt * (eps P * A))%R). { replace (IZR kt * (eps P * A))%R with (2 * IZR kt * eps P * (A / 2))%R by field. apply Rmult_le_compat_l; [|lra]. apply Rmult_le_pos; lra. }
  assert (E3 : ((2 * IZR k + IZR kt) * (eps P * A) <= / 1024 * A)%R). { rewrite <- Rmult_assoc. apply Eb; [lra|]. rewrite <- (mult_IZR 2), <- plus_IZR. change (bpow radix2 60) with (IZR (2 ^ 60)). apply IZR_le. lia. }
  assert (MM : mid (A + sr t * B)). { apply mid_low. split; [|lra]. apply Rle_trans with (bpow radix2 (- (2 ^ 28 + 2 ^ 27)) * / 2)%R; [|lra]. change (/ 2)%R with (bpow radix2 (-1)). rewrite <- bpow_plus. apply bpow_le. clear. lia. }
  assert (R : exists q, n_add (if sw then a else add) (if sw then add else a) PO RNone = Ok q /\ sab (2 * IZR k * eps P * A + 2 * IZR kt * eps P * B + 3 * eps P * (A + sr t * B)) (sr s * (A + sr t * B)) q /\ 64 * wlen q = PO).
  { destruct sw.
    - assert (EA' : Rabs (sr t * sr s * B + sr s * A) = (A + sr t * B)%R) by (rewrite Rplus_comm; exact EA).
      destruct (sab_add P PO RNone HPP HL _ _ _ _ _ _ Hb Ha) as (q & Eq & Hq & Lq & _); [rewrite EA'; lra|rewrite EA'; exact MM|]. exists q. split; [exact Eq|]. split; [|rewrite Lq; exact HP64]. rewrite EA', (Rplus_comm _ (sr s * A)), EV in Hq. eapply sab_weak; [|exact Hq]. lra.
    - destruct (sab_add P PO RNone HPP HL _ _ _ _ _ _ Ha Hb) as (q & Eq & Hq & Lq & _); [rewrite EA; lra|rewrite EA; exact MM|]. exists q. split; [exact Eq|]. split; [|rewrite Lq; exact HP64]. rewrite EA, EV in Hq. exact Hq. }
  destruct R as (q & Eq & Hq & Lq). exists q. split; [exact Eq|]. split; [|exact Lq]. apply (sab_apx P s (8 * k + 4 * kt + 32) (A + sr t * B) _ q ltac:(lia) ltac:(lra) ltac:(lia) Hq).
  assert (3 * eps P * (A + sr t * B) <= 3 * eps P * (3 / 2 * A))%R by (apply Rmult_le_compat_l; lra). assert (IZR (8 * k + 4 * kt + 32) * eps P * (A / 2) <= IZR (8 * k + 4 * kt + 32) * eps P * (A + sr t * B))%R by (apply Rmult_le_compat_l; [apply Rmult_le_pos; [apply IZR_le; lia|lra]|apply TB]).
  rewrite !plus_IZR, !mult_IZR in *. lra.
Qed.

(** *** The terms one by one *)
Definition QL : R := bpow radix2 50.
Lemma linear_loop_ok s k A F j : 0 <= k <= 2 ^ 49 -> lx <= 2 ^ 27 -> (bpow radix2 (- (2 ^ 28 + 2 ^ 27)) <= F <= A / 2)%R -> (A <= 4)%R -> Z.of_nat j + J22 <= Z.of_nat JM ->
  forall f i acc xp g, at_ (j + i)%nat g -> Z.of_nat i <= PO -> sab (eps P * A * (2 * IZR k + 2 * rowE QL i)) (sr s * (A + sr (sg j) * (S_ j i * F))) acc -> 64 * wlen acc = PO ->
  apx P s (k + 2 * Z.of_nat i) (F * X ^ i) xp -> (bpow radix2 (- (2 ^ 29 + 2 ^ 24)) <= F * X ^ i)%R ->
  ends (linear_loop next true f PO acc xp xs g) (fun q => exists N, apx P s (8 * k + 2 ^ 56) (A + sr (sg j) * (S_ j (S N) * F)) q /\ 64 * wlen q = PO /\ (F * X ^ S N * C (j + S N) <= 32 * eps P * A)%R).
Proof.
  intros Hk HX1 [F1 F2] HA HJ. assert (Q0 : (0 <= QL)%R) by apply bpow_ge_0. assert (F0 : (0 < F)%R) by (eapply Rlt_le_trans; [apply bpow_gt_0|exact F1]). assert (K0 : (0 <= IZR k)%R) by (apply IZR_le; lia). assert (EA0 : (0 < eps P * A)%R) by (apply Rmult_lt_0_compat; lra).
  assert (EPP : (bpow radix2 (- PO) <= eps P / 4)%R). { unfold eps. replace (2 - P) with (2 + - P) by ring. rewrite bpow_plus. change (bpow radix2 2) with 4%R. assert (bpow radix2 (- PO) <= bpow radix2 (- P))%R by (apply bpow_le; lia). lra. }
  induction f as [|f IH]; intros i acc xp g Hg Hi Ha La Hx Lx0; [left; reflexivity|]. cbn [linear_loop].
  assert (HJi : (j + i <= JM)%nat) by (unfold J22 in HJ; clear - HJ Hi HPO; lia).
  destruct (HN (j + i) g Hg HJi) as (c & g' & -> & Hg' & Hc & Lc). cbn [done rbind]. pose proof (HC (j + i)) as [Ci0 Ci1]. destruct (C_low (j + i) HJi) as [Cl _].
  destruct (Xpow_high i) as [X1 X2]. set (t := (F * X ^ i)%R) in *. assert (T0 : (0 < t <= F)%R) by (unfold t; split; [apply Rmult_lt_0_compat; lra|]; apply Rle_trans with (F * 1)%R; [apply Rmult_le_compat_l; lra|lra]).
  assert (ED : (t / / C (j + i) = C (j + i) * t)%R) by (field; lra).
  assert (TC : (0 < C (j + i) * t)%R) by (apply Rmult_lt_0_compat; lra).
  assert (MT : mid (C (j + i) * t)). { apply (mid_range (- 2 ^ 20 + - (2 ^ 29 + 2 ^ 24)) 4); [vm_compute; discriminate|vm_compute; discriminate|]. split; [apply low_mul; [eapply Rle_trans; [|apply HCl; exact HJi]; apply bpow_le; clear - HQC; lia|exact Lx0]|]. change (bpow radix2 4) with 16%R. apply Rle_trans with (1 * t)%R; [apply Rmult_le_compat_r; lra|lra]. }
  unfold times_coeff. destruct (apx_div P PO RNone HPP HL _ _ _ _ _ _ _ _ Hx Hc ltac:(clear - Hk HKC Hi HPO; lia) ltac:(rewrite ED; exact MT)) as (part & -> & Hpart & _ & _). rewrite ED in Hpart. cbn [done rbind].
  set (kp := k + 2 * Z.of_nat i + KC + 1) in *. assert (HKP : 0 <= kp <= 2 ^ 49 + 2 ^ 28) by (unfold kp; clear - Hk HKC Hi HPO; lia).
  (* the sum *)
  assert (EV : (sr s * (A + sr (sg j) * (S_ j i * F)) + sr (sign_mul s (sg (j + i))) * (C (j + i) * t) = sr s * (A + sr (sg j) * (S_ j (S i) * F)))%R). { cbn [psum]. rewrite sr_mul, sg_add, neg_pow. unfold t. ring. }
  destruct (S_lower j i) as [L1 L2]. pose proof (HC j) as [C0 C1].
  assert (SF : (0 <= S_ j (S i) * F <= F)%R). { split; [apply Rmult_le_pos; lra|]. apply Rle_trans with (1 * F)%R; [apply Rmult_le_compat_r; lra|lra]. }
  assert (TB : (A / 2 <= A + sr (sg j) * (S_ j (S i) * F) <= 3 / 2 * A)%R) by (unfold sr; destruct (sg j); cbn [sgnZ]; lra).
  set (V := (A + sr (sg j) * (S_ j (S i) * F))%R) in *. assert (EAb : Rabs (sr s * (A + sr (sg j) * (S_ j i * F)) + sr (sign_mul s (sg (j + i))) * (C (j + i) * t)) = V) by (rewrite EV; apply sr_abs; lra).
  pose proof (apx_sab P _ _ _ _ ltac:(lia) Hpart ltac:(clear - HKP; lia)) as Hps.
  assert (PT : (C (j + i) * t <= A / 2 * (/ 2) ^ i)%R). { apply Rle_trans with (F * (C (j + i) * X ^ i))%R; [unfold t; right; ring|]. pose proof (alt_term C X HC HCd X_half j i) as [_ T2]. apply Rle_trans with (F * (/ 2) ^ i)%R; [apply Rmult_le_compat_l; [lra|]; eapply Rle_trans; [exact T2|]; pose proof (pow_lt (/ 2) i ltac:(lra)); apply Rle_trans with (1 * (/ 2) ^ i)%R; [apply Rmult_le_compat_r; lra|lra]|]. apply Rmult_le_compat_r; [left; apply pow_lt; lra|lra]. }
  set (h := ((/ 2) ^ i)%R) in *. assert (H0 : (0 < h <= 1)%R) by (apply pow_le1; lra).
  assert (KQ : (0 <= IZR kp <= QL)%R) by (unfold QL; change (bpow radix2 50) with (IZR (2 ^ 50)); split; apply IZR_le; clear - HKP; lia).
  assert (E1 : (2 * IZR kp * eps P * (C (j + i) * t) <= eps P * A * (QL * h))%R). { apply Rle_trans with (2 * IZR kp * eps P * (A / 2 * h))%R; [apply Rmult_le_compat_l; [apply Rmult_le_pos; lra|exact PT]|]. replace (2 * IZR kp * eps P * (A / 2 * h))%R with (IZR kp * (eps P * A * h))%R by field. replace (eps P * A * (QL * h))%R with (QL * (eps P * A * h))%R by ring. apply Rmult_le_compat_r; [apply Rmult_le_pos; lra|lra]. }
  pose proof (rowE_S QL i) as RS. fold h in RS. pose proof (rowE_pos QL (S i) Q0) as RP. assert (QH : (0 <= QL * h)%R) by (apply Rmult_le_pos; lra).
  assert (RB : (2 * IZR k + 2 * rowE QL (S i) <= bpow radix2 54)%R). { pose proof (rowE_bound QL (S i) (2 ^ 23) Q0 ltac:(clear - Hi HPO; lia)) as R. assert (KK : (IZR k <= IZR (2 ^ 49))%R) by (apply IZR_le; lia). unfold QL in *. change (bpow radix2 50) with 1125899906842624%R in *. change (2 ^ 23) with 8388608 in *. change (2 ^ 49) with 562949953421312 in *. change (bpow radix2 54) with 18014398509481984%R. lra. }
  assert (SM : (eps P * A * (2 * IZR k + 2 * rowE QL (S i)) <= / 1024 * A)%R). { replace (eps P * A * (2 * IZR k + 2 * rowE QL (S i)))%R with ((2 * IZR k + 2 * rowE QL (S i)) * eps P * A)%R by ring. apply Eb; [lra|]. eapply Rle_trans; [exact RB|]. apply bpow_le. lia. }
  assert (TOT : (eps P * A * (2 * IZR k + 2 * rowE QL i) + 2 * IZR kp * eps P * (C (j + i) * t) + 8 * (eps P * A) <= eps P * A * (2 * IZR k + 2 * rowE QL (S i)))%R) by (rewrite RS; assert (0 <= eps P * A * (QL * h))%R by (apply Rmult_le_pos; lra); lra).
  assert (E3 : (3 * eps P * V <= 3 * eps P * (3 / 2 * A))%R) by (apply Rmult_le_compat_l; lra).
  destruct (sab_add P PO RNone HPP HL _ _ _ _ _ _ Ha Hps) as (acc' & -> & Ha' & La' & _).
  { rewrite EAb. lra. }
  { rewrite EAb. apply mid_low. split; [|lra]. apply Rle_trans with F; [|lra]. eapply Rle_trans; [|exact F1]. apply bpow_le. clear. lia. }
  rewrite EAb, EV in Ha'. cbn [done rbind]. rewrite HP64 in La'.
  assert (Hacc : apx P s (8 * k + 2 ^ 56) V acc'). { apply (sab_apx P s (8 * k + 2 ^ 56) V _ acc' ltac:(lia) ltac:(lra) ltac:(clear - Hk; lia) Ha').
    assert (G1 : (IZR (8 * k + 2 ^ 56) * eps P * (A / 2) <= IZR (8 * k + 2 ^ 56) * eps P * V)%R) by (apply Rmult_le_compat_l; [apply Rmult_le_pos; [apply IZR_le; clear - Hk; lia|lra]|lra]).
    assert (G2 : (eps P * A * (2 * IZR k + 2 * rowE QL (S i)) <= eps P * A * (2 * IZR k + bpow radix2 54))%R) by (apply Rmult_le_compat_l; lra).
    assert (G3 : (IZR (8 * k + 2 ^ 56) * eps P * (A / 2) = eps P * A * (4 * IZR k + 2 * bpow radix2 54))%R) by (rewrite plus_IZR, mult_IZR; change (2 ^ 56) with 72057594037927936; change (bpow radix2 54) with 18014398509481984%R; field).
    assert (G4 : (eps P * A * (4 * IZR k + 2 * bpow radix2 54) = 2 * (eps P * A * (2 * IZR k + bpow radix2 54)))%R) by ring.
    clear - TOT E3 G1 G2 G3 G4 EA0. lra. }
  pose proof (apx_exp_high P _ _ _ _ ltac:(lia) Hpart ltac:(clear - HKP; lia)) as P1. pose proof (apx_exp_low P _ _ _ _ ltac:(lia) Hpart ltac:(clear - HKP; lia)) as P2. pose proof (apx_exp_high P _ _ _ _ ltac:(lia) Hacc ltac:(clear - Hk; lia)) as Q1. pose proof (apx_exp_low P _ _ _ _ ltac:(lia) Hacc ltac:(clear - Hk; lia)) as Q2.
  rewrite max_len, La'. destruct (Z.leb_spec (ne part) (ne acc' - PO)) as [T|T].
  - apply ends_ok. exists i. split; [exact Hacc|]. split; [exact La'|].
    assert (B1 : (bpow radix2 (ne part) <= bpow radix2 (ne acc') * bpow radix2 (- PO))%R) by (rewrite <- bpow_plus; apply bpow_le; lia).
    assert (B2 : (bpow radix2 (ne acc') * bpow radix2 (- PO) <= 12 * A * (eps P / 4))%R) by (apply Rmult_le_compat; [apply bpow_ge_0|apply bpow_ge_0|lra|exact EPP]).
    assert (B3 : (F * X ^ S i * C (j + S i) <= C (j + i) * t * 1)%R). { replace (F * X ^ S i * C (j + S i))%R with (C (j + S i) * t * X)%R by (unfold t; cbn [pow]; ring). rewrite Nat.add_succ_r. pose proof (HCd (j + i)). pose proof (HC (S (j + i))) as [D0 _]. pose proof X_half. apply Rmult_le_compat; [apply Rmult_le_pos; lra|lra|apply Rmult_le_compat_r; lra|lra]. }
    lra.
  - assert (B1 : (2 * (bpow radix2 (ne acc') * bpow radix2 (- PO)) <= bpow radix2 (ne part))%R) by (change 2%R with (bpow radix2 1); rewrite <- !bpow_plus; apply bpow_le; lia).
    assert (B2 : (A / 8 * bpow radix2 (- PO) <= bpow radix2 (ne acc') * bpow radix2 (- PO))%R) by (apply Rmult_le_compat_r; [apply bpow_ge_0|lra]).
    (* few terms *)
    assert (I1 : Z.of_nat i < PO). { assert (X16 : (C (j + i) * t <= A / 2 * (/ 16) ^ i)%R). { apply Rle_trans with (1 * t)%R; [apply Rmult_le_compat_r; lra|]. rewrite Rmult_1_l. unfold t. pose proof X_16 as Y. assert (X ^ i <= (/ 16) ^ i)%R by (apply pow_incr; pose proof X_half; lra). apply Rmult_le_compat; lra. }
      assert (D : (bpow radix2 (- PO) <= 16 * (/ 16) ^ i)%R). { apply Rmult_le_reg_l with (A / 4)%R; [lra|]. pose proof (bpow_ge_0 radix2 (- PO)). lra. }
      assert (EQ : ((/ 16) ^ i = bpow radix2 (-4 * Z.of_nat i))%R). { clear. induction i as [|i IH]; [reflexivity|]. cbn [pow]. rewrite IH. change (/ 16)%R with (bpow radix2 (-4)). rewrite <- bpow_plus. f_equal. lia. }
      rewrite EQ in D. change 16%R with (bpow radix2 4) in D. rewrite <- bpow_plus in D. apply le_bpow in D. clear - D HP. lia. }
    assert (TL : (bpow radix2 (- (2 ^ 28 + 2 ^ 27) + - PO + -4) <= t)%R). { rewrite !bpow_plus. change (bpow radix2 (-4)) with (/ 16)%R. assert (bpow radix2 (- (2 ^ 28 + 2 ^ 27)) * bpow radix2 (- PO) <= A / 2 * bpow radix2 (- PO))%R by (apply Rmult_le_compat_r; [apply bpow_ge_0|lra]). assert (C (j + i) * t <= 1 * t)%R by (apply Rmult_le_compat_r; lra). pose proof (bpow_ge_0 radix2 (- PO)). assert (0 <= A * bpow radix2 (- PO))%R by (apply Rmult_le_pos; lra). lra. }
    assert (TX : (bpow radix2 (- (2 ^ 28 + 2 ^ 27) + - PO + -4 + - lx) <= t * X)%R) by (apply low_mul; [exact TL|apply X_range]).
    assert (TX2 : (bpow radix2 (- (2 ^ 29 + 2 ^ 24)) <= t * X)%R) by (eapply Rle_trans; [|exact TX]; apply bpow_le; clear - HX1 HPO; lia).
    assert (Axs : apx P Pos 0 X xs) by (rewrite <- Sx; now apply apx_self).
    destruct (apx_mul P PO RNone HPP HL _ _ _ _ _ _ _ _ Hx Axs ltac:(clear - Hk Hi HPO; lia)) as (xp' & -> & Hx' & _ & _).
    { apply (mid_range (- (2 ^ 29 + 2 ^ 24)) 4); [vm_compute; discriminate|vm_compute; discriminate|]. split; [exact TX2|]. change (bpow radix2 4) with 16%R. pose proof X_half. apply Rle_trans with (t * 1)%R; [apply Rmult_le_compat_l; lra|lra]. }
    cbn [done rbind]. rewrite sign_mul_pos_r in Hx'. assert (TS : (t * X = F * X ^ S i)%R) by (unfold t; cbn [pow]; ring). rewrite TS in Hx', TX2.
    apply (IH (S i)); [rewrite Nat.add_succ_r; exact Hg'|clear - I1; lia| |exact La'| |exact TX2].
    + fold V. eapply sab_weak; [|exact Ha']. lra.
    + eapply apx_weak; [|exact Hx']. clear. lia.
Qed.
Lemma series_linear_ok f add xf g s k A F j : apx P s k A add -> apx P s k F xf -> 64 * wlen add = PO -> 64 * wlen xf = PO -> at_ j g ->
  0 <= k <= 2 ^ 49 -> lx <= 2 ^ 27 -> (bpow radix2 (- (2 ^ 28 + 2 ^ 27)) <= F <= A / 2)%R -> (A <= 4)%R -> Z.of_nat j + J22 <= Z.of_nat JM ->
  ends (series_linear next true f add xf xs g) (fun q => exists N, apx P s (8 * k + 2 ^ 56) (A + sr (sg j) * (S_ j (S N) * F)) q /\ 64 * wlen q = PO /\ (F * X ^ S N * C (j + S N) <= 32 * eps P * A)%R).
Proof.
  intros Ha Hf La Lf Hg Hk HX1 HF HA HJ. unfold series_linear. rewrite !max_len, La, Lf, Lx, !Z.max_id. cbv zeta.
  apply (linear_loop_ok s k A F j Hk HX1 HF HA HJ f 0); [rewrite Nat.add_0_r; exact Hg|clear - HP; lia| |exact La| |].
  - apply apx_sab in Ha; [|lia|clear - Hk; lia]. eapply sab_same; [|eapply sab_weak; [|exact Ha]]; [cbn [psum]; ring|]. unfold rowE. cbn [pow INR]. right. ring.
  - eapply apx_same; [|eapply apx_weak; [|exact Hf]; clear; lia]. cbn [pow]. ring.
  - cbn [pow]. rewrite Rmult_1_r. eapply Rle_trans; [|apply HF]. apply bpow_le. clear. lia.
Qed.

(** *** Rectangular splitting *)
Lemma cache_loop_ok n : forall i y, apx P Pos (Z.of_nat i) (X ^ i) y -> 64 * wlen y = PO -> Z.of_nat (i + n) * lx <= 2 ^ 27 -> Z.of_nat (i + n) <= 2 ^ 40 ->
  exists l z, cache_loop n PO y xs = Ok (l, z) /\ length l = n /\ powers i l /\ apx P Pos (Z.of_nat (i + n)) (X ^ (i + n)) z /\ 64 * wlen z = PO.
Proof.
  induction n as [|n IH]; intros i y Hy Ly HXl HK.
  - exists [], y. cbn [cache_loop length powers]. rewrite Nat.add_0_r. auto.
  - cbn [cache_loop]. destruct (apx_mul P PO RNone HPP HL Pos Pos (Z.of_nat i) 0 (X ^ i) X y xs Hy) as (q & -> & Hq & Lq & _).
    { rewrite <- Sx. apply apx_self; assumption. }
    { clear - HK. lia. }
    { replace (X ^ i * X)%R with (X ^ (S i))%R by (cbn [pow]; ring). apply mid_low. split; [|pose proof (Xpow_high (S i)); lra]. eapply Rle_trans with (bpow radix2 (- 2 ^ 27)); [apply bpow_le; clear; lia|]. apply Xpow_low. clear - HXl Ex. nia. }
    cbn [bind sign_mul] in *. destruct (IH (S i) q) as (l & z & -> & Hl & HP1 & Hz & Lz).
    { eapply apx_same; [|eapply apx_weak; [|exact Hq]; clear; lia]. cbn [pow]. ring. }
    { rewrite Lq. exact HP64. } { clear - HXl. replace (S i + n)%nat with (i + S n)%nat by lia. exact HXl. } { clear - HK. lia. }
    cbn [bind]. exists (y :: l), z. replace (i + S n)%nat with (S i + n)%nat by lia. cbn [length powers]. auto.
Qed.

Definition QT : R := bpow radix2 36.
Lemma rect_loop_ok l xp sz : powers 1 l -> length l = sz -> (1 <= sz)%nat -> apx P Pos (Z.of_nat (S sz)) (X ^ (S sz)) xp -> forall f r nt acc tp g,
  Z.of_nat sz <= nt -> (2 * (Z.of_nat r * Z.of_nat sz + nt) + 4) * lx <= 2 ^ 27 -> 2 * (Z.of_nat r * Z.of_nat sz + nt) + 4 <= Z.of_nat JM -> Z.of_nat r * Z.of_nat sz + nt <= 2 ^ 25 -> (1 <= r)%nat ->
  at_ (r * S sz)%nat g -> sab (eps P * C 0 * rowE QT r) (sr Neg * S_ 0 (r * S sz)) acc -> 64 * wlen acc = PO -> apx P Pos (Z.of_nat r * (Z.of_nat sz + 2)) (X ^ (r * S sz)) tp ->
  ends (rect_loop next true f PO (Z.of_nat sz) l xp acc tp nt g)
    (fun '(acc', tp', nt', g') => exists r', (1 <= r')%nat /\ 0 <= nt' < Z.of_nat sz /\ Z.of_nat r' * Z.of_nat sz + nt' = Z.of_nat r * Z.of_nat sz + nt /\ at_ (r' * S sz)%nat g' /\
       sab (eps P * C 0 * rowE QT r') (sr Neg * S_ 0 (r' * S sz)) acc' /\ 64 * wlen acc' = PO /\ apx P Pos (Z.of_nat r' * (Z.of_nat sz + 2)) (X ^ (r' * S sz)) tp' /\ 64 * wlen tp' = PO).
Proof.
  intros Hl Ll Hsz Hxp. assert (Q0 : (0 <= QT)%R) by apply bpow_ge_0. induction f as [|f IH]; intros r nt acc tp g Hnt HXl HJ HB Hr Hg Ha La Ht; [left; reflexivity|]. cbn [rect_loop].
  assert (I1 : Z.of_nat (r * S sz + S sz) <= 2 * (Z.of_nat r * Z.of_nat sz + nt) + 2) by (clear - Hnt Hsz Hr; nia).
  assert (I2 : Z.of_nat (r * S sz + S sz) * lx <= 2 ^ 27) by (clear - I1 HXl Ex; nia).
  assert (I3 : Z.of_nat r * Z.of_nat sz <= 2 ^ 25) by (clear - Hnt HB; lia).
  assert (I4 : (Z.of_nat r + 4) * (Z.of_nat sz + 4) <= 2 ^ 30) by (clear - I3 HB Hnt Hr Hsz; nia). assert (I5 : Z.of_nat r <= 2 ^ 25) by (clear - I3 Hsz; nia).
  destruct (compute_row_ok l (r * S sz) g Hl) as (v & g' & -> & Hg' & Hv & Lv).
  { rewrite Ll. clear - I1 HJ. lia. } { rewrite Ll. clear - I2 Ex. nia. } { rewrite Ll. clear - I1 HB. lia. } { exact Hg. }
  rewrite Ll in Hg', Hv. cbn [done rbind]. set (j := (r * S sz)%nat) in *.
  destruct (S_low j sz ltac:(clear - I1 HJ; lia)) as [S1 S2]. destruct (Xpow_high j) as [X1 X2].
  assert (X3 : (bpow radix2 (- 2 ^ 27) <= X ^ j)%R) by (apply Xpow_low; clear - I2 Ex; nia).
  destruct (apx_mul P PO RNone HPP HL (sg j) Pos _ _ _ _ v tp Hv Ht) as (part & -> & Hpart & _ & _).
  { unfold KR. clear - I4. nia. }
  { apply mid_prod; [split; lra|]. split; [eapply Rle_trans; [|exact X3]; apply bpow_le; clear; lia|lra]. }
  cbn [done rbind sign_mul] in *. rewrite sign_mul_pos_r in Hpart.
  assert (EV : (sr Neg * S_ 0 j + sr (sg j) * (S_ j (S sz) * X ^ j) = sr Neg * S_ 0 (j + S sz))%R). { rewrite psum_app, Nat.add_0_l, neg_pow. change j with (0 + j)%nat at 2. rewrite sg_add. change (sg 0) with Neg. ring. }
  destruct (S_lower j sz) as [L1 L2]. destruct (S_lower 0 (j + sz)) as [L3 L4]. destruct (S_low 0 (j + sz) ltac:(clear; lia)) as [L5 L6]. rewrite <- Nat.add_succ_r in L3, L4, L5, L6. pose proof (HC 0) as [C0 C1].
  assert (EA : Rabs (sr Neg * S_ 0 j + sr (sg j) * (S_ j (S sz) * X ^ j)) = S_ 0 (j + S sz)) by (rewrite EV; apply sr_abs; lra).
  apply apx_sab in Hpart; [|lia|unfold KR; clear - I4; nia].
  assert (PB : (S_ j (S sz) * X ^ j <= C 0 * (/ 2) ^ r)%R). { apply Rle_trans with (C j * X ^ j)%R; [apply Rmult_le_compat_r; lra|]. eapply Rle_trans; [apply (alt_term C X HC HCd X_half 0 j)|]. apply Rmult_le_compat_l; [lra|]. unfold j. rewrite Nat.mul_comm, pow_mult. apply pow_incr. split; [apply pow_le; lra|]. cbn [pow]. assert (0 < (/ 2) ^ sz <= 1)%R by (apply pow_le1; lra). lra. }
  assert (PP : (0 < S_ j (S sz) * X ^ j)%R) by (apply Rmult_lt_0_compat; [pose proof (HC j)|]; lra).
  assert (EC : (0 < eps P * C 0)%R) by (apply Rmult_lt_0_compat; lra). set (h := ((/ 2) ^ r)%R) in *. assert (H0 : (0 < h <= 1)%R) by (apply pow_le1; lra).
  set (kp := KR + Z.of_nat r * (Z.of_nat sz + 2) + 1) in *. assert (KP : (0 <= 2 * IZR kp <= QT)%R). { unfold QT. change (bpow radix2 36) with (IZR (2 ^ 36)). rewrite <- (mult_IZR 2). split; apply IZR_le; unfold kp, KR; clear - I4; nia. }
  assert (E1 : (2 * IZR kp * eps P * (S_ j (S sz) * X ^ j) <= eps P * C 0 * (QT * h))%R). { apply Rle_trans with (2 * IZR kp * eps P * (C 0 * h))%R; [apply Rmult_le_compat_l; [apply Rmult_le_pos; lra|exact PB]|]. replace (2 * IZR kp * eps P * (C 0 * h))%R with (2 * IZR kp * (eps P * (C 0 * h)))%R by ring. replace (eps P * C 0 * (QT * h))%R with (QT * (eps P * (C 0 * h)))%R by ring. apply Rmult_le_compat_r; [|lra]. apply Rmult_le_pos; [lra|]. apply Rmult_le_pos; lra. }
  pose proof (rowE_S QT r) as RS. fold h in RS. assert (RB : (rowE QT (S r) <= bpow radix2 58)%R). { eapply Rle_trans; [apply (rowE_bound QT (S r) (2 ^ 26) Q0); clear - I5; lia|]. unfold QT. change (bpow radix2 36) with 68719476736%R. change (2 ^ 26) with 67108864. change (bpow radix2 58) with 288230376151711744%R. lra. }
  assert (SM : (eps P * C 0 * rowE QT (S r) <= / 1024 * C 0)%R). { replace (eps P * C 0 * rowE QT (S r))%R with (rowE QT (S r) * eps P * C 0)%R by ring. apply Eb; [lra|]. eapply Rle_trans; [exact RB|]. apply bpow_le. lia. }
  assert (E3 : (3 * eps P * S_ 0 (j + S sz) <= 3 * (eps P * C 0))%R) by (rewrite Rmult_assoc; apply Rmult_le_compat_l; [lra|]; apply Rmult_le_compat_l; lra).
  assert (TOT : (eps P * C 0 * rowE QT r + 2 * IZR kp * eps P * (S_ j (S sz) * X ^ j) + 4 * (eps P * C 0) <= eps P * C 0 * rowE QT (S r))%R) by (rewrite RS; lra).
  destruct (sab_add P PO RNone HPP HL _ _ _ _ _ _ Ha Hpart) as (acc' & -> & Ha' & La' & _).
  { rewrite EA. lra. }
  { rewrite EA. apply mid_low. split; [eapply Rle_trans; [|exact L5]; apply bpow_le; clear; lia|lra]. }
  rewrite EA, EV in Ha'. cbn [done rbind].
  destruct (apx_mul P PO RNone HPP HL Pos Pos _ _ _ _ tp xp Ht Hxp) as (tp' & -> & Ht' & Lt' & _).
  { clear - I4. nia. }
  { rewrite <- pow_add. apply mid_low. split; [|pose proof (Xpow_high (j + S sz)); lra]. eapply Rle_trans with (bpow radix2 (- 2 ^ 27)); [apply bpow_le; clear; lia|]. apply Xpow_low. exact I2. }
  cbn [done rbind sign_mul] in *. rewrite (proj2 (Z.ltb_ge nt (Z.of_nat sz)) Hnt).
  assert (EJ : (S r * S sz)%nat = (j + S sz)%nat) by (unfold j; lia).
  assert (HG : at_ (S r * S sz)%nat g') by (rewrite EJ; exact Hg').
  assert (HA : sab (eps P * C 0 * rowE QT (S r)) (sr Neg * S_ 0 (S r * S sz)) acc'). { rewrite EJ. eapply sab_weak; [|exact Ha']. lra. }
  assert (HT : apx P Pos (Z.of_nat (S r) * (Z.of_nat sz + 2)) (X ^ (S r * S sz)) tp').
  { rewrite EJ. eapply apx_same; [|eapply apx_weak; [|exact Ht']; clear; nia]. rewrite <- pow_add. reflexivity. }
  rewrite HP64 in La', Lt'.
  destruct (Z.ltb_spec (nt - Z.of_nat sz) (Z.of_nat sz)) as [T|T].
  - apply ends_ok. exists (S r). split; [lia|]. split; [lia|]. split; [clear; nia|]. auto 6.
  - replace (Z.of_nat r * Z.of_nat sz + nt) with (Z.of_nat (S r) * Z.of_nat sz + (nt - Z.of_nat sz)) in * by (clear; nia). apply IH; auto.
Qed.

(** The finished sum. *)
Definition alt_summed (s : sign) (k : Z) (A F : R) (q : num) : Prop :=
  exists N, (1 <= N)%nat /\ apx P s (2 ^ 8 * k + 2 ^ 57) (A - F * S_ 0 N) q /\ 64 * wlen q = PO /\ (F * X ^ N * C N <= 128 * eps P * A)%R.

Lemma series_rectangular_ok f niter add xf g s k A F : apx P s k A add -> apx P s k F xf -> 64 * wlen add = PO -> 64 * wlen xf = PO -> at_ 0%nat g ->
  0 <= k <= 2 ^ 40 -> (bpow radix2 (- 2 ^ 28) <= F <= A / 2)%R -> (A <= 1)%R -> RECT_ITER_THRESHOLD <= niter <= 2 ^ 25 -> (2 * niter + 4) * lx <= 2 ^ 27 -> 2 * niter + 4 + J22 <= Z.of_nat JM ->
  ends (series_rectangular next true f niter add xf xs g) (alt_summed s k A F).
Proof.
  intros Ha Hf La Lf Hg Hk [F1 F2] HA Hn HXl HJ. unfold series_rectangular. rewrite !max_len, La, Lf, Lx, !Z.max_id. assert (Q0 : (0 <= QT)%R) by apply bpow_ge_0.
  destruct (zero_wf_value PO ltac:(lia) HL) as (z & -> & Wz & _ & Vz & _). cbn [done rbind].
  destruct (cache_size niter ltac:(clear - Hn; lia)) as [Z1 Z2]. set (szz := Z.min MAX_CACHE (sqrt_int niter)) in *. assert (Z3 : szz <= 128) by (unfold szz, MAX_CACHE; clear; lia). clearbody szz.
  set (sz := Z.to_nat szz) in *. assert (Esz : szz = Z.of_nat sz) by (unfold sz; clear - Z1; lia). clearbody sz. subst szz.
  destruct (cache_loop_ok sz 1 xs) as (l & xp & -> & Ll & Hl & Hxp & Lxp).
  { eapply apx_same; [|eapply apx_weak; [|rewrite <- Sx; apply apx_self; eassumption]; clear; lia]. cbn [pow]. ring. }
  { exact Lx. } { clear - HXl Z2 Z1 Ex. nia. } { clear - Z3. lia. }
  cbn [done rbind]. change (1 + sz)%nat with (S sz) in Hxp.
  destruct (compute_row_ok l 0 g Hl) as (v & g' & -> & Hg' & Hv & Lv).
  { rewrite Ll. unfold J22 in HJ. clear - HJ Z2. lia. } { rewrite Ll. clear - HXl Z2 Z1 Ex. nia. } { rewrite Ll. clear - Z3. lia. } { exact Hg. }
  rewrite Ll, Nat.add_0_l in *. cbn [done rbind].
  destruct (apx_add_zero P (sg 0) _ _ z v PO Wz ltac:(now apply value_zero_iff) Hv) as (acc & -> & Hacc & Lacc).
  { rewrite HP64, Lv. lia. } { lia. } { exact HL. }
  rewrite HP64 in Lacc. cbn [done rbind]. rewrite (proj2 (Z.ltb_ge niter (Z.of_nat sz))) by (clear - Z2 Z1; lia). pose proof (HC 0) as [C0 C1]. assert (EC : (0 < eps P * C 0)%R) by (apply Rmult_lt_0_compat; lra).
  eapply ends_bind.
  { apply (rect_loop_ok l xp sz Hl Ll ltac:(clear - Z1; lia) Hxp f 1%nat (niter - Z.of_nat sz) acc xp g').
    - clear - Z2. lia.
    - replace (Z.of_nat 1 * Z.of_nat sz + (niter - Z.of_nat sz)) with niter by (clear; lia). exact HXl.
    - unfold J22 in HJ. clear - HJ. lia.
    - clear - Hn. lia.
    - lia.
    - rewrite Nat.mul_1_l. exact Hg'.
    - rewrite Nat.mul_1_l. apply apx_sab in Hacc; [|lia|unfold KR; clear; lia]. change (sg 0) with Neg in Hacc. eapply sab_weak; [|exact Hacc]. destruct (S_lower 0 sz) as [L1 L2]. rewrite rowE_one.
      apply Rle_trans with (2 * IZR KR * eps P * C 0)%R; [apply Rmult_le_compat_l; [apply Rmult_le_pos; [|lra]; apply Rmult_le_pos; [lra|apply IZR_le; unfold KR; clear; lia]|exact L2]|]. unfold KR, QT. change (bpow radix2 36) with 68719476736%R. change (2 ^ 34) with 17179869184. lra.
    - exact Lacc.
    - rewrite Nat.mul_1_l. eapply apx_weak; [|exact Hxp]. clear. lia. }
  intros [[[acc' tp'] nt'] g''] (r & Hr & Hnt & Hsum & Hg'' & Ha' & La' & Ht' & Lt').
  assert (I1 : Z.of_nat (r * S sz) <= 2 * niter) by (clear - Hsum Hnt Z1 Hr; nia). set (j := (r * S sz)%nat) in *.
  assert (I5 : 0 <= Z.of_nat r * (Z.of_nat sz + 2) <= 2 ^ 33) by (clear - Hsum Hnt Z1 Z3 Hn Hr; nia). assert (I6 : Z.of_nat r <= 2 ^ 26) by (clear - Hsum Hnt Z1 Z3 Hn Hr; nia).
  assert (F0 : (0 < F)%R) by (eapply Rlt_le_trans; [apply bpow_gt_0|exact F1]).
  assert (J1 : (1 <= j)%nat) by (unfold j; clear - Hr; nia). destruct (Xpow_high j) as [X1 X2]. assert (X3 : (bpow radix2 (- 2 ^ 27) <= X ^ j)%R) by (apply Xpow_low; clear - I1 HXl Ex; nia).
  assert (SJ : (bpow radix2 (- 2 ^ 29) <= S_ 0 j <= 1)%R) by (destruct j as [|j]; [lia|]; apply S_low; lia). destruct SJ as [S1 S2]. assert (SL : (15 / 16 * C 0 <= S_ 0 j)%R) by (destruct j as [|j]; [lia|]; apply S_lower).
  assert (HK : apx P Neg (2 ^ 40) (S_ 0 j) acc').
  { apply (sab_apx P Neg (2 ^ 40) (S_ 0 j) _ acc' ltac:(lia) ltac:(lra) ltac:(clear; lia) Ha').
    pose proof (rowE_bound QT r (2 ^ 26) Q0 I6) as RB. assert (eps P * C 0 * rowE QT r <= eps P * C 0 * (2 * QT + 4 * IZR (2 ^ 26)))%R by (apply Rmult_le_compat_l; lra).
    assert (IZR (2 ^ 40) * eps P * (15 / 16 * C 0) <= IZR (2 ^ 40) * eps P * S_ 0 j)%R by (apply Rmult_le_compat_l; [apply Rmult_le_pos; [apply IZR_le; clear; lia|lra]|exact SL]). unfold QT in *. change (bpow radix2 36) with 68719476736%R in *. change (2 ^ 26) with 67108864 in *. change (2 ^ 40) with 1099511627776 in *. lra. }
  destruct (apx_mul P PO RNone HPP HL Neg s _ k _ F acc' xf HK Hf) as (af & -> & Haf & Laf & _).
  { clear - Hk. lia. }
  { apply mid_prod; [split; lra|]. split; [eapply Rle_trans; [|exact F1]; apply bpow_le; clear; lia|lra]. }
  cbn [done rbind].
  destruct (apx_mul P PO RNone HPP HL Pos s _ k _ F tp' xf Ht' Hf) as (tf & -> & Htf & Ltf & _).
  { clear - I5 Hk HKC. lia. }
  { apply mid_prod; [split; [eapply Rle_trans; [|exact X3]; apply bpow_le; clear; lia|lra]|]. split; [eapply Rle_trans; [|exact F1]; apply bpow_le; clear; lia|lra]. }
  cbn [done rbind]. rewrite sign_mul_pos in Htf.
  assert (SF : (0 <= S_ 0 j * F <= F)%R). { assert (0 < S_ 0 j)%R by (eapply Rlt_le_trans; [apply bpow_gt_0|exact S1]). split; [apply Rmult_le_pos; lra|]. apply Rle_trans with (1 * F)%R; [apply Rmult_le_compat_r; lra|lra]. }
  destruct (final_add true s Neg k (2 ^ 40 + k + 1) A (S_ 0 j * F) add af Ha Haf) as (ad & Ead & Had & Lad).
  { clear - Hk. lia. } { clear - Hk. lia. } { split; [|lra]. eapply Rle_trans; [apply bpow_le with (e2 := - 2 ^ 28); clear; lia|lra]. } { lra. }
  rewrite Ead. cbn [done rbind]. rewrite (proj2 (Z.ltb_lt nt' (MAX_CACHE * 10))) by (unfold MAX_CACHE; clear - Hnt Z3; lia). cbn [negb andb].
  rewrite HP64 in Ltf. change (sr Neg) with (-1)%R in Had.
  assert (FX : (bpow radix2 (- (2 ^ 28 + 2 ^ 27)) <= X ^ j * F)%R). { replace (- (2 ^ 28 + 2 ^ 27)) with (- 2 ^ 27 + - 2 ^ 28) by reflexivity. now apply low_mul. }
  assert (FX2 : (X ^ j * F <= F / 2)%R). { assert (X ^ j <= / 2)%R. { destruct j as [|j]; [lia|]. cbn [pow]. pose proof (Xpow_high j). pose proof X_half. apply Rle_trans with (/ 2 * 1)%R; [apply Rmult_le_compat; lra|lra]. } apply Rle_trans with (/ 2 * F)%R; [apply Rmult_le_compat_r; lra|lra]. }
  eapply ends_weak.
  { apply (series_linear_ok f ad tf g'' s (16 * k + 2 ^ 43) (A + -1 * (S_ 0 j * F)) (X ^ j * F) j).
    - eapply apx_weak; [|exact Had]. clear - Hk. lia.
    - eapply apx_weak; [|exact Htf]. clear - I5 Hk. lia.
    - exact Lad. - exact Ltf. - exact Hg''.
    - clear - Hk HKC. lia.
    - clear - HXl Hn Ex. change RECT_ITER_THRESHOLD with 108 in Hn. nia.
    - split; [exact FX|lra].
    - lra.
    - clear - I1 HJ. lia. }
  intros q (N & Hq & Lq & Tq). exists (j + S N)%nat. split; [lia|]. split; [|split; [exact Lq|]].
  - eapply apx_same; [|eapply apx_weak; [|exact Hq]; clear - Hk; lia]. rewrite psum_app, Nat.add_0_l, neg_pow. pose proof (sg_add 0 j) as SG. rewrite Nat.add_0_l in SG. rewrite SG. change (sr (sg 0)) with (-1)%R. ring.
  - rewrite pow_add. replace (F * (X ^ j * X ^ S N) * C (j + S N))%R with (X ^ j * F * X ^ S N * C (j + S N))%R by ring. eapply Rle_trans; [exact Tq|].
    assert (eps P * (A + -1 * (S_ 0 j * F)) <= eps P * A)%R by (apply Rmult_le_compat_l; lra). assert (0 <= eps P * A)%R by (apply Rmult_le_pos; lra). lra.
Qed.

Theorem alt_run_ok f niter add xf g s k A F : apx P s k A add -> apx P s k F xf -> 64 * wlen add = PO -> 64 * wlen xf = PO -> at_ 0%nat g ->
  0 <= k <= 2 ^ 40 -> (bpow radix2 (- 2 ^ 28) <= F <= A / 2)%R -> (A <= 1)%R -> 0 <= niter <= 2 ^ 25 -> (2 * niter + 4) * lx <= 2 ^ 27 -> 2 * niter + 4 + J22 <= Z.of_nat JM ->
  ends (series_run next true f add xf xs niter g) (fun q => alt_summed s k A F q /\ ninexact q = true).
Proof.
  intros Ha Hf La Lf Hg Hk [F1 F2] HA Hn HXl HJ. unfold series_run.
  rewrite (is_zero_false xf) by (destruct Hf as (W & [_ N] & _); assumption). rewrite (is_zero_false xs) by (destruct Nx; assumption). cbn [orb].
  eapply (ends_bind _ _ (alt_summed s k A F)).
  - destruct (Z.leb_spec RECT_ITER_THRESHOLD niter) as [T|T].
    + apply series_rectangular_ok; try assumption; [split; assumption|]. clear - T Hn. lia.
    + eapply ends_weak.
      { apply (series_linear_ok f add xf g s k A F 0%nat); try assumption; [clear - Hk; lia| | |lra|].
        - clear - HXl Hn Ex. nia.
        - split; [eapply Rle_trans; [|exact F1]; apply bpow_le; clear; lia|exact F2].
        - clear - HJ Hn. lia. }
      intros q (N & Hq & Lq & Tq). exists (S N). split; [lia|]. split; [|split; [exact Lq|]].
      * eapply apx_same; [|eapply apx_weak; [|exact Hq]; clear - Hk; lia]. change (sr (sg 0)) with (-1)%R. ring.
      * assert (0 < F)%R by (eapply Rlt_le_trans; [apply bpow_gt_0|exact F1]). assert (0 <= eps P * A)%R by (apply Rmult_le_pos; lra). eapply Rle_trans; [exact Tq|]. lra.
  - intros q (N & HN1 & Hq & Lq & Tq). apply ends_ok. split; [|reflexivity]. exists N. split; [exact HN1|]. split; [|split; [exact Lq|exact Tq]].
    destruct Hq as (W & Nq & Sq & Lcq). split; [now apply wf_inexact|]. split; [exact Nq|]. split; [exact Sq|exact Lcq].
Qed.
End Alt.
