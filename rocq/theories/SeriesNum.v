(** The series of series.rs: what they sum, and how accurately.

    The generator is described by [C], its exact coefficients, and [at_ j], the states in
    which the next coefficient is number [j]. *)

From Coq Require Import ZArith List Bool Lia Reals Lra.
From Flocq Require Import Core.
From Verif Require Import Words IntModel Mantissa Num Series SpecZ WordsP Spec RealP RealP2 NumP CmpP AddP SetP AddNum MulNum DivNum ArithTop ConvNum ConstNum ExtP PowExt ElemDom ApproxR ApproxNum.
Import ListNotations.
Open Scope Z_scope.
Ltac Zify.zify_post_hook ::= idtac.
Arguments Z.mul : simpl never.
Arguments Z.add : simpl never.
Arguments Z.pow : simpl never.
Arguments Z.sub : simpl never.
Arguments Z.of_nat : simpl never.
Ltac dlia := Z.div_mod_to_equations; lia.

(** The run ends without an error, and its value satisfies [Q]; or the fuel ran out. *)
Definition ends {A} (r : run A) (Q : A -> Prop) : Prop := r = None \/ exists a, r = Some (Ok a) /\ Q a.
Lemma ends_bind {A B} (r : run A) (k : A -> run B) (Q : A -> Prop) (R : B -> Prop) : ends r Q -> (forall a, Q a -> ends (k a) R) -> ends (rbind r k) R.
Proof. intros [-> |(a & -> & H)] K; [left; reflexivity|]. cbn [rbind]. now apply K. Qed.
Lemma ends_ok {A} (a : A) (Q : A -> Prop) : Q a -> ends (Some (Ok a)) Q.
Proof. intros H. right. exists a. auto. Qed.
Lemma ends_weak {A} (r : run A) (Q R : A -> Prop) : ends r Q -> (forall a, Q a -> R a) -> ends r R.
Proof. intros [-> |(a & -> & H)] K; [left; reflexivity|]. right. exists a. auto. Qed.

Lemma apx_len P s k a v p : apx P s k a v -> 64 * wlen v <= p -> 0 < p -> prec_up p < P_LIM ->
  exists q, set_precision v p RNone = Ok q /\ apx P s k a q /\ 64 * wlen q = prec_up p /\ value q = value v /\ ninexact q = ninexact v.
Proof.
  intros (W & N & S & L) Hl Hp HP. assert (HS : word_prec_ok p RNone v) by (right; right; exact Hl). pose proof (set_precision_spec v p RNone W Hp HP HS) as SP. cbv zeta in SP.
  rewrite (rnd_grad_long v p RNone W Hp Hl) in SP. destruct SP as [_ SP]. destruct SP as (q & E & Wq & Lq & Sq & Vq & Iq).
  { destruct (normal_range v W N) as [_ B]. pose proof (wf_exp v W) as He. eapply Rlt_le_trans; [exact B|]. apply bpow_le. lia. }
  exists q. split; [exact E|]. split; [|split; [unfold prec_up; rewrite Lq; reflexivity|]].
  - split; [exact Wq|]. split; [|split; [congruence|rewrite Vq; exact L]]. apply normal_iff; [exact Wq|]. rewrite Vq. now apply normal_iff.
  - split; [exact Vq|]. destruct (ninexact v) eqn:I; [apply Iq; left; reflexivity|]. destruct (ninexact q) eqn:J; [|reflexivity]. destruct (proj1 Iq eq_refl) as [X|X]; [discriminate X|now elim X].
Qed.

(** Adding to a zero. *)
Lemma apx_add_zero P s k a z v p : wf z -> magnitude z = 0 -> apx P s k a v -> 64 * wlen v <= prec_up p -> 0 < p -> prec_up p < P_LIM ->
  exists q, n_add z v p RNone = Ok q /\ apx P s k a q /\ 64 * wlen q = prec_up p.
Proof.
  intros Wz Z H Hl Hp HP. pose proof (prec_up_pos p Hp) as Pp. assert (PP : prec_up (prec_up p) = prec_up p) by (unfold prec_up; clear; dlia).
  destruct (apx_len P s k a v (prec_up p) H Hl Pp ltac:(lia)) as (q & E & A & L & _). exists q. split; [|split; [exact A|lia]].
  unfold n_add, add_sub. rewrite round_p_eq by (try exact HP; clear - Hp; lia). fold (prec_up p). rewrite p_assertion_ok by exact HP. cbn [bind]. rewrite (is_zero_true z Wz Z). exact E.
Qed.

(** ** Partial sums *)
Section Sums.
Variables (C : nat -> R) (X : R).
Fixpoint psum (j n : nat) : R := match n with O => 0%R | S n => (psum j n + C (j + n) * X ^ n)%R end.
Lemma psum_app j n m : psum j (n + m) = (psum j n + X ^ n * psum (j + n) m)%R.
Proof.
  induction m as [|m IH]; [rewrite Nat.add_0_r; cbn [psum]; ring|]. rewrite Nat.add_succ_r. cbn [psum]. rewrite IH, pow_add, Nat.add_assoc. ring.
Qed.
Lemma psum_cons j n : psum j (S n) = (C j + X * psum (S j) n)%R.
Proof. change (S n) with (1 + n)%nat. rewrite psum_app. cbn [psum pow]. rewrite Nat.add_0_r, Nat.add_1_r. ring. Qed.
Hypothesis HC : forall j, (0 < C j <= 1)%R.
Hypothesis HX0 : (0 < X <= / 2)%R.
Lemma psum_lower j n : (C j <= psum j (S n))%R.
Proof.
  induction n as [|n IH]; [cbn [psum pow]; rewrite Nat.add_0_r; lra|]. cbn [psum] in *. pose proof (HC (j + S n)) as H. pose proof (pow_lt X (S n) ltac:(lra)) as G. cbn [pow] in *. assert (0 < C (j + S n) * (X * X ^ n))%R by (apply Rmult_lt_0_compat; lra). lra.
Qed.
Lemma psum_upper n : forall j, (psum j n <= 2 * (1 - (/ 2) ^ n))%R.
Proof.
  induction n as [|n IH]; intros j; [cbn [psum pow]; lra|]. cbn [psum]. specialize (IH j). pose proof (HC (j + n)) as H. pose proof (pow_lt X n ltac:(lra)) as G. assert (X ^ n <= (/ 2) ^ n)%R by (apply pow_incr; lra). cbn [pow].
  assert (C (j + n) * X ^ n <= (/ 2) ^ n)%R by (apply Rle_trans with (1 * X ^ n)%R; [apply Rmult_le_compat_r; lra|lra]). lra.
Qed.
Lemma psum_le2 j n : (psum j n <= 2)%R.
Proof. pose proof (psum_upper n j). pose proof (pow_lt (/ 2) n ltac:(lra)). lra. Qed.
End Sums.

(** ** The sums, for a generator whose coefficients multiply *)
Lemma apx_exp_le P s t j k a b v w : 128 <= P -> apx P s j a v -> apx P t k b w -> j <= 2 ^ 60 -> k <= 2 ^ 60 -> (a <= b)%R -> ne v <= ne w + 4.
Proof.
  intros HP (Wv & Nv & _ & Lv) (Ww & Nw & _ & Lw) Hj Hk H. destruct (normal_range v Wv Nv) as [A _]. destruct (normal_range w Ww Nw) as [_ B].
  destruct (lc_factor _ _ _ (eps_one P j HP Hj) Lv) as [_ F1]. destruct (lc_factor _ _ _ (eps_one P k HP Hk) Lw) as [F2 _].
  assert (ne v - 1 < ne w + 4); [|lia]. apply (lt_bpow radix2). eapply Rle_lt_trans; [exact A|]. rewrite bpow_plus. change (bpow radix2 4) with 16%R. clear - F1 F2 H B. lra.
Qed.
Lemma apx_exp_high P s k a v : 128 <= P -> apx P s k a v -> k <= 2 ^ 60 -> (a <= 4 * bpow radix2 (ne v))%R.
Proof.
  intros HP (Wv & Nv & _ & Lv) Hk. destruct (normal_range v Wv Nv) as [_ B]. destruct (lc_factor _ _ _ (eps_one P k HP Hk) Lv) as [F1 _]. clear - B F1. lra.
Qed.
Lemma apx_exp_low P s k a v : 128 <= P -> apx P s k a v -> k <= 2 ^ 60 -> (bpow radix2 (ne v) <= 8 * a)%R.
Proof.
  intros HP (Wv & Nv & _ & Lv) Hk. destruct (normal_range v Wv Nv) as [A _]. destruct (lc_factor _ _ _ (eps_one P k HP Hk) Lv) as [_ F2].
  replace (ne v - 1) with (ne v + -1) in A by ring. rewrite bpow_plus in A. change (bpow radix2 (-1)) with (/ 2)%R in A. clear - A F2. lra.
Qed.
Lemma pow_le1 x n : (0 < x <= 1)%R -> (0 < x ^ n <= 1)%R.
Proof. intros H. split; [apply pow_lt; lra|]. rewrite <- (pow1 n). apply pow_incr. lra. Qed.

Lemma max_len x : mantissa_max_bit_len x = 64 * wlen x.
Proof. reflexivity. Qed.

Lemma sqrt_int_loop_range f a : 1 <= a -> forall x, 1 <= x <= a -> 1 <= sqrt_int_loop f a x <= a.
Proof.
  intros Ha. induction f as [|f IH]; intros x Hx; cbn [sqrt_int_loop]; [exact Hx|]. destruct (Z.eqb_spec x 0); [exact Hx|]. apply IH.
  assert (1 <= a / x <= a) by (split; [apply Z.div_le_lower_bound; lia|apply Z.div_le_upper_bound; nia]). split; [apply Z.div_le_lower_bound; lia|apply Z.div_le_upper_bound; lia].
Qed.
Lemma small_sqrt : forallb (fun i => let n := Z.of_nat i + 108 in (1 <=? sqrt_int n) && (2 * sqrt_int n <=? n)) (seq 0 148) = true.
Proof. vm_compute. reflexivity. Qed.
Lemma cache_size n : RECT_ITER_THRESHOLD <= n < 2 ^ 32 -> 1 <= Z.min MAX_CACHE (sqrt_int n) /\ 2 * Z.min MAX_CACHE (sqrt_int n) <= n.
Proof.
  intros [H1 H2]. unfold MAX_CACHE. change RECT_ITER_THRESHOLD with 108 in H1. destruct (Z_lt_le_dec n 256) as [L|L].
  - pose proof (proj1 (forallb_forall _ _) small_sqrt (Z.to_nat (n - 108)) ltac:(apply in_seq; lia)) as T. cbv zeta beta in T. rewrite Z2Nat.id in T by lia. replace (n - 108 + 108) with n in T by ring. apply andb_prop in T. destruct T as [T1 T2]. apply Z.leb_le in T1. apply Z.leb_le in T2. lia.
  - assert (1 <= sqrt_int n); [|lia]. unfold sqrt_int. rewrite (Z.mod_small n) by lia. pose proof (sqrt_int_loop_range 20 n ltac:(lia) n ltac:(lia)). rewrite Z.mod_small by lia. lia.
Qed.

Lemma sign_mul_pos s : sign_mul Pos s = s.
Proof. destruct s; reflexivity. Qed.

Lemma sign_mul_pos_r s : sign_mul s Pos = s.
Proof. destruct s; reflexivity. Qed.

Section Ser.
Variables (P PO : Z) (G : Type) (next : G -> result (num * G)) (at_ : nat -> G -> Prop) (C : nat -> R) (JM : nat) (KC QC : Z).
Hypothesis HP : 128 <= P <= PO.
Hypothesis HPO : PO <= 2 ^ 22.
Hypothesis HP64 : prec_up PO = PO.
Hypothesis HKC : 0 <= KC <= 2 ^ 50.
Hypothesis HQC : QC <= 2 ^ 29.
Hypothesis HC : forall j, (0 < C j <= 1)%R.
Hypothesis HCd : forall j, (C (S j) <= C j)%R.
Hypothesis HCl : forall j, (j <= JM)%nat -> (bpow radix2 (- QC) <= C j)%R.
Hypothesis HN : forall j g, at_ j g -> (j <= JM)%nat -> exists c g', next g = Ok (c, g') /\ at_ (S j) g' /\ apx P Pos KC (C j) c /\ 64 * wlen c <= PO.
Variable xs : num.
Hypothesis Wx : wf xs.
Hypothesis Nx : normal xs.
Hypothesis Sx : ns xs = Pos.
Hypothesis Lx : 64 * wlen xs = PO.
Hypothesis Ex : ne xs <= -1.
Notation X := (Rabs (value xs)).
Notation S_ := (psum C X).
Notation lx := (1 - ne xs).

Let HPP : 128 <= P <= prec_up PO.
Proof. clear - HP HP64. lia. Qed.
Let HL : prec_up PO < P_LIM.
Proof. rewrite HP64. eapply Z.le_lt_trans; [exact HPO|]. vm_compute. reflexivity. Qed.
Let X_range : (bpow radix2 (- lx) <= X <= / 2)%R.
Proof.
  destruct (normal_range xs Wx Nx) as [A B]. split; [eapply Rle_trans; [|exact A]; apply bpow_le; lia|]. left. eapply Rlt_le_trans; [exact B|]. change (/ 2)%R with (bpow radix2 (-1)). now apply bpow_le.
Qed.
Let X_half : (0 < X <= / 2)%R.
Proof. destruct X_range as [A B]. split; [|exact B]. eapply Rlt_le_trans; [apply bpow_gt_0|exact A]. Qed.
Lemma Xpow_low n M : Z.of_nat n * lx <= M -> (bpow radix2 (- M) <= X ^ n)%R.
Proof. intros H. eapply Rle_trans; [|apply low_pow; apply X_range]. apply bpow_le. clear - H. lia. Qed.
Lemma Xpow_high n : (0 < X ^ n <= 1)%R.
Proof. apply pow_le1. pose proof X_half. lra. Qed.
Lemma C_le i j : (C (i + j) <= C i)%R.
Proof. induction j as [|j IH]; [rewrite Nat.add_0_r; lra|]. rewrite Nat.add_succ_r. eapply Rle_trans; [apply HCd|exact IH]. Qed.
Lemma S_range j n : (j <= JM)%nat -> (bpow radix2 (- QC) <= S_ j (S n) <= 2)%R.
Proof. intros H. split; [|apply psum_le2; [exact HC|exact X_half]]. eapply Rle_trans; [apply HCl; exact H|apply psum_lower; [exact HC|exact X_half]]. Qed.
Lemma mid_low a : (bpow radix2 (- (2 ^ 29 + 2 ^ 28 + 2 ^ 27)) <= a <= 16)%R -> mid a.
Proof. intros H. apply (mid_range (- (2 ^ 29 + 2 ^ 28 + 2 ^ 27)) 4); [vm_compute; discriminate|vm_compute; discriminate|exact H]. Qed.
Lemma QC_low : (bpow radix2 (- 2 ^ 29) <= bpow radix2 (- QC))%R.
Proof. apply bpow_le. clear - HQC. lia. Qed.
Lemma S_low j n : (j <= JM)%nat -> (bpow radix2 (- 2 ^ 29) <= S_ j (S n) <= 2)%R.
Proof. intros H. destruct (S_range j n H) as [A B]. split; [eapply Rle_trans; [exact QC_low|exact A]|exact B]. Qed.
Lemma C_low j : (j <= JM)%nat -> (bpow radix2 (- 2 ^ 29) <= C j <= 1)%R.
Proof. intros H. split; [eapply Rle_trans; [exact QC_low|now apply HCl]|apply HC]. Qed.
(** Products of the parts of a term stay inside the exponent range. *)
Lemma mid_prod a b : (bpow radix2 (- 2 ^ 29) <= a <= 2)%R -> (bpow radix2 (- (2 ^ 28 + 2 ^ 27)) <= b <= 4)%R -> mid (a * b).
Proof.
  intros [A1 A2] [B1 B2]. apply mid_low. split; [replace (- (2 ^ 29 + 2 ^ 28 + 2 ^ 27)) with (- 2 ^ 29 + - (2 ^ 28 + 2 ^ 27)) by reflexivity; now apply low_mul|].
  assert (0 <= b)%R by (eapply Rle_trans; [apply bpow_ge_0|exact B1]). apply Rle_trans with (2 * b)%R; [apply Rmult_le_compat_r; [assumption|exact A2]|lra].
Qed.
Lemma low_weak k j a : k <= j -> (bpow radix2 j <= a)%R -> (bpow radix2 k <= a)%R.
Proof. intros H A. eapply Rle_trans; [apply bpow_le; exact H|exact A]. Qed.

(** *** Rows *)
Fixpoint powers (i : nat) (l : list num) : Prop :=
  match l with [] => True | v :: l => apx P Pos (Z.of_nat i) (X ^ i) v /\ powers (S i) l end.

Lemma row_loop_ok l : forall i j acc g, powers i l -> (1 <= i)%nat -> (j + i + length l <= JM)%nat -> Z.of_nat (i + length l) * lx <= 2 ^ 27 -> Z.of_nat (i + length l) <= 2 ^ 40 ->
  at_ (j + i)%nat g -> apx P Pos (KC + 2 * Z.of_nat i + 2) (S_ j i) acc -> 64 * wlen acc = PO ->
  exists q g', row_loop next false PO l acc g = Ok (q, g') /\ at_ (j + i + length l)%nat g' /\ apx P Pos (KC + 2 * Z.of_nat (i + length l) + 2) (S_ j (i + length l)) q /\ 64 * wlen q = PO.
Proof.
  induction l as [|v l IH]; intros i j acc g Hl Hi HJ HXl HK Hg Ha Hla.
  - cbn [length row_loop] in *. rewrite !Nat.add_0_r in *. exists acc, g. auto.
  - cbn [length row_loop powers] in *. destruct Hl as [Hv Hl]. destruct (HN (j + i) g Hg ltac:(lia)) as (c & g' & -> & Hg' & Hc & Lc). cbn [bind].
    assert (M1 : (bpow radix2 (- 2 ^ 27) <= X ^ i)%R) by (apply Xpow_low; clear - HXl Ex; nia).
    assert (B1 : Z.of_nat i + KC <= 2 ^ 60) by (clear - HKC HK; lia).
    destruct (apx_mul P PO RNone HPP HL _ _ _ _ _ _ _ _ Hv Hc B1) as (a & Ea & Ha' & La & _).
    { rewrite Rmult_comm. apply mid_prod; [destruct (C_low (j + i) ltac:(lia)); split; [assumption|lra]|]. split; [eapply low_weak; [|exact M1]; clear; lia|]. pose proof (Xpow_high i). lra. }
    unfold times_coeff. rewrite Ea. cbn [bind]. cbn [sign_mul] in Ha'.
    destruct (apx_add P PO RNone HPP HL Pos (KC + 2 * Z.of_nat i + 2) (S_ j i) (X ^ i * C (j + i)) acc a Ha) as (q & Eq & Hq & Lq & _).
    { eapply apx_weak; [|exact Ha']. clear. lia. }
    { clear - HKC HK. lia. }
    { apply mid_low. destruct i as [|i]; [lia|]. destruct (S_low j i ltac:(lia)) as [L1 L2]. destruct (HC (j + S i)) as [C1 C2]. destruct (Xpow_high (S i)) as [X1 X2].
      assert (0 <= X ^ S i * C (j + S i) <= 1)%R. { split; [apply Rmult_le_pos; lra|]. apply Rle_trans with (1 * C (j + S i))%R; [apply Rmult_le_compat_r; lra|lra]. }
      split; [|lra]. eapply low_weak with (j := - 2 ^ 29); [clear; lia|]. lra. }
    rewrite Eq. cbn [bind]. replace (S_ j i + X ^ i * C (j + i))%R with (S_ j (S i)) in Hq by (cbn [psum]; ring).
    replace (j + i + S (length l))%nat with (j + S i + length l)%nat by lia. replace (i + S (length l))%nat with (S i + length l)%nat in * by lia.
    apply IH; [exact Hl|lia|lia|exact HXl|exact HK|rewrite Nat.add_succ_r; exact Hg'| |rewrite Lq; exact HP64]. eapply apx_weak; [|exact Hq]. clear. lia.
Qed.

Lemma compute_row_ok l j g : powers 1 l -> (j + S (length l) <= JM)%nat -> Z.of_nat (S (length l)) * lx <= 2 ^ 27 -> Z.of_nat (S (length l)) <= 2 ^ 40 -> at_ j g ->
  exists q g', compute_row next false PO l g = Ok (q, g') /\ at_ (j + S (length l))%nat g' /\ apx P Pos (KC + 2 * Z.of_nat (S (length l)) + 2) (S_ j (S (length l))) q /\ 64 * wlen q = PO.
Proof.
  intros Hl HJ HXl HK Hg. unfold compute_row. destruct (zero_wf_value PO ltac:(lia) HL) as (z & Ez & Wz & _ & Vz & _). rewrite Ez. cbn [bind].
  destruct (HN j g Hg ltac:(lia)) as (c & g' & -> & Hg' & Hc & Lc). cbn [bind].
  destruct (apx_add_zero P Pos KC (C j) z c PO Wz) as (q & Eq & Hq & Lq).
  { now apply value_zero_iff. }
  { exact Hc. } { rewrite HP64. exact Lc. } { lia. } { exact HL. }
  rewrite Eq. cbn [bind]. replace (j + S (length l))%nat with (j + 1 + length l)%nat by lia. change (S (length l)) with (1 + length l)%nat.
  apply row_loop_ok; [exact Hl|lia|lia|exact HXl|exact HK|rewrite Nat.add_1_r; exact Hg'| |rewrite Lq; exact HP64].
  replace (S_ j 1) with (C j) by (cbn [psum pow]; rewrite Nat.add_0_r; ring). eapply apx_weak; [|exact Hq]. clear. lia.
Qed.

(** *** Horner's scheme *)
Fixpoint coefs (j : nat) (l : list num) : Prop :=
  match l with [] => True | c :: l => apx P Pos KC (C (j + length l)) c /\ coefs j l end.

Lemma horner_eval_ok l : forall j m k acc, coefs j l -> (j + length l + m <= JM)%nat -> KC <= k -> k + 2 * Z.of_nat (length l) <= 2 ^ 59 -> lx <= 2 ^ 27 ->
  apx P Pos k (S_ (j + length l) (S m)) acc ->
  exists q, horner_eval PO xs l acc = Ok q /\ apx P Pos (k + 2 * Z.of_nat (length l)) (S_ j (length l + S m)) q.
Proof.
  induction l as [|c l IH]; intros j m k acc Hl HJ Hk HK HX1 Ha.
  - cbn [length horner_eval] in *. rewrite Nat.add_0_r in Ha. exists acc. split; [reflexivity|]. eapply apx_weak; [|exact Ha]. clear. lia.
  - cbn [length horner_eval coefs] in *. destruct Hl as [Hc Hl]. rewrite Nat.add_succ_r in *.
    destruct (S_low (S (j + length l)) m ltac:(lia)) as [L1 L2].
    destruct (apx_mul P PO RNone HPP HL Pos Pos k 0 _ X acc xs Ha) as (a & -> & Ha' & La & _).
    { rewrite <- Sx. apply apx_self; assumption. }
    { clear - HK. lia. }
    { apply mid_prod; [split; assumption|]. destruct X_range as [X1 X2]. split; [eapply low_weak; [|exact X1]; clear - HX1; lia|lra]. }
    cbn [bind sign_mul] in *.
    destruct (apx_add P PO RNone HPP HL Pos (k + 1) _ _ a c ltac:(eapply apx_weak; [|exact Ha']; lia) ltac:(eapply apx_weak; [|exact Hc]; lia)) as (q & -> & Hq & Lq & _).
    { clear - HK. lia. }
    { apply mid_low. destruct (C_low (j + length l) ltac:(lia)) as [C1 C2]. destruct X_half as [X1 X2].
      assert (0 <= S_ (S (j + length l)) (S m) * X <= 1)%R. { assert (0 <= S_ (S (j + length l)) (S m))%R by (eapply Rle_trans; [apply bpow_ge_0|exact L1]). split; [apply Rmult_le_pos; lra|]. apply Rle_trans with (2 * X)%R; [apply Rmult_le_compat_r; lra|lra]. }
      split; [|lra]. eapply low_weak with (j := - 2 ^ 29); [clear; lia|]. lra. }
    cbn [bind].
    destruct (IH j (S m) (k + 2) q Hl ltac:(lia) ltac:(lia) ltac:(lia) HX1) as (q' & -> & Hq').
    { rewrite psum_cons. eapply apx_same; [|eapply apx_weak; [|exact Hq]; lia]. ring. }
    exists q'. split; [reflexivity|]. eapply apx_same; [|eapply apx_weak; [|exact Hq']; lia]. f_equal. lia.
Qed.

Definition head_exp (l : list num) : Z := match l with [] => 0 | c :: _ => - ne c end.
Lemma parts_loop_ok ea ef j D : D = PO - ea + ef -> Z.of_nat j + Z.max 0 (D + 4) <= Z.of_nat JM -> forall f l g,
  coefs j l -> at_ (j + length l)%nat g -> Z.of_nat (length l) <= Z.max 0 (D + 3) ->
  ends (parts_loop next f PO ea (ne xs) (- ef - ne xs * (Z.of_nat (length l) + 1)) (head_exp l) l g)
       (fun '(l', g') => coefs j l' /\ at_ (j + length l')%nat g' /\ Z.of_nat (length l') <= Z.max 0 (D + 3) /\ PO - ea <= - ef - ne xs * (Z.of_nat (length l') + 1) + head_exp l').
Proof.
  intros HD HJ. induction f as [|f IH]; intros l g Hl Hg Hn; [left; reflexivity|]. cbn [parts_loop].
  destruct (Z.ltb_spec (- ef - ne xs * (Z.of_nat (length l) + 1) + head_exp l) (PO - ea)) as [T|T]; [|apply ends_ok; auto].
  assert (Hc3 : - 3 <= head_exp l).
  { destruct l as [|c l]; [cbn [head_exp]; lia|]. cbn [head_exp coefs] in *. destruct Hl as [Hc _]. pose proof (apx_exp_low P _ _ _ _ ltac:(lia) Hc ltac:(clear - HKC; lia)) as E. destruct (HC (j + length l)) as [_ C2].
    assert (bpow radix2 (ne c) <= bpow radix2 3)%R by (change (bpow radix2 3) with 8%R; lra). apply le_bpow in H. lia. }
  assert (Hlen : Z.of_nat (length l) <= D + 1) by (clear - T Hc3 HD Ex; nia).
  destruct (HN (j + length l) g Hg ltac:(lia)) as (c & g' & -> & Hg' & Hc & Lc). cbn [done rbind].
  replace (- ef - ne xs * (Z.of_nat (length l) + 1) - ne xs) with (- ef - ne xs * (Z.of_nat (length (c :: l)) + 1)) by (cbn [length]; lia). change (- ne c) with (head_exp (c :: l)).
  apply IH; [cbn [coefs]; auto|cbn [length]; rewrite Nat.add_succ_r; exact Hg'|cbn [length]; clear - Hlen; lia].
Qed.


Definition K27 := 2 ^ 27.
Definition J22 := 2 ^ 22 + 16.
Lemma series_horner_ok f add xf g s k A F j : apx P s k A add -> apx P s k F xf -> 64 * wlen add = PO -> 64 * wlen xf = PO -> at_ j g ->
  0 <= k <= 2 ^ 55 -> lx <= 2 ^ 27 -> (bpow radix2 (- (2 ^ 28 + 2 ^ 27)) <= F <= A)%R -> (A <= 4)%R -> Z.of_nat j + J22 <= Z.of_nat JM ->
  ends (series_horner next f add xf xs g) (fun q => exists N, apx P s (k + KC + K27) (A + F * S_ j (S N)) q /\ 64 * wlen q = PO /\ (F * X ^ S N * C (j + S N) <= 32 * eps P * A)%R).
Proof.
  intros Ha Hf La Lf Hg Hk HX1 [F1 F2] HA HJ. unfold series_horner. rewrite !max_len, La, Lf, Lx, !Z.max_id.
  pose proof (apx_exp_le P s s k k F A xf add ltac:(lia) Hf Ha ltac:(lia) ltac:(lia) F2) as He. set (D := PO - ne add + ne xf).
  assert (HD : D <= 2 ^ 22 + 4) by (unfold D; clear - He HPO; lia).
  pose proof (parts_loop_ok (ne add) (ne xf) j D eq_refl ltac:(unfold J22 in HJ; clear - HD HJ; lia) f [] g I ltac:(cbn [length]; rewrite Nat.add_0_r; exact Hg) ltac:(cbn [length]; clear; lia)) as PL.
  cbn [length head_exp] in PL. replace (- ne xf - ne xs * (Z.of_nat 0 + 1)) with (- ne xf - ne xs) in PL by (clear; lia).
  eapply ends_bind; [exact PL|]. intros [l g'] (Hl & Hg' & Hn & HE). 
  assert (Hj : (j + length l <= JM)%nat) by (unfold J22 in HJ; clear - HD HJ Hn; lia).
  destruct (HN (j + length l) g' Hg' Hj) as (c & g'' & -> & _ & Hc & _). unfold done. cbn [bind].
  destruct (horner_eval_ok l j 0 KC c Hl ltac:(lia) ltac:(lia) ltac:(clear - HD Hn HKC; lia) HX1) as (q & -> & Hq).
  { eapply apx_same; [|exact Hc]. cbn [psum pow]. rewrite Nat.add_0_r. ring. }
  cbn [bind]. replace (length l + 1)%nat with (S (length l)) in Hq by lia. set (n := length l) in *.
  assert (F0 : (0 < F)%R) by (eapply Rlt_le_trans; [apply bpow_gt_0|exact F1]).
  destruct (S_low j n ltac:(lia)) as [S1 S2].
  destruct (apx_mul P PO RNone HPP HL Pos s _ k _ F q xf Hq Hf) as (a & -> & Hpa & _ & _).
  { clear - HD Hn HKC Hk. lia. }
  { apply mid_prod; [split; assumption|]. split; [exact F1|lra]. }
  cbn [bind]. rewrite sign_mul_pos in Hpa.
  destruct (apx_add P PO RNone HPP HL s (k + KC + K27 - 1) A (S_ j (S n) * F) add a) as (r & -> & Hr & Lr & _).
  { eapply apx_weak; [|exact Ha]. unfold K27. clear - HKC. lia. }
  { eapply apx_weak; [|exact Hpa]. unfold K27. clear - HD Hn. lia. }
  { unfold K27. clear - HKC Hk. lia. }
  { assert (0 < S_ j (S n))%R by (eapply Rlt_le_trans; [apply bpow_gt_0|exact S1]). assert (0 <= S_ j (S n) * F <= 8)%R by (split; [apply Rmult_le_pos; lra|apply Rle_trans with (2 * F)%R; [apply Rmult_le_compat_r; lra|lra]]).
    apply mid_low. split; [eapply low_weak with (j := - (2 ^ 28 + 2 ^ 27)); [clear; lia|]; lra|lra]. }
  apply ends_ok. exists n. split; [|split; [rewrite Lr; exact HP64|]].
  - eapply apx_same; [|eapply apx_weak; [|exact Hr]; clear; lia]. ring.
  - pose proof (apx_exp_high P _ _ _ _ ltac:(lia) Hf ltac:(lia)) as E1. pose proof (apx_exp_low P _ _ _ _ ltac:(lia) Ha ltac:(lia)) as E2.
    assert (E3 : (C (j + S n) <= 4 * bpow radix2 (- head_exp l))%R).
    { destruct l as [|c0 l]; [cbn [head_exp]; change (bpow radix2 (- 0)) with 1%R; destruct (HC (j + S n)); lra|]. cbn [head_exp coefs] in *. rewrite Z.opp_involutive. destruct Hl as [Hc0 _].
      pose proof (apx_exp_high P _ _ _ _ ltac:(lia) Hc0 ltac:(clear - HKC; lia)) as E. eapply Rle_trans; [|exact E]. unfold n. cbn [length]. replace (j + S (S (length l)))%nat with (j + length l + 2)%nat by lia. apply C_le. }
    assert (E4 : (X ^ S n <= bpow radix2 (ne xs * (Z.of_nat n + 1)))%R).
    { destruct (normal_range xs Wx Nx) as [_ B]. replace (ne xs * (Z.of_nat n + 1)) with (Z.of_nat (S n) * ne xs) by lia. clear - B. pose proof (Rabs_pos (value xs)) as H0. induction (S n) as [|m IH]; [cbn [pow]; rewrite Z.mul_0_l; right; reflexivity|].
      cbn [pow]. replace (Z.of_nat (S m) * ne xs) with (ne xs + Z.of_nat m * ne xs) by lia. rewrite bpow_plus. apply Rmult_le_compat; [exact H0|now apply pow_le|lra|exact IH]. }
    assert (E5 : (bpow radix2 (ne xf) * bpow radix2 (ne xs * (Z.of_nat n + 1)) * bpow radix2 (- head_exp l) <= bpow radix2 (ne add) * bpow radix2 (- P))%R).
    { rewrite <- !bpow_plus. apply bpow_le. clear - HE HP. lia. }
    assert (E6 : (F * X ^ S n * C (j + S n) <= (4 * bpow radix2 (ne xf)) * bpow radix2 (ne xs * (Z.of_nat n + 1)) * (4 * bpow radix2 (- head_exp l)))%R).
    { destruct (HC (j + S n)) as [C1 _]. destruct (Xpow_high (S n)) as [X1 _]. apply Rmult_le_compat; [apply Rmult_le_pos; lra|lra| |exact E3]. apply Rmult_le_compat; [lra|lra|exact E1|exact E4]. }
    replace (eps P) with (4 * bpow radix2 (- P))%R by (unfold eps; replace (2 - P) with (2 + - P) by ring; rewrite bpow_plus; reflexivity).
    pose proof (bpow_ge_0 radix2 (- P)) as GP. assert (E7 : (bpow radix2 (ne add) * bpow radix2 (- P) <= 8 * A * bpow radix2 (- P))%R) by (apply Rmult_le_compat_r; assumption).
    clear - E5 E6 E7. lra.
Qed.

(** *** Rectangular splitting *)
Lemma cache_loop_ok n : forall i y, apx P Pos (Z.of_nat i) (X ^ i) y -> 64 * wlen y = PO -> Z.of_nat (i + n) * lx <= 2 ^ 27 -> Z.of_nat (i + n) <= 2 ^ 40 ->
  exists l z, cache_loop n PO y xs = Ok (l, z) /\ length l = n /\ powers i l /\ apx P Pos (Z.of_nat (i + n)) (X ^ (i + n)) z /\ 64 * wlen z = PO.
Proof.
  induction n as [|n IH]; intros i y Hy Ly HXl HK.
  - exists [], y. cbn [cache_loop length powers]. rewrite Nat.add_0_r. auto.
  - cbn [cache_loop]. destruct (apx_mul P PO RNone HPP HL Pos Pos (Z.of_nat i) 0 (X ^ i) X y xs Hy) as (q & -> & Hq & Lq & _).
    { rewrite <- Sx. apply apx_self; assumption. }
    { clear - HK. lia. }
    { replace (X ^ i * X)%R with (X ^ (S i))%R by (cbn [pow]; ring). apply mid_low. split; [|pose proof (Xpow_high (S i)); lra]. eapply low_weak with (j := - 2 ^ 27); [clear; lia|]. apply Xpow_low. clear - HXl Ex. nia. }
    cbn [bind sign_mul] in *. destruct (IH (S i) q) as (l & z & -> & Hl & HP1 & Hz & Lz).
    { eapply apx_same; [|eapply apx_weak; [|exact Hq]; clear; lia]. cbn [pow]. ring. }
    { rewrite Lq. exact HP64. } { clear - HXl. replace (S i + n)%nat with (i + S n)%nat by lia. exact HXl. } { clear - HK. lia. }
    cbn [bind]. exists (y :: l), z. replace (i + S n)%nat with (S i + n)%nat by lia. cbn [length powers]. auto.
Qed.

Definition krow (sz r : nat) : Z := KC + (Z.of_nat r + 3) * (Z.of_nat sz + 4).
Lemma rect_loop_ok l xp sz : powers 1 l -> length l = sz -> (1 <= sz)%nat -> apx P Pos (Z.of_nat (S sz)) (X ^ (S sz)) xp -> forall f r nt acc tp g,
  Z.of_nat sz <= nt -> (2 * (Z.of_nat r * Z.of_nat sz + nt) + 4) * lx <= 2 ^ 27 -> 2 * (Z.of_nat r * Z.of_nat sz + nt) + 4 <= Z.of_nat JM -> Z.of_nat r * Z.of_nat sz + nt <= 2 ^ 27 -> (1 <= r)%nat ->
  at_ (r * S sz)%nat g -> apx P Pos (krow sz r) (S_ 0 (r * S sz)) acc -> 64 * wlen acc = PO -> apx P Pos (Z.of_nat r * (Z.of_nat sz + 2)) (X ^ (r * S sz)) tp ->
  ends (rect_loop next false f PO (Z.of_nat sz) l xp acc tp nt g)
    (fun '(acc', tp', nt', g') => exists r', (1 <= r')%nat /\ 0 <= nt' < Z.of_nat sz /\ Z.of_nat r' * Z.of_nat sz + nt' = Z.of_nat r * Z.of_nat sz + nt /\ at_ (r' * S sz)%nat g' /\
       apx P Pos (krow sz r') (S_ 0 (r' * S sz)) acc' /\ 64 * wlen acc' = PO /\ apx P Pos (Z.of_nat r' * (Z.of_nat sz + 2)) (X ^ (r' * S sz)) tp' /\ 64 * wlen tp' = PO).
Proof.
  intros Hl Ll Hsz Hxp. induction f as [|f IH]; intros r nt acc tp g Hnt HXl HJ HB Hr Hg Ha La Ht; [left; reflexivity|]. cbn [rect_loop].
  assert (I1 : Z.of_nat (r * S sz + S sz) <= 2 * (Z.of_nat r * Z.of_nat sz + nt) + 2) by (clear - Hnt Hsz Hr; nia).
  assert (I2 : Z.of_nat (r * S sz + S sz) * lx <= 2 ^ 27) by (clear - I1 HXl Ex; nia).
  assert (I3 : Z.of_nat r * Z.of_nat sz <= 2 ^ 27) by (clear - Hnt HB; lia).
  assert (I4 : (Z.of_nat r + 4) * (Z.of_nat sz + 4) <= 2 ^ 33) by (clear - I3 HB Hnt Hr Hsz; nia).
  destruct (compute_row_ok l (r * S sz) g Hl) as (v & g' & -> & Hg' & Hv & Lv).
  { rewrite Ll. clear - I1 HJ. lia. } { rewrite Ll. clear - I2 Ex. nia. } { rewrite Ll. clear - I1 HB. lia. } { exact Hg. }
  rewrite Ll in Hg', Hv. cbn [done rbind].
  destruct (S_low (r * S sz) sz ltac:(clear - I1 HJ; lia)) as [S1 S2]. destruct (Xpow_high (r * S sz)) as [X1 X2].
  assert (X3 : (bpow radix2 (- 2 ^ 27) <= X ^ (r * S sz))%R) by (apply Xpow_low; clear - I2 Ex; nia).
  destruct (apx_mul P PO RNone HPP HL Pos Pos _ _ _ _ v tp Hv Ht) as (part & -> & Hpart & _ & _).
  { clear - I4 HKC. nia. }
  { apply mid_prod; [split; assumption|]. split; [eapply low_weak; [|exact X3]; clear; lia|lra]. }
  cbn [done rbind sign_mul] in *.
  destruct (apx_add P PO RNone HPP HL Pos (krow sz r) (S_ 0 (r * S sz)) (S_ (r * S sz) (S sz) * X ^ (r * S sz)) acc part Ha) as (acc' & -> & Ha' & La' & _).
  { eapply apx_weak; [|exact Hpart]. unfold krow. clear. nia. }
  { unfold krow. clear - I4 HKC. nia. }
  { replace (S_ 0 (r * S sz) + S_ (r * S sz) (S sz) * X ^ (r * S sz))%R with (S_ 0 (r * S sz + S sz)) by (rewrite psum_app, Nat.add_0_l; ring).
    rewrite Nat.add_succ_r. destruct (S_low 0 (r * S sz + sz) ltac:(lia)) as [T1 T2]. apply mid_low. split; [eapply low_weak; [|exact T1]; clear; lia|lra]. }
  cbn [done rbind].
  destruct (apx_mul P PO RNone HPP HL Pos Pos _ _ _ _ tp xp Ht Hxp) as (tp' & -> & Ht' & Lt' & _).
  { clear - I4. nia. }
  { rewrite <- pow_add. apply mid_low. split; [|pose proof (Xpow_high (r * S sz + S sz)); lra]. eapply low_weak with (j := - 2 ^ 27); [clear; lia|]. apply Xpow_low. exact I2. }
  cbn [done rbind sign_mul] in *. rewrite (proj2 (Z.ltb_ge nt (Z.of_nat sz)) Hnt).
  assert (HG : at_ (S r * S sz)%nat g') by (replace (S r * S sz)%nat with (r * S sz + S sz)%nat by lia; exact Hg').
  assert (HA : apx P Pos (krow sz (S r)) (S_ 0 (S r * S sz)) acc').
  { eapply apx_same; [|eapply apx_weak; [|exact Ha']; unfold krow; clear; nia]. replace (S r * S sz)%nat with (r * S sz + S sz)%nat by lia. rewrite psum_app, Nat.add_0_l. ring. }
  assert (HT : apx P Pos (Z.of_nat (S r) * (Z.of_nat sz + 2)) (X ^ (S r * S sz)) tp').
  { eapply apx_same; [|eapply apx_weak; [|exact Ht']; clear; nia]. rewrite <- pow_add. f_equal. lia. }
  rewrite HP64 in La', Lt'.
  destruct (Z.ltb_spec (nt - Z.of_nat sz) (Z.of_nat sz)) as [T|T].
  - apply ends_ok. exists (S r). split; [lia|]. split; [lia|]. split; [clear; nia|]. auto 6.
  - replace (Z.of_nat r * Z.of_nat sz + nt) with (Z.of_nat (S r) * Z.of_nat sz + (nt - Z.of_nat sz)) in * by (clear; nia). apply IH; auto.
Qed.

(** The finished sum. *)
Definition summed (s : sign) (k : Z) (A F : R) (q : num) : Prop :=
  exists N, (1 <= N)%nat /\ apx P s (k + 2 * KC + 2 ^ 35) (A + F * S_ 0 N) q /\ 64 * wlen q = PO /\ (F * X ^ N * C N <= 128 * eps P * A)%R.

Lemma series_rectangular_ok f niter add xf g s k A F : apx P s k A add -> apx P s k F xf -> 64 * wlen add = PO -> 64 * wlen xf = PO -> at_ 0%nat g ->
  0 <= k <= 2 ^ 50 -> (bpow radix2 (- 2 ^ 28) <= F <= A)%R -> (A <= 1)%R -> RECT_ITER_THRESHOLD <= niter <= 2 ^ 25 -> (2 * niter + 4) * lx <= 2 ^ 27 -> 2 * niter + 4 + J22 <= Z.of_nat JM ->
  ends (series_rectangular next false f niter add xf xs g) (summed s k A F).
Proof.
  intros Ha Hf La Lf Hg Hk [F1 F2] HA Hn HXl HJ. unfold series_rectangular. rewrite !max_len, La, Lf, Lx, !Z.max_id.
  destruct (zero_wf_value PO ltac:(lia) HL) as (z & -> & Wz & _ & Vz & _). cbn [done rbind].
  destruct (cache_size niter ltac:(clear - Hn; lia)) as [Z1 Z2]. set (szz := Z.min MAX_CACHE (sqrt_int niter)) in *. assert (Z3 : szz <= 128) by (unfold szz, MAX_CACHE; clear; lia). clearbody szz.
  set (sz := Z.to_nat szz) in *. assert (Esz : szz = Z.of_nat sz) by (unfold sz; clear - Z1; lia). clearbody sz. subst szz.
  destruct (cache_loop_ok sz 1 xs) as (l & xp & -> & Ll & Hl & Hxp & Lxp).
  { eapply apx_same; [|eapply apx_weak; [|rewrite <- Sx; apply apx_self; eassumption]; clear; lia]. cbn [pow]. ring. }
  { exact Lx. } { clear - HXl Z2 Z1 Ex. nia. } { clear - Z3. lia. }
  cbn [done rbind]. change (1 + sz)%nat with (S sz) in Hxp.
  destruct (compute_row_ok l 0 g Hl) as (v & g' & -> & Hg' & Hv & Lv).
  { rewrite Ll. unfold J22 in HJ. clear - HJ Z2. lia. } { rewrite Ll. clear - HXl Z2 Z1 Ex. nia. } { rewrite Ll. clear - Z3. lia. } { exact Hg. }
  rewrite Ll, Nat.add_0_l in *. cbn [done rbind].
  destruct (apx_add_zero P Pos _ _ z v PO Wz ltac:(now apply value_zero_iff) Hv) as (acc & -> & Hacc & Lacc).
  { rewrite HP64, Lv. lia. } { lia. } { exact HL. }
  rewrite HP64 in Lacc. cbn [done rbind]. rewrite (proj2 (Z.ltb_ge niter (Z.of_nat sz))) by (clear - Z2 Z1; lia).
  eapply ends_bind.
  { apply (rect_loop_ok l xp sz Hl Ll ltac:(clear - Z1; lia) Hxp f 1%nat (niter - Z.of_nat sz) acc xp g').
    - clear - Z2. lia.
    - replace (Z.of_nat 1 * Z.of_nat sz + (niter - Z.of_nat sz)) with niter by (clear; lia). exact HXl.
    - unfold J22 in HJ. clear - HJ. lia.
    - clear - Hn. lia.
    - lia.
    - rewrite Nat.mul_1_l. exact Hg'.
    - rewrite Nat.mul_1_l. eapply apx_weak; [|exact Hacc]. unfold krow. clear. lia.
    - exact Lacc.
    - rewrite Nat.mul_1_l. eapply apx_weak; [|exact Hxp]. clear. lia. }
  intros [[[acc' tp'] nt'] g''] (r & Hr & Hnt & Hsum & Hg'' & Ha' & La' & Ht' & Lt').
  assert (I1 : Z.of_nat (r * S sz) <= 2 * niter) by (clear - Hsum Hnt Z1 Hr; nia). set (j := (r * S sz)%nat) in *.
  assert (I4 : krow sz r <= KC + 2 ^ 33) by (unfold krow; clear - Hsum Hnt Z1 Z3 Hn Hr; nia). assert (I5 : Z.of_nat r * (Z.of_nat sz + 2) <= 2 ^ 33) by (clear - Hsum Hnt Z1 Z3 Hn Hr; nia). assert (I6 : 0 <= krow sz r) by (unfold krow; clear - HKC; nia).
  assert (F0 : (0 < F)%R) by (eapply Rlt_le_trans; [apply bpow_gt_0|exact F1]).
  assert (J1 : (1 <= j)%nat) by (unfold j; clear - Hr; nia). destruct (Xpow_high j) as [X1 X2]. assert (X3 : (bpow radix2 (- 2 ^ 27) <= X ^ j)%R) by (apply Xpow_low; clear - I1 HXl Ex; nia).
  assert (SJ : (bpow radix2 (- 2 ^ 29) <= S_ 0 j <= 2)%R) by (destruct j as [|j]; [lia|]; apply S_low; lia). destruct SJ as [S1 S2].
  destruct (apx_mul P PO RNone HPP HL Pos s _ k _ F acc' xf Ha' Hf) as (af & -> & Haf & Laf & _).
  { clear - I4 Hk HKC. lia. }
  { apply mid_prod; [split; assumption|]. split; [eapply low_weak; [|exact F1]; clear; lia|lra]. }
  cbn [done rbind]. rewrite sign_mul_pos in Haf.
  destruct (apx_mul P PO RNone HPP HL Pos s _ k _ F tp' xf Ht' Hf) as (tf & -> & Htf & Ltf & _).
  { clear - I5 Hk HKC. lia. }
  { apply mid_prod; [split; [eapply low_weak; [|exact X3]; clear; lia|lra]|]. split; [eapply low_weak; [|exact F1]; clear; lia|lra]. }
  cbn [done rbind]. rewrite sign_mul_pos in Htf.
  assert (SF : (0 <= S_ 0 j * F <= 2 * F)%R). { assert (0 < S_ 0 j)%R by (eapply Rlt_le_trans; [apply bpow_gt_0|exact S1]). split; [apply Rmult_le_pos; lra|apply Rmult_le_compat_r; lra]. }
  destruct (apx_add P PO RNone HPP HL s (k + KC + 2 ^ 34 - 1) (S_ 0 j * F) A af add) as (ad & -> & Had & Lad & _).
  { eapply apx_weak; [|exact Haf]. clear - I4. lia. }
  { eapply apx_weak; [|exact Ha]. clear - HKC. lia. }
  { clear - Hk HKC. lia. }
  { apply mid_low. split; [eapply low_weak with (j := - 2 ^ 28); [clear; lia|]; lra|lra]. }
  cbn [done rbind]. rewrite (proj2 (Z.ltb_lt nt' (MAX_CACHE * 10))) by (unfold MAX_CACHE; clear - Hnt Z3; lia). cbn [negb andb].
  rewrite HP64 in Lad, Ltf.
  assert (FX : (bpow radix2 (- (2 ^ 28 + 2 ^ 27)) <= X ^ j * F)%R). { replace (- (2 ^ 28 + 2 ^ 27)) with (- 2 ^ 27 + - 2 ^ 28) by reflexivity. now apply low_mul. }
  assert (FX2 : (X ^ j * F <= F)%R) by (apply Rle_trans with (1 * F)%R; [apply Rmult_le_compat_r; lra|lra]).
  eapply ends_weak.
  { apply (series_horner_ok f ad tf g'' s (k + KC + 2 ^ 34) (S_ 0 j * F + A) (X ^ j * F) j).
    - eapply apx_weak; [|exact Had]. clear. lia.
    - eapply apx_weak; [|exact Htf]. clear - I5 HKC. lia.
    - exact Lad. - exact Ltf. - exact Hg''.
    - clear - Hk HKC. lia.
    - clear - HXl Hn Ex. change RECT_ITER_THRESHOLD with 108 in Hn. nia.
    - split; [exact FX|lra].
    - lra.
    - clear - I1 HJ. lia. }
  intros q (N & Hq & Lq & Tq). exists (j + S N)%nat. split; [lia|]. split; [|split; [exact Lq|]].
  - eapply apx_same; [|eapply apx_weak; [|exact Hq]; unfold K27; clear; lia]. rewrite psum_app, Nat.add_0_l. ring.
  - rewrite pow_add. pose proof (eps_pos P) as EP. replace (F * (X ^ j * X ^ S N) * C (j + S N))%R with (X ^ j * F * X ^ S N * C (j + S N))%R by ring. eapply Rle_trans; [exact Tq|].
    assert (eps P * (S_ 0 j * F + A) <= eps P * (3 * A))%R by (apply Rmult_le_compat_l; lra). assert (0 <= eps P * A)%R by (apply Rmult_le_pos; lra). lra.
Qed.

Theorem series_run_ok f niter add xf g s k A F : apx P s k A add -> apx P s k F xf -> 64 * wlen add = PO -> 64 * wlen xf = PO -> at_ 0%nat g ->
  0 <= k <= 2 ^ 50 -> (bpow radix2 (- 2 ^ 28) <= F <= A)%R -> (A <= 1)%R -> 0 <= niter <= 2 ^ 25 -> (2 * niter + 4) * lx <= 2 ^ 27 -> 2 * niter + 4 + J22 <= Z.of_nat JM ->
  ends (series_run next false f add xf xs niter g) (fun q => summed s k A F q /\ ninexact q = true).
Proof.
  intros Ha Hf La Lf Hg Hk [F1 F2] HA Hn HXl HJ. unfold series_run.
  rewrite (is_zero_false xf) by (destruct Hf as (W & [_ N] & _); assumption). rewrite (is_zero_false xs) by (destruct Nx; assumption). cbn [orb].
  eapply (ends_bind _ _ (summed s k A F)).
  - destruct (Z.leb_spec RECT_ITER_THRESHOLD niter) as [T|T].
    + apply series_rectangular_ok; try assumption; [split; assumption|]. clear - T Hn. lia.
    + eapply ends_weak.
      { apply (series_horner_ok f add xf g s k A F 0%nat); try assumption; [clear - Hk; lia| | |lra|].
        - clear - HXl Hn Ex. nia.
        - split; [eapply low_weak; [|exact F1]; clear; lia|exact F2].
        - clear - HJ Hn. lia. }
      intros q (N & Hq & Lq & Tq). exists (S N). split; [lia|]. split; [eapply apx_weak; [|exact Hq]; unfold K27; clear - HKC; lia|]. split; [exact Lq|].
      pose proof (eps_pos P) as EP. assert (0 < F)%R by (eapply Rlt_le_trans; [apply bpow_gt_0|exact F1]). assert (0 <= eps P * A)%R by (apply Rmult_le_pos; lra). eapply Rle_trans; [exact Tq|]. lra.
  - intros q (N & HN1 & Hq & Lq & Tq). apply ends_ok. split; [|reflexivity]. exists N. split; [exact HN1|]. split; [|split; [exact Lq|exact Tq]].
    destruct Hq as (W & Nq & Sq & Lcq). split; [now apply wf_inexact|]. split; [exact Nq|]. split; [exact Sq|exact Lcq].
Qed.
End Ser.
