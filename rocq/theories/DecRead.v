(** Reading decimal digits: the powers of ten and the scaling. *)

From Coq Require Import ZArith List Bool Lia Reals Lra.
From Flocq Require Import Core Relative.
From Verif Require Import Words IntModel Mantissa Num Pow Conv Dec DecConv SpecZ WordsP WordsP2 Spec SpecPow SpecText SpecDec RoundP RealP RealP2 NumP CmpP AddP SetP AddNum MulNum DivNum ArithTop IntNum RoundableNum PowP PowNum PowTop Refute1 ConstNum DecP.
Import ListNotations.
Open Scope Z_scope.
Ltac Zify.zify_post_hook ::= idtac.
Arguments Z.mul : simpl never.
Arguments Z.add : simpl never.
Arguments Z.pow : simpl never.
Arguments Z.sub : simpl never.
Arguments Z.of_nat : simpl never.
Ltac dlia := Z.div_mod_to_equations; lia.

(** ** The number ten and its powers *)
Lemma TEN_wf : wf TEN /\ normal TEN /\ value TEN = 10%R /\ wlen TEN = 2 /\ ns TEN = Pos /\ ninexact TEN = false.
Proof.
  split; [unfold TEN; wf_concrete|]. split; [split; [reflexivity|vm_compute; discriminate]|]. split; [|repeat split; reflexivity].
  unfold value, TEN. cbn [ns ne]. change (magnitude _) with (10 * 2 ^ 124). change (4 - 64 * wlen _) with (Z.opp 124). cbn [sgnZ].
  unfold F2R. cbn [Fnum Fexp]. rewrite Z.mul_1_l, mult_IZR, <- bpow_IZR, bpow_opp by lia. field. apply Rgt_not_eq, bpow_gt_0.
Qed.

Lemma pow_ub a b c k : 0 <= a -> 0 <= b -> 0 <= c -> 0 <= k -> a ^ b <= 2 ^ c -> a ^ (b * k) <= 2 ^ (c * k).
Proof. intros. rewrite !Z.pow_mul_r by lia. apply Z.pow_le_mono_l. split; [apply Z.pow_nonneg; lia|assumption]. Qed.

Lemma ten_gen a c k d b e : 0 <= a -> 0 <= c -> 0 <= k -> 0 <= d -> 0 <= b -> 10 ^ a <= 2 ^ c -> 10 ^ d <= 2 ^ b -> c * k + b <= e -> 10 ^ (a * k + d) <= 2 ^ e.
Proof.
  intros. rewrite Z.pow_add_r by (try apply Z.mul_nonneg_nonneg; assumption). apply Z.le_trans with (2 ^ (c * k) * 2 ^ b).
  - apply Z.mul_le_mono_nonneg; [apply Z.pow_nonneg; lia| |apply Z.pow_nonneg; lia|assumption]. apply pow_ub; (assumption || lia).
  - rewrite <- Z.pow_add_r by (try apply Z.mul_nonneg_nonneg; assumption). apply Z.pow_le_mono_r; [lia|assumption].
Qed.

Lemma base_bound : 10 ^ 8651 <= 2 ^ 28738.
Proof. apply Z.leb_le. vm_compute. reflexivity. Qed.
Lemma rest_bound : 10 ^ 2365 <= 2 ^ 7857.
Proof. apply Z.leb_le. vm_compute. reflexivity. Qed.

Lemma ten_max : 10 ^ TEN_PWR_MAX_FROM_DEC <= 2 ^ (EMAX - 2).
Proof.
  assert (E : TEN_PWR_MAX_FROM_DEC = 8651 * 74726 + 2365) by reflexivity. rewrite E.
  refine (ten_gen 8651 28738 74726 2365 7857 (EMAX - 2) _ _ _ _ _ base_bound rest_bound _); vm_compute; discriminate.
Qed.
Lemma MAXV : TEN_PWR_MAX_FROM_DEC = 646456991.
Proof. reflexivity. Qed.
Opaque TEN_PWR_MAX_FROM_DEC.

Lemma ten_le k : 0 <= k <= TEN_PWR_MAX_FROM_DEC -> 1 <= 10 ^ k <= 2 ^ (EMAX - 2).
Proof.
  intros H. split; [pose proof (ten_pos k ltac:(lia)); lia|]. eapply Z.le_trans; [|exact ten_max]. apply Z.pow_le_mono_r; lia.
Qed.

Lemma ten_leR k : 0 <= k <= TEN_PWR_MAX_FROM_DEC -> (1 <= IZR (10 ^ k) <= bpow radix2 (EMAX - 2))%R.
Proof.
  intros H. destruct (ten_le k H) as [A B]. split; [apply IZR_le; exact A|]. rewrite (bpow_IZR (EMAX - 2) ltac:(discriminate)). apply IZR_le. exact B.
Qed.

Lemma ten_bits k : 0 <= k -> 10 ^ k <= 2 ^ (4 * k).
Proof. intros. replace (10 ^ k) with (10 ^ (1 * k)) by (f_equal; lia). apply pow_ub; try lia. Qed.

Lemma TEN_pow k : 0 <= k -> (value TEN ^ Z.to_nat k)%R = IZR (10 ^ k).
Proof. intros H. destruct TEN_wf as (_ & _ & -> & _). rewrite <- (Z2Nat.id k) at 2 by auto. now rewrite pow_IZR. Qed.

Lemma int_format P n : 0 < P -> Z.abs n <= 2 ^ P -> generic_format radix2 (FLX_exp P) (IZR n).
Proof.
  intros HP H. destruct (Z.eq_dec (Z.abs n) (2 ^ P)) as [E|E].
  - assert (N : n = 2 ^ P \/ n = - 2 ^ P) by lia. assert (G : generic_format radix2 (FLX_exp P) (bpow radix2 P)) by (apply generic_format_bpow; unfold FLX_exp; lia).
    destruct N as [->| ->]; [|rewrite opp_IZR; apply generic_format_opp]; rewrite <- bpow_IZR by lia; exact G.
  - apply generic_format_FLX. exists (Float radix2 n 0); [unfold F2R; cbn [Fnum Fexp]; rewrite Rmult_1_r; reflexivity|]. cbn [Fnum]. change (Zpower radix2 P) with (2 ^ P). lia.
Qed.

(** ** Operations that cut off *)
Lemma cut_rel P a : 0 < P -> (Rabs (rnd_prec P RNone a - a) <= bpow radix2 (1 - P) * Rabs a)%R.
Proof.
  intros HP. destruct (Req_dec a 0) as [->|N].
  - unfold rnd_prec. rewrite round_0 by apply rnd_valid. rewrite Rminus_0_r, Rabs_R0, Rmult_0_r. apply Rle_refl.
  - left. replace (1 - P) with (- P + 1) by ring. unfold rnd_prec. apply (relative_error_FLX radix2 P HP (rnd RNone) a N).
Qed.
Lemma cut_le P a : 0 < P -> (Rabs (rnd_prec P RNone a) <= Rabs a)%R.
Proof.
  intros HP. pose proof (FLX_exp_valid P (prec_gt_0_ := HP)) as V. unfold rnd_prec. cbn [rnd].
  destruct (Rle_or_lt 0 a) as [H|H].
  - rewrite round_ZR_DN by exact H. pose proof (round_DN_pt radix2 (FLX_exp P) a) as (_ & L & _).
    rewrite !Rabs_pos_eq; [exact L|exact H|]. apply round_ge_generic; [exact V|typeclasses eauto|apply generic_format_0|exact H].
  - rewrite round_ZR_UP by (left; exact H). pose proof (round_UP_pt radix2 (FLX_exp P) a) as (_ & L & _).
    rewrite !Rabs_left1; [apply Ropp_le_contravar; exact L|left; exact H|]. apply round_le_generic; [exact V|typeclasses eauto|apply generic_format_0|left; exact H].
Qed.
Lemma cut_ge P a e : 0 < P -> (bpow radix2 e <= Rabs a)%R -> (bpow radix2 e <= Rabs (rnd_prec P RNone a))%R.
Proof.
  intros HP H. unfold rnd_prec. apply abs_round_ge_generic; [apply FLX_exp_valid; exact HP|apply rnd_valid| |exact H]. apply generic_format_bpow. unfold FLX_exp. lia.
Qed.
Lemma cut_exact P a : generic_format radix2 (FLX_exp P) a -> rnd_prec P RNone a = a.
Proof. intros H. unfold rnd_prec. apply round_generic; [apply rnd_valid|exact H]. Qed.

(** 10^k, computed with precision [p]. *)
Lemma ten_power k p : 1 <= k <= TEN_PWR_MAX_FROM_DEC -> 128 <= p -> prec_up p + 384 < P_LIM ->
  exists f0 t, (forall f, (f0 <= f)%nat -> n_powi f TEN k p RNone = Some (Ok t)) /\
    wf t /\ normal t /\ 64 * wlen t = prec_up p /\ ns t = Pos /\
    (Rabs (value t - IZR (10 ^ k)) <= IZR (10 ^ k) * bpow radix2 (2 - prec_up p))%R /\
    (ninexact t = false -> value t = IZR (10 ^ k)) /\ (128 * k <= p -> ninexact t = false).
Proof.
  intros Hk Hp HP. destruct TEN_wf as (W & N & V & L & Sg & I). pose proof (prec_up_ge p) as PU. set (P := prec_up p) in *.
  pose proof (ten_pos k ltac:(lia)) as T1. destruct (ten_leR k ltac:(lia)) as [T1r T2r].
  assert (NL : (bpow radix2 (EMIN - 1) <= bpow radix2 0)%R) by (apply bpow_le; vm_compute; discriminate).
  assert (P2 : (0 <= bpow radix2 (2 - P))%R) by apply bpow_ge_0.
  destruct (Z.eq_dec k 1) as [->|K].
  - (* the power is TEN itself, at the new precision *)
    change (10 ^ 1) with 10 in *. unfold n_powi, powi_internal. rewrite round_p_eq by (fold P; lia). fold P.
    assert (PP : prec_up P = P) by (unfold P, prec_up; clear; dlia).
    destruct (set_precision_spec TEN P RNone W ltac:(lia) ltac:(lia) ltac:(right; left; split; [unfold P, prec_up; clear; dlia|exact N])) as [_ SO].
    assert (GR : rnd_grad P RNone (value TEN) = value TEN).
    { rewrite grad_normal; [|rewrite V, Rabs_pos_eq by lra; eapply Rle_trans; [exact NL|]; change (bpow radix2 0) with 1%R; lra]. rewrite V. apply cut_exact. apply int_format; [lia|]. 
      change (Z.abs 10) with 10. apply Z.le_trans with (2 ^ 4); [lia|]. apply Z.pow_le_mono_r; lia. }
    rewrite GR in SO. destruct SO as (q & E & Wq & Lq & Sq & Vq & Iq).
    { rewrite V, Rabs_pos_eq by lra. eapply Rle_lt_trans; [exact T2r|]. apply bpow_lt. lia. }
    exists 0%nat, q. split; [intros; rewrite <- E; reflexivity|]. split; [exact Wq|]. split.
    { apply normal_iff; [exact Wq|]. rewrite Vq, V, Rabs_pos_eq by lra. eapply Rle_trans; [exact NL|]. change (bpow radix2 0) with 1%R. lra. }
    split; [rewrite Lq; unfold P, prec_up; clear; dlia|]. split; [congruence|].
    rewrite Vq, V. rewrite Rminus_diag_eq, Rabs_R0 by reflexivity. split; [apply Rmult_le_pos; lra|]. split; [reflexivity|]. intros _.
    destruct (ninexact q); [|reflexivity]. destruct Iq as [Iq _]. destruct (Iq eq_refl) as [X|X]; [congruence|exfalso; apply X; reflexivity].
  - assert (Hr : (bpow radix2 (EMIN - 1) <= Rabs (value TEN ^ Z.to_nat k))%R).
    { rewrite TEN_pow, Rabs_pos_eq by (lia || lra). eapply Rle_trans; [exact NL|exact T1r]. }
    assert (Kb : 2 * k * (64 * wlen TEN) + 384 < P_LIM). { rewrite L. clear -Hk. rewrite MAXV in Hk. change P_LIM with 4611686016279904255. lia. }
    assert (K2 : 2 <= k < 2 ^ 64). { clear -Hk K. rewrite MAXV in Hk. change (2 ^ 64) with 18446744073709551616. lia. }
    destruct (powi_spec TEN k p RNone W (proj2 N) K2 ltac:(lia) HP Kb Hr) as (f0 & res & Post & F). fold P in Post.
    unfold power_post in Post. cbv zeta in Post. rewrite TEN_pow in Post by lia.
    assert (CL : forall a, close P (IZR (10 ^ k)) a -> (Rabs (a - IZR (10 ^ k)) <= IZR (10 ^ k) * bpow radix2 (- P))%R).
    { intros a C. unfold close in C. rewrite (Rabs_pos_eq (IZR _)) in C by lra. eapply Rle_trans; [exact C|]. apply Rmult_le_compat_l; [lra|]. apply bpow_le. lia. }
    assert (E2 : bpow radix2 (2 - P) = (4 * bpow radix2 (- P))%R) by (change 4%R with (bpow radix2 2); rewrite <- bpow_plus; f_equal; lia).
    assert (E1 : bpow radix2 (1 - P) = (2 * bpow radix2 (- P))%R) by (change 2%R with (bpow radix2 1); rewrite <- bpow_plus; f_equal; lia).
    assert (E0 : (0 < bpow radix2 (- P) <= / 4)%R). { split; [apply bpow_gt_0|]. change (/ 4)%R with (/ bpow radix2 2)%R. rewrite <- bpow_opp. apply bpow_le. lia. }
    destruct res as [q|e|]; [|exfalso|contradiction].
    + destruct Post as (Wq & Lq & Sq & (a & Ca & Va) & _ & _ & Xq). specialize (CL a Ca).
      exists (Nat.max f0 1), q. split; [intros f Hf; apply F; lia|]. split; [exact Wq|].
      assert (Ra : (Rabs a <= IZR (10 ^ k) * (1 + bpow radix2 (- P)))%R).
      { replace a with (a - IZR (10 ^ k) + IZR (10 ^ k))%R by ring. eapply Rle_trans; [apply Rabs_triang|]. rewrite (Rabs_pos_eq (IZR (10 ^ k))) by lra. lra. }
      pose proof (cut_rel P a ltac:(lia)) as CR. rewrite <- Va, E1 in CR.
      assert (ER : (Rabs (value q - IZR (10 ^ k)) <= IZR (10 ^ k) * bpow radix2 (2 - P))%R).
      { replace (value q - IZR (10 ^ k))%R with ((value q - a) + (a - IZR (10 ^ k)))%R by ring. eapply Rle_trans; [apply Rabs_triang|]. rewrite E2. set (d := bpow radix2 (- P)) in *. set (T := IZR (10 ^ k)) in *.
        clearbody d T. clear -CR CL Ra E0 T1r. assert (2 * d * Rabs a <= 2 * d * (T * (1 + d)))%R by (apply Rmult_le_compat_l; lra). assert (0 < T * d)%R by (apply Rmult_lt_0_compat; lra). assert (T * d * d <= T * d * / 4)%R by (apply Rmult_le_compat_l; lra). lra. }
      assert (Nq : normal q).
      { apply normal_iff; [exact Wq|]. eapply Rle_trans; [apply (bpow_le radix2 _ (-1)); vm_compute; discriminate|]. change (bpow radix2 (-1)) with (/ 2)%R.
        assert (IZR (10 ^ k) - value q <= Rabs (value q - IZR (10 ^ k)))%R by (rewrite Rabs_minus_sym; apply Rle_abs). pose proof (Rle_abs (value q)). 
        assert (bpow radix2 (2 - P) <= / 4)%R by (change (/ 4)%R with (/ bpow radix2 2)%R; rewrite <- bpow_opp; apply bpow_le; lia). set (T := IZR (10 ^ k)) in *. set (d := bpow radix2 (2 - P)) in *. clearbody T d. clear -ER H H0 H1 T1r P2. nra. }
      split; [exact Nq|]. split; [exact Lq|]. split.
      { unfold has_sign in Sq. destruct (ns q); auto. exfalso. cbn [sgnZ] in Sq. clear -Sq T1r. lra. }
      split; [exact ER|]. split; [exact Xq|].
      (* exactness at a high precision *)
      intros Big. specialize (F (Nat.max f0 1) ltac:(lia)). unfold n_powi, powi_internal in F. rewrite round_p_eq in F by (fold P; lia). fold (prec_up p) in F. fold P in F.
      replace (k =? 0) with false in F by lia. replace (k =? 1) with false in F by lia. rewrite is_zero_spec in F by exact W.
      replace (magnitude TEN =? 0) with false in F by (symmetry; apply Z.eqb_neq; exact (proj2 N)). cbn [orb] in F.
      rewrite (top_bit_spec 64 k k ltac:(lia) ltac:(change (Z.of_nat 64) with 64; lia) ltac:(change (64 - Z.of_nat 64) with 0; rewrite Z.pow_0_r; lia)) in F.
      change (mantissa_max_bit_len TEN) with 128 in F. replace (Z.max P 128) with P in F by lia.
      assert (P64 : P mod 64 = 0) by (unfold P, prec_up; clear; dlia).
      assert (LK : Z.log2 k < 64) by (apply Z.log2_lt_pow2; lia). assert (LK0 : 1 <= Z.log2 k) by (apply Z.log2_le_pow2; lia).
      pose proof (prec_up_ge (P + 64 + Z.log2 k * 2)) as PX.
      pose proof (attempt_spec TEN k (P + 64) W (proj2 N) K2 ltac:(rewrite L; lia) ltac:(clear -P64; dlia)) as A. cbv zeta in A. unfold pow_real in A.
      specialize (A ltac:(lia) Hr). rewrite TEN_pow in A by lia. rewrite L in A.
      destruct (Nat.max f0 1) as [|f] eqn:Ef; [lia|]. cbn [powi_loop] in F.
      destruct (powi_attempt TEN (Z.log2 k) (k * 2 ^ (64 - Z.log2 k) - 2 ^ 64) (P + 64 + Z.log2 k * 2)) as [y|e|]; [|destruct A as ((s & ->) & _); cbn [powi_map_err] in F; discriminate F|contradiction].
      destruct A as (Wy & Ly & Ny & _ & _ & _ & Xy & Fy). cbn [powi_map_err] in F.
      assert (Iy : ninexact y = false) by (apply Fy; lia). specialize (Xy Iy).
      assert (Py : precision y = 64 * wlen y) by (destruct Ny as [Ny _]; exact Ny).
      replace (precision y =? 1) with false in F by (symmetry; apply Z.eqb_neq; lia). rewrite andb_false_r in F.
      pose proof (try_any y P RNone (P + 64) Wy Ny ltac:(lia) P64 ltac:(clear -P64; dlia) ltac:(lia)) as T.
      destruct (try_set_precision y P RNone (P + 64)) as [[z [|]]|e|]; [|congruence|discriminate F|contradiction].
      injection F as <-. change (ninexact z || ninexact TEN = false). rewrite I, orb_false_r.
      destruct (set_precision_spec y P RNone Wy ltac:(lia) ltac:(unfold prec_up; clear -HP P64; dlia) ltac:(right; left; split; [exact P64|exact Ny])) as [SE SO].
      assert (GY : rnd_grad P RNone (value y) = value y).
      { rewrite grad_normal; [|apply normal_iff; auto]. rewrite Xy. apply cut_exact. apply int_format; [lia|]. rewrite Z.abs_eq by lia. eapply Z.le_trans; [apply ten_bits; lia|]. apply Z.pow_le_mono_r; lia. }
      rewrite GY in SE, SO. destruct (Rle_or_lt (bpow radix2 EMAX) (Rabs (value y))) as [O|O]; [rewrite (SE O) in T; discriminate T|].
      destruct (SO O) as (z' & Ez & _ & _ & _ & _ & Iz). rewrite T in Ez. injection Ez as <-.
      destruct (ninexact z); [|reflexivity]. destruct Iz as [Iz _]. destruct (Iz eq_refl) as [X|X]; [congruence|exfalso; apply X; reflexivity].
    + destruct Post as (_ & a & Ca & Oa). specialize (CL a Ca).
      assert (Ra : (Rabs a <= IZR (10 ^ k) * 2)%R).
      { replace a with (a - IZR (10 ^ k) + IZR (10 ^ k))%R by ring. eapply Rle_trans; [apply Rabs_triang|]. rewrite (Rabs_pos_eq (IZR (10 ^ k))) by lra.
        set (T := IZR (10 ^ k)) in *. set (d := bpow radix2 (- P)) in *. clearbody T d. clear -CL E0 T1r. nra. }
      pose proof (cut_le P a ltac:(lia)) as CU. apply (Rlt_irrefl (bpow radix2 EMAX)). eapply Rle_lt_trans; [exact Oa|]. eapply Rle_lt_trans; [exact CU|]. eapply Rle_lt_trans; [exact Ra|].
      eapply Rle_lt_trans; [apply Rmult_le_compat_r; [lra|exact T2r]|]. change 2%R with (bpow radix2 1). rewrite <- bpow_plus. apply bpow_lt. lia.
Qed.
