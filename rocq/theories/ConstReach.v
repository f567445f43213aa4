(** Every cache a program can hold is sound, so every call delivers. *)

From Coq Require Import ZArith Reals List Bool Lia Lra.
From Flocq Require Import Core.
From Verif Require Import Words Mantissa Num Consts SpecZ WordsP Spec SpecConst SpecReach RealP RealP2 NumP CmpP SetP ConstP LoopP ConstNum ConstTop.
Open Scope Z_scope.
Ltac Zify.zify_post_hook ::= idtac.
Arguments Z.mul : simpl never.
Arguments Z.add : simpl never.
Arguments Z.pow : simpl never.
Arguments Z.sub : simpl never.
Arguments Z.of_nat : simpl never.
Ltac dlia := Z.div_mod_to_equations; lia.

Lemma round_p_range p : 0 < p <= P_LIM -> round_p p = prec_up p /\ 64 <= round_p p < 2 ^ 62 /\ round_p p mod 64 = 0.
Proof.
  intros H. assert (E : round_p p = prec_up p) by (unfold round_p, prec_up; rewrite Z.min_l by lia; lia). rewrite E. split; [reflexivity|]. unfold prec_up. split; [|rewrite Z.mul_comm; apply Z.mod_mul; lia]. Z.div_mod_to_equations. lia.
Qed.
Section Deliver.
Context {T : Type} (new : result (cache T)) (fp : nat -> cache T -> Z -> rmode -> option (cache T * result num)) (ok : cache T -> Prop) (good : Z -> rmode -> num -> Prop).
Hypothesis Hnew : exists c, new = Ok c /\ ok c.
Hypothesis Hfp : forall f c k rm, ok c -> 64 <= k < 2 ^ 62 -> k mod 64 = 0 -> (31 <= f)%nat -> exists c' r, fp f c k rm = Some (c', r) /\ ok c' /\ match r with Ok y => good k rm y | _ => overflows r end.
Lemma reach_ok c : reachable new fp c -> ok c.
Proof.
  induction 1 as [c E|c p rm c' r H IH Hp E].
  - destruct Hnew as (c0 & E0 & K). rewrite E in E0. injection E0 as <-. exact K.
  - unfold const_num in E. destruct (round_p_range p Hp) as (_ & R1 & R2). destruct (Hfp 31 c (round_p p) rm IH R1 R2 (le_n 31)) as (c2 & r2 & E2 & K & _). rewrite E in E2. injection E2 as <- _. exact K.
Qed.
Lemma deliver c p rm : reachable new fp c -> 0 < p <= P_LIM -> delivers fp c p rm (good (prec_up p) rm).
Proof.
  intros H Hp. pose proof (reach_ok c H) as K. unfold delivers, const_num. destruct (round_p_range p Hp) as (E & R1 & R2). destruct (Hfp 31 c (round_p p) rm K R1 R2 (le_n 31)) as (c2 & r2 & E2 & _ & O). exists c2, r2. split; [exact E2|]. rewrite E in O. destruct r2 as [y|[s| | |]|]; auto.
Qed.
End Deliver.

(** ** e in the mode None *)
(** The mode None accepts the first value, so the cache does not grow far enough to
    overflow. *)
Lemma try_none v k s : 0 < k < P_LIM -> exists y, try_set_precision v k RNone s = Ok (y, true).
Proof.
  intros H. unfold try_set_precision, set_precision_internal. unfold p_assertion. replace (P_LIM <=? k) with false by lia. cbn [bind]. replace (k =? 0) with false by lia. cbn [round_mantissa ro_chk ro_ovf andb].
  destruct ((k <? mantissa_max_bit_len v) && (0 <? k)); [|eexists; reflexivity]. destruct (m_is_all_zero _); [eexists; reflexivity|]. destruct (m_is_subnormal _); eexists; reflexivity.
Qed.
Lemma e_inc_small i x : sums e_pq 6 i x -> i < 24 -> exists y, e_inc x (2 ^ i) = Ok (y, 2 ^ (i + 1)) /\ sums e_pq 6 (i + 1) y.
Proof.
  intros (H0 & Hi & Hx) H. assert (P : 0 < 2 ^ i <= 2 ^ 62) by (split; [apply Z.pow_pos_nonneg; lia|apply Z.pow_le_mono_r; lia]). rewrite (e_extends (2 ^ i) x P Hx).
  replace (2 * 2 ^ i) with (2 ^ (i + 1)) by (rewrite Z.pow_add_r by lia; ring). assert (Q : 0 < 2 ^ (i + 1) <= 2 ^ 24) by (split; [apply Z.pow_pos_nonneg; lia|apply Z.pow_le_mono_r; lia]).
  assert (Q2 : 2 ^ (i + 1) <= 2 ^ 63) by (eapply Z.le_trans; [apply Q|vm_compute; discriminate]). pose proof (e_pq_ok 0 (2 ^ (i + 1)) ltac:(lia) Q2) as O. destruct (e_pq 0 (2 ^ (i + 1))) as [y|[s| | |]|] eqn:E; cbn [outcome] in O; try contradiction; [|exfalso; lia].
  exists y. split; [reflexivity|]. split; [lia|]. split; [lia|exact E].
Qed.
Lemma e_grow_small f : forall i x kx, sums e_pq 6 i x -> kx < 2 ^ 23 -> 24 - i <= Z.of_nat f -> exists y j, grow e_inc f x (2 ^ i) kx = Ok (y, 2 ^ j) /\ sums e_pq 6 j y /\ kx < 2 ^ j.
Proof.
  induction f as [|f IH]; intros i x kx Hs Hk Hf; cbn [grow]; destruct (Z.leb_spec (2 ^ i) kx) as [L|L]; try (exists x, i; split; [reflexivity|split; [exact Hs|exact L]]).
  - exfalso. assert (2 ^ 24 <= 2 ^ i) by (apply Z.pow_le_mono_r; lia). change (2 ^ 24) with (2 * 2 ^ 23) in H. lia.
  - assert (Hi : i < 24). { destruct (Z.lt_ge_cases i 24) as [X|X]; [exact X|]. exfalso. assert (2 ^ 24 <= 2 ^ i) by (apply Z.pow_le_mono_r; lia). change (2 ^ 24) with (2 * 2 ^ 23) in H. lia. }
    destruct (e_inc_small i x Hs Hi) as (y & -> & Hy). cbn [bind]. apply IH; [exact Hy|exact Hk|lia].
Qed.
Lemma b_factor_le s kx : 0 <= s -> b_factor s = Ok kx -> kx <= s.
Proof.
  intros Hs. unfold b_factor. cbv zeta. destruct (Z.leb_spec (log2_floor s - log2_floor (log2_floor s) - 3) 0) as [L|L]; [discriminate|]. intros E. injection E as <-. apply Z.div_le_upper_bound; [exact L|]. nia.
Qed.
Lemma loop_S {T} inc calc kext f (c : cache T) k rm s d : for_prec_loop inc calc kext (S f) c k rm s d =
  match kext k s with
  | Err e => Some (c, Err e)
  | Panic => Some (c, Panic)
  | Ok kx =>
      let next p_wrk p_inc :=
        match extend_cache inc calc c kx with
        | Ok c' => for_prec_loop inc calc kext f c' k rm p_wrk p_inc
        | Err e => Some (c, Err e)
        | Panic => Some (c, Panic)
        end in
      if kx <? c_b c then
        match try_set_precision (c_val c) k rm s with
        | Ok (r, true) => Some (c, Ok r)
        | Ok (_, false) => next (s + d) (round_p ((s + d) / 5))
        | Err e => Some (c, Err e)
        | Panic => Some (c, Panic)
        end
      else next s d
  end.
Proof. reflexivity. Qed.
Lemma e_none_ok c k : e_cache_ok c -> 64 <= k <= 2 ^ 22 -> k mod 64 = 0 -> exists c' y, e_for_prec 31 c k RNone = Some (c', Ok y).
Proof.
  intros (i & B & Hs & Hv) Hk Hk64. unfold e_for_prec, for_prec. assert (Hr : round_p k = k). { unfold round_p. rewrite Z.min_l by lia. clear - Hk64. dlia. } rewrite Hr.
  destruct (b_factor_ok (k + 64) ltac:(lia)) as (kx & B1 & B2 & _). pose proof (b_factor_le (k + 64) kx ltac:(lia) B1) as B3. destruct (fun v => try_none v k (k + 64)) with (v := c_val c) as (y & Ey); [split; [lia|]; eapply Z.le_lt_trans; [apply Hk|vm_compute; reflexivity]|].
  change 31%nat with (S (S 29)). generalize 29%nat. intros f. rewrite (loop_S _ _ _ (S f)). unfold e_kext at 1. rewrite B1. cbv zeta. destruct (Z.ltb_spec kx (c_b c)) as [L|L]; [rewrite Ey; eexists; eexists; reflexivity|].
  unfold extend_cache. rewrite B in L |- *. assert (Hi : i < 24). { destruct (Z.lt_ge_cases i 24) as [X|X]; [exact X|]. exfalso. assert (2 ^ 24 <= 2 ^ i) by (apply Z.pow_le_mono_r; lia). lia. }
  destruct (e_inc_small i _ Hs Hi) as (x1 & -> & H1). cbn [bind]. destruct (e_grow_small 65 (i + 1) x1 kx H1 ltac:(lia) ltac:(destruct Hs; lia)) as (x2 & j & -> & H2 & L2). cbn [bind].
  assert (Hj : 6 <= j) by (destruct H2; lia). destruct (calc_e_ok (2 ^ j) x2 (pow2_ge4 j ltac:(lia)) (pow2_even j ltac:(lia)) (e_sums_ok j x2 H2)) as (v & Ev & _). unfold e_calc at 1. rewrite Ev. cbn [bind].
  rewrite (loop_S _ _ _ f). unfold e_kext at 1. rewrite B1. cbn [c_b c_val]. replace (kx <? 2 ^ j) with true by lia.
  destruct (try_none v k (k + 64)) as (z & ->); [split; [lia|]; eapply Z.le_lt_trans; [apply Hk|vm_compute; reflexivity]|]. eexists. eexists. reflexivity.
Qed.
Lemma e_const_none c p : e_cache_ok c -> 0 < p <= P_LIM -> prec_up p <= 2 ^ 22 -> exists c' y, const_num e_for_prec 31 c p RNone = Some (c', Ok y).
Proof. intros K Hl HP. destruct (round_p_range p Hl) as (R0 & R1 & R2). apply e_none_ok; [exact K|rewrite R0 in *; lia|exact R2]. Qed.
Theorem e_num_ok c p : reachable e_new e_for_prec c -> 0 < p -> prec_up p <= 2 ^ 22 ->
  exists c' y, const_num e_for_prec 31 c p RNone = Some (c', Ok y) /\ reachable e_new e_for_prec c' /\ const_result (exp 1) 2 (prec_up p) RNone y.
Proof.
  intros H Hp HP. assert (Hl : 0 < p <= P_LIM). { split; [exact Hp|]. apply Z.le_trans with (2 ^ 22); [unfold prec_up in HP; clear - HP; dlia|vm_compute; discriminate]. }
  pose proof (reach_ok e_new e_for_prec e_cache_ok (const_result (exp 1) 2) e_new_ok e_for_prec_ok c H) as K. destruct (deliver e_new e_for_prec e_cache_ok (const_result (exp 1) 2) e_new_ok e_for_prec_ok c p RNone H Hl) as (c1 & r & E & G).
  destruct (e_const_none c p K Hl HP) as (c2 & y & E2). pose proof (eq_trans (eq_sym E) E2) as X. injection X as -> ->.
  exists c2, y. split; [exact E2|]. split; [|exact G]. exact (reach_call _ _ c p RNone c2 (Ok y) H Hl E2).
Qed.
