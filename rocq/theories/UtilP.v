(** The integer logarithm of common/util.rs. *)

From Coq Require Import ZArith Bool Lia.
From Verif Require Import Words WordsP.
Open Scope Z_scope.
Ltac Zify.zify_post_hook ::= idtac.
Arguments Z.mul : simpl never.
Arguments Z.add : simpl never.
Arguments Z.pow : simpl never.
Arguments Z.sub : simpl never.
Arguments Z.of_nat : simpl never.

Lemma log2_ceil_loop_ok f : forall N n r s, 1 <= n < 2 ^ Z.of_nat f -> 0 <= r -> (s = 0 /\ N = n * 2 ^ r \/ s = 1 /\ n * 2 ^ r < N < (n + 1) * 2 ^ r) ->
  let k := log2_ceil_loop f n r s in 0 <= k /\ N <= 2 ^ k /\ (1 < N -> 2 ^ (k - 1) < N).
Proof.
  induction f; intros N n r s H R I; cbn [log2_ceil_loop].
  - change (2 ^ Z.of_nat 0) with 1 in H. lia.
  - pose proof (pow2_gt0 r R). destruct (Z.ltb_spec 1 n).
    + rewrite Nat2Z.inj_succ, Z.pow_succ_r in H by lia. rewrite Z.shiftr_div_pow2 by lia. change (2 ^ 1) with 2.
      apply IHf; [|lia|].
      * pose proof (Z.div_mod n 2 ltac:(lia)). pose proof (Z.mod_pos_bound n 2 ltac:(lia)). lia.
      * rewrite Z.pow_add_r by lia. change (2 ^ 1) with 2. pose proof (Zdiv2_odd_eqn n) as O. rewrite Z.div2_div in O. destruct (Z.odd n).
        -- right. split; auto. destruct I as [[_ ->]|[_ I]]; nia.
        -- destruct I as [[-> ->]|[-> I]]; [left|right]; split; auto; nia.
    + assert (n = 1) by lia. subst n. destruct I as [[-> ->]|[-> I]].
      * rewrite Z.add_0_r. repeat split; try lia. intros. destruct (Z.eq_dec r 0) as [->|]; [exfalso; rewrite Z.pow_0_r in *; lia|].
        rewrite Z.mul_1_l. apply Z.pow_lt_mono_r; lia.
      * rewrite Z.pow_add_r by lia. change (2 ^ 1) with 2. replace (r + 1 - 1) with r by lia. lia.
Qed.
Lemma log2_ceil_ok n : 1 <= n < 2 ^ 64 -> 0 <= log2_ceil n /\ n <= 2 ^ log2_ceil n /\ (1 < n -> 2 ^ (log2_ceil n - 1) < n).
Proof. intros. unfold log2_ceil. apply log2_ceil_loop_ok; try lia. Qed.
