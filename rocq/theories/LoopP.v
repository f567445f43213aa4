(** The retry loop of the constants: what an accepted result is, termination, and
    preservation of the cache. *)

From Coq Require Import ZArith List Bool Lia.
From Verif Require Import Words Mantissa Num Consts SpecZ ConstP.
Import ListNotations.
Open Scope Z_scope.
Ltac Zify.zify_post_hook ::= idtac.
Arguments Z.mul : simpl never.
Arguments Z.add : simpl never.
Arguments Z.pow : simpl never.
Arguments Z.sub : simpl never.
Arguments Z.of_nat : simpl never.
Ltac dlia := Z.div_mod_to_equations; lia.

Definition overflows {T} (r : result T) : Prop := match r with Err (ExponentOverflow _) => True | _ => False end.

Lemma round_p_step s : 128 <= s -> 64 <= round_p (s / 5) <= s /\ round_p (s / 5) mod 64 = 0.
Proof.
  intros H. unfold round_p. set (m := Z.min (s / 5 + 63) 18446744073709551615). assert (64 <= m <= s) by (unfold m; split; dlia). clearbody m. split; [split; dlia|]. apply Z.mod_mul. lia.
Qed.

Section Loop.
Context {T : Type} (split : Z -> Z -> result T) (inc : T -> Z -> result (T * Z)) (calc : T -> Z -> result num) (kext : Z -> Z -> result Z).
Variables (k : Z) (rm : rmode) (vgood : Z -> num -> Prop) (fits : Z -> Z -> Prop) (i0 : Z).
Definition sums (i : Z) (x : T) : Prop := 0 <= i0 <= i /\ i < 30 /\ split 0 (2 ^ i) = Ok x.

Hypothesis Hext : extends split inc.
Hypothesis Hsplit : forall i, 0 <= i <= 30 -> outcome (split 0 (2 ^ i)) (fun _ => i < 30) True.
Hypothesis Hcalc : forall i x, 0 < i -> sums i x -> outcome (calc x (2 ^ i)) (vgood (2 ^ i)) True.
Hypothesis Hkext : forall s, 128 <= s < 2 ^ 63 -> exists kx, kext k s = Ok kx /\ 1 <= kx.
Hypothesis Hfit1 : forall s kx i, s = k + 64 -> kext k s = Ok kx -> 0 <= i < 30 -> kx < 2 ^ i -> fits s (2 ^ i).
Hypothesis Hfit2 : forall s d kx i j, fits s (2 ^ i) -> 128 <= s -> 64 <= d <= s -> s + d < 2 ^ 63 -> kext k (s + d) = Ok kx -> kx < 2 ^ j -> 0 <= i < j -> j < 30 -> fits (s + d) (2 ^ j).
Hypothesis Htry : forall s b v, vgood b v -> fits s b -> s mod 64 = 0 -> k + 64 <= s -> match try_set_precision v k rm s with Ok _ => True | r => overflows r end.

Hypothesis Hlim : forall s b v, vgood b v -> fits s b -> s mod 64 = 0 -> s < 2 ^ 62.

Definition cache_ok (c : cache T) : Prop := exists i, c_b c = 2 ^ i /\ sums i (c_sum c) /\ (i = 0 \/ vgood (c_b c) (c_val c)).

Lemma inc_step i x : sums i x -> match inc x (2 ^ i) with Ok (y, b) => b = 2 ^ (i + 1) /\ sums (i + 1) y | r => overflows r end.
Proof.
  intros (H0 & Hi & Hx). assert (P : 0 < 2 ^ i <= 2 ^ 62) by (split; [apply Z.pow_pos_nonneg; lia|apply Z.pow_le_mono_r; lia]). rewrite (Hext (2 ^ i) x P Hx). replace (2 * 2 ^ i) with (2 ^ (i + 1)) by (rewrite Z.pow_add_r by lia; ring).
  pose proof (Hsplit (i + 1) ltac:(lia)) as H. unfold sums. destruct (split 0 (2 ^ (i + 1))) as [y|[s| | |]|] eqn:E; cbn [outcome bind overflows] in *; auto. split; [reflexivity|]. split; [lia|]. split; [lia|reflexivity].
Qed.

Lemma grow_ok f : forall i x kx, sums i x -> 30 - i <= Z.of_nat f ->
  match grow inc f x (2 ^ i) kx with Ok (y, b) => exists j, i <= j /\ b = 2 ^ j /\ sums j y | r => overflows r end.
Proof.
  induction f as [|f IH]; intros i x kx Hs Hf; [destruct Hs; lia|]. cbn [grow]. destruct (2 ^ i <=? kx).
  - pose proof (inc_step i x Hs) as I. destruct (inc x (2 ^ i)) as [[y b]|[s| | |]|]; cbn [bind overflows] in *; auto. destruct I as [-> I]. pose proof (IH (i + 1) y kx I ltac:(lia)) as G.
    destruct (grow inc f y (2 ^ (i + 1)) kx) as [[z b]|e|]; auto. destruct G as (j & A & B & C). exists j. split; [lia|]. split; assumption.
  - exists i. split; [lia|]. split; [reflexivity|assumption].
Qed.

Lemma extend_ok c i kx : sums i (c_sum c) -> c_b c = 2 ^ i ->
  match extend_cache inc calc c kx with Ok c' => exists j, i < j /\ c_b c' = 2 ^ j /\ sums j (c_sum c') /\ vgood (c_b c') (c_val c') | r => overflows r end.
Proof.
  intros Hs Hb. unfold extend_cache. rewrite Hb. pose proof (inc_step i _ Hs) as I. destruct (inc (c_sum c) (2 ^ i)) as [[y b]|[s| | |]|]; cbn [bind overflows] in *; auto. destruct I as [-> I].
  pose proof (grow_ok 65 (i + 1) y kx I ltac:(destruct Hs; lia)) as G. destruct (grow inc 65 y (2 ^ (i + 1)) kx) as [[z b]|[s| | |]|]; cbn [bind overflows] in *; auto. destruct G as (j & A & -> & C).
  pose proof (Hcalc j z ltac:(destruct Hs; lia) C) as V. destruct (calc z (2 ^ j)) as [v|[s| | |]|]; cbn [outcome bind overflows c_b c_sum c_val] in *; auto. exists j. split; [lia|]. auto.
Qed.

Lemma loop_ok f : forall c s d i, c_b c = 2 ^ i -> sums i (c_sum c) -> (i = 0 \/ vgood (c_b c) (c_val c)) -> 64 <= k -> k + 64 <= s < 2 ^ 63 -> s mod 64 = 0 -> 64 <= d <= s -> d mod 64 = 0 ->
  (forall j kx, i <= j < 30 -> kext k s = Ok kx -> kx < 2 ^ j -> fits s (2 ^ j)) -> 31 - i <= Z.of_nat f ->
  exists c' r, for_prec_loop inc calc kext f c k rm s d = Some (c', r) /\ cache_ok c' /\
    match r with
    | Ok y => exists s', k + 64 <= s' /\ s' mod 64 = 0 /\ vgood (c_b c') (c_val c') /\ fits s' (c_b c') /\ try_set_precision (c_val c') k rm s' = Ok (y, true)
    | _ => overflows r
    end.
Proof.
  induction f as [|f IH]; intros c s d i Hb Hs Hv Hk Hks Hs64 Hd Hd64 Hfit Hf; [destruct Hs; lia|]. cbn [for_prec_loop].
  destruct (Hkext s ltac:(lia)) as (kx & Ek & Hkx). rewrite Ek.
  assert (Hc : cache_ok c) by (exists i; auto).
  assert (Next : forall s2 d2, k + 64 <= s2 < 2 ^ 63 -> s2 mod 64 = 0 -> 64 <= d2 <= s2 -> d2 mod 64 = 0 -> (forall j kx, i < j < 30 -> kext k s2 = Ok kx -> kx < 2 ^ j -> fits s2 (2 ^ j)) ->
    exists c' r, match extend_cache inc calc c kx with Ok c2 => for_prec_loop inc calc kext f c2 k rm s2 d2 | Err e => Some (c, Err e) | Panic => Some (c, Panic) end = Some (c', r) /\ cache_ok c' /\
    match r with
    | Ok y => exists s', k + 64 <= s' /\ s' mod 64 = 0 /\ vgood (c_b c') (c_val c') /\ fits s' (c_b c') /\ try_set_precision (c_val c') k rm s' = Ok (y, true)
    | _ => overflows r
    end).
  { intros s2 d2 A1 A2 A3 A4 A5. pose proof (extend_ok c i kx Hs Hb) as E. destruct (extend_cache inc calc c kx) as [c2|e|].
    - destruct E as (j & J1 & J2 & J3 & J4). apply (IH c2 s2 d2 j); auto; try lia. intros j0 kx0 K1 K2 K3. apply (A5 j0 kx0); auto. lia.
    - exists c, (Err e). split; [reflexivity|]. split; [exact Hc|exact E].
    - destruct E. }
  destruct (Z.ltb_spec kx (c_b c)) as [L|L].
  - assert (Hi0 : i <> 0) by (intros ->; rewrite Hb in L; change (2 ^ 0) with 1 in L; lia). destruct Hv as [|Hv]; [contradiction|].
    assert (Hi : 0 <= i < 30) by (destruct Hs; lia).
    assert (F : fits s (2 ^ i)) by (apply (Hfit i kx); [lia|exact Ek|rewrite <- Hb; exact L]).
    pose proof (Htry s (c_b c) (c_val c) Hv ltac:(rewrite Hb; exact F) Hs64 ltac:(lia)) as R. pose proof (Hlim s (c_b c) (c_val c) Hv ltac:(rewrite Hb; exact F) Hs64) as HL. destruct (try_set_precision (c_val c) k rm s) as [[y [|]]|e|] eqn:Et.
    + exists c, (Ok y). split; [reflexivity|]. split; [exact Hc|]. exists s. rewrite Hb in *. repeat (split; [first [assumption|lia]|]). exact Et.
    + destruct (round_p_step (s + d) ltac:(lia)) as [D1 D2]. apply Next; try lia; auto.
      * rewrite Z.add_mod, Hs64, Hd64 by lia. reflexivity.
      * intros j kx0 J1 J2 J3. apply (Hfit2 s d kx0 i j); auto; lia.
    + exists c, (Err e). split; [reflexivity|]. split; [exact Hc|exact R].
    + destruct R.
  - apply (Next s d); auto. intros j kx0 J1 J2 J3. apply (Hfit j kx0); auto. lia.
Qed.

Theorem for_prec_ok f c : cache_ok c -> 64 <= k < 2 ^ 62 -> k mod 64 = 0 -> round_p k = k -> (31 <= f)%nat ->
  exists c' r, for_prec inc calc kext f c k rm = Some (c', r) /\ cache_ok c' /\
    match r with
    | Ok y => exists s', k + 64 <= s' /\ s' mod 64 = 0 /\ vgood (c_b c') (c_val c') /\ fits s' (c_b c') /\ try_set_precision (c_val c') k rm s' = Ok (y, true)
    | _ => overflows r
    end.
Proof.
  intros (i & Hb & Hs & Hv) Hk H64 Hr Hf. unfold for_prec. rewrite Hr. apply (loop_ok f c (k + 64) 64 i); auto; try lia.
  - rewrite Z.add_mod, H64 by lia. reflexivity.
  - intros j kx Hj E L. apply (Hfit1 (k + 64) kx j); auto. destruct Hs. lia.
  - destruct Hs. lia.
Qed.
End Loop.
