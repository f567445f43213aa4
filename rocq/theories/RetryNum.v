(** One round of a function that retries: what is accepted from an approximation. *)

From Coq Require Import ZArith List Bool Lia Reals Lra.
From Flocq Require Import Core.
From Verif Require Import Words Mantissa Num SpecZ SpecPow SpecElem WordsP Spec RealP RealP2 NumP CmpP SetP AddNum ArithTop RoundableNum PowNum PowTop ConstTop PowExt ApproxR ApproxNum.
Import ListNotations.
Open Scope Z_scope.
Ltac Zify.zify_post_hook ::= idtac.
Arguments Z.mul : simpl never.
Arguments Z.add : simpl never.
Arguments Z.pow : simpl never.
Arguments Z.sub : simpl never.
Arguments Z.of_nat : simpl never.
Ltac dlia := Z.div_mod_to_equations; lia.

Lemma elem_mark r p rm q b : elem_result r p rm q -> elem_result r p rm (set_inexact q (ninexact q || b)).
Proof. intros (W & L & S & I & A & D). rewrite I. split; [now apply wf_inexact|]. split; [exact L|]. split; [exact S|]. split; [reflexivity|]. split; [exact A|exact D]. Qed.

(** Errors in units of the working precision. *)
Lemma eps_shift w p K : 0 <= K <= 2 ^ 58 -> p + 64 <= w -> (2 * (IZR K * eps (w + 64)) <= bpow radix2 (- (p + 64)))%R /\ (4 * (IZR K * eps (w + 64)) <= bpow radix2 (- w))%R.
Proof.
  intros HK H. assert (A : (IZR K * eps (w + 64) <= bpow radix2 (- w - 4))%R).
  { apply Rle_trans with (bpow radix2 58 * eps (w + 64))%R; [apply Rmult_le_compat_r; [left; apply eps_pos|]; change (bpow radix2 58) with (IZR (2 ^ 58)); apply IZR_le; lia|]. unfold eps. rewrite <- bpow_plus. apply bpow_le. lia. }
  split.
  - apply Rle_trans with (bpow radix2 1 * bpow radix2 (- w - 4))%R; [apply Rmult_le_compat_l; [apply bpow_ge_0|exact A]|]. rewrite <- bpow_plus. apply bpow_le. lia.
  - apply Rle_trans with (bpow radix2 2 * bpow radix2 (- w - 4))%R; [apply Rmult_le_compat_l; [apply bpow_ge_0|exact A]|]. rewrite <- bpow_plus. apply bpow_le. lia.
Qed.
Lemma signs_apart s r v : has_sign s r -> has_sign s v -> (Rabs (r - v) = Rabs (Rabs v - Rabs r))%R.
Proof.
  unfold has_sign. intros R V. destruct s; cbn [sgnZ] in *.
  - rewrite (Rabs_left r), (Rabs_left v) by lra. f_equal. ring.
  - rewrite (Rabs_pos_eq r), (Rabs_pos_eq v) by lra. rewrite Rabs_minus_sym. reflexivity.
Qed.
(** A number within [K] units overflows. *)
Lemma near_close r p w K : 0 <= K <= 2 ^ 58 -> 0 < p -> p + 64 <= w -> close p r (r * exp (IZR K * eps (w + 64))).
Proof.
  intros HK Hp Hw. pose proof (eps_pos (w + 64)) as E0. assert (K0 : (0 <= IZR K)%R) by (apply IZR_le; lia). set (d := (IZR K * eps (w + 64))%R) in *. assert (D0 : (0 <= d)%R) by (apply Rmult_le_pos; lra).
  destruct (eps_shift w p K HK Hw) as [E1 _]. fold d in E1. assert (D1 : (d <= / 2)%R). { assert (bpow radix2 (- (p + 64)) <= 1)%R by (change 1%R with (bpow radix2 0); apply bpow_le; lia). lra. }
  unfold close. replace (r * exp d - r)%R with (r * (exp d - 1))%R by ring. rewrite Rabs_mult. apply Rmult_le_compat_l; [apply Rabs_pos|]. pose proof (exp_upper d ltac:(lra)). pose proof (exp_ge1 d D0). rewrite Rabs_pos_eq by lra. lra.
Qed.
Lemma near_overflow r p rm s w K : 0 <= K <= 2 ^ 58 -> 0 < p -> p + 64 <= w -> has_sign s r -> (bpow radix2 EMAX <= Rabs r * exp (IZR K * eps (w + 64)))%R -> elem_overflow r p rm s.
Proof.
  intros HK Hp Hw S O. split; [exact S|]. exists (r * exp (IZR K * eps (w + 64)))%R. split; [now apply near_close|].
  set (d := (IZR K * eps (w + 64))%R) in *. clearbody d. apply rnd_prec_big; [exact Hp|]. rewrite Rabs_mult, (Rabs_pos_eq (exp d)) by (left; apply exp_pos). exact O.
Qed.

(** [d] bounds the logarithm of the relative error. *)
Theorem accept_gen r v p rm w d : wf v -> normal v -> ninexact v = true -> w + 64 <= 64 * wlen v -> has_sign (ns v) r -> lc d (Rabs r) (Rabs (value v)) ->
  (0 <= d <= 3 / 8 * bpow radix2 (- w))%R -> 0 < p -> p mod 64 = 0 -> w mod 64 = 0 -> p + 64 <= w ->
  match try_set_precision v p rm w with
  | Ok (y, true) => elem_result r p rm y
  | Ok (_, false) => True
  | Err (ExponentOverflow s) => elem_overflow r p rm s
  | _ => False
  end.
Proof.
  intros W N I L S C [D0 D2] Hp Hp64 Hw64 Hw. pose proof (value_has_sign v W ltac:(apply N)) as SV.
  assert (E2 : (bpow radix2 (- w) <= / 16)%R) by (change (/ 16)%R with (bpow radix2 (-4)); apply bpow_le; lia). assert (D1 : (d <= / 32)%R) by lra.
  pose proof (lc_abs d _ _ ltac:(lra) C) as A. pose proof (Rabs_pos r) as R0. assert (E1 : (2 * d <= bpow radix2 (- (p + 64)))%R). { apply Rle_trans with (bpow radix2 (- w)); [|apply bpow_le; lia]. pose proof (bpow_gt_0 radix2 (- w)). lra. }
  assert (CL : close p r (value v)). { unfold close. rewrite Rabs_minus_sym, (signs_apart (ns v)) by assumption. eapply Rle_trans; [exact A|]. rewrite Rmult_comm. apply Rmult_le_compat_l; [exact R0|exact E1]. }
  assert (R2 : (15 / 16 * Rabs r <= Rabs (value v))%R). { apply Rabs_le_inv in A. nra. }
  assert (ED : (Rabs (r - value v) < bpow radix2 (ne v - w))%R).
  { rewrite (signs_apart (ns v)) by assumption. eapply Rle_lt_trans; [exact A|]. pose proof (value_lt_bpow v W) as B. unfold Zminus. rewrite bpow_plus. pose proof (bpow_gt_0 radix2 (- w)) as G. pose proof (Rabs_pos (value v)).
    apply Rle_lt_trans with (8 / 3 * d * Rabs (value v))%R; [nra|]. apply Rle_lt_trans with (bpow radix2 (- w) * Rabs (value v))%R; [apply Rmult_le_compat_r; [assumption|lra]|]. rewrite Rmult_comm. apply Rmult_lt_compat_r; assumption. }
  pose proof (try_outcome v p rm w W N ltac:(lia) Hp64 Hw64 ltac:(lia)) as O. pose proof (try_any v p rm w W N ltac:(lia) Hp64 Hw64 ltac:(lia)) as T. pose proof (accept_directed r v p rm w) as D.
  destruct (try_set_precision v p rm w) as [[y [|]]|[s| | |]|]; try exact O.
  - destruct O as (O1 & O2 & O3 & O4 & O5). split; [exact O1|]. split; [exact O2|]. split; [rewrite O3; exact S|]. split; [exact (O4 I)|]. split; [exists (value v); split; [exact CL|exact O5]|]. intros D3 D4. refine (proj1 (D y W N I _ Hw64 _ ED D4 D3 eq_refl)); lia.
  - clear D. pose proof (wf_lim v W) as HL. assert (HP : prec_up p < P_LIM) by (unfold prec_up; clear - Hp64 HL L Hw; dlia).
    pose proof (set_precision_spec v p rm W Hp HP ltac:(right; left; auto)) as [SE SO]. assert (GN : rnd_grad p rm (value v) = rnd_prec p rm (value v)) by (apply grad_normal; apply normal_iff; auto). rewrite GN in SE, SO.
    destruct (Rle_or_lt (bpow radix2 EMAX) (Rabs (rnd_prec p rm (value v)))) as [OV|OV]; [|destruct (SO OV) as (y & Ey & _); rewrite T in Ey; discriminate Ey].
    rewrite (SE OV) in T. injection T as <-. split; [exact S|]. exists (value v). split; [exact CL|exact OV].
Qed.
Theorem accept_elem r v p rm w K : wf v -> normal v -> ninexact v = true -> w + 64 <= 64 * wlen v -> has_sign (ns v) r -> lc (IZR K * eps (w + 64)) (Rabs r) (Rabs (value v)) ->
  0 <= K <= 2 ^ 58 -> 0 < p -> p mod 64 = 0 -> w mod 64 = 0 -> p + 64 <= w ->
  match try_set_precision v p rm w with
  | Ok (y, true) => elem_result r p rm y
  | Ok (_, false) => True
  | Err (ExponentOverflow s) => elem_overflow r p rm s
  | _ => False
  end.
Proof.
  intros W N I L S C HK Hp Hp64 Hw64 Hw. destruct (eps_shift w p K HK Hw) as [_ E2]. pose proof (eps_pos (w + 64)) as E0. assert (K0 : (0 <= IZR K)%R) by (apply IZR_le; lia).
  pose proof (bpow_gt_0 radix2 (- w)). apply accept_gen with (IZR K * eps (w + 64))%R; try assumption. split; [apply Rmult_le_pos; lra|]. lra.
Qed.
