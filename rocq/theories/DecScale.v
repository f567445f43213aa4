(** Reading decimal digits: one evaluation of digits * 10^n. *)

From Coq Require Import ZArith List Bool Lia Reals Lra.
From Flocq Require Import Core Relative.
From Verif Require Import Words IntModel Mantissa Num Pow Conv Dec DecConv SpecZ WordsP WordsP2 Spec SpecPow SpecText SpecDec RoundP RealP RealP2 NumP CmpP AddP SetP AddNum MulNum DivNum ArithTop IntNum RoundableNum PowP PowNum PowTop DecP DecRead.
Import ListNotations.
Open Scope Z_scope.
Ltac Zify.zify_post_hook ::= idtac.
Arguments Z.mul : simpl never.
Arguments Z.add : simpl never.
Arguments Z.pow : simpl never.
Arguments Z.sub : simpl never.
Arguments Z.of_nat : simpl never.
Ltac dlia := Z.div_mod_to_equations; lia.

Definition ap (neg : bool) (a T : R) : R := if neg then (a / T)%R else (a * T)%R.
Definition n_ap (neg : bool) (f t : num) (p : Z) : result num := if neg then n_div f t p RNone else n_mul f t p RNone.

Lemma ap_cut neg f t p : wf f -> wf t -> nonzero f -> nonzero t -> 0 < p -> prec_up p < P_LIM ->
  let a := ap neg (value f) (value t) in
  (bpow radix2 (EMIN - 1) <= Rabs a)%R ->
  match n_ap neg f t p with
  | Ok q => wf q /\ normal q /\ 64 * wlen q = prec_up p /\ ns q = sign_mul (ns f) (ns t) /\ value q = rnd_prec (prec_up p) RNone a /\
            (ninexact q = true <-> ninexact f || ninexact t = true \/ value q <> a)
  | Err e => e = ExponentOverflow (sign_mul (ns f) (ns t)) /\ (bpow radix2 EMAX <= Rabs a)%R
  | Panic => False
  end.
Proof.
  intros Wf Wt Nf Nt Hp HP a Ha. pose proof (prec_up_pos p Hp) as P0.
  assert (C : correctly_rounded (prec_up p) RNone a (sign_mul (ns f) (ns t)) (ninexact f || ninexact t) (n_ap neg f t p)).
  { unfold a, ap, n_ap. destruct neg; [apply div_nonzero|apply mul_nonzero]; assumption. }
  unfold correctly_rounded in C. cbv zeta in C. destruct C as [C1 C2].
  destruct (Rle_or_lt (bpow radix2 EMAX) (Rabs (rnd_prec (prec_up p) RNone a))) as [O|O].
  - rewrite (C1 O). split; [reflexivity|]. eapply Rle_trans; [exact O|]. apply cut_le. exact P0.
  - destruct (C2 O) as (q & -> & Wq & Lq & Sq & Vq & _ & _ & _ & Iq). destruct Vq as [Vq Nq]; [apply cut_ge; assumption|].
    split; [exact Wq|]. split; [exact Nq|]. split; [exact Lq|]. split; [exact Sq|]. split; [exact Vq|exact Iq].
Qed.

(** The arithmetic of one step. *)
Lemma step_err neg v rho t T q al u : (rho <> 0)%R -> (0 < T)%R -> (0 <= al <= / 8)%R -> (0 <= u <= / 32)%R ->
  (Rabs (v - rho) <= Rabs rho * al)%R -> (Rabs (t - T) <= T * u)%R ->
  let a := ap neg v t in let r := ap neg rho T in
  (Rabs (q - a) <= u / 2 * Rabs a)%R ->
  (Rabs (q - r) <= Rabs r * (al + 4 * u))%R /\ (Rabs r / 2 <= Rabs a <= Rabs r * (1 + (al + 4 * u)))%R.
Proof.
  intros Hr HT Hal Hu Hv Ht a r Hq.
  assert (Ex : forall x y b, (y <> 0)%R -> (Rabs (x - y) <= Rabs y * b)%R -> exists d, x = (y * (1 + d))%R /\ (Rabs d <= b)%R).
  { intros x y b Hy H. exists ((x - y) / y)%R. split; [field; exact Hy|]. unfold Rdiv. rewrite Rabs_mult, Rabs_inv. pose proof (Rabs_pos_lt y Hy) as Py.
    apply Rmult_le_reg_r with (Rabs y); [exact Py|]. rewrite Rmult_assoc, Rinv_l, Rmult_1_r by lra. lra. }
  destruct (Ex v rho al Hr Hv) as (d1 & E1 & B1). destruct (Ex t T u ltac:(lra)) as (d2 & E2 & B2). { rewrite (Rabs_pos_eq T) by lra. exact Ht. }
  apply Rabs_le_inv in B1. apply Rabs_le_inv in B2. assert (N2 : (1 + d2 <> 0)%R) by lra.
  assert (M : exists d', a = (r * (1 + d'))%R /\ (Rabs d' <= al + 5 / 2 * u)%R).
  { unfold a, r, ap. destruct neg.
    - exists ((d1 - d2) / (1 + d2))%R. split; [rewrite E1, E2; field; split; lra|]. unfold Rdiv. rewrite Rabs_mult, Rabs_inv, (Rabs_pos_eq (1 + d2)) by lra.
      apply Rmult_le_reg_r with (1 + d2)%R; [lra|]. rewrite Rmult_assoc, Rinv_l, Rmult_1_r by exact N2. apply Rabs_le. nra.
    - exists (d1 + d2 + d1 * d2)%R. split; [rewrite E1, E2; ring|]. apply Rabs_le. nra. }
  destruct M as (d' & Ea & Bd). apply Rabs_le_inv in Bd. 
  assert (Rr : (0 < Rabs r)%R).
  { apply Rabs_pos_lt. unfold r, ap. destruct neg; [apply Rmult_integral_contrapositive_currified; [exact Hr|apply Rinv_neq_0_compat; lra]|apply Rmult_integral_contrapositive_currified; [exact Hr|lra]]. }
  assert (Aa : Rabs a = (Rabs r * (1 + d'))%R) by (rewrite Ea, Rabs_mult, (Rabs_pos_eq (1 + d')) by lra; reflexivity).
  split.
  - replace (q - r)%R with ((q - a) + (a - r))%R by ring. eapply Rle_trans; [apply Rabs_triang|].
    replace (a - r)%R with (r * d')%R by (rewrite Ea; ring). rewrite Rabs_mult. rewrite Aa in Hq. assert (Rabs d' <= al + 5 / 2 * u)%R by (apply Rabs_le; exact Bd).
    assert (Rabs r * Rabs d' <= Rabs r * (al + 5 / 2 * u))%R by (apply Rmult_le_compat_l; lra).
    assert (u / 2 * (Rabs r * (1 + d')) <= Rabs r * (3 / 2 * u))%R. { replace (u / 2 * (Rabs r * (1 + d')))%R with (Rabs r * (u / 2 * (1 + d')))%R by ring. apply Rmult_le_compat_l; [lra|]. nra. }
    lra.
  - rewrite Aa. split; [|apply Rmult_le_compat_l; lra]. unfold Rdiv. apply Rmult_le_compat_l; lra.
Qed.

Lemma zmod_bounds a b : 0 < b -> 0 <= a -> 0 <= a / b /\ 0 <= a mod b < b /\ a = b * (a / b) + a mod b.
Proof. intros. split; [apply Z.div_pos; lia|]. split; [apply Z.mod_pos_bound; lia|]. apply Z.div_mod. lia. Qed.

(** ** The state after [c] operations; it stands for ±D * 10^±j. *)
Section Eval.
Variables (neg : bool) (s : sign) (D : Z) (p : Z) (k : Z) (Q : Prop).
Let P := prec_up p.
Let u := bpow radix2 (2 - P).
Hypothesis Hp : 128 <= p.
Hypothesis HP : P + 384 < P_LIM.
Hypothesis HD : 0 < D.
Definition target (j : Z) : R := ap neg (IZR (sgnZ s * D)) (IZR (10 ^ j)).
Hypothesis HL : forall j, 0 <= j <= k -> (bpow radix2 EMIN <= Rabs (target j))%R.
Hypothesis HQ : Q -> 128 * k <= p /\ forall j, 0 <= j <= k -> generic_format radix2 (FLX_exp P) (target j).

Record state (c j : Z) (f : num) : Prop := {
  st_wf : wf f;
  st_norm : normal f;
  st_sign : ns f = s;
  st_err : (Rabs (value f - target j) <= Rabs (target j) * (4 * IZR c * u))%R;
  st_exact : ninexact f = false -> value f = target j;
  st_flag : Q -> ninexact f = false;
  st_len : 0 < c -> 64 * wlen f = P }.
Record factor (m : Z) (t : num) : Prop := {
  fc_wf : wf t;
  fc_norm : normal t;
  fc_sign : ns t = Pos;
  fc_err : (Rabs (value t - IZR (10 ^ m)) <= IZR (10 ^ m) * u)%R;
  fc_exact : ninexact t = false -> value t = IZR (10 ^ m);
  fc_flag : Q -> ninexact t = false }.

Lemma u_small : (0 < u <= bpow radix2 (-126))%R.
Proof. split; [apply bpow_gt_0|]. apply bpow_le. pose proof (prec_up_ge p). unfold P. lia. Qed.

Lemma target_nz j : 0 <= j -> target j <> 0%R.
Proof.
  intros Hj. assert (IZR (sgnZ s * D) <> 0)%R by (apply IZR_neq; destruct s; cbn [sgnZ]; lia). assert (IZR (10 ^ j) <> 0)%R by (apply IZR_neq; pose proof (ten_pos j Hj); lia).
  unfold target, ap. destruct neg; apply Rmult_integral_contrapositive_currified; auto. now apply Rinv_neq_0_compat.
Qed.

Lemma target_step j m : 0 <= j -> 0 <= m -> ap neg (target j) (IZR (10 ^ m)) = target (j + m).
Proof.
  intros Hj Hm. assert (IZR (10 ^ j) <> 0)%R by (apply IZR_neq; pose proof (ten_pos j Hj); lia). assert (IZR (10 ^ m) <> 0)%R by (apply IZR_neq; pose proof (ten_pos m Hm); lia).
  unfold target, ap. rewrite Z.pow_add_r, (mult_IZR (10 ^ j)) by lia. generalize dependent (IZR (10 ^ j)). generalize dependent (IZR (10 ^ m)). generalize (IZR (sgnZ s * D)). intros a b Hb c Hc. destruct neg; [field; split; assumption|ring].
Qed.

Lemma ap_step c j m f t : 0 <= c <= 1000 -> 0 <= j -> 0 <= m -> j + m <= k -> state c j f -> factor m t ->
  match n_ap neg f t p with
  | Ok q => state (c + 1) (j + m) q
  | Err e => e = ExponentOverflow s /\ (bpow radix2 EMAX <= Rabs (target (j + m)) * (1 + 4 * IZR (c + 1) * u))%R
  | Panic => False
  end.
Proof.
  intros Hc Hj Hm Hk [Wf Nf Sf Ef Xf Gf Lf] [Wt Nt St Et Xt Gt]. destruct u_small as [U0 U1].
  assert (US : (u <= / 65536)%R). { eapply Rle_trans; [exact U1|]. change (/ 65536)%R with (/ bpow radix2 16)%R. rewrite <- bpow_opp. apply bpow_le. lia. }
  pose proof (ten_pos m Hm) as Tm. assert (Tr : (0 < IZR (10 ^ m))%R) by (apply IZR_lt; exact Tm).
  assert (Cr : (0 <= IZR c <= 1000)%R) by (split; apply IZR_le; lia).
  assert (AL : (0 <= 4 * IZR c * u <= / 8)%R) by (clear -Cr US U0; nra).
  set (a := ap neg (value f) (value t)).
  pose proof (step_err neg (value f) (target j) (value t) (IZR (10 ^ m)) (rnd_prec P RNone a) (4 * IZR c * u) u (target_nz j Hj) Tr AL ltac:(clear -US U0; lra) Ef Et) as SE. cbv zeta in SE. fold a in SE. rewrite target_step in SE by assumption.
  assert (CR : (Rabs (rnd_prec P RNone a - a) <= u / 2 * Rabs a)%R).
  { pose proof (prec_up_ge p). pose proof (cut_rel P a ltac:(unfold P; lia)) as C. replace (u / 2)%R with (bpow radix2 (1 - P)); [exact C|]. unfold u. replace (2 - P) with (1 - P + 1) by ring. rewrite bpow_plus. change (bpow radix2 1) with 2%R. field. }
  destruct (SE CR) as [S1 [S2 S3]]. clear SE. replace (4 * IZR c * u + 4 * u)%R with (4 * IZR (c + 1) * u)%R in S1, S3 by (rewrite plus_IZR; ring).
  assert (La : (bpow radix2 (EMIN - 1) <= Rabs a)%R).
  { eapply Rle_trans; [|exact S2]. pose proof (HL (j + m) ltac:(lia)) as H. change EMIN with (EMIN - 1 + 1) in H at 1. rewrite bpow_plus in H. change (bpow radix2 1) with 2%R in H. clear -H. set (b := bpow radix2 (EMIN - 1)) in *. clearbody b. lra. }
  pose proof (ap_cut neg f t p Wf Wt (proj2 Nf) (proj2 Nt) ltac:(lia) ltac:(fold P; lia) La) as C. fold a P in C. rewrite Sf, St in C. replace (sign_mul s Pos) with s in C by (destruct s; reflexivity).
  destruct (n_ap neg f t p) as [q|e|]; [|destruct C as [-> C]; split; [reflexivity|eapply Rle_trans; [exact C|exact S3]]|exact C].
  destruct C as (Wq & Nq & Lq & Sq & Vq & Iq).
  assert (AE : ninexact f = false -> ninexact t = false -> a = target (j + m)). { intros A B. unfold a. rewrite (Xf A), (Xt B). apply target_step; assumption. }
  constructor; [exact Wq|exact Nq|exact Sq|rewrite Vq; exact S1| | |intros _; exact Lq].
  - intros I. destruct (Req_dec (value q) a) as [E|E].
    + destruct (ninexact f) eqn:If; [exfalso; assert (ninexact q = true) by (apply Iq; left; reflexivity); congruence|].
      destruct (ninexact t) eqn:It; [exfalso; assert (ninexact q = true) by (apply Iq; left; reflexivity); congruence|]. rewrite E. apply AE; reflexivity.
    + exfalso. assert (ninexact q = true) by (apply Iq; right; exact E). congruence.
  - intros q0. destruct (HQ q0) as [_ FM]. specialize (FM (j + m) ltac:(lia)). rewrite <- (AE (Gf q0) (Gt q0)) in FM.
    destruct (ninexact q); [|reflexivity]. destruct Iq as [Iq _]. destruct (Iq eq_refl) as [X|X]; [rewrite (Gf q0), (Gt q0) in X; discriminate X|].
    exfalso. apply X. rewrite Vq. apply cut_exact. exact FM.
Qed.

Hypothesis Mono : forall j, 0 <= j <= k -> (bpow radix2 EMAX <= Rabs (target j) * (1 + bpow radix2 (-64)))%R -> (Rabs (target j) <= Rabs (target k))%R.

Lemma scale_ok n : forall c j m f t, 0 <= c -> c + Z.of_nat n <= 1000 -> 0 <= j -> 0 <= m -> j + Z.of_nat n * m <= k -> state c j f -> factor m t ->
  match scale_by n f t neg p with
  | Ok q => state (c + Z.of_nat n) (j + Z.of_nat n * m) q
  | Err e => e = ExponentOverflow s /\ (bpow radix2 EMAX <= Rabs (target k) * (1 + 4 * IZR (c + Z.of_nat n) * u))%R
  | Panic => False
  end.
Proof.
  induction n as [|n IH]; intros c j m f t Hc0 Hc Hj Hm Hk Sf Ft; cbn [scale_by].
  - replace (c + Z.of_nat 0) with c by lia. replace (j + Z.of_nat 0 * m) with j by lia. exact Sf.
  - rewrite Nat2Z.inj_succ in *. assert (0 <= Z.of_nat n * m) by (apply Z.mul_nonneg_nonneg; lia).
    pose proof (ap_step c j m f t ltac:(lia) Hj Hm ltac:(lia) Sf Ft) as A. unfold n_ap in A.
    destruct (if neg then n_div f t p RNone else n_mul f t p RNone) as [q|e|]; cbn [bind]; [| |contradiction].
    + specialize (IH (c + 1) (j + m) m q t ltac:(lia) ltac:(lia) ltac:(lia) Hm ltac:(lia) A Ft).
      replace (c + 1 + Z.of_nat n) with (c + Z.succ (Z.of_nat n)) in IH by lia. replace (j + m + Z.of_nat n * m) with (j + Z.succ (Z.of_nat n) * m) in IH by lia. exact IH.
    + destruct A as [-> A]. split; [reflexivity|]. destruct u_small as [U0 U1].
      assert (B1 : (4 * IZR (c + 1) * u <= bpow radix2 (-64))%R).
      { apply Rle_trans with (bpow radix2 12 * bpow radix2 (-126))%R; [|rewrite <- bpow_plus; apply bpow_le; lia]. apply Rmult_le_compat; [|left; exact U0| |exact U1].
        - apply Rmult_le_pos; [lra|]. apply IZR_le. lia.
        - rewrite bpow_IZR by lia. rewrite <- mult_IZR. apply IZR_le. change (2 ^ 12) with 4096. lia. }
      assert (B2 : (4 * IZR (c + 1) * u <= 4 * IZR (c + Z.succ (Z.of_nat n)) * u)%R). { apply Rmult_le_compat_r; [left; exact U0|]. apply Rmult_le_compat_l; [lra|]. apply IZR_le. lia. }
      assert (B0 : (0 <= 4 * IZR (c + 1) * u)%R). { apply Rmult_le_pos; [|left; exact U0]. apply Rmult_le_pos; [lra|]. apply IZR_le. lia. }
      eapply Rle_trans; [exact A|]. apply Rmult_le_compat; [apply Rabs_pos|lra| |lra].
      apply (Mono (j + m)); [lia|]. eapply Rle_trans; [exact A|]. apply Rmult_le_compat_l; [apply Rabs_pos|]. lra.
Qed.

Lemma ten_factor m : 1 <= m <= TEN_PWR_MAX_FROM_DEC -> m <= k -> exists f0 t, (forall f, (f0 <= f)%nat -> n_powi f TEN m p RNone = Some (Ok t)) /\ factor m t.
Proof.
  intros Hm Hk. destruct (ten_power m p Hm Hp HP) as (f0 & t & F & W & N & L & Sg & E & X & G). exists f0, t. split; [exact F|].
  constructor; try assumption. intros q0. apply G. destruct (HQ q0) as [B _]. lia.
Qed.

Definition ops : Z := k / TEN_PWR_MAX_FROM_DEC + (if k mod TEN_PWR_MAX_FROM_DEC =? 0 then 0 else 1).

Theorem eval_ok x : 0 <= k -> k / TEN_PWR_MAX_FROM_DEC < 1000 -> state 0 0 x ->
  exists f0 res, (forall f, (f0 <= f)%nat ->
     obind (scale_full f (k / TEN_PWR_MAX_FROM_DEC) x neg TEN_PWR_MAX_FROM_DEC p) (fun y => scale_rest f (k mod TEN_PWR_MAX_FROM_DEC) y neg p) = Some res) /\
  match res with
  | Ok q => state ops k q
  | Err e => e = ExponentOverflow s /\ (bpow radix2 EMAX <= Rabs (target k) * (1 + 4 * IZR ops * u))%R
  | Panic => False
  end.
Proof.
  intros Hk Hn Sx. pose proof MAXV as MV. destruct (zmod_bounds k TEN_PWR_MAX_FROM_DEC ltac:(lia) Hk) as (N0 & M0 & EM). unfold ops.
  set (N := k / TEN_PWR_MAX_FROM_DEC) in *. set (r := k mod TEN_PWR_MAX_FROM_DEC) in *. set (M := TEN_PWR_MAX_FROM_DEC) in *. clearbody N r M.
  assert (A : exists f0 res, (forall f, (f0 <= f)%nat -> scale_full f N x neg M p = Some res) /\
     match res with Ok q => state N (N * M) q | Err e => e = ExponentOverflow s /\ (bpow radix2 EMAX <= Rabs (target k) * (1 + 4 * IZR N * u))%R | Panic => False end).
  { unfold scale_full. destruct (Z.eqb_spec N 0) as [->|NN].
    - exists 0%nat, (Ok x). split; [reflexivity|]. exact Sx.
    - destruct (ten_factor M ltac:(rewrite MAXV; lia)) as (f0 & t & F & Ft); [nia|]. exists f0. eexists. split; [intros f Hf; rewrite (F f Hf); reflexivity|].
      pose proof (scale_ok (Z.to_nat N) 0 0 M x t ltac:(lia) ltac:(lia) ltac:(lia) ltac:(lia) ltac:(rewrite Z2Nat.id by lia; lia) Sx Ft) as SO.
      rewrite Z2Nat.id in SO by lia. exact SO. }
  destruct A as (f0 & res & F & A). destruct res as [y|e|]; [| |contradiction].
  2:{ exists f0, (Err e). split; [intros f Hf; rewrite (F f Hf); reflexivity|]. destruct A as [-> A]. split; [reflexivity|].
      eapply Rle_trans; [exact A|]. apply Rmult_le_compat_l; [apply Rabs_pos|]. destruct u_small as [U0 _]. apply Rplus_le_compat_l. apply Rmult_le_compat_r; [left; exact U0|]. apply Rmult_le_compat_l; [lra|]. apply IZR_le. destruct (r =? 0); lia. }
  unfold scale_rest. destruct (Z.eqb_spec r 0) as [Er|Er].
  - exists f0, (Ok y). split; [intros f Hf; rewrite (F f Hf); reflexivity|]. replace (N + 0) with N by lia. replace k with (N * M) by lia. exact A.
  - destruct (ten_factor r ltac:(rewrite MAXV; lia)) as (f1 & t & F1 & Ft); [nia|]. exists (Nat.max f0 f1). eexists. split.
    { intros f Hf. rewrite (F f ltac:(lia)). cbn [obind]. rewrite (F1 f ltac:(lia)). reflexivity. }
    pose proof (ap_step N (N * M) r y t ltac:(lia) ltac:(nia) ltac:(lia) ltac:(lia) A Ft) as B. unfold n_ap in B. replace (N * M + r) with k in B by lia. exact B.
Qed.
End Eval.
