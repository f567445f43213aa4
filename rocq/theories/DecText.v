(** Reading decimal digits and literals: consequences. *)

From Coq Require Import ZArith List Bool Lia Reals Lra.
From Flocq Require Import Core Relative.
From Verif Require Import Words IntModel Mantissa Num Ext Pow Conv Parser Dec DecConv SpecZ WordsP WordsP2 Spec SpecPow SpecText SpecDec RoundP RealP RealP2 NumP CmpP AddP SetP AddNum MulNum DivNum ArithTop IntNum RoundableNum PowP PowNum PowTop ParserP TextTop DecP DecRead DecScale DecStart DecTop.
Import ListNotations.
Open Scope Z_scope.
Ltac Zify.zify_post_hook ::= idtac.
Arguments Z.mul : simpl never.
Arguments Z.add : simpl never.
Arguments Z.pow : simpl never.
Arguments Z.sub : simpl never.
Arguments Z.of_nat : simpl never.
Ltac dlia := Z.div_mod_to_equations; lia.

(** ** Numbers of the format are recovered from close approximations *)
Lemma format_gap p a b : 0 < p -> generic_format radix2 (FLX_exp p) a -> generic_format radix2 (FLX_exp p) b -> (0 < a < b)%R -> (a * bpow radix2 (- p) <= b - a)%R.
Proof.
  intros Hp Fa Fb H. pose proof (FLX_exp_valid p (prec_gt_0_ := Hp)) as V. pose proof (succ_le_lt radix2 (FLX_exp p) a b Fa Fb (proj2 H)) as S.
  rewrite succ_eq_pos in S by lra. pose proof (@ulp_FLX_ge radix2 p Hp a) as U. rewrite Rabs_pos_eq in U by lra. lra.
Qed.

Lemma near_dist p rm a : 0 < p -> nearest rm = true -> forall g, generic_format radix2 (FLX_exp p) g -> (Rabs (rnd_prec p rm a - a) <= Rabs (g - a))%R.
Proof.
  intros Hp Nr g Fg. pose proof (FLX_exp_valid p (prec_gt_0_ := Hp)) as V.
  assert (N : Rnd_N_pt (generic_format radix2 (FLX_exp p)) a (rnd_prec p rm a)) by (unfold rnd_prec; destruct rm; try discriminate Nr; cbn [rnd]; apply round_N_pt; exact V).
  destruct N as [_ N]. apply N. exact Fg.
Qed.

Lemma near_exact p rm r a : 0 < p -> nearest rm = true -> generic_format radix2 (FLX_exp p) r -> close p r a -> rnd_prec p rm a = r.
Proof.
  intros Hp Nr Fr C. pose proof (FLX_exp_valid p (prec_gt_0_ := Hp)) as V. unfold close in C. destruct (Req_dec r 0) as [->|R0].
  { assert (a = 0)%R. { rewrite Rabs_R0, Rmult_0_l in C. rewrite Rminus_0_r in C. destruct (Req_dec a 0) as [E|E]; [exact E|]. pose proof (Rabs_pos_lt a E). lra. }
    subst a. unfold rnd_prec. apply round_0. apply rnd_valid. }
  pose proof (near_dist p rm a Hp Nr r Fr) as N. set (g := rnd_prec p rm a) in *.
  assert (Fg : generic_format radix2 (FLX_exp p) g) by (apply generic_format_round; [exact V|apply rnd_valid]). clearbody g.
  assert (D : (Rabs (g - r) <= Rabs r * (2 * bpow radix2 (- (p + 64))))%R).
  { replace (g - r)%R with ((g - a) + (a - r))%R by ring. eapply Rle_trans; [apply Rabs_triang|]. rewrite (Rabs_minus_sym r a) in N. lra. }
  assert (E : (2 * bpow radix2 (- (p + 64)) <= bpow radix2 (- p) * bpow radix2 (-63))%R). { change 2%R with (bpow radix2 1). rewrite <- !bpow_plus. apply bpow_le. lia. }
  assert (E3 : (bpow radix2 (-63) <= / 8)%R). { change (/ 8)%R with (bpow radix2 (-3)). apply bpow_le. lia. }
  assert (B0 : (0 < bpow radix2 (- p) <= / 2)%R). { split; [apply bpow_gt_0|]. change (/ 2)%R with (bpow radix2 (-1)). apply bpow_le. lia. }
  set (u := bpow radix2 (- p)) in *. pose proof (bpow_gt_0 radix2 (-63)) as B63. 
  assert (D2 : (Rabs (g - r) <= Rabs r * (u / 8))%R). { eapply Rle_trans; [exact D|]. apply Rmult_le_compat_l; [apply Rabs_pos|]. eapply Rle_trans; [exact E|]. unfold Rdiv. apply Rmult_le_compat_l; lra. }
  destruct (Req_dec g r) as [X|X]; [exact X|exfalso]. clear D E N C.
  assert (K : forall g r, generic_format radix2 (FLX_exp p) g -> generic_format radix2 (FLX_exp p) r -> (0 < r)%R -> g <> r -> (Rabs (g - r) <= Rabs r * (u / 8))%R -> False).
  { clear -Hp B0. intros g r Fg Fr R0 X D. rewrite (Rabs_pos_eq r) in D by lra. apply Rabs_le_inv in D. assert (r * (u / 8) <= r / 16)%R by nra. 
    destruct (Rtotal_order g r) as [L|[L|L]]; [|contradiction|].
    - pose proof (format_gap p g r Hp Fg Fr ltac:(lra)) as G. fold u in G. assert (r * (u / 8) <= g * (u / 4))%R by nra. nra.
    - pose proof (format_gap p r g Hp Fr Fg ltac:(lra)) as G. fold u in G. nra. }
  destruct (Rtotal_order 0 r) as [L|[L|L]]; [|congruence|].
  - apply (K g r Fg Fr L X D2).
  - apply (K (- g)%R (- r)%R); [now apply generic_format_opp|now apply generic_format_opp|lra|intros Y; apply X; lra|].
    replace (- g - - r)%R with (- (g - r))%R by ring. rewrite !Rabs_Ropp. exact D2.
Qed.

Lemma read_exact p rm r s res : 0 < p -> rm <> RNone -> generic_format radix2 (FLX_exp p) r -> (Rabs r <= bpow radix2 (EMAX - 2))%R -> read_post p rm r s res ->
  exists q, res = Ok q /\ wf q /\ 64 * wlen q = p /\ ns q = s /\ value q = r /\ (nearest rm = false -> ninexact q = false).
Proof.
  intros Hp Hrm Fr Hb R. unfold read_post in R. destruct res as [q|e|]; [| |contradiction].
  - destruct R as (W & L & Sg & (a & Ca & Va) & Dir & _). exists q. split; [reflexivity|]. split; [exact W|]. split; [exact L|]. split; [exact Sg|]. destruct (nearest rm) eqn:Nr.
    + split; [rewrite Va; apply near_exact; assumption|discriminate].
    + destruct (Dir eq_refl Hrm) as [V I]. assert (E : value q = r) by (rewrite V; unfold rnd_prec; apply round_generic; [apply rnd_valid|exact Fr]).
      split; [exact E|]. intros _. destruct (ninexact q); [|reflexivity]. exfalso. apply (proj1 I eq_refl). exact E.
  - exfalso. destruct R as (_ & a & Ca & Va). unfold close in Ca.
    assert (B : (bpow radix2 (- (p + 64)) <= 1)%R) by (change 1%R with (bpow radix2 0); apply bpow_le; lia).
    assert (A : (Rabs a <= bpow radix2 (EMAX - 1))%R).
    { replace (EMAX - 1) with (EMAX - 2 + 1) by reflexivity. rewrite bpow_plus. change (bpow radix2 1) with 2%R. assert (Rabs a <= Rabs r + Rabs (a - r))%R. { replace a with (r + (a - r))%R at 1 by ring. apply Rabs_triang. }
      assert (Rabs r * bpow radix2 (- (p + 64)) <= Rabs r * 1)%R by (apply Rmult_le_compat_l; [apply Rabs_pos|exact B]). set (b := bpow radix2 (EMAX - 2)) in *. clearbody b. lra. }
    assert (C : (Rabs (rnd_prec p rm a) <= bpow radix2 (EMAX - 1))%R).
    { unfold rnd_prec. apply abs_round_le_generic; [apply FLX_exp_valid; exact Hp|apply rnd_valid|apply generic_format_bpow; unfold FLX_exp; lia|exact A]. }
    apply (Rlt_irrefl (bpow radix2 EMAX)). eapply Rle_lt_trans; [exact Va|]. eapply Rle_lt_trans; [exact C|]. apply bpow_lt. reflexivity.
Qed.

(** ** The automatic precision holds that many digits *)
(** Powers of ten from above, with 128 bits. *)
Definition cut_up (m e : Z) : Z * Z := let k := Z.max 0 (Z.log2 m - 128) in ((m + 2 ^ k - 1) / 2 ^ k, e + k).
Fixpoint ten_up (n : positive) : Z * Z :=
  match n with
  | xH => (10, 0)
  | xO n => let '(m, e) := ten_up n in cut_up (m * m) (e + e)
  | xI n => let '(m, e) := ten_up n in cut_up (10 * (m * m)) (e + e)
  end.
Lemma cut_up_ok x m e : 0 <= m -> 0 <= e -> x <= m * 2 ^ e -> let '(m', e') := cut_up m e in 0 <= m' /\ 0 <= e' /\ x <= m' * 2 ^ e'.
Proof.
  intros Hm He H. unfold cut_up. set (k := Z.max 0 (Z.log2 m - 128)). assert (K : 0 <= k) by lia. pose proof (Z.pow_pos_nonneg 2 k ltac:(lia) K) as K2. pose proof (Z.pow_pos_nonneg 2 e ltac:(lia) He) as E2.
  pose proof (Z.div_pos (m + 2 ^ k - 1) (2 ^ k) ltac:(lia) K2). pose proof (Z.div_mod (m + 2 ^ k - 1) (2 ^ k) ltac:(lia)) as D. pose proof (Z.mod_pos_bound (m + 2 ^ k - 1) (2 ^ k) K2). split; [lia|]. split; [lia|]. 
  eapply Z.le_trans; [exact H|]. rewrite Z.pow_add_r by lia. set (d := (m + 2 ^ k - 1) / 2 ^ k) in *. replace (d * (2 ^ e * 2 ^ k)) with ((d * 2 ^ k) * 2 ^ e) by ring. apply Z.mul_le_mono_nonneg_r; lia.
Qed.
Lemma ten_up_ok n : let '(m, e) := ten_up n in 0 <= m /\ 0 <= e /\ 10 ^ Zpos n <= m * 2 ^ e.
Proof.
  induction n as [n IH|n IH|]; cbn [ten_up]; [..|repeat split; lia]; destruct (ten_up n) as [m e]; destruct IH as (A & B & C); 
    assert (X : 10 ^ Zpos n * 10 ^ Zpos n <= (m * m) * 2 ^ (e + e)) by (rewrite Z.pow_add_r by lia; replace (m * m * (2 ^ e * 2 ^ e)) with ((m * 2 ^ e) * (m * 2 ^ e)) by ring; pose proof (ten_pos (Zpos n) ltac:(lia)); apply Z.mul_le_mono_nonneg; lia).
  - apply cut_up_ok; [nia|lia|]. replace (Zpos n~1) with (1 + (Zpos n + Zpos n)) by lia. rewrite Z.pow_add_r, (Z.pow_add_r 10 (Zpos n)) by lia. change (10 ^ 1) with 10. lia.
  - apply cut_up_ok; [nia|lia|]. replace (Zpos n~0) with (Zpos n + Zpos n) by lia. rewrite Z.pow_add_r by lia. exact X.
Qed.
Lemma log_gen n b : (let '(m, e) := ten_up n in (e <=? b) && (m <=? 2 ^ (b - e))) = true -> 10 ^ Zpos n <= 2 ^ b.
Proof.
  intros E. pose proof (ten_up_ok n) as H. destruct (ten_up n) as [m e]. destruct H as (_ & He & H). apply andb_true_iff in E. destruct E as [L M]. apply Z.leb_le in L. apply Z.leb_le in M.
  eapply Z.le_trans; [exact H|]. replace b with ((b - e) + e) by lia. rewrite Z.pow_add_r by lia. apply Z.mul_le_mono_nonneg_r; [apply Z.pow_nonneg; lia|exact M].
Qed.
Lemma log_bound : 10 ^ 97879 <= 2 ^ 325147.
Proof. apply log_gen. vm_compute. reflexivity. Qed.

Lemma pow_root a b n : 0 <= a -> 0 <= b -> 0 < n -> a ^ n <= b ^ n -> a <= b.
Proof. intros Ha Hb Hn H. destruct (Z_le_gt_dec a b) as [L|L]; [exact L|exfalso]. pose proof (Z.pow_lt_mono_l b a n ltac:(lia) ltac:(lia)). lia. Qed.

Lemma pow_swap a c n len q : 0 <= a -> 0 <= c -> 0 < n -> 0 <= len -> 0 <= q -> a ^ n <= 2 ^ c -> c * len <= q * n -> a ^ len <= 2 ^ q.
Proof.
  intros Ha Hc Hn Hl Hq H E. apply (pow_root _ _ n); [apply Z.pow_nonneg; lia|apply Z.pow_nonneg; lia|lia|].
  rewrite <- !Z.pow_mul_r by lia. rewrite (Z.mul_comm len n), Z.pow_mul_r by lia. apply Z.le_trans with ((2 ^ c) ^ len); [apply Z.pow_le_mono_l; split; [apply Z.pow_nonneg; lia|exact H]|].
  rewrite <- Z.pow_mul_r by lia. apply Z.pow_le_mono_r; [lia|exact E].
Qed.

Lemma auto_enough ds : 10 ^ zlen ds <= 2 ^ auto_p ds.
Proof.
  pose proof (zlen_nonneg ds) as Z0. pose proof (prec_up_ge (zlen ds * 3321928095 / 1000000000 + 1)) as U. fold (auto_p ds) in U.
  assert (K : zlen ds * 3321928095 < 1000000000 * auto_p ds) by (clear -U; dlia). set (q := auto_p ds) in *. clearbody q.
  refine (pow_swap 10 325147 97879 (zlen ds) q _ _ _ Z0 _ log_bound _); lia.
Qed.

Lemma auto_range ds : 0 < zlen ds <= 646456991 -> 0 < auto_p ds <= 2 ^ 60 /\ auto_p ds mod 64 = 0 /\ from_dec_p ds USIZE_MAX = Ok (auto_p ds).
Proof.
  intros H. assert (A : 0 < zlen ds * 3321928095 / 1000000000 + 1 <= 2 ^ 40) by (change (2 ^ 40) with 1099511627776; clear -H; dlia). change (2 ^ 40) with 1099511627776 in A.
  pose proof P_LIM_v as PL. assert (B : 0 < auto_p ds <= 1099511627776 + 64) by (unfold auto_p, prec_up; clear -A; dlia). 
  split; [change (2 ^ 60) with 1152921504606846976; lia|]. split; [unfold auto_p, prec_up; rewrite Z.mul_comm; apply Z.mod_mul; lia|].
  unfold from_dec_p. rewrite Z.ltb_irrefl. rewrite round_p_eq by (try (fold (auto_p ds)); lia). fold (prec_up (zlen ds * 3321928095 / 1000000000 + 1)). fold (auto_p ds).
  unfold p_assertion. replace (P_LIM <=? auto_p ds) with false by lia. reflexivity.
Qed.

Lemma from_dec_auto f tp s ds e rm : digits_ok 10 ds -> dig_val 10 ds <> 0 -> zlen ds <= 646456991 ->
  n_conv_from_dec f tp s ds e USIZE_MAX rm = n_conv_from_dec f tp s ds e (auto_p ds) rm.
Proof.
  intros H N L. pose proof (dig_nonzero ds H N) as SZ. destruct (skip_zeros_spec ds H) as (_ & _ & Zl & _).
  assert (Z1 : 0 < zlen ds). { destruct (skip_zeros ds) as [|a l]; [congruence|]. rewrite zlen_cons in Zl. pose proof (zlen_nonneg l). lia. }
  destruct (auto_range ds ltac:(lia)) as (A & _ & E). unfold n_conv_from_dec. destruct (skip_zeros ds) as [|d l]; [congruence|].
  destruct (cc_tenpowers tp _) as [tp'|er|]; cbn [obind]; [|reflexivity|reflexivity]. destruct (m_conv_from_dec _ tp') as [m|er|]; cbn [obind]; [|reflexivity|reflexivity].
  destruct (_ <? _); [reflexivity|]. rewrite E. unfold from_dec_p. replace (auto_p ds <? USIZE_MAX) with true; [reflexivity|]. symmetry. apply Z.ltb_lt. eapply Z.le_lt_trans; [apply A|reflexivity].
Qed.

Theorem read_digits tp s ds e p rm : tps_ok tp -> digits_ok 10 ds -> dig_val 10 ds <> 0 -> zlen ds <= 646456991 -> EMIN <= e <= EMAX ->
  (bpow radix2 EMIN <= Rabs (digits_value Dec s ds e))%R ->
  (0 < p <= 2 ^ 60 /\ p mod 64 = 0 -> exists f0 res, read_post p rm (digits_value Dec s ds e) s res /\ forall f, (f0 <= f)%nat -> n_conv_from_dec f tp s ds e p rm = Some res) /\
  (exists f0 res, read_post (auto_p ds) rm (digits_value Dec s ds e) s res /\ forall f, (f0 <= f)%nat -> n_conv_from_dec f tp s ds e USIZE_MAX rm = Some res).
Proof.
  intros Htp Hds Hnz Hl He Hr. split; [intros [A B]; apply from_dec_spec; assumption|]. pose proof (dig_nonzero ds Hds Hnz) as SZ. destruct (skip_zeros_spec ds Hds) as (_ & _ & Zl & _).
  assert (Z1 : 0 < zlen ds). { destruct (skip_zeros ds) as [|a l]; [congruence|]. rewrite zlen_cons in Zl. pose proof (zlen_nonneg l). lia. }
  destruct (auto_range ds ltac:(lia)) as (A & B & _). destruct (from_dec_spec tp s ds e (auto_p ds) rm Htp Hds Hnz Hl He A B Hr) as (f0 & res & R1 & R2).
  exists f0, res. split; [exact R1|]. intros f Hf. rewrite from_dec_auto by assumption. apply R2. exact Hf.
Qed.

(** ** Literals *)
Theorem read_literal tp l p rm : tps_ok tp -> lit_ok Dec l -> Z.abs (lit_exp Dec l) < 2 ^ 32 -> zlen (l_int l) + zlen (frac_digits l) <= 646456991 ->
  EMIN <= lit_adjusted Dec l <= EMAX -> (bpow radix2 EMIN <= Rabs (lit_value Dec l))%R -> 0 < p -> prec_up p <= 2 ^ 60 ->
  exists f0 res, read_post (prec_up p) rm (lit_value Dec l) (lit_sign l) res /\
    forall f, (f0 <= f)%nat -> x_parse (dec_branch f tp) (lit_text Dec l) Dec p rm = result_to_ext res false true.
Proof.
  intros Htp Hok Hb Hl Hadj Hr Hp HP. pose proof (zlen_nonneg (l_int l)) as L1. pose proof (zlen_nonneg (frac_digits l)) as L2. pose proof (lit_digits_len l) as Hlen.
  pose proof (lit_digits_value Dec l) as DV. rewrite <- DV in Hr. 
  assert (Hnz : dig_val 10 (lit_digits l) <> 0).
  { intros E. unfold digits_value in Hr. change (rdx_num Dec) with 10 in Hr. fold (lit_digits l) in Hr. rewrite E, Z.mul_0_r, F2R_0, Rabs_R0 in Hr. pose proof (bpow_gt_0 radix2 EMIN) as G. apply (Rlt_irrefl 0). eapply Rlt_le_trans; [exact G|exact Hr]. }
  assert (Hne : lit_digits l <> []) by (intros E; apply Hnz; rewrite E; reflexivity).
  destruct (parse_literal Dec l Hok Hb ltac:(change (2 ^ 62) with 4611686018427387904; lia)) as (ps & E & O1 & O2 & O). fold (lit_digits l) in O. destruct O as (_ & _ & _ & O). destruct (O Hne Hadj) as (O3 & O4 & O5).
  pose proof (lit_digits_ok Dec l Hok) as Dok. pose proof (prec_up_pos p Hp) as P0. pose proof P_LIM_v as PL.
  destruct (from_dec_spec tp (lit_sign l) (lit_digits l) (lit_adjusted Dec l) (prec_up p) rm Htp Dok Hnz ltac:(lia) Hadj ltac:(split; assumption) ltac:(unfold prec_up; rewrite Z.mul_comm; apply Z.mod_mul; lia) Hr) as (f0 & res & R1 & R2).
  fold (lit_digits l) in DV. rewrite DV in R1. exists f0, res. split; [exact R1|]. intros f Hf.
  unfold x_parse. rewrite E, O3, O2. unfold raw_parts. rewrite O4, O1, O5, as_i32_id by exact Hadj. f_equal.
  change (2 ^ 60) with 1152921504606846976 in HP. unfold convert_from_radix. pose proof (prec_up_ge p). replace (p <? USIZE_MAX) with true by (symmetry; apply Z.ltb_lt; lia). cbv zeta.
  rewrite round_p_eq by (fold (prec_up p); lia). fold (prec_up p). unfold p_assertion. replace (P_LIM <=? prec_up p) with false by lia. cbn [bind]. replace (prec_up p =? 0) with false by lia.
  unfold dec_branch. rewrite (R2 f Hf). reflexivity.
Qed.

(** ** Integers *)
Theorem read_integer tp s ds rm : tps_ok tp -> digits_ok 10 ds -> dig_val 10 ds <> 0 -> zlen ds <= 646456991 -> rm <> RNone ->
  exists f0 q, (forall f, (f0 <= f)%nat -> n_conv_from_dec f tp s ds (zlen ds) USIZE_MAX rm = Some (Ok q)) /\
    wf q /\ 64 * wlen q = auto_p ds /\ ns q = s /\ value q = IZR (sgnZ s * dig_val 10 ds).
Proof.
  intros Htp D N L M. pose proof (zlen_nonneg ds) as Z0. destruct (dig_bound 10 ds ltac:(lia) D) as [D0 D1]. fold (zlen ds) in D1. set (d := dig_val 10 ds) in *.
  assert (V : digits_value Dec s ds (zlen ds) = IZR (sgnZ s * d)).
  { unfold digits_value, F2R. cbn [Fnum Fexp rdx_num]. fold (zlen ds) d. rewrite Z.sub_diag. cbn [bpow]. apply Rmult_1_r. }
  assert (A : Rabs (IZR (sgnZ s * d)) = IZR d) by (rewrite <- abs_IZR; f_equal; destruct s; cbn [sgnZ]; lia).
  destruct (ten_leR (zlen ds) ltac:(rewrite MAXV; lia)) as [_ T2].
  assert (R1 : (bpow radix2 EMIN <= Rabs (digits_value Dec s ds (zlen ds)))%R). { rewrite V, A. apply Rle_trans with (bpow radix2 0); [apply bpow_le; discriminate|]. apply IZR_le. lia. }
  assert (R2 : (Rabs (digits_value Dec s ds (zlen ds)) <= bpow radix2 (EMAX - 2))%R). { rewrite V, A. eapply Rle_trans; [|exact T2]. apply IZR_le. lia. }
  assert (Z1 : 0 < zlen ds). { destruct (skip_zeros_spec ds D) as (_ & _ & Zl & _). pose proof (dig_nonzero ds D N) as SZ. destruct (skip_zeros ds) as [|a l]; [congruence|]. rewrite zlen_cons in Zl. pose proof (zlen_nonneg l). lia. }
  destruct (auto_range ds ltac:(lia)) as (P0 & _ & _).
  assert (F : generic_format radix2 (FLX_exp (auto_p ds)) (digits_value Dec s ds (zlen ds))).
  { rewrite V. apply int_format; [lia|]. pose proof (auto_enough ds) as AE. destruct s; cbn [sgnZ]; lia. }
  destruct (read_digits tp s ds (zlen ds) (auto_p ds) rm Htp D N L ltac:(lia) R1) as [_ (f0 & res & A1 & A2)].
  destruct (read_exact _ rm _ s res (proj1 P0) M F R2 A1) as (q & -> & W & Lq & Sq & Vq & _). exists f0, q. split; [exact A2|]. split; [exact W|]. split; [exact Lq|]. split; [exact Sq|]. rewrite Vq. exact V.
Qed.
