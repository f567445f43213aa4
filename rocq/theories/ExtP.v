(** Proofs about the BigFloat layer. *)

From Coq Require Import ZArith Reals List Bool Lia Lra.
From Flocq Require Import Core.
From Verif Require Import Words Mantissa Num SpecZ WordsP Spec SpecOps RealP RealP2 NumP CmpP AddP SetP AddNum MulNum DivNum ArithTop RootNum RootTop RemNum ConvNum WfTop Ext SpecExt.
Import ListNotations.
Open Scope Z_scope.
Ltac Zify.zify_post_hook ::= idtac.
Arguments Z.mul : simpl never.
Arguments Z.add : simpl never.
Arguments Z.pow : simpl never.
Arguments Z.sub : simpl never.

Lemma sp_up_value x p rm q : wf x -> 0 < p -> prec_up p < P_LIM -> rm <> RNone -> set_precision x (prec_up p) rm = Ok q -> value q = rnd_grad (prec_up p) rm (value x).
Proof.
  intros W Hp HP Hr H. pose proof (prec_up_pos p Hp) as Pp. pose proof (prec_up_idem p) as Ei.
  destruct (set_precision_spec x (prec_up p) rm W Pp ltac:(now rewrite Ei) ltac:(now left)) as [A B].
  destruct (Rle_or_lt (bpow radix2 EMAX) (Rabs (rnd_grad (prec_up p) rm (value x)))) as [K|K].
  - rewrite A in H by auto. discriminate H.
  - destruct (B K) as (q' & E & Q). rewrite H in E. injection E as <-. tauto.
Qed.

Lemma add_sub_ext x y p op rm dz ss : wf x -> wf y -> op = 1 \/ op = -1 -> 0 < p -> prec_up p < P_LIM -> rm <> RNone \/ (nonzero x /\ nonzero y) ->
  let r := (value x + IZR op * value y)%R in
  ext_rounded (prec_up p) rm r (sum_value x y (prec_up p) rm r) (result_to_ext (add_sub x y p op rm false) dz ss).
Proof.
  intros Wx Wy Hop Hp HP Hr r. destruct (add_sub_ov x y p op rm Wx Wy Hop Hp HP) as [A B]. fold r in A, B.
  destruct (add_sub_wf x y p op rm Wx Wy Hop Hp HP) as [_ D]. specialize (D Hr). split.
  - intros K. destruct (A K) as (s & S & E). exists s. split; auto. rewrite E. now destruct s.
  - intros K. destruct (B K) as (q & E). rewrite E in D. cbn in D. exists q. rewrite E. split; [reflexivity|]. split; [tauto|]. split; [tauto|].
    unfold sum_value. destruct (Z.eqb_spec (magnitude x) 0) as [Zx|Nx]; [|destruct (Z.eqb_spec (magnitude y) 0) as [Zy|Ny]]; cbn [orb].
    + assert (Hn : rm <> RNone) by (destruct Hr as [|[N _]]; [auto|contradiction]).
      rewrite add_sub_zero_l in E by auto. unfold r. rewrite (value_zero x) by auto. rewrite Rplus_0_l.
      assert (Ev : (IZR op * value y)%R = value (if op <? 0 then n_neg y else y)).
      { destruct Hop as [-> | ->]; cbn [Z.ltb Z.compare]. - apply Rmult_1_l. - rewrite n_neg_value. lra. }
      rewrite Ev. eapply sp_up_value; eauto. destruct (op <? 0); [now apply n_neg_wf|auto].
    + assert (Hn : rm <> RNone) by (destruct Hr as [|[_ N]]; [auto|contradiction]).
      rewrite add_sub_zero_r in E by auto. unfold r. rewrite (value_zero y) by auto. rewrite Rmult_0_r, Rplus_0_r. eapply sp_up_value; eauto.
    + eapply add_sub_value; eauto.
Qed.

Lemma add_ext x y p rm : wf x -> wf y -> 0 < p -> prec_up p < P_LIM -> rm <> RNone \/ (nonzero x /\ nonzero y) ->
  ext_rounded (prec_up p) rm (value x + value y) (sum_value x y (prec_up p) rm (value x + value y)) (x_add (Value x) (Value y) p rm).
Proof.
  intros. pose proof (add_sub_ext x y p 1 rm (is_zero x) (sign_eqb (ns x) (ns y)) H H0 ltac:(auto) H1 H2 H3) as G. cbv zeta in G.
  rewrite Rmult_1_l in G. exact G.
Qed.

Lemma sub_ext x y p rm : wf x -> wf y -> 0 < p -> prec_up p < P_LIM -> rm <> RNone \/ (nonzero x /\ nonzero y) ->
  ext_rounded (prec_up p) rm (value x - value y) (sum_value x y (prec_up p) rm (value x - value y)) (x_sub (Value x) (Value y) p rm).
Proof.
  intros. pose proof (add_sub_ext x y p (-1) rm (is_zero x) (sign_eqb (ns x) (ns y)) H H0 ltac:(auto) H1 H2 H3) as G. cbv zeta in G.
  replace (value x + -1 * value y)%R with (value x - value y)%R in G by lra. exact G.
Qed.

Lemma ext_of_num p rm r res dz ss : overflow_exact p rm r res -> well_formed_result p res -> (forall q, res = Ok q -> value q = op_value p rm r) ->
  ext_rounded p rm r (op_value p rm r) (result_to_ext res dz ss).
Proof.
  intros [A B] D V. split.
  - intros K. destruct (A K) as (s & S & E). exists s. split; auto. rewrite E. now destruct s.
  - intros K. destruct (B K) as (q & E). specialize (V q E). rewrite E in *. cbn in D. exists q. split; [reflexivity|]. tauto.
Qed.

Lemma mul_ext x y p rm : wf x -> wf y -> 0 < p -> prec_up p < P_LIM ->
  ext_rounded (prec_up p) rm (value x * value y) (op_value (prec_up p) rm (value x * value y)) (x_mul (Value x) (Value y) p rm).
Proof. intros. apply ext_of_num; [now apply mul_ov|now apply mul_wf|]. intros; now apply mul_value with (q := q). Qed.

Lemma div_ext x y p rm : wf x -> wf y -> nonzero y -> 0 < p -> prec_up p < P_LIM ->
  ext_rounded (prec_up p) rm (value x / value y) (op_value (prec_up p) rm (value x / value y)) (x_div (Value x) (Value y) p rm).
Proof. intros. apply ext_of_num; [now apply div_ov|now apply div_wf|]. intros; now apply div_value with (q := q). Qed.

Lemma recip_ext x p rm : wf x -> nonzero x -> 0 < p -> prec_up p < P_LIM ->
  ext_rounded (prec_up p) rm (1 / value x) (op_value (prec_up p) rm (1 / value x)) (x_reciprocal (Value x) p rm).
Proof.
  intros. rewrite <- ONE_value. apply ext_of_num; [now apply (div_ov ONE); auto; apply ONE_wf|now apply recip_wf|].
  intros; apply (div_value ONE x p rm q); auto. apply ONE_wf.
Qed.

(** ** C26 *)
Lemma kind_zero v : wf v -> is_zero v = (magnitude v =? 0).
Proof. apply is_zero_spec. Qed.

Ltac kcase := cbn [kind_of]; repeat match goal with |- context [magnitude ?v =? 0] => destruct (magnitude v =? 0) eqn:? end; cbn.
Ltac fin := let H := fresh in intros H; try discriminate H; injection H as <-; eexists; split; reflexivity.

Lemma add_table a b p rm k : t_add (kind_of a) (kind_of b) = Some k -> gives (x_add a b p rm) k.
Proof.
  unfold gives, x_add, x_add_op. destruct a as [x|e|s], b as [y|e'|t]; kcase; repeat match goal with s : sign |- _ => destruct s end; cbn; try (fin; fail).
  all: try destruct (ns x); try destruct (ns y); cbn; fin.
Qed.
Lemma sub_table a b p rm k : t_sub (kind_of a) (kind_of b) = Some k -> gives (x_sub a b p rm) k.
Proof.
  unfold gives, x_sub, x_sub_op. destruct a as [x|e|s], b as [y|e'|t]; kcase; repeat match goal with s : sign |- _ => destruct s end; cbn; try (fin; fail).
  all: try destruct (ns x); try destruct (ns y); cbn; fin.
Qed.

Lemma mul_table a b p rm k : xwf a -> xwf b -> t_mul (kind_of a) (kind_of b) = Some k -> gives (x_mul a b p rm) k.
Proof.
  intros Wa Wb. unfold gives, x_mul, x_mul_op. destruct a as [x|e|s], b as [y|e'|t]; cbn [xwf] in *; try (rewrite (is_zero_spec x) by auto); try (rewrite (is_zero_spec y) by auto); kcase; repeat match goal with s : sign |- _ => destruct s end; cbn; try (fin; fail).
  all: try destruct (ns x); try destruct (ns y); cbn; fin.
Qed.

Lemma div_table a b p rm k : xwf a -> xwf b -> t_div (kind_of a) (kind_of b) = Some k -> gives (x_div a b p rm) k.
Proof.
  intros Wa Wb. unfold gives, x_div. destruct a as [x|e|s], b as [y|e'|t]; cbn [xwf] in *.
  { cbn [kind_of]. destruct (magnitude y =? 0) eqn:Ey.
    - rewrite div_by_zero by (auto; lia). rewrite (is_zero_spec x) by auto. destruct (magnitude x =? 0); destruct (ns x), (ns y); cbn; fin.
    - destruct (magnitude x =? 0); cbn; intros H; discriminate H. }
  all: kcase; repeat match goal with s : sign |- _ => destruct s end; cbn; try (fin; fail).
  all: try destruct (ns x); try destruct (ns y); cbn; fin.
Qed.

Lemma rem_table a b k : xwf a -> xwf b -> t_rem (kind_of a) (kind_of b) = Some k -> gives (x_rem a b) k.
Proof.
  intros Wa Wb. unfold gives, x_rem. destruct a as [x|e|s], b as [y|e'|t]; cbn [xwf] in *.
  { cbn [kind_of]. destruct (magnitude y =? 0) eqn:Ey.
    - unfold n_rem. rewrite (is_zero_spec y) by auto. rewrite Ey. destruct (magnitude x =? 0); cbn; fin.
    - destruct (magnitude x =? 0); cbn; intros H; discriminate H. }
  all: kcase; repeat match goal with s : sign |- _ => destruct s end; cbn; try (fin; fail).
Qed.

Lemma sqrt_table a p rm k : xwf a -> 0 < p -> prec_up p < P_LIM -> t_sqrt (kind_of a) = Some k -> gives (x_sqrt p rm a) k.
Proof.
  intros Wa Hp HP. unfold gives, x_sqrt, x_wrap. destruct a as [x|e|s]; cbn [xwf kind_of] in *.
  - destruct (magnitude x =? 0) eqn:Ex; cbn; intros H; [discriminate H|]. destruct (ns x) eqn:Es; [|discriminate H].
    destruct (sqrt_top x p rm Wa Hp HP) as (_ & _ & C). rewrite C. + cbn. injection H as <-. eexists; split; reflexivity.
    + assert (Nx : nonzero x) by (unfold nonzero; lia). pose proof (value_has_sign x Wa Nx) as HS. unfold has_sign in HS. rewrite Es in HS. cbn [sgnZ] in HS. lra.
  - fin.
  - destruct s; cbn; fin.
Qed.

(** NaN operands: the error of the first one is kept. *)
Lemma nan_left e b p rm : x_add (NaN e) b p rm = Ok (NaN e) /\ x_sub (NaN e) b p rm = Ok (NaN e) /\ x_mul (NaN e) b p rm = Ok (NaN e) /\
  x_div (NaN e) b p rm = Ok (NaN e) /\ x_rem (NaN e) b = Ok (NaN e).
Proof. repeat split. Qed.
Lemma nan_right a e p rm : x_is_nan a = false -> x_add a (NaN e) p rm = Ok (NaN e) /\ x_sub a (NaN e) p rm = Ok (NaN e) /\ x_mul a (NaN e) p rm = Ok (NaN e) /\
  x_div a (NaN e) p rm = Ok (NaN e).
Proof. destruct a; intros H; try discriminate H; repeat split. Qed.

Lemma zero_wf_value p : 0 <= p -> prec_up p < P_LIM -> exists q, n_new p = Ok q /\ wf q /\ wlen q = (p + 63) / 64 /\ value q = 0%R /\ ns q = Pos.
Proof.
  intros Hp HP. unfold n_new, p_assertion. assert (Hle : p <= prec_up p) by (unfold prec_up; dlia). replace (P_LIM <=? p) with false by lia. cbn [bind].
  eexists. split; [reflexivity|]. assert (E : m_new p = m_new (64 * ((p + 63) / 64))).
  { unfold m_new. rewrite wlen_of_bits_eq by lia. rewrite wlen_of_bits_64 by dlia. reflexivity. }
  rewrite E. destruct (zero_m_new ((p + 63) / 64) Pos false ltac:(dlia) HP) as (A & B & C). split; [exact A|]. split; [|split; [|reflexivity]].
  - exact B.
  - now apply value_zero.
Qed.

Lemma div_inf_zero x s p rm : wf x -> exists q, x_div (Value x) (Inf s) p rm = Ok (Value q) /\ wf q /\ value q = 0%R.
Proof.
  intros W. unfold x_div, x_new. pose proof (wf_lim x W) as L. assert (0 <= wlen x) by apply zlen_nonneg.
  assert (E : mantissa_max_bit_len x = 64 * wlen x). { reflexivity. }
  rewrite E. destruct (zero_wf_value (64 * wlen x)) as (q & A & B & _ & C & _); [lia|unfold prec_up; replace ((64 * wlen x + 63) / 64) with (wlen x) by dlia; lia|].
  rewrite A. exists q. split; [reflexivity|]. auto.
Qed.

Lemma rem_inf x s : x_rem (Value x) (Inf s) = Ok (Value x).
Proof. reflexivity. Qed.

(** ** Ordering *)
Lemma cmp_sgn_lt c z : Z.sgn z = sgn_of c -> (if 0 <? z then Gt else if z <? 0 then Lt else Eq) = c.
Proof. intros H. destruct c; cbn in H; destruct (Z.ltb_spec 0 z); destruct (Z.ltb_spec z 0); auto; lia. Qed.

Lemma partial_cmp_spec a b : orderable a -> orderable b -> x_partial_cmp a b = ext_compare a b.
Proof.
  destruct a as [x|e|s], b as [y|e'|t]; cbn [orderable]; try tauto; intros Wa Wb; unfold x_partial_cmp, x_cmp, ext_compare.
  - f_equal. apply cmp_sgn_lt. now apply n_cmp_spec.
  - destruct t; reflexivity.
  - destruct s; reflexivity.
  - destruct s, t; reflexivity.
Qed.

Lemma partial_cmp_inf_any a b : (x_is_inf a = true \/ x_is_inf b = true \/ x_is_nan a = true \/ x_is_nan b = true) -> x_partial_cmp a b = ext_compare a b.
Proof.
  destruct a as [x|e|s], b as [y|e'|t]; intros [H|[H|[H|H]]]; try discriminate H; try reflexivity; try (destruct s; reflexivity); try (destruct t; reflexivity); destruct s, t; reflexivity.
Qed.

Lemma cmp_partial a b : x_partial_cmp a b = option_map (fun v => Z.compare v 0) (x_cmp a b).
Proof.
  unfold x_partial_cmp. destruct (x_cmp a b) as [v|]; [|reflexivity]. cbn. f_equal.
  destruct (Z.compare_spec v 0); destruct (Z.ltb_spec 0 v); destruct (Z.ltb_spec v 0); auto; lia.
Qed.

Lemma eq_cmp a b : x_eq a b = true <-> x_cmp a b = Some 0.
Proof. unfold x_eq. destruct (x_cmp a b) as [[| |]|]; split; intros H; try discriminate H; reflexivity. Qed.

Lemma eq_spec a b : orderable a -> orderable b -> (x_eq a b = true <-> ext_compare a b = Some Eq).
Proof.
  intros. rewrite eq_cmp, <- partial_cmp_spec, cmp_partial by auto. destruct (x_cmp a b) as [v|]; cbn; [|split; discriminate].
  destruct (Z.compare_spec v 0); split; intros K; try discriminate K; try (injection K as K); subst; auto; try lia; discriminate.
Qed.

Lemma nan_unordered e a : x_partial_cmp (NaN e) a = None /\ x_partial_cmp a (NaN e) = None /\ x_eq (NaN e) a = false /\ x_eq a (NaN e) = false /\ x_cmp (NaN e) a = None /\ x_cmp a (NaN e) = None.
Proof. destruct a; repeat split. Qed.

Definition le_prop (a b : ext) : Prop := x_partial_cmp a b = Some Lt \/ x_partial_cmp a b = Some Eq.

Lemma Rcompare_le x y : (Some (Rcompare x y) = Some Lt \/ Some (Rcompare x y) = Some Eq) <-> (x <= y)%R.
Proof.
  destruct (Rcompare_spec x y); split; intros K; try lra; auto. destruct K as [K|K]; discriminate K.
Qed.

Lemma le_refl a : orderable a -> le_prop a a.
Proof.
  intros W. unfold le_prop. rewrite partial_cmp_spec by auto. destruct a as [x|e|s]; cbn [orderable ext_compare] in *; [|tauto|destruct s; auto].
  apply Rcompare_le. lra.
Qed.
Lemma le_total a b : orderable a -> orderable b -> le_prop a b \/ le_prop b a.
Proof.
  intros Wa Wb. unfold le_prop. rewrite !partial_cmp_spec by auto. destruct a as [x|e|s], b as [y|e'|t]; cbn [orderable ext_compare] in *; try tauto.
  - rewrite !Rcompare_le. lra.
  - destruct t; auto.
  - destruct s; auto.
  - destruct s, t; auto.
Qed.
Lemma le_trans a b c : orderable a -> orderable b -> orderable c -> le_prop a b -> le_prop b c -> le_prop a c.
Proof.
  intros Wa Wb Wc. unfold le_prop. rewrite !partial_cmp_spec by auto.
  destruct a as [x|e|s], b as [y|e'|t], c as [z|e''|u]; cbn [orderable ext_compare] in *; try tauto; rewrite ?Rcompare_le; try lra;
  try destruct s; try destruct t; try destruct u; intros [H1|H1] [H2|H2]; try discriminate H1; try discriminate H2; auto.
Qed.
Lemma le_antisym a b : orderable a -> orderable b -> le_prop a b -> le_prop b a -> x_eq a b = true.
Proof.
  intros Wa Wb. unfold le_prop. rewrite eq_spec, !partial_cmp_spec by auto.
  destruct a as [x|e|s], b as [y|e'|t]; cbn [orderable ext_compare] in *; try tauto; rewrite ?Rcompare_le.
  - intros. f_equal. apply Rcompare_Eq. lra.
  - destruct t; intros [H|H] [K|K]; discriminate H || discriminate K.
  - destruct s; intros [H|H] [K|K]; discriminate H || discriminate K.
  - destruct s, t; intros [H|H] [K|K]; try discriminate H; try discriminate K; auto.
Qed.
Lemma lt_flip a b : orderable a -> orderable b -> (x_partial_cmp a b = Some Lt <-> x_partial_cmp b a = Some Gt).
Proof.
  intros Wa Wb. rewrite !partial_cmp_spec by auto. destruct a as [x|e|s], b as [y|e'|t]; cbn [orderable ext_compare] in *; try tauto.
  - rewrite (Rcompare_sym (value y) (value x)). destruct (Rcompare (value x) (value y)); cbn; split; intros K; discriminate K || reflexivity.
  - destruct t; split; intros K; discriminate K || reflexivity.
  - destruct s; split; intros K; discriminate K || reflexivity.
  - destruct s, t; split; intros K; discriminate K || reflexivity.
Qed.

(** ** max, min, clamp *)
Lemma clone_id a : x_clone a = Ok a.
Proof. destruct a as [|e|[]]; reflexivity. Qed.

Lemma cmp_some a b : orderable a -> orderable b -> exists v, x_cmp a b = Some v /\ (v <? 0 = true <-> ext_compare a b = Some Lt) /\ (0 <? v = true <-> ext_compare a b = Some Gt).
Proof.
  intros Wa Wb. pose proof (partial_cmp_spec a b Wa Wb) as H. rewrite cmp_partial in H. destruct (x_cmp a b) as [v|] eqn:E.
  - exists v. split; auto. cbn in H. rewrite <- H. destruct (Z.compare_spec v 0); rewrite !Z.ltb_lt; split; split; intros K; try lia; try discriminate K; auto.
  - destruct a, b; cbn in *; tauto || discriminate.
Qed.

Lemma not_nan a : orderable a -> x_is_nan a = false.
Proof. destruct a; cbn; tauto. Qed.

Lemma compare_cases a b : orderable a -> orderable b -> ext_compare a b = Some Lt \/ ext_compare a b = Some Eq \/ ext_compare a b = Some Gt.
Proof. destruct a as [x|e|s], b as [y|e'|t]; cbn; try tauto; intros; [destruct (Rcompare (value x) (value y))|destruct t|destruct s|destruct s, t]; auto. Qed.

Lemma le_ext_refl a : orderable a -> le_ext a a.
Proof. intros W. pose proof (le_refl a W) as H. unfold le_prop in H. rewrite partial_cmp_spec in H by auto. exact H. Qed.
Lemma le_ext_flip a b : orderable a -> orderable b -> ext_compare a b = Some Gt -> le_ext b a.
Proof. intros Wa Wb H. left. rewrite <- partial_cmp_spec in * by auto. now apply lt_flip. Qed.
Lemma le_ext_trans a b c : orderable a -> orderable b -> orderable c -> le_ext a b -> le_ext b c -> le_ext a c.
Proof.
  intros Wa Wb Wc. pose proof (le_trans a b c Wa Wb Wc) as H. unfold le_prop in H. rewrite !partial_cmp_spec in H by auto. exact H.
Qed.
Lemma compare_eq_sym a b : orderable a -> orderable b -> ext_compare a b = Some Eq -> ext_compare b a = Some Eq.
Proof.
  destruct a as [x|e|s], b as [y|e'|t]; cbn; try tauto; intros Wa Wb.
  - rewrite (Rcompare_sym (value y) (value x)). destruct (Rcompare (value x) (value y)); cbn; intros K; discriminate K || reflexivity.
  - destruct t; intros K; discriminate K.
  - destruct s; intros K; discriminate K.
  - destruct s, t; intros K; discriminate K || reflexivity.
Qed.

Lemma lt_flip_ext a b : orderable a -> orderable b -> ext_compare a b = Some Lt -> ext_compare b a = Some Gt.
Proof. intros Wa Wb H. rewrite <- partial_cmp_spec in * by auto. now apply lt_flip. Qed.

Lemma max_spec a b : orderable a -> orderable b -> exists r, x_max a b = Ok r /\ (r = a \/ r = b) /\ le_ext a r /\ le_ext b r.
Proof.
  intros Wa Wb. unfold x_max. rewrite !not_nan by auto. cbn [orb]. destruct (cmp_some a b Wa Wb) as (v & -> & L & G). cbn [unwrap bind].
  destruct (v <? 0) eqn:E; rewrite clone_id.
  - exists b. repeat split; auto; [|now apply le_ext_refl]. left. tauto.
  - exists a. repeat split; auto; [now apply le_ext_refl|]. destruct (compare_cases a b Wa Wb) as [K|[K|K]].
    + apply L in K. discriminate K.
    + right. now apply compare_eq_sym.
    + now apply le_ext_flip.
Qed.

Lemma min_spec a b : orderable a -> orderable b -> exists r, x_min a b = Ok r /\ (r = a \/ r = b) /\ le_ext r a /\ le_ext r b.
Proof.
  intros Wa Wb. unfold x_min. rewrite !not_nan by auto. cbn [orb]. destruct (cmp_some a b Wa Wb) as (v & -> & L & G). cbn [unwrap bind].
  destruct (0 <? v) eqn:E; rewrite clone_id.
  - exists b. repeat split; auto; [|now apply le_ext_refl]. apply le_ext_flip; tauto.
  - exists a. repeat split; auto; [now apply le_ext_refl|]. destruct (compare_cases a b Wa Wb) as [K|[K|K]].
    + now left.
    + now right.
    + apply G in K. discriminate K.
Qed.

Lemma clamp_spec a lo hi : orderable a -> orderable lo -> orderable hi ->
  (le_ext lo hi -> exists r, x_clamp a lo hi = Ok r /\ le_ext lo r /\ le_ext r hi /\ (r = a \/ r = lo \/ r = hi) /\ (le_ext lo a -> le_ext a hi -> r = a)) /\
  (ext_compare hi lo = Some Lt -> x_clamp a lo hi = Ok NAN).
Proof.
  intros Wa Wl Wh. unfold x_clamp. rewrite !not_nan by auto. cbn [orb].
  destruct (cmp_some hi lo Wh Wl) as (v & -> & L & G). cbn [unwrap bind]. split.
  - intros Hle. assert (E : v <? 0 = false).
    { destruct (v <? 0); auto. exfalso. pose proof (lt_flip_ext hi lo Wh Wl (proj1 L eq_refl)) as K. destruct Hle as [M|M]; rewrite K in M; discriminate M. }
    rewrite E. destruct (cmp_some a lo Wa Wl) as (v1 & -> & L1 & G1). cbn [unwrap bind]. destruct (v1 <? 0) eqn:E1; rewrite ?clone_id.
    + exists lo. repeat split; auto; [now apply le_ext_refl|]. intros K _. exfalso. pose proof (lt_flip_ext a lo Wa Wl (proj1 L1 eq_refl)) as M. destruct K as [K|K]; rewrite K in M; discriminate M.
    + assert (La : le_ext lo a).
      { destruct (compare_cases a lo Wa Wl) as [K|[K|K]]; [apply L1 in K; discriminate K|right; now apply compare_eq_sym|now apply le_ext_flip]. }
      destruct (cmp_some a hi Wa Wh) as (v2 & -> & L2 & G2). cbn [unwrap bind]. destruct (0 <? v2) eqn:E2; rewrite ?clone_id.
      * exists hi. repeat split; auto; [now apply le_ext_refl|]. intros _ K. exfalso. pose proof (proj1 G2 eq_refl) as M. destruct K as [K|K]; rewrite K in M; discriminate M.
      * exists a. repeat split; auto. destruct (compare_cases a hi Wa Wh) as [K|[K|K]]; [now left|now right|]. apply G2 in K. discriminate K.
  - intros K. apply L in K. rewrite K. reflexivity.
Qed.

Lemma nan_select a b c : is_nan_spec a \/ is_nan_spec b \/ is_nan_spec c -> x_clamp a b c = Ok NAN.
Proof. destruct a, b, c; cbn; try tauto; reflexivity. Qed.
Lemma nan_select2 a b : is_nan_spec a \/ is_nan_spec b -> x_max a b = Ok NAN /\ x_min a b = Ok NAN.
Proof. destruct a, b; cbn; try tauto; split; reflexivity. Qed.

(** ** abs_cmp, classify, signum *)
Lemma abs_cmp_pos x y : wf x -> wf y -> (0 < value x)%R -> (0 < value y)%R ->
  exists v, x_abs_cmp (Value x) (Value y) = Some v /\ Z.sgn v = sgn_of (Rcompare (Rabs (value x)) (Rabs (value y))).
Proof.
  intros Wx Wy Hx Hy. assert (N : forall u, (0 < value u)%R -> nonzero u) by (intros u H K; rewrite value_zero in H by auto; lra).
  eexists. split; [reflexivity|]. rewrite n_cmp_spec by auto. rewrite !Rabs_pos_eq by lra. reflexivity.
Qed.
Lemma abs_cmp_special a b : x_abs_cmp (Inf a) (Inf b) = Some 0 /\ (forall x, x_abs_cmp (Inf a) (Value x) = Some 1 /\ x_abs_cmp (Value x) (Inf a) = Some (-1)) /\
  (forall e c, x_abs_cmp (NaN e) c = None /\ x_abs_cmp c (NaN e) = None).
Proof. split; [reflexivity|]. split; [intros; split; reflexivity|]. intros e c. destruct c; split; reflexivity. Qed.
Lemma abs_cmp_neg_wrong x y : wf x -> wf y -> (value x < value y < 0)%R ->
  exists v, x_abs_cmp (Value x) (Value y) = Some v /\ v < 0 /\ (Rabs (value y) < Rabs (value x))%R.
Proof.
  intros Wx Wy H. assert (nonzero x) by (intros K; rewrite (value_zero x) in H by auto; lra). assert (nonzero y) by (intros K; rewrite (value_zero y) in H by auto; lra).
  eexists. split; [reflexivity|]. split; [|rewrite !Rabs_left by lra; lra]. pose proof (n_cmp_spec x y Wx Wy ltac:(auto) ltac:(auto)) as E. rewrite Rcompare_Lt in E by lra. cbn in E. lia.
Qed.

Lemma classify_nonzero x : wf x -> nonzero x -> (x_classify (Value x) = CNormal <-> normal x) /\ (x_classify (Value x) = CSubnormal <-> mn (nm x) < 64 * wlen x).
Proof.
  intros W N. unfold x_classify. rewrite is_zero_false by auto. unfold is_subnormal, m_is_subnormal, max_bit_len, mlen, normal. fold (wlen x).
  destruct (nonzero_bits x W N) as (A & B & C).
  destruct (Z.ltb_spec (mn (nm x)) (64 * wlen x)); split; split; intros K; try discriminate K; try lia; auto; split; auto; lia.
Qed.

Lemma classify_zero_wrong x : wf x -> magnitude x = 0 -> 0 < wlen x -> x_classify (Value x) = CSubnormal.
Proof.
  intros W Z0 L. unfold x_classify, is_subnormal, m_is_subnormal, max_bit_len, mlen. fold (wlen x). rewrite (wf_bits x W), Z0.
  replace (bitlen 0) with 0 by reflexivity. replace (0 <? 64 * wlen x) with true by lia. reflexivity.
Qed.
Lemma classify_zero_empty x : wf x -> wlen x = 0 -> x_classify (Value x) = CZero.
Proof.
  intros W L. unfold x_classify, is_subnormal, m_is_subnormal, max_bit_len, mlen. fold (wlen x). 
  assert (Z0 : magnitude x = 0). { unfold magnitude, wlen in *. destruct (mm (nm x)); [reflexivity|]. unfold zlen in L. cbn [length] in L. lia. }
  rewrite is_zero_spec, (wf_bits x W), Z0, L by auto. reflexivity.
Qed.
Lemma classify_special s e : x_classify (Inf s) = CInfinite /\ x_classify (NaN e) = CNan.
Proof. split; reflexivity. Qed.

Lemma from_one : x_from_uint 8 1 DEFAULT_P = Ok (Value ONE).
Proof. vm_compute. reflexivity. Qed.
Lemma signum_spec x : wf x -> nonzero x ->
  exists q, x_signum (Value x) = Ok (Value q) /\ wf q /\ ((0 < value x)%R -> value q = 1%R) /\ ((value x < 0)%R -> value q = (-1)%R).
Proof.
  intros W N. unfold x_signum. cbn [x_is_nan x_is_negative]. rewrite from_one. pose proof (value_has_sign x W N) as HS. unfold has_sign in HS. unfold is_negative.
  destruct (ns x) eqn:Es; cbn [is_pos negb bind sgnZ] in *.
  - exists (n_neg ONE). split; [reflexivity|]. split; [apply n_neg_wf, ONE_wf|]. rewrite n_neg_value, ONE_value. split; intros; lra.
  - exists ONE. split; [reflexivity|]. split; [apply ONE_wf|]. rewrite ONE_value. split; intros; lra.
Qed.
Lemma signum_zero_wrong x : ns x = Pos -> magnitude x = 0 -> value x = 0%R /\ x_signum (Value x) = Ok (Value ONE) /\ value ONE = 1%R.
Proof.
  intros Hs Z0. split; [now apply value_zero|]. split; [|apply ONE_value]. unfold x_signum. cbn [x_is_nan x_is_negative]. unfold is_negative. rewrite Hs. cbn. apply from_one.
Qed.
Lemma signum_inf s : exists q, x_signum (Inf s) = Ok (Value q) /\ value q = IZR (sgnZ s).
Proof.
  unfold x_signum. cbn [x_is_nan x_is_negative]. rewrite from_one. destruct s; cbn [is_pos negb bind sgnZ].
  - exists (n_neg ONE). split; [reflexivity|]. rewrite n_neg_value, ONE_value. lra.
  - exists ONE. split; [reflexivity|]. apply ONE_value.
Qed.

(** ** Sign operations *)
Lemma neg_num x : wf x -> wf (n_neg x) /\ value (n_neg x) = (- value x)%R /\ same_but_sign (n_neg x) x /\ n_neg (n_neg x) = x.
Proof.
  intros W. split; [now apply n_neg_wf|]. split; [apply n_neg_value|]. split; [repeat split|]. destruct x as [m s e i]. destruct s; reflexivity.
Qed.
Lemma abs_num x : wf x -> wf (n_abs x) /\ value (n_abs x) = Rabs (value x) /\ same_but_sign (n_abs x) x.
Proof.
  intros W. split; [destruct W; now constructor|]. split; [|repeat split]. rewrite abs_value by auto. unfold value, n_abs, set_sign, magnitude, wlen. cbn [nm ns ne sgnZ]. now rewrite Z.mul_1_l.
Qed.
Lemma set_sign_num x s : wf x -> wf (set_sign x s) /\ ns (set_sign x s) = s /\ value (set_sign x s) = (IZR (sgnZ s) * Rabs (value x))%R /\ same_but_sign (set_sign x s) x.
Proof.
  intros W. split; [destruct W; now constructor|]. split; [reflexivity|]. split; [|repeat split]. rewrite abs_value by auto. unfold value, set_sign, magnitude, wlen. cbn [nm ns ne].
  unfold F2R. cbn [Fnum Fexp]. rewrite mult_IZR. ring.
Qed.
