(** Property theorems of the BigFloat layer (NaN, infinities, ordering). *)

From Coq Require Import ZArith Reals List Bool Lia Lra.
From Flocq Require Import Core.
From Verif Require Import Words Mantissa Num SpecZ Spec SpecOps Ext SpecExt RealP DivNum ExtP Refute1.
Import ListNotations.
Open Scope Z_scope.

Definition ex_tiny : num := mk_num (mk_m [WORD_SIG] 64) Neg (-5) true.
Definition ex_huge : num := mk_num (mk_m [WORD_SIG] 64) Neg EXPONENT_MAX false.
Definition ex_zero : num := mk_num (mk_m [0; 0] 0) Pos 0 false.
Lemma ex_tiny_wf : wf ex_tiny. Proof. unfold ex_tiny; wf_concrete. Qed.
Lemma ex_huge_wf : wf ex_huge. Proof. unfold ex_huge; wf_concrete. Qed.
Lemma ex_zero_wf : wf ex_zero.
Proof.
  unfold ex_zero. constructor; try reflexivity; cbn [nm mm mn ne]; try lia. unfold words_ok. repeat constructor; lia.
Qed.

(** ** C25 *)
Theorem C25_neg : forall x, wf x -> wf (n_neg x) /\ value (n_neg x) = (- value x)%R /\ same_but_sign (n_neg x) x /\ n_neg (n_neg x) = x.
Proof. exact neg_num. Qed.
Theorem C25_abs : forall x, wf x -> wf (n_abs x) /\ value (n_abs x) = Rabs (value x) /\ same_but_sign (n_abs x) x.
Proof. exact abs_num. Qed.
Theorem C25_set_sign : forall x s, wf x -> wf (set_sign x s) /\ ns (set_sign x s) = s /\ value (set_sign x s) = (IZR (sgnZ s) * Rabs (value x))%R /\ same_but_sign (set_sign x s) x.
Proof. exact set_sign_num. Qed.
Theorem C25_bigfloat :
  (forall x, x_neg (Value x) = Value (n_neg x) /\ x_inv_sign (Value x) = Value (n_neg x) /\ x_abs (Value x) = Ok (Value (n_abs x)) /\ forall s, x_set_sign (Value x) s = Value (set_sign x s)) /\
  (forall s, x_neg (Inf s) = Inf (opp_sign s) /\ x_inv_sign (Inf s) = Inf (opp_sign s) /\ x_abs (Inf s) = Ok (Inf Pos) /\ forall t, x_set_sign (Inf s) t = Inf t) /\
  (forall e, x_neg (NaN e) = NaN e /\ x_inv_sign (NaN e) = NaN e /\ x_abs (NaN e) = Ok (NaN e) /\ forall t, x_set_sign (NaN e) t = NaN e).
Proof. repeat split; destruct s; reflexivity. Qed.
Example C25_case : wf ex_tiny /\ n_abs ex_tiny <> ex_tiny /\ n_neg ex_tiny = n_abs ex_tiny.
Proof. split; [exact ex_tiny_wf|]. split; [discriminate|reflexivity]. Qed.

(** ** C26 *)
Theorem C26_add_table : forall a b p rm k, t_add (kind_of a) (kind_of b) = Some k -> gives (x_add a b p rm) k.
Proof. exact add_table. Qed.
Theorem C26_sub_table : forall a b p rm k, t_sub (kind_of a) (kind_of b) = Some k -> gives (x_sub a b p rm) k.
Proof. exact sub_table. Qed.
Theorem C26_mul_table : forall a b p rm k, xwf a -> xwf b -> t_mul (kind_of a) (kind_of b) = Some k -> gives (x_mul a b p rm) k.
Proof. exact mul_table. Qed.
Theorem C26_div_table : forall a b p rm k, xwf a -> xwf b -> t_div (kind_of a) (kind_of b) = Some k -> gives (x_div a b p rm) k.
Proof. exact div_table. Qed.
Theorem C26_rem_table : forall a b k, xwf a -> xwf b -> t_rem (kind_of a) (kind_of b) = Some k -> gives (x_rem a b) k.
Proof. exact rem_table. Qed.
Theorem C26_sqrt_table : forall a p rm k, xwf a -> 0 < p -> prec_up p < P_LIM -> t_sqrt (kind_of a) = Some k -> gives (x_sqrt p rm a) k.
Proof. exact sqrt_table. Qed.
Theorem C26_div_by_inf : forall x s p rm, wf x -> exists q, x_div (Value x) (Inf s) p rm = Ok (Value q) /\ wf q /\ value q = 0%R.
Proof. exact div_inf_zero. Qed.
Theorem C26_rem_by_inf : forall x s, x_rem (Value x) (Inf s) = Ok (Value x).
Proof. exact rem_inf. Qed.
Theorem C26_nan_left : forall e b p rm, x_add (NaN e) b p rm = Ok (NaN e) /\ x_sub (NaN e) b p rm = Ok (NaN e) /\ x_mul (NaN e) b p rm = Ok (NaN e) /\
  x_div (NaN e) b p rm = Ok (NaN e) /\ x_rem (NaN e) b = Ok (NaN e).
Proof. exact nan_left. Qed.
Theorem C26_nan_right : forall a e p rm, x_is_nan a = false -> x_add a (NaN e) p rm = Ok (NaN e) /\ x_sub a (NaN e) p rm = Ok (NaN e) /\ x_mul a (NaN e) p rm = Ok (NaN e) /\
  x_div a (NaN e) p rm = Ok (NaN e).
Proof. exact nan_right. Qed.
Example C26_case : t_mul (kind_of (Inf Neg)) (kind_of (Value ex_tiny)) = Some (KInf Pos) /\ t_div (kind_of (Value ex_tiny)) (kind_of (Value ex_zero)) = Some (KInf Neg) /\
  x_div (Value ex_tiny) (Value ex_zero) 64 RUp = Ok (Inf Neg) /\ x_div (Value ex_zero) (Value ex_zero) 64 RUp = Ok (NaN (Some InvalidArgument)).
Proof. repeat split; vm_compute; reflexivity. Qed.

(** ** C27 *)
Theorem C27_result_mapping : forall dz ss,
  (forall v, result_to_ext (Ok v) dz ss = Ok (Value v)) /\
  (forall s, result_to_ext (Err (ExponentOverflow s)) dz ss = Ok (Inf s)) /\
  (result_to_ext (Err DivisionByZero) false ss = Ok (Inf (if ss then Pos else Neg))) /\
  (forall e, e = InvalidArgument \/ e = MemoryAllocation -> result_to_ext (Err e) dz ss = Ok (NaN (Some e))).
Proof. repeat split; intros; try (destruct s; reflexivity). - destruct ss; reflexivity. - destruct H; subst; reflexivity. Qed.
Theorem C27_add : forall x y p rm, wf x -> wf y -> 0 < p -> prec_up p < P_LIM -> rm <> RNone \/ (nonzero x /\ nonzero y) ->
  ext_rounded (prec_up p) rm (value x + value y) (sum_value x y (prec_up p) rm (value x + value y)) (x_add (Value x) (Value y) p rm).
Proof. exact add_ext. Qed.
Theorem C27_sub : forall x y p rm, wf x -> wf y -> 0 < p -> prec_up p < P_LIM -> rm <> RNone \/ (nonzero x /\ nonzero y) ->
  ext_rounded (prec_up p) rm (value x - value y) (sum_value x y (prec_up p) rm (value x - value y)) (x_sub (Value x) (Value y) p rm).
Proof. exact sub_ext. Qed.
Theorem C27_mul : forall x y p rm, wf x -> wf y -> 0 < p -> prec_up p < P_LIM ->
  ext_rounded (prec_up p) rm (value x * value y) (op_value (prec_up p) rm (value x * value y)) (x_mul (Value x) (Value y) p rm).
Proof. exact mul_ext. Qed.
Theorem C27_div : forall x y p rm, wf x -> wf y -> nonzero y -> 0 < p -> prec_up p < P_LIM ->
  ext_rounded (prec_up p) rm (value x / value y) (op_value (prec_up p) rm (value x / value y)) (x_div (Value x) (Value y) p rm).
Proof. exact div_ext. Qed.
Theorem C27_reciprocal : forall x p rm, wf x -> nonzero x -> 0 < p -> prec_up p < P_LIM ->
  ext_rounded (prec_up p) rm (1 / value x) (op_value (prec_up p) rm (1 / value x)) (x_reciprocal (Value x) p rm).
Proof. exact recip_ext. Qed.
Example C27_case : wf ex_huge /\ x_add (Value ex_huge) (Value ex_huge) 64 RUp = Ok (Inf Neg) /\ x_mul (Value ex_huge) (Value ex_huge) 64 RDown = Ok (Inf Pos) /\
  exists q, x_mul (Value ex_tiny) (Value ex_huge) 64 RDown = Ok (Value q).
Proof. split; [exact ex_huge_wf|]. repeat split; try (vm_compute; reflexivity). eexists; vm_compute; reflexivity. Qed.

(** ** C30 *)
Theorem C30_eq_iff_cmp_zero : forall a b, x_eq a b = true <-> x_cmp a b = Some 0.
Proof. exact eq_cmp. Qed.
Theorem C30_partial_cmp_is_cmp : forall a b, x_partial_cmp a b = option_map (fun v => Z.compare v 0) (x_cmp a b).
Proof. exact cmp_partial. Qed.
Theorem C30_nan_unordered : forall e a, x_partial_cmp (NaN e) a = None /\ x_partial_cmp a (NaN e) = None /\ x_eq (NaN e) a = false /\ x_eq a (NaN e) = false /\ x_cmp (NaN e) a = None /\ x_cmp a (NaN e) = None.
Proof. exact nan_unordered. Qed.
Theorem C30_order_of_values : forall a b, orderable a -> orderable b -> x_partial_cmp a b = ext_compare a b.
Proof. exact partial_cmp_spec. Qed.
Theorem C30_eq_is_equality_of_values : forall a b, orderable a -> orderable b -> (x_eq a b = true <-> ext_compare a b = Some Eq).
Proof. exact eq_spec. Qed.
Theorem C30_total : forall a b, orderable a -> orderable b -> le_prop a b \/ le_prop b a.
Proof. exact le_total. Qed.
Theorem C30_transitive : forall a b c, orderable a -> orderable b -> orderable c -> le_prop a b -> le_prop b c -> le_prop a c.
Proof. exact le_trans. Qed.
Theorem C30_antisymmetric : forall a b, orderable a -> orderable b -> le_prop a b -> le_prop b a -> x_eq a b = true.
Proof. exact le_antisym. Qed.
Theorem C30_reversed : forall a b, orderable a -> orderable b -> (x_partial_cmp a b = Some Lt <-> x_partial_cmp b a = Some Gt).
Proof. exact lt_flip. Qed.
Lemma ex_tiny_ord : orderable (Value ex_tiny). Proof. split; [exact ex_tiny_wf|]. intros H; vm_compute in H; discriminate H. Qed.
Lemma ex_huge_ord : orderable (Value ex_huge). Proof. split; [exact ex_huge_wf|]. intros H; vm_compute in H; discriminate H. Qed.
Example C30_case : orderable (Value ex_tiny) /\ orderable (Value ex_huge) /\ le_prop (Inf Neg) (Value ex_huge) /\ le_prop (Value ex_huge) (Value ex_tiny) /\ ~ le_prop (Value ex_tiny) (Value ex_huge).
Proof.
  split; [exact ex_tiny_ord|]. split; [exact ex_huge_ord|]. split; [left; reflexivity|]. split; [left; vm_compute; reflexivity|].
  intros [H|H]; vm_compute in H; discriminate H.
Qed.

(** ** C31 *)
Theorem C31_max : forall a b, orderable a -> orderable b -> exists r, x_max a b = Ok r /\ (r = a \/ r = b) /\ le_ext a r /\ le_ext b r.
Proof. exact max_spec. Qed.
Theorem C31_min : forall a b, orderable a -> orderable b -> exists r, x_min a b = Ok r /\ (r = a \/ r = b) /\ le_ext r a /\ le_ext r b.
Proof. exact min_spec. Qed.
Theorem C31_clamp : forall a lo hi, orderable a -> orderable lo -> orderable hi ->
  (le_ext lo hi -> exists r, x_clamp a lo hi = Ok r /\ le_ext lo r /\ le_ext r hi /\ (r = a \/ r = lo \/ r = hi) /\ (le_ext lo a -> le_ext a hi -> r = a)) /\
  (ext_compare hi lo = Some Lt -> x_clamp a lo hi = Ok NAN).
Proof. exact clamp_spec. Qed.
Theorem C31_nan : (forall a b c, is_nan_spec a \/ is_nan_spec b \/ is_nan_spec c -> x_clamp a b c = Ok NAN) /\
  (forall a b, is_nan_spec a \/ is_nan_spec b -> x_max a b = Ok NAN /\ x_min a b = Ok NAN).
Proof. split; [exact nan_select|exact nan_select2]. Qed.
Example C31_case : le_ext (Value ex_huge) (Value ex_tiny) /\ x_max (Value ex_huge) (Value ex_tiny) = Ok (Value ex_tiny) /\ x_clamp (Inf Neg) (Value ex_huge) (Value ex_tiny) = Ok (Value ex_huge).
Proof.
  split; [|split; vm_compute; reflexivity]. unfold le_ext. rewrite <- (partial_cmp_spec (Value ex_huge) (Value ex_tiny) ex_huge_ord ex_tiny_ord). left. vm_compute. reflexivity.
Qed.

(** ** C32 *)
Theorem C32_abs_cmp_refuted : forall x y, wf x -> wf y -> (value x < value y < 0)%R ->
  exists v, x_abs_cmp (Value x) (Value y) = Some v /\ v < 0 /\ (Rabs (value y) < Rabs (value x))%R.
Proof. exact abs_cmp_neg_wrong. Qed.
Theorem C32_abs_cmp_positive : forall x y, wf x -> wf y -> (0 < value x)%R -> (0 < value y)%R ->
  exists v, x_abs_cmp (Value x) (Value y) = Some v /\ Z.sgn v = sgn_of (Rcompare (Rabs (value x)) (Rabs (value y))).
Proof. exact abs_cmp_pos. Qed.
Theorem C32_abs_cmp_special : forall a b, x_abs_cmp (Inf a) (Inf b) = Some 0 /\ (forall x, x_abs_cmp (Inf a) (Value x) = Some 1 /\ x_abs_cmp (Value x) (Inf a) = Some (-1)) /\
  (forall e c, x_abs_cmp (NaN e) c = None /\ x_abs_cmp c (NaN e) = None).
Proof. exact abs_cmp_special. Qed.
Example C32_case : x_abs_cmp (Value ex_huge) (Value ex_tiny) = Some (-1) /\ x_abs_cmp (Value (n_neg ex_huge)) (Value (n_neg ex_tiny)) = Some 1.
Proof. split; vm_compute; reflexivity. Qed.

(** ** C33 *)
Theorem C33_classify_zero_refuted : forall x, wf x -> magnitude x = 0 -> 0 < wlen x -> x_classify (Value x) = CSubnormal.
Proof. exact classify_zero_wrong. Qed.
Theorem C33_signum_zero_refuted : forall x, ns x = Pos -> magnitude x = 0 -> value x = 0%R /\ x_signum (Value x) = Ok (Value ONE) /\ value ONE = 1%R.
Proof. exact signum_zero_wrong. Qed.
Theorem C33_classify_nonzero : forall x, wf x -> nonzero x -> (x_classify (Value x) = CNormal <-> normal x) /\ (x_classify (Value x) = CSubnormal <-> mn (nm x) < 64 * wlen x).
Proof. exact classify_nonzero. Qed.
Theorem C33_classify_special : forall s e, x_classify (Inf s) = CInfinite /\ x_classify (NaN e) = CNan.
Proof. exact classify_special. Qed.
Theorem C33_signum_nonzero : forall x, wf x -> nonzero x ->
  exists q, x_signum (Value x) = Ok (Value q) /\ wf q /\ ((0 < value x)%R -> value q = 1%R) /\ ((value x < 0)%R -> value q = (-1)%R).
Proof. exact signum_spec. Qed.
Theorem C33_signum_inf : forall s, exists q, x_signum (Inf s) = Ok (Value q) /\ value q = IZR (sgnZ s).
Proof. exact signum_inf. Qed.
Example C33_case : wf ex_zero /\ magnitude ex_zero = 0 /\ 0 < wlen ex_zero /\ x_classify (Value ex_tiny) = CNormal.
Proof. split; [exact ex_zero_wf|]. repeat split. Qed.

(** ** C58 *)
Theorem C58_div_by_inf_refuted : forall x s p rm, wf x ->
  exists q, x_div (Value x) (Inf s) p rm = Ok (Value q) /\ ns q = Pos /\ 64 * wlen q = 64 * wlen x.
Proof.
  intros x s p rm W. unfold x_div, x_new. pose proof (wf_lim x W) as L. assert (0 <= wlen x) by apply WordsP.zlen_nonneg.
  change (mantissa_max_bit_len x) with (64 * wlen x). assert (E : (64 * wlen x + 63) / 64 = wlen x) by (Z.div_mod_to_equations; lia).
  destruct (zero_wf_value (64 * wlen x)) as (q & A & _ & B & _ & C); [lia|unfold prec_up; lia|]. rewrite A. exists q. split; [reflexivity|]. split; [exact C|]. lia.
Qed.
(** -2^-5 / +inf at 256 bits is a positive zero of 64 bits. *)
Example C58_case : exists q, x_div (Value ex_tiny) (Inf Pos) 256 RToEven = Ok (Value q) /\ ns ex_tiny = Neg /\ ns q = Pos /\ wlen q = 1.
Proof. eexists. split; [vm_compute; reflexivity|]. repeat split. Qed.

Definition all_ext := (C25_neg, C25_abs, C25_set_sign, C25_bigfloat, C26_add_table, C26_sub_table, C26_mul_table, C26_div_table, C26_rem_table, C26_sqrt_table,
  C26_div_by_inf, C26_rem_by_inf, C26_nan_left, C26_nan_right, C27_result_mapping, C27_add, C27_sub, C27_mul, C27_div, C27_reciprocal,
  C30_eq_iff_cmp_zero, C30_partial_cmp_is_cmp, C30_nan_unordered, C30_order_of_values, C30_eq_is_equality_of_values, C30_total, C30_transitive, C30_antisymmetric, C30_reversed,
  C31_max, C31_min, C31_clamp, C31_nan, C32_abs_cmp_refuted, C32_abs_cmp_positive, C32_abs_cmp_special,
  C33_classify_zero_refuted, C33_signum_zero_refuted, C33_classify_nonzero, C33_classify_special, C33_signum_nonzero, C33_signum_inf, C58_div_by_inf_refuted).
Print Assumptions all_ext.
