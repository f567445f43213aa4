(** C77-C82: elementary functions where they need no evaluation.

    [rest] stands for the loops of the functions, which are not reached; the theorems
    hold whatever they do. *)

From Coq Require Import ZArith List Bool Lia Reals Lra.
From Flocq Require Import Core.
From Verif Require Import Words Mantissa Num Ext Elem SpecZ Spec SpecOps SpecConst SmallP ElemR ElemNum ElemDom ElemInf CmpP SetP Refute1.
Import ListNotations.
Open Scope Z_scope.

(** ** C77: arguments with a small exponent.  [max64 p x] is the larger of the
    precision and the length of the argument. *)
Theorem C77_sin : forall rest x p rm, wf x -> nonzero x -> 0 < p -> max64 (prec_up p) x + 64 < P_LIM -> (rm <> RNone \/ EMIN < ne x) ->
  max64 (prec_up p) x + 1 < - (ne x * 2 - 2) -> exists q, n_sin rest x p rm = Ok q /\ rounded_to (prec_up p) rm (ns x) (sin (value x)) q.
Proof. exact sin_small. Qed.
Theorem C77_tan : forall rest x p rm, wf x -> nonzero x -> 0 < p -> max64 (prec_up p) x + 64 < P_LIM -> (rm <> RNone \/ EMIN < ne x) ->
  max64 (prec_up p) x + 1 < - (ne x * 2 - 1) -> exists q, n_tan rest x p rm = Ok q /\ rounded_to (prec_up p) rm (ns x) (tan (value x)) q.
Proof. exact ElemNum.tan_small. Qed.
Theorem C77_asin : forall pi rest x p rm, wf x -> nonzero x -> 0 < p -> max64 (prec_up p) x + 64 < P_LIM -> (rm <> RNone \/ EMIN < ne x) ->
  max64 (prec_up p) x + 1 < - (ne x * 2 - 2) -> exists q, n_asin rest pi x p rm = Ok q /\ rounded_to (prec_up p) rm (ns x) (asin (value x)) q.
Proof. exact asin_small. Qed.
Theorem C77_atan : forall rest x p rm, wf x -> nonzero x -> 0 < p -> max64 (prec_up p) x + 64 < P_LIM -> (rm <> RNone \/ EMIN < ne x) ->
  max64 (prec_up p) x + 1 < - (ne x * 2 - 1) -> exists q, n_atan rest x p rm = Ok q /\ rounded_to (prec_up p) rm (ns x) (atan (value x)) q.
Proof. exact atan_small. Qed.
Theorem C77_sinh : forall rest x p rm, wf x -> nonzero x -> 0 < p -> max64 (prec_up p) x + 64 < P_LIM -> (rm <> RNone \/ EMIN < ne x) ->
  max64 (prec_up p) x + 1 < - (ne x * 2 - 2) -> exists q, n_sinh rest x p rm = Ok q /\ rounded_to (prec_up p) rm (ns x) (sinh (value x)) q.
Proof. exact ElemNum.sinh_small. Qed.
Theorem C77_tanh : forall rest x p rm, wf x -> nonzero x -> 0 < p -> max64 (prec_up p) x + 64 < P_LIM -> (rm <> RNone \/ EMIN < ne x) ->
  max64 (prec_up p) x + 1 < - (ne x * 2 - 1) -> exists q, n_tanh rest x p rm = Ok q /\ rounded_to (prec_up p) rm (ns x) (tanh (value x)) q.
Proof. exact tanh_small. Qed.
Theorem C77_asinh : forall rest x p rm, wf x -> nonzero x -> 0 < p -> max64 (prec_up p) x + 64 < P_LIM -> (rm <> RNone \/ EMIN < ne x) ->
  max64 (prec_up p) x + 1 < - (ne x * 2 - 2) -> exists q, n_asinh rest x p rm = Ok q /\ rounded_to (prec_up p) rm (ns x) (arcsinh (value x)) q.
Proof. exact asinh_small. Qed.
Theorem C77_atanh : forall rest x p rm, wf x -> nonzero x -> 0 < p -> max64 (prec_up p) x + 64 < P_LIM -> (rm <> RNone \/ EMIN < ne x) ->
  max64 (prec_up p) x + 1 < - (ne x * 2 - 1) -> exists q, n_atanh rest x p rm = Ok q /\ rounded_to (prec_up p) rm (ns x) (artanh (value x)) q.
Proof. exact atanh_small. Qed.
Theorem C77_cos : forall rest x p rm, wf x -> nonzero x -> 0 < p -> Z.max (prec_up p) 128 + 64 < P_LIM -> max64 (prec_up p) x + 1 < - (ne x * 2 - 1) ->
  exists q, n_cos rest x p rm = Ok q /\ rounded_to (prec_up p) rm Pos (cos (value x)) q.
Proof. exact cos_small. Qed.
Theorem C77_cosh : forall rest x p rm, wf x -> nonzero x -> 0 < p -> Z.max (prec_up p) 128 + 64 < P_LIM -> max64 (prec_up p) x + 1 < - (ne x * 2 - 1) ->
  exists q, n_cosh rest x p rm = Ok q /\ rounded_to (prec_up p) rm Pos (cosh (value x)) q.
Proof. exact cosh_small. Qed.
Theorem C77_exp : forall (rest : result num) x p rm, wf x -> nonzero x -> 0 < p -> Z.max (prec_up p) 128 + 64 < P_LIM -> max64 (prec_up p) x + 1 < - ne x ->
  exists q, exp_top (fun r => r) rest x p rm = Ok q /\ rounded_to (prec_up p) rm Pos (exp (value x)) q.
Proof. intros. now apply (exp_small (fun r => r)). Qed.

Definition ex_tiny := mk_num (mk_m [2 ^ 63 + 1] 64) Neg (-100) false.
Lemma ex_tiny_ok : wf ex_tiny /\ nonzero ex_tiny.
Proof. split; [unfold ex_tiny; wf_concrete|intros H; vm_compute in H; discriminate]. Qed.
Definition no_rest (x : num) (p : Z) (rm : rmode) : result num := Panic.
(** sin is nearer to zero than its argument: the last place changes upwards. *)
Example C77_sin_case : exists q, n_sin no_rest ex_tiny 64 RUp = Ok q /\ rounded_to 64 RUp Neg (sin (value ex_tiny)) q /\ mm (nm q) = [2 ^ 63].
Proof.
  destruct ex_tiny_ok as [W N]. assert (H1 : max64 (prec_up 64) ex_tiny + 64 < P_LIM) by (vm_compute; reflexivity). assert (H2 : max64 (prec_up 64) ex_tiny + 1 < - (ne ex_tiny * 2 - 2)) by (vm_compute; reflexivity).
  assert (H3 : RUp <> RNone) by discriminate.
  destruct (C77_sin no_rest ex_tiny 64 RUp W N ltac:(lia) H1 (or_introl H3) H2) as (q & E & Q). change (prec_up 64) with 64 in Q.
  exists q. split; [exact E|]. split; [exact Q|]. apply (f_equal (fun r => match r with Ok q => mm (nm q) | _ => [] end)) in E. rewrite <- E. vm_compute. reflexivity.
Qed.
Example C77_exp_case : exists q, exp_top (fun r => r) Panic ex_tiny 64 RDown = Ok q /\ rounded_to 64 RDown Pos (exp (value ex_tiny)) q /\ mm (nm q) = [2 ^ 64 - 1] /\ ne q = 0.
Proof.
  destruct ex_tiny_ok as [W N]. assert (H1 : Z.max (prec_up 64) 128 + 64 < P_LIM) by (vm_compute; reflexivity). assert (H2 : max64 (prec_up 64) ex_tiny + 1 < - ne ex_tiny) by (vm_compute; reflexivity).
  destruct (C77_exp Panic ex_tiny 64 RDown W N ltac:(lia) H1 H2) as (q & E & Q). change (prec_up 64) with 64 in Q.
  exists q. split; [exact E|]. split; [exact Q|]. split.
  - apply (f_equal (fun r => match r with Ok q => mm (nm q) | _ => [] end)) in E. rewrite <- E. vm_compute. reflexivity.
  - apply (f_equal (fun r => match r with Ok q => ne q | _ => 5 end)) in E. rewrite <- E. vm_compute. reflexivity.
Qed.

(** ** C78: zero, the ends of the domains, and outside *)
Theorem C78_odd_at_zero : forall rest x p rm, wf x -> magnitude x = 0 -> 0 < p -> prec_up p < P_LIM ->
  (forall f, In f [n_sin; n_tan; n_atan; n_sinh; n_asinh; n_tanh; n_atanh] -> exactly (prec_up p) 0 (ns x) (ninexact x) (f rest x p rm)) /\
  (forall pi, exactly (prec_up p) 0 (ns x) (ninexact x) (n_asin rest pi x p rm)).
Proof.
  intros rest x p rm W Z Hp HP. split; [|intros pi; now apply asin_zero]. intros f H. cbn [In] in H. repeat destruct H as [<-|H]; try contradiction.
  1-5: now apply odd_zero. - now apply tanh_zero. - now apply atanh_zero.
Qed.
Theorem C78_even_at_zero : forall rest x p rm, wf x -> magnitude x = 0 -> 0 < p -> prec_up p < P_LIM ->
  exactly (prec_up p) 1 Pos (ninexact x) (n_cos rest x p rm) /\ exactly (prec_up p) 1 Pos (ninexact x) (n_cosh rest x p rm) /\
  forall r0, exactly (prec_up p) 1 Pos (ninexact x) (exp_top (fun r => r) r0 x p rm).
Proof.
  intros rest x p rm W Z Hp HP. split; [now apply even_zero|]. split; [now apply even_zero|]. intros r0. destruct (exp_zero (fun r => r) r0 x p rm W Z Hp HP) as (res & E & Q). rewrite E. exact Q.
Qed.
Theorem C78_acos : forall rest x p rm, wf x ->
  ((1 < Rabs (value x))%R -> n_acos rest x p rm = Err InvalidArgument) /\
  ((-1 <= value x < 1)%R -> n_acos rest x p rm = rest x (round_p p) rm) /\
  (value x = 1%R -> 0 < p -> prec_up p < P_LIM -> exactly (prec_up p) (acos (value x)) Pos (ninexact x) (n_acos rest x p rm)).
Proof. intros rest x p rm W. split; [now apply acos_outside|]. split; [now apply acos_inside|]. intros. now apply acos_one. Qed.
Theorem C78_acosh : forall rest x p rm, wf x ->
  ((value x < 1)%R -> n_acosh rest x p rm = Err InvalidArgument) /\
  ((1 < value x)%R -> n_acosh rest x p rm = rest x (round_p p) rm) /\
  (value x = 1%R -> 0 < p -> prec_up p < P_LIM -> exactly (prec_up p) 0 Pos (ninexact x) (n_acosh rest x p rm)).
Proof. intros rest x p rm W. split; [now apply acosh_outside|]. split; [now apply acosh_inside|]. intros. now apply acosh_one. Qed.
Theorem C78_atanh : forall rest x p rm, wf x ->
  ((1 < Rabs (value x))%R -> n_atanh rest x p rm = Err InvalidArgument) /\
  (Rabs (value x) = 1%R -> n_atanh rest x p rm = Err (ExponentOverflow (ns x))) /\
  (nonzero x -> (Rabs (value x) < 1)%R -> ~ max64 (prec_up p) x + 1 < - (ne x * 2 - 1) -> 0 < p -> prec_up p < P_LIM -> n_atanh rest x p rm = rest x (prec_up p) rm).
Proof. exact atanh_domain. Qed.
Theorem C78_asin : forall pi rest x p rm, wf x ->
  ((1 < Rabs (value x))%R -> n_asin rest pi x p rm = Err InvalidArgument) /\
  (nonzero x -> (Rabs (value x) < 1)%R -> ~ max64 (prec_up p) x + 1 < - (ne x * 2 - 2) -> 0 < p -> prec_up p < P_LIM -> n_asin rest pi x p rm = rest x (prec_up p) rm).
Proof. exact asin_domain. Qed.
(** [c] is the number that [pi] delivers (rounded as [const_result] says). *)
Theorem C78_asin_one : forall pi rest x p rm c v, wf x -> Rabs (value x) = 1%R -> 0 < p -> prec_up p < P_LIM -> (3 <= c <= 7 / 2)%R ->
  pi (prec_up p) (if is_negative x then invert_rm_for_sign rm else rm) = Ok v -> const_result c 2 (prec_up p) (if is_negative x then invert_rm_for_sign rm else rm) v ->
  exists q, n_asin rest pi x p rm = Ok q /\ half_result c (prec_up p) rm (ns x) q.
Proof. exact asin_one. Qed.
Theorem C78_pi_range : forall S, chud_limit S -> (3 <= chud_value S <= 7 / 2)%R.
Proof. exact chud_range. Qed.
Theorem C78_ln : forall rest x p rm, wf x ->
  ((value x <= 0)%R -> n_ln rest x p rm = Err InvalidArgument) /\
  ((0 < value x)%R -> value x <> 1%R -> n_ln rest x p rm = rest x (round_p p) rm) /\
  (value x = 1%R -> 0 < p -> prec_up p < P_LIM -> exactly (prec_up p) 0 Pos (ninexact x) (n_ln rest x p rm)).
Proof. intros rest x p rm W. split; [now apply ln_outside|]. split; [now apply ln_inside|]. intros. now apply ln_one. Qed.
Theorem C78_log2 : forall rest x p rm, wf x ->
  ((value x <= 0)%R -> n_log2 rest x p rm = Err InvalidArgument) /\
  ((0 < value x)%R -> (forall k, value x <> bpow radix2 k) -> n_log2 rest x p rm = rest x (round_p p) rm).
Proof. intros rest x p rm W. split; [now apply log2_outside|]. now apply log2_inside. Qed.
Theorem C78_log : forall rest x n p rm, wf x -> wf n ->
  ((value x <= 0 \/ value n <= 0)%R -> n_log rest x n p rm = Err InvalidArgument) /\
  ((0 < value x)%R -> (0 < value n)%R -> n_log rest x n p rm = rest x n (round_p p) rm).
Proof. intros rest x n p rm W Wn. split; [now apply log_outside|]. now apply log_inside. Qed.

(** ** C79: powers of two *)
Theorem C79_log2_power : forall rest x p rm k, wf x -> value x = bpow radix2 k -> k <> 0 -> 0 < p -> prec_up p < P_LIM ->
  exactly (prec_up p) (IZR k) (if k <? 0 then Neg else Pos) (ninexact x) (n_log2 rest x p rm).
Proof. exact log2_power. Qed.
(** The power 2^0: the value is right, but this zero has the exponent 64, against the
    invariant that zeros have the exponent 0. *)
Theorem C79_log2_one_refuted : forall rest x p rm, wf x -> value x = 1%R -> 0 < p -> prec_up p < P_LIM ->
  exists q, n_log2 rest x p rm = Ok q /\ value q = 0%R /\ ns q = Pos /\ 64 * wlen q = prec_up p /\ ninexact q = ninexact x /\ ne q = 64 /\ ~ wf q.
Proof. exact log2_one. Qed.
(** A subnormal power of two. *)
Definition ex_power := mk_num (mk_m [4; 0] 3) Pos EMIN false.
Example C79_case : wf ex_power /\ exists q, n_log2 no_rest ex_power 64 RDown = Ok q /\ ns q = Neg /\ mm (nm q) = [(2 ^ 31 + 126) * 2 ^ 32] /\ ne q = 32.
Proof.
  split; [unfold ex_power; wf_concrete|]. eexists. split; [vm_compute; reflexivity|]. split; [reflexivity|]. split; reflexivity.
Qed.

(** ** C80 *)
Theorem C80_tanh_max : forall rest x p rm, wf x -> ne x = EMAX -> 0 < p -> prec_up p + 64 < P_LIM ->
  exists q, n_tanh rest x p rm = Ok q /\ rounded_to (prec_up p) rm (ns x) (tanh (value x)) q.
Proof. exact tanh_max. Qed.
Definition ex_huge := mk_num (mk_m [2 ^ 63] 64) Neg EMAX false.
Example C80_case : wf ex_huge /\ exists q, n_tanh no_rest ex_huge 64 RToZero = Ok q /\ ns q = Neg /\ mm (nm q) = [2 ^ 64 - 1] /\ ne q = 0.
Proof.
  split; [unfold ex_huge; wf_concrete|]. eexists. split; [vm_compute; reflexivity|]. split; [reflexivity|]. split; reflexivity.
Qed.

(** ** C81: infinities and NaN *)
Theorem C81_nan : forall f pi e p rm, x_exp f (NaN e) p rm = Ok (NaN e) /\ x_ln f (NaN e) p rm = Ok (NaN e) /\ x_sin f (NaN e) p rm = Ok (NaN e) /\
  x_sinh f (NaN e) p rm = Ok (NaN e) /\ x_cosh f (NaN e) p rm = Ok (NaN e) /\ x_acosh f (NaN e) p rm = Ok (NaN e) /\ x_tanh f (NaN e) p rm = Ok (NaN e) /\
  x_atan f pi (NaN e) p rm = Ok (NaN e).
Proof. intros. repeat split. Qed.
Theorem C81_limits : forall f s p rm, x_ln f (Inf s) p rm = Ok (if is_pos s then Inf Pos else NaN None) /\ x_sinh f (Inf s) p rm = Ok (Inf s) /\
  x_cosh f (Inf s) p rm = Ok (Inf Pos) /\ x_acosh f (Inf s) p rm = Ok (if is_pos s then Inf Pos else NaN None) /\ x_sin f (Inf s) p rm = Ok (NaN None).
Proof. intros. destruct s; repeat split. Qed.
Theorem C81_exp : forall f p rm, 0 < p -> prec_up p < P_LIM -> x_exp f (Inf Pos) p rm = Ok (Inf Pos) /\
  exists q, x_exp f (Inf Neg) p rm = Ok (Value q) /\ wf q /\ value q = 0%R /\ ns q = Pos /\ ninexact q = false /\ 64 * wlen q = prec_up p.
Proof. exact x_exp_inf. Qed.
Theorem C81_tanh : forall f s p rm, 8 <= p -> prec_up p < P_LIM ->
  exists q, x_tanh f (Inf s) p rm = Ok (Value q) /\ wf q /\ value q = IZR (sgnZ s) /\ ninexact q = false /\ 64 * wlen q = prec_up p.
Proof. intros. apply x_tanh_inf; auto. lia. Qed.
(** Below 8 bits of precision there is no limit. *)
Theorem C81_tanh_refuted : forall f s p rm, 0 < p < 8 -> x_tanh f (Inf s) p rm = Ok (NaN (Some InvalidArgument)).
Proof. intros f s p rm H. apply x_tanh_inf; try lia. unfold prec_up. replace ((p + 63) / 64) with 1 by (Z.div_mod_to_equations; lia). reflexivity. Qed.
Theorem C81_atan_pos : forall f pi p rm c v, 0 < p -> prec_up p < P_LIM -> (3 <= c <= 7 / 2)%R -> pi p rm = Ok v -> const_result c 2 (prec_up p) rm v ->
  exists q, x_atan f pi (Inf Pos) p rm = Ok (Value q) /\ half_result c (prec_up p) rm Pos q.
Proof. intros f pi p rm c v. exact (x_atan_inf f pi Pos p rm c v). Qed.
(** At minus infinity the rounding mode is applied to the magnitude: the mode Up gives
    a number below -c/2. *)
Theorem C81_atan_neg_refuted : forall f pi p c v, 0 < p -> prec_up p < P_LIM -> (3 <= c <= 7 / 2)%R -> pi p RUp = Ok v -> const_result c 2 (prec_up p) RUp v ->
  exists q, x_atan f pi (Inf Neg) p RUp = Ok (Value q) /\ (value q < - (c / 2))%R.
Proof. exact x_atan_neg_inf_wrong. Qed.

(** ** C82: log to any base *)
Theorem C82_outside : forall rest x n p rm, wf x -> wf n -> nonzero n -> (value x <= 0 \/ value n <= 0)%R ->
  x_log (n_log rest) (Value x) (Value n) p rm = Ok (NaN (Some InvalidArgument)).
Proof. intros. unfold x_log. rewrite (is_zero_false n) by auto. rewrite (proj1 (C78_log rest x n p rm H H0) H2). reflexivity. Qed.
(** So log(0, n) is NaN, not minus infinity, for every base n. *)
Theorem C82_zero_refuted : forall rest x n p rm, wf x -> wf n -> magnitude x = 0 -> (1 < value n)%R -> x_log (n_log rest) (Value x) (Value n) p rm = Ok (NaN (Some InvalidArgument)).
Proof.
  intros rest x n p rm W Wn Z H. apply C82_outside; auto; [|left; rewrite (value_zero x Z); lra]. intros Zn. rewrite (value_zero n Zn) in H. lra.
Qed.
(** The base zero gives minus infinity whatever the argument. *)
Theorem C82_base_zero_refuted : forall rest x n p rm, wf n -> magnitude n = 0 -> x_log (n_log rest) (Value x) (Value n) p rm = Ok (Inf Neg).
Proof. intros. unfold x_log. rewrite (is_zero_true n) by auto. reflexivity. Qed.
(** A negative number to the base infinity gives zero. *)
Theorem C82_negative_refuted : forall rest x p rm, 0 < p -> prec_up p < P_LIM -> exists q, x_log (n_log rest) (Value x) (Inf Pos) p rm = Ok (Value q) /\ value q = 0%R.
Proof. intros rest x p rm Hp HP. destruct (C81_exp no_rest p rm Hp HP) as [_ (q & E & _ & V & _)]. exists q. split; [exact E|exact V]. Qed.
(** The logarithm of infinity looks only at the exponent of the base: negative bases
    and the base 1 are accepted. *)
Theorem C82_inf_refuted : forall rest p rm, x_log (n_log rest) (Inf Pos) (Value (set_sign ONE Neg)) p rm = Ok (Inf Pos) /\ x_log (n_log rest) (Inf Pos) (Value ONE) p rm = Ok (Inf Pos).
Proof. intros. split; reflexivity. Qed.

Definition all_elem := (C77_sin, C77_tan, C77_asin, C77_atan, C77_sinh, C77_tanh, C77_asinh, C77_atanh, C77_cos, C77_cosh, C77_exp, C77_sin_case, C77_exp_case,
  C78_odd_at_zero, C78_even_at_zero, C78_acos, C78_acosh, C78_atanh, C78_asin, C78_asin_one, C78_pi_range, C78_ln, C78_log2, C78_log,
  C79_log2_power, C79_log2_one_refuted, C79_case, C80_tanh_max, C80_case, C81_nan, C81_limits, C81_exp, C81_tanh, C81_tanh_refuted, C81_atan_pos, C81_atan_neg_refuted,
  C82_outside, C82_zero_refuted, C82_base_zero_refuted, C82_negative_refuted, C82_inf_refuted).
Print Assumptions all_elem.
