(** Property theorems, part 6: Context, exponent range check, distance to one. *)

From Coq Require Import ZArith Reals List Bool Lia Lra.
From Flocq Require Import Core.
From Verif Require Import Words Mantissa Num Ext Ctx SpecZ Spec SpecExt CtxP Refute1 PropsArith.
Import ListNotations.
Open Scope Z_scope.

(** ** C45 *)
Theorem C45_range_invariant : forall (C : Type) p rm (cc : C) emin emax (l : list (setter C)),
  let c := run_setters (c_new p rm cc emin emax) l in EMIN <= c_emin c <= 0 /\ 0 <= c_emax c <= EMAX.
Proof. intros. apply setters_range. apply new_range. Qed.

(** Every field holds the last value given for it, exponents clamped. *)
Theorem C45_fields : forall (C : Type) p rm (cc : C) emin emax (l : list (setter C)),
  c_to_raw_parts (run_setters (c_new p rm cc emin emax) l) =
  (last_of (fun s => match s with SPrec p => Some p | _ => None end) p l,
   last_of (fun s => match s with SMode m => Some m | _ => None end) rm l,
   last_of (fun s => match s with SConsts m => Some m | _ => None end) cc l,
   last_of (fun s => match s with SEmin e => Some (Z.max EMIN (Z.min e 0)) | _ => None end) (Z.max EMIN (Z.min emin 0)) l,
   last_of (fun s => match s with SEmax e => Some (Z.max 0 (Z.min e EMAX)) | _ => None end) (Z.max 0 (Z.min emax EMAX)) l).
Proof. exact @fields_last. Qed.

(** A clone agrees in every field but the constant cache, which is fresh. *)
Theorem C45_clone : forall (C : Type) (c : context C) fresh,
  match c_clone c fresh with
  | Ok d => exists cc, fresh = Ok cc /\ c_to_raw_parts d = (c_p c, c_rm c, cc, c_emin c, c_emax c)
  | Err e => fresh = Err e
  | Panic => fresh = Panic
  end.
Proof. intros C c [cc|e|]; cbn; eauto. Qed.

(** The contexts made of tuples have ranges of the same kind. *)
Theorem C45_tuples : (EMIN <= t3_emin <= 0 /\ 0 <= t3_emax <= EMAX) /\ forall e, EMIN <= t5_emin e <= 0 /\ 0 <= t5_emax e <= EMAX.
Proof. exact tuple_ranges. Qed.

Example C45_case : c_to_raw_parts (run_setters (c_new 64 RUp tt 7 (-3)) [SEmin (-5); SPrec 128; SEmin 9; SEmax 12; SMode RDown]) = (128, RDown, tt, 0, 12).
Proof. reflexivity. Qed.

(** ** C46 *)
Theorem C46_exponent_range : forall a emin emax, EMIN <= emin <= 0 -> 0 <= emax <= EMAX -> xwf a ->
  match a with
  | Value x =>
      (emax < ne x -> check_exponent_range a emin emax = Ok (Inf (ns x))) /\
      (ne x < emin -> exists z, check_exponent_range a emin emax = Ok (Value z) /\ wf z /\ value z = 0%R /\ wlen z = wlen x) /\
      (emin <= ne x <= emax -> check_exponent_range a emin emax = Ok a)
  | _ => check_exponent_range a emin emax = Ok a
  end.
Proof. exact range_check. Qed.
Example C46_case : check_exponent_range (Value ex_three_quarters) (-10) 10 <> Ok (Value ex_three_quarters) /\ ne ex_three_quarters < -10 /\ xwf (Value ex_three_quarters).
Proof. split; [vm_compute; discriminate|]. split; [reflexivity|exact ex_three_quarters_wf]. Qed.

(** ** C60 *)
Theorem C60_distance_to_one : forall x emin, wf x -> normal x ->
  let n := compute_added_err_near_one (Value x) emin in
  let v := Rabs (value x) in
  (ne x = 1 -> v <> 1%R -> 0 <= n /\ (n <> 0 -> (bpow radix2 (- n) <= v - 1 < bpow radix2 (1 - n))%R) /\ (n = 0 -> (v - 1 < bpow radix2 (- Z.abs emin))%R)) /\
  (ne x = 0 -> 0 <= n /\ (n <> 0 -> (bpow radix2 (- n - 1) < 1 - v <= bpow radix2 (- n))%R) /\ (n = 0 -> (1 - v < bpow radix2 (- Z.abs emin))%R)) /\
  (ne x <> 0 -> ne x <> 1 -> n = 0).
Proof. exact near_one_spec. Qed.
Theorem C60_counts : forall m, words_ok m -> 0 < zlen m ->
  count_leading_ones m = 64 * zlen m - bitlen (2 ^ (64 * zlen m) - 1 - val m) /\
  count_leading_zeroes_skip_first m = 64 * zlen m - bitlen (val m mod 2 ^ (64 * zlen m - 1)).
Proof. intros m Hok Hl. split; [now apply clo_spec|now apply clz_skip_spec]. Qed.
Example C60_case : let x := mk_num (mk_m [0; 2 ^ 63 + 5] 128) Neg 1 true in
  wf x /\ normal x /\ compute_added_err_near_one (Value x) (-1000) = 61 /\ compute_added_err_near_one (Value x) (-10) = 0.
Proof. split; [wf_concrete|]. split; [split; [reflexivity|vm_compute; discriminate]|]. split; vm_compute; reflexivity. Qed.

Definition all_ctx := (@C45_range_invariant, @C45_fields, @C45_clone, C45_tuples, C46_exponent_range, C60_distance_to_one, C60_counts).
Print Assumptions all_ctx.
