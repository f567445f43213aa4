(** Model of ops/series.rs (power series) and of the cost estimates of common/util.rs
    that choose how a series is summed.  No proofs in this file.

    Loops whose number of rounds depends on the data take fuel and return [None] when it
    runs out.  The costs are computed in [Z]: they steer the number of argument
    reductions only, and u64 holds them for every precision below 2^25. *)

From Coq Require Import ZArith List Bool.
From Verif Require Import Words IntModel Mantissa Num.
Import ListNotations.
Open Scope Z_scope.

(** common/util.rs 87-99. *)
Definition calc_mul_cost (p : Z) : Z :=
  if p <? 70 then p * p
  else if p <? 1625 then sqrt_int (p * p * p)
  else let q := sqrt_int p in q * q * q.
(** common/util.rs 102-105. *)
Definition calc_add_cost (p : Z) : Z := p.

(** series.rs 15-16. *)
Definition MAX_CACHE := 128.
Definition RECT_ITER_THRESHOLD := MAX_CACHE / 10 * 9.

(** series.rs 110-114. *)
Definition series_niter (p m : Z) : Z :=
  let ln := log2_floor p in
  let lln := log2_floor ln in
  p / (ln - lln + m - 2).

(** series.rs 120-134; [ic] is iter_cost. *)
Definition series_cost (niter p ic : Z) : Z :=
  let cost_mul := calc_mul_cost p in
  let cost_add := calc_add_cost p in
  let cost := niter * (cost_mul + cost_add + ic) in
  if RECT_ITER_THRESHOLD <=? niter then
    cost + sqrt_int niter * cost_mul + niter / 10 * (2 * cost_mul + cost_add + ic)
  else cost.

(** series.rs 50-83: the loop of series_cost_optimize with [ext] false.  [red_cost] and
    [red_effect] are the functions of ArgReductionEstimator; [cost1 = None] stands for
    u64::MAX, the first cost being below it. *)
Section Optimize.
Variables (red_cost : Z -> Z -> Z) (red_effect : Z -> Z -> Z).
Fixpoint optimize_loop (f : nat) (p ic m pwr_step step times : Z) (cost1 : option Z) : option (Z * Z * Z) :=
  match f with
  | O => None
  | S f =>
      let m_eff := red_effect times m in
      let niter := series_niter p m_eff / pwr_step in
      let cost2 := series_cost niter p ic + red_cost times p in
      if match cost1 with None => true | Some c => cost2 <? c end
      then optimize_loop f p ic m pwr_step step (times + step) (Some cost2)
      else Some (times - step, niter, m_eff)
  end.
Definition series_cost_optimize (f : nat) (p ic m pwr_step : Z) : option (Z * Z * Z) :=
  let step := log2_floor p / 2 in
  let times := if m <? step then step - m else 0 in
  optimize_loop f p ic m pwr_step step times None.
End Optimize.

(** A result under fuel: [None] is out of fuel. *)
Definition run (A : Type) := option (result A).
Definition rbind {A B} (r : run A) (k : A -> run B) : run B :=
  match r with
  | None => None
  | Some (Ok a) => k a
  | Some (Err e) => Some (Err e)
  | Some Panic => Some Panic
  end.
Definition done {A} (r : result A) : run A := Some r.

(** series.rs 22-35: a generator of coefficients has a state [G]; [next] is called with
    RoundingMode::None by all of series.rs. *)
Section Gen.
Context {G : Type} (next : G -> result (num * G)) (is_div : bool).

(** x_pow.div(coeff) or x_pow.mul(coeff). *)
Definition times_coeff (x c : num) (p : Z) : result num := if is_div then n_div x c p RNone else n_mul x c p RNone.

(** series.rs 137-163. *)
Definition series_compute_fast (acc x_first : num) (g : G) : result num :=
  if is_zero x_first then Ok acc
  else
    let p := Z.max (mantissa_max_bit_len acc) (mantissa_max_bit_len x_first) in
    do (c, _) <- next g;
    do part <- times_coeff x_first c p;
    n_add acc part p RNone.

(** series.rs 242-271. *)
Fixpoint linear_loop (f : nat) (p : Z) (acc x_pow x_step : num) (g : G) : run num :=
  match f with
  | O => None
  | S f =>
      rbind (done (next g)) (fun '(c, g) =>
      rbind (done (times_coeff x_pow c p)) (fun part =>
      rbind (done (n_add acc part p RNone)) (fun acc =>
      if ne part <=? ne acc - mantissa_max_bit_len acc then Some (Ok acc)
      else rbind (done (n_mul x_pow x_step p RNone)) (fun x_pow => linear_loop f p acc x_pow x_step g))))
  end.
Definition series_linear (f : nat) (acc x_first x_step : num) (g : G) : run num :=
  let p := Z.max (Z.max (mantissa_max_bit_len acc) (mantissa_max_bit_len x_first)) (mantissa_max_bit_len x_step) in
  linear_loop f p acc x_first x_step g.

(** series.rs 274-303. *)
Fixpoint row_loop (p : Z) (cache : list num) (acc : num) (g : G) : result (num * G) :=
  match cache with
  | [] => Ok (acc, g)
  | x_pow :: cache =>
      do (c, g) <- next g;
      do add <- times_coeff x_pow c p;
      do acc <- n_add acc add p RNone;
      row_loop p cache acc g
  end.
Definition compute_row (p : Z) (cache : list num) (g : G) : result (num * G) :=
  do acc <- n_new p;
  do (c, g) <- next g;
  do c <- (if is_div then n_reciprocal c p RNone else Ok c);
  do acc <- n_add acc c p RNone;
  row_loop p cache acc g.

(** series.rs 305-349: the loop over the number of parts (the cached coefficients are
    listed last first), the evaluation, and the whole.  The debug assertions on the
    exponents and on is_div are not modelled. *)
Fixpoint parts_loop (f : nat) (p e_add e_step x_p coef_p : Z) (cache : list num) (g : G) : run (list num * G) :=
  match f with
  | O => None
  | S f =>
      if x_p + coef_p <? p - e_add then
        rbind (done (next g)) (fun '(c, g) => parts_loop f p e_add e_step (x_p - e_step) (- ne c) (c :: cache) g)
      else Some (Ok (cache, g))
  end.
Fixpoint horner_eval (p : Z) (x_step : num) (cache : list num) (acc : num) : result num :=
  match cache with
  | [] => Ok acc
  | c :: cache =>
      do acc <- n_mul acc x_step p RNone;
      do acc <- n_add acc c p RNone;
      horner_eval p x_step cache acc
  end.
Definition series_horner (f : nat) (add x_first x_step : num) (g : G) : run num :=
  let p := Z.max (Z.max (mantissa_max_bit_len add) (mantissa_max_bit_len x_first)) (mantissa_max_bit_len x_step) in
  rbind (parts_loop f p (ne add) (ne x_step) (- ne x_first - ne x_step) 0 [] g) (fun '(cache, g) =>
  done (
    do (last, _) <- next g;
    do acc <- horner_eval p x_step cache last;
    do acc <- n_mul acc x_first p RNone;
    n_add add acc p RNone)).

(** series.rs 192-200: the powers of x_step, and one more. *)
Fixpoint cache_loop (n : nat) (p : Z) (x_pow x_step : num) : result (list num * num) :=
  match n with
  | O => Ok ([], x_pow)
  | S n =>
      do y <- n_mul x_pow x_step p RNone;
      do (l, z) <- cache_loop n p y x_step;
      Ok (x_pow :: l, z)
  end.
(** series.rs 208-218: the loop.  [niter -= cache_sz] would panic below zero. *)
Fixpoint rect_loop (f : nat) (p sz : Z) (cache : list num) (x_pow acc terminal_pow : num) (niter : Z) (g : G) : run (num * num * Z * G) :=
  match f with
  | O => None
  | S f =>
      rbind (done (compute_row p cache g)) (fun '(poly_val, g) =>
      rbind (done (n_mul poly_val terminal_pow p RNone)) (fun part =>
      rbind (done (n_add acc part p RNone)) (fun acc =>
      rbind (done (n_mul terminal_pow x_pow p RNone)) (fun terminal_pow =>
      if niter <? sz then Some Panic
      else
        let niter := niter - sz in
        if niter <? sz then Some (Ok (acc, terminal_pow, niter, g))
        else rect_loop f p sz cache x_pow acc terminal_pow niter g))))
  end.
(** series.rs 173-236. *)
Definition series_rectangular (f : nat) (niter : Z) (add x_first x_step : num) (g : G) : run num :=
  let p := Z.max (Z.max (mantissa_max_bit_len add) (mantissa_max_bit_len x_first)) (mantissa_max_bit_len x_step) in
  rbind (done (n_new p)) (fun acc =>
  let sz := Z.min MAX_CACHE (sqrt_int niter) in
  rbind (done (cache_loop (Z.to_nat sz) p x_step x_step)) (fun '(cache, x_pow) =>
  rbind (done (compute_row p cache g)) (fun '(poly_val, g) =>
  rbind (done (n_add acc poly_val p RNone)) (fun acc =>
  if niter <? sz then Some Panic
  else
  rbind (rect_loop f p sz cache x_pow acc x_pow (niter - sz) g) (fun '(acc, terminal_pow, niter, g) =>
  rbind (done (n_mul acc x_first p RNone)) (fun acc =>
  rbind (done (n_mul terminal_pow x_first p RNone)) (fun terminal_pow =>
  rbind (done (n_add acc add p RNone)) (fun acc =>
  if (niter <? MAX_CACHE * 10) && negb is_div then series_horner f acc terminal_pow x_step g
  else series_linear f acc terminal_pow x_step g)))))))).

(** series.rs 85-105. *)
Definition series_run (f : nat) (acc x_first x_step : num) (niter : Z) (g : G) : run num :=
  rbind (if is_zero x_first || is_zero x_step then done (series_compute_fast acc x_first g)
         else if RECT_ITER_THRESHOLD <=? niter then series_rectangular f niter acc x_first x_step g
         else if is_div then series_linear f acc x_first x_step g
         else series_horner f acc x_first x_step g)
    (fun r => Some (Ok (set_inexact r true))).
End Gen.
