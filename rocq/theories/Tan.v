(** Model of the tangent (ops/tan.rs).  No proofs in this file.

    [f] is the fuel of the retry loop, [g] that of the cost optimiser and of the series, [h]
    that of the constant pi; the cache of pi is threaded through. *)

From Coq Require Import ZArith List Bool.
From Verif Require Import Words IntModel Mantissa Num Pow Consts Elem Series Exp Ln Sin Cos.
Import ListNotations.
Open Scope Z_scope.

(** ** The number of reductions *)

(** tan.rs 27-31; WORD_BIT_SIZE is 64. *)
Definition tan_iter_cost (p : Z) : Z := 9 * calc_mul_cost p + 2 * (calc_add_cost p + calc_add_cost 64).
(** tan.rs 50-60. *)
Definition tan_red_cost (n p : Z) : Z := n * (2 * calc_mul_cost p + calc_add_cost p).
Definition tan_red_effect (n m : Z) : Z := n + m.
(** series.rs 50-83 with [ext] true and the power step 1; [cost1 = None] stands for u64::MAX,
    the first cost being below it. *)
Fixpoint tan_optimize_loop (f : nat) (p m step times : Z) (cost1 : option Z) : option (Z * Z * Z) :=
  match f with
  | O => None
  | S f =>
      let m_eff := tan_red_effect times m in
      let niter := series_niter p m_eff / 1 in
      let cost2 := tan_iter_cost p * niter + tan_red_cost times p in
      if match cost1 with None => true | Some c => cost2 <? c end
      then tan_optimize_loop f p m step (times + step) (Some cost2)
      else Some (times - step, niter, m_eff)
  end.
Definition tan_optimize (f : nat) (p m : Z) : option (Z * Z * Z) :=
  let step := log2_floor p / 2 in
  let times := if m <? step then step - m else 0 in
  tan_optimize_loop f p m step times None.

(** ** The series *)

(** The variables of the loop tan.rs 162-193. *)
Record tan_state := mk_tan { t_xxacc : num; t_fct : num; t_inc : num; t_p1 : num; t_q1 : num; t_p2 : num; t_q2 : num }.

(** tan.rs 166-170 and 180-184: one step of a fraction P/Q. *)
Definition tan_frac (p : Z) (rm : rmode) (xxacc fct P Q : num) : result (num * num) :=
  do P <- n_mul P fct p rm;
  do n1 <- n_mul xxacc Q p rm;
  do P <- n_add P n1 p rm;
  do Q <- n_mul Q fct p rm;
  Ok (P, Q).
(** tan.rs 172-177 and 186-191. *)
Definition tan_fct (p : Z) (rm : rmode) (fct inc : num) : result (num * num) :=
  do inc <- n_add inc ONE (mantissa_max_bit_len inc) rm;
  do fct <- (if mantissa_max_bit_len fct <? p then n_mul_full_prec fct inc else n_mul fct inc p rm);
  Ok (fct, inc).
(** tan.rs 162-193. *)
Definition tan_step (p : Z) (rm : rmode) (xx : num) (s : tan_state) : result tan_state :=
  do xxacc <- n_mul (t_xxacc s) xx p rm;
  do c <- tan_frac p rm xxacc (t_fct s) (t_p1 s) (t_q1 s);
  do i <- tan_fct p rm (t_fct s) (t_inc s);
  do d <- tan_frac p rm xxacc (fst i) (t_p2 s) (t_q2 s);
  do j <- tan_fct p rm (fst i) (snd i);
  Ok (mk_tan xxacc (fst j) (snd j) (fst c) (snd c) (fst d) (snd d)).
Fixpoint tan_run_loop (g : nat) (p : Z) (rm : rmode) (xx : num) (s : tan_state) : run tan_state :=
  match g with
  | O => None
  | S g =>
      if ne (t_fct s) - ne (t_xxacc s) <=? p
      then rbind (done (tan_step p rm xx s)) (tan_run_loop g p rm xx)
      else Some (Ok s)
  end.
(** tan.rs 147-203. *)
Definition tan_series_run (g : nat) (x : num) (rm : rmode) : run num :=
  let p := mantissa_max_bit_len x in
  rbind (done (n_mul x x p rm)) (fun xx =>
  let xx := n_neg xx in
  rbind (done (from_word 1 1)) (fun one =>
  rbind (done (from_word 2 1)) (fun two =>
  rbind (tan_run_loop g p rm xx (mk_tan one two two one one one one)) (fun s =>
  rbind (done (n_mul (t_p2 s) (t_q1 s) p rm)) (fun n0 =>
  rbind (done (n_mul n0 x p rm)) (fun n1 =>
  rbind (done (n_mul (t_p1 s) (t_q2 s) p rm)) (fun n2 =>
  rbind (done (n_div n1 n2 p rm)) (fun ret =>
  Some (Ok (set_inexact ret true)))))))))).

(** tan.rs 206-219 is cos.rs 190-203. *)
Definition tan_arg_reduce (x : num) (n : Z) : result num := cos_arg_reduce x n.
(** tan.rs 222-236. *)
Fixpoint tan_restore_loop (n : nat) (p : Z) (rm : rmode) (v : num) : result num :=
  match n with
  | O => Ok v
  | S n =>
      do sq <- n_mul v v p rm;
      do q <- n_sub ONE sq p rm;
      do v <- n_div (set_exponent v (ne v + 1)) q p rm;
      tan_restore_loop n p rm v
  end.
Definition tan_arg_restore (v : num) (n : Z) (rm : rmode) : result num := tan_restore_loop (Z.to_nat n) (mantissa_max_bit_len v) rm v.

(** tan.rs 113-144. *)
Definition tan_series (g : nat) (x : num) (rm : rmode) : run num :=
  let p := mantissa_max_bit_len x in
  match tan_optimize g p (- ne x) with
  | None => None
  | Some (n, _, e_eff) =>
      let add_prec := n * 4 + 9 - e_eff in
      let p_arg := p + (if 0 <? add_prec then add_prec else 0) in
      rbind (done (set_precision x p_arg rm)) (fun x =>
      rbind (done (if 0 <? n then tan_arg_reduce x n else Ok x)) (fun arg =>
      rbind (tan_series_run g arg rm) (fun ret =>
      if 0 <? n then done (tan_arg_restore ret n rm) else Some (Ok ret))))
  end.

(** ** The retry loop: tan.rs 88-110 *)
Fixpoint tan_loop (f g h : nat) (c : pi_cache) (x : num) (p : Z) (rm : rmode) (p_wrk p_inc add_p : Z) : prun num :=
  match f with
  | O => None
  | S f =>
      pbind (ppure c (set_precision x (p_wrk + add_p) RNone)) (fun c y =>
      pbind (reduce_trig_arg h c y RNone) (fun c y =>
      pbind (trig_arg_pi_proximity h c y RNone) (fun c '(t, _) =>
      if add_p <? t then tan_loop f g h c x p rm p_wrk p_inc t
      else
        match tan_series g y RNone with
        | None => None
        | Some r =>
            pbind (ppure c r) (fun c ret =>
            pbind (ppure c (try_set_precision ret p rm p_wrk)) (fun c '(ret, ok) =>
            if ok then ppure c (Ok (set_inexact ret (ninexact ret || ninexact x)))
            else tan_loop f g h c x p rm (p_wrk + p_inc) (round_p ((p_wrk + p_inc) / 5)) add_p))
        end)))
  end.
(** tan.rs 73-87; 3 - TRIG_EXP_THRES is 67. *)
Definition f_tan (f g h : nat) (c : pi_cache) : num -> Z -> rmode -> prun num :=
  odd_in (fun r => Some (c, r)) (fun x p rm => tan_loop f g h c x p rm (Z.max p (mantissa_max_bit_len x) + 64) 64 67) 1 false.
