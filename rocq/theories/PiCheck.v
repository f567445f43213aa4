(** Fixed-point approximations of pi (Machin's formula) and of the Chudnovsky series with
    2240 fractional bits, and the comparison of the two.  Proofs about them are in PiNum. *)

From Coq Require Import ZArith List Bool.
Import ListNotations.
Open Scope Z_scope.

(** P/d - P/(m2 (d+2)) + P/(m2^2 (d+4)) - ... *)
Fixpoint at_sum (n : nat) (m2 P d : Z) : Z := match n with O => 0 | S n => P / d - at_sum n m2 (P / m2) (d + 2) end.
(** The Chudnovsky terms after the first, from the weight [w] before term [k]. *)
Definition ch_num (k : Z) : Z := (6 * k - 5) * (2 * k - 1) * (6 * k - 1).
Definition ch_den (k : Z) : Z := 10939058860032000 * k ^ 3.
Definition ch_lin (k : Z) : Z := 13591409 + 545140134 * k.
Fixpoint ch_sum (n : nat) (k w : Z) : Z := match n with O => 0 | S n => let w' := w * ch_num k / ch_den k in ch_lin k * w' - ch_sum n (k + 1) w' end.

Definition NB : Z := 2240.
Definition M5 : nat := Z.to_nat 483.
Definition M239 : nat := Z.to_nat 142.
Definition KC : nat := Z.to_nat 49.
(** pi (13591409 + S) = 426880 sqrt(10005), up to 80 bits. *)
Definition chud_ok (p c : Z) : bool :=
  let x := p * c in
  let s := Z.shiftr (x / 426880) NB in
  (0 <=? s) && (Z.abs (x - Z.shiftl (426880 * s) NB) <=? Z.shiftl 1 (NB + 20)) && (Z.abs (s * s - Z.shiftl 10005 (2 * NB)) <=? Z.shiftl 1 (NB + 60)).
(** The 60 bits after the last of [k] bits and the half bit are not all equal. *)
Definition bits_ok (p k : Z) : bool :=
  let t := Z.shiftr p (NB - k - 59) mod 2 ^ 60 in (4 <=? t) && (t <=? 2 ^ 60 - 5).
Definition pi_check (p c : Z) : bool := chud_ok p c && forallb (fun i => bits_ok p (64 * i)) (map Z.of_nat (seq 1 32)).
Theorem pi_check_ok : exists p c,
  p = 16 * at_sum (S M5) 25 (2 ^ NB / 5) 1 - 4 * at_sum (S M239) 57121 (2 ^ NB / 239) 1 /\ c = 13591409 * 2 ^ NB - ch_sum KC 1 (2 ^ NB) /\
  pi_check p c = true.
Proof. eexists. eexists. split; [reflexivity|]. split; [reflexivity|]. vm_compute. reflexivity. Qed.
Theorem terms_enough : (2 ^ NB <=? 5 ^ (2 * Z.of_nat M5 + 3)) = true /\ (2 ^ NB <=? 239 ^ (2 * Z.of_nat M239 + 3)) = true.
Proof. vm_compute. split; reflexivity. Qed.
