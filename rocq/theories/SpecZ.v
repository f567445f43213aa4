(** Integer-level specification vocabulary, independent of the model's algorithms. *)

From Coq Require Import ZArith List Bool Lia.
Import ListNotations.
Open Scope Z_scope.

(** The natural number denoted by a little-endian sequence of 64-bit words. *)
Fixpoint val (m : list Z) : Z :=
  match m with
  | [] => 0
  | a :: t => a + 2 ^ 64 * val t
  end.

(** Every word is in range. *)
Definition words_ok (m : list Z) : Prop := Forall (fun v => 0 <= v < 2 ^ 64) m.

(** Bit length of a natural number: 0 for 0, position of the top bit plus 1 otherwise. *)
Definition bitlen (z : Z) : Z := if z =? 0 then 0 else Z.log2 z + 1.
