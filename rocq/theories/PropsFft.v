(** Property theorems: multiplication of large operands by the fast Fourier transform. *)

From Coq Require Import ZArith List Bool Lia.
From Verif Require Import Words IntModel Fft MulModel SpecZ WordsP MulP MulP2 FftP5.
Import ListNotations.
Open Scope Z_scope.

(** ** C89.  [fft_mul], with the products of the parts computed by the whole
    multiplication, is the integer product: no reduction modulo 2^n1 + 1 loses a
    coefficient and no loop runs out of its bound. *)
Theorem C89_fft_is_product : forall d1 d2 l3, words_ok d1 -> words_ok d2 -> 1 <= zlen d1 -> 1 <= zlen d2 ->
  1024 <= zlen d1 + zlen d2 < 2 ^ 26 -> zlen d1 + zlen d2 <= l3 ->
  exists r, fft_mul mul_unbalanced d1 d2 l3 = Ok r /\ val r = val d1 * val d2 /\ words_ok r /\ zlen r = l3.
Proof.
  intros d1 d2 l3 W1 W2 L1 L2 HL Hl. apply fft_mul_ok; auto. intros a b l Wa Wb _ Hab. exact (mul_unbalanced_spec a b l Wa Wb Hab).
Qed.

(** The largest words: the case in which the coefficients are largest. *)
Definition ones_of (n : Z) : words := repeat WORD_MAX (Z.to_nat n).
Lemma ones_len n : 0 <= n -> zlen (ones_of n) = n.
Proof. intros. unfold zlen, ones_of. rewrite repeat_length. lia. Qed.
Lemma ones_ok n : words_ok (ones_of n).
Proof. apply Forall_forall. intros x Hx. apply repeat_spec in Hx. subst x. lia. Qed.

Example C89_case : exists r, fft_mul mul_unbalanced (ones_of 300) (ones_of 6000) 6300 = Ok r /\ val r = val (ones_of 300) * val (ones_of 6000).
Proof.
  pose proof (ones_len 300 ltac:(lia)) as A. pose proof (ones_len 6000 ltac:(lia)) as B.
  destruct (C89_fft_is_product (ones_of 300) (ones_of 6000) 6300 (ones_ok _) (ones_ok _)) as (r & E & V & _); [lia|lia|lia|lia|].
  exists r. auto.
Qed.

(** The multiplication reaches it: two operands of 6000 words each go through the FFT. *)
Example C89_reached : forall f m1 m2 l3, zlen m1 = 6000 -> zlen m2 = 6000 -> mul_unbalanced_body f m1 m2 l3 = fft_mul f m2 m1 l3.
Proof. intros f m1 m2 l3 E1 E2. unfold mul_unbalanced_body. rewrite E1, E2. change (6000 <? 6000) with false. cbv iota beta. unfold mul_slices. rewrite E1, E2. reflexivity. Qed.

(** The lower bound on the sizes is needed: on operands of 9 and 14 words, on
    which the multiplication never uses it, the FFT is wrong. *)
Example C89_small_operands : exists r, fft_mul mul_unbalanced (ones_of 9) (ones_of 14) 23 = Ok r /\ val r <> val (ones_of 9) * val (ones_of 14).
Proof. eexists. split; [vm_compute; reflexivity|]. intros H. apply (f_equal (fun z => z mod 2 ^ 1472)) in H. revert H. vm_compute. discriminate. Qed.

Print Assumptions C89_fft_is_product.
