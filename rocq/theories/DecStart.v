(** Reading decimal digits: the integer that is scaled, and what a refused
    rounding says about the approximation. *)

From Coq Require Import ZArith List Bool Lia Reals Lra.
From Flocq Require Import Core Relative.
From Verif Require Import Words IntModel MulModel DivModel Mantissa Num Pow Conv Dec DecConv SpecZ WordsP WordsP2 Spec SpecPow SpecText SpecDec RoundP RealP RealP2 NumP CmpP AddP SetP AddNum MulNum DivNum ArithTop IntNum RoundableNum PowP PowNum PowTop IntP MulP MulP2 DivP DivP2 DecP DecRead DecScale.
Import ListNotations.
Open Scope Z_scope.
Ltac Zify.zify_post_hook ::= idtac.
Arguments Z.mul : simpl never.
Arguments Z.add : simpl never.
Arguments Z.pow : simpl never.
Arguments Z.sub : simpl never.
Arguments Z.of_nat : simpl never.
Ltac dlia := Z.div_mod_to_equations; lia.

(** ** The words of the integer are not padded *)
Definition tight (w : words) : Prop := zlen w <= 1 \/ 2 ^ (64 * (zlen w - 1)) <= val w.

Lemma join_pair_tight a b T c : words_ok a -> words_ok b -> words_ok T -> val a < val T -> join_pair a b T = Ok c -> tight c.
Proof.
  intros A B C L. unfold join_pair. destruct (mul_unbalanced_spec b T (zlen b + zlen T) B C ltac:(lia)) as (w & E & V & W & Z1).
  rewrite E. cbn [bind]. set (y := w ++ [0]).
  assert (U: val y = val w /\ words_ok y /\ zlen y = zlen w + 1).
  { subst y. rewrite val_app. cbn [val]. split; [lia|]. split; [apply Forall_app; split; auto; constructor; [lia|constructor]|].
    unfold zlen. rewrite app_length. cbn [length]. lia. }
  destruct U as (U1 & U2 & U3). pose proof (val_bound w W). pose proof (val_bound b B). pose proof (val_bound T C). pose proof (zlen_nonneg b). pose proof (zlen_nonneg T).
  assert (F: val y + val a < 2 ^ (64 * zlen y)).
  { rewrite U1, U3, Z1. assert (val T < 2 ^ (64 * (zlen b + zlen T))) by (eapply Z.lt_le_trans; [apply H1|apply Z.pow_le_mono_r; lia]).
    rewrite Z1 in H. replace (64 * (zlen b + zlen T + 1)) with (64 * (zlen b + zlen T) + 64) by lia. rewrite Z.pow_add_r by lia. change (2 ^ 64) with 18446744073709551616. lia. }
  destruct (add_assign_fit y a U2 A F) as (V2 & W2 & _).
  intros [= <-]. unfold sws_add_assign, sws_add_sub_assign. cbn [sw sg]. change (1 * 1) with 1. change (1 <? 0) with false. cbn match. cbn [sw].
  match type of W2 with words_ok ?z => set (g := z) in * end.
  destruct (trunc_leading_zeroes_spec g W2) as (V3 & W3 & _ & T1 & T2).
  destruct (Z.eq_dec (val g) 0) as [G|G]; [left; change (zlen (trunc_leading_zeroes g) <= 1); rewrite (T2 G); vm_compute; discriminate|right].
  change (2 ^ (64 * (zlen (trunc_leading_zeroes g) - 1)) <= val (trunc_leading_zeroes g)). rewrite V3. apply T1. exact G.
Qed.

Lemma join_pairs_tight T : words_ok T -> 0 < val T -> forall l r, chunks_ok (val T) l -> Forall tight l -> join_pairs l T = Ok r -> Forall tight r.
Proof.
  intros WT T0 l. induction l as [|a|a b l IH] using chunks_len_ind; intros r H F; cbn [join_pairs].
  - now intros [= <-].
  - now intros [= <-].
  - apply Forall_cons_iff in H. destruct H as [[Wa La] H]. apply Forall_cons_iff in H. destruct H as [[Wb Lb] H].
    apply Forall_cons_iff in F. destruct F as [Fa F]. apply Forall_cons_iff in F. destruct F as [Fb F].
    destruct (join_pair a b T) as [c|e|] eqn:E; cbn [bind]; try discriminate. destruct (join_pairs l T) as [r'|e|]; cbn [bind]; try discriminate.
    intros [= <-]. constructor; [|apply IH; auto]. eapply (join_pair_tight a b T); eauto.
Qed.

Lemma join_loop_tight tp : tps_ok tp -> forall f l p w, chunks_ok (10 ^ 2 ^ Z.of_nat p) l -> Forall tight l -> join_loop f l tp p = Ok w -> tight w.
Proof.
  intros Htp. induction f; intros l p w C F E.
  - destruct l as [|a [|b l]]; cbn [join_loop] in E; try discriminate. injection E as <-. inversion F; auto.
  - destruct l as [|a [|b l]].
    + cbn [join_loop] in E. destruct (nth_error tp p) as [t|] eqn:Et; [|discriminate]. cbn [join_pairs bind] in E. eapply IHf; [| |exact E]; constructor.
    + cbn [join_loop] in E. injection E as <-. inversion F; auto.
    + set (L := a :: b :: l) in *. destruct (nth_error tp p) as [t|] eqn:Et; [|subst L; cbn [join_loop] in E; rewrite Et in E; discriminate].
      replace (join_loop (S f) L tp p) with (do r <- join_pairs L (tp_val t); join_loop f r tp (S p)) in E by (subst L; cbn [join_loop]; rewrite Et; reflexivity).
      pose proof (Htp _ _ Et) as [W1 _ P1 _ _ _ _].
      assert (T0: 0 < val (tp_val t)) by (rewrite P1; apply ten_pos, Z.pow_nonneg; lia).
      rewrite <- P1 in C. destruct (join_pairs_ok (tp_val t) W1 T0 L C) as (r & E1 & C2 & _). rewrite E1 in E. cbn [bind] in E.
      rewrite P1, <- sq_ten in C2. eapply IHf; [exact C2| |exact E]. eapply join_pairs_tight; [exact W1|exact T0|exact C|exact F|exact E1].
Qed.

Lemma dec_chunks_single : forall ds word t i l, dec_chunks ds word t i = Ok l -> Forall tight l.
Proof.
  induction ds as [|v ds IH]; intros word t i l; cbn [dec_chunks].
  - destruct (0 <? i); intros [= <-]; constructor; [left; vm_compute; discriminate|constructor].
  - destruct (9 <? v); [discriminate|]. destruct (i + 1 =? 16); [|apply IH].
    destruct (dec_chunks ds 0 1 0) as [r|e|] eqn:E; cbn [bind]; try discriminate. intros [= <-]. constructor; [left; vm_compute; discriminate|]. eapply IH; exact E.
Qed.

Lemma from_dec_tight tp ds m : tps_ok tp -> digits_ok 10 ds -> m_conv_from_dec ds tp = Ok m -> tight (mm m).
Proof.
  intros Htp D. unfold m_conv_from_dec. destruct ds as [|d ds]; [discriminate|]. destruct (d =? 0); [discriminate|]. set (l := d :: ds) in *. clearbody l.
  destruct (dec_chunks_ok (rev l) 0 0 ltac:(apply Forall_rev; exact D) ltac:(lia) ltac:(split; reflexivity || lia)) as (c & E & C & _).
  change (10 ^ 0) with 1 in E. rewrite E. cbn [bind]. destruct (join_loop (length c) c tp 4) as [w|e|] eqn:J; cbn [bind]; try discriminate.
  intros [= <-]. unfold m_from_word_buf. cbn [mm]. eapply (join_loop_tight tp Htp); [|eapply dec_chunks_single; exact E|exact J]. exact C.
Qed.

(** ** Starting point: the integer as a number *)
Lemma start_ok m s : nat_mant m -> tight (mm m) -> 0 < val (mm m) -> mn m <= EMAX ->
  let x := mk_num (snd (m_normilize2 m)) s (mn m) false in
  wf x /\ normal x /\ ns x = s /\ ninexact x = false /\ value x = IZR (sgnZ s * val (mm m)).
Proof.
  intros [Hok Hb] Ht V He x. destruct (maximize_spec (mm m) Hok V) as (w & Ew & W0 & W1 & W2 & W3 & W4).
  unfold x, m_normilize2. rewrite Ew. cbn [snd]. unfold max_bit_len, mlen.
  assert (Z1 : 0 < zlen (mm m)). { destruct (mm m) as [|v l]; [rewrite val_nil in V; lia|]. rewrite zlen_cons. pose proof (zlen_nonneg l). lia. }
  assert (Bw : bitlen (val w) = 64 * zlen (mm m)) by (apply bitlen_unique; lia).
  assert (B0 : 0 < bitlen (val (mm m))) by (apply bitlen_pos; exact V).
  assert (Lz : 64 * (zlen (mm m) - 1) <= mn m).
  { destruct Ht as [Ht|Ht]; [lia|]. rewrite Hb. destruct (bitlen_spec _ V) as [_ B]. 
    assert (64 * (zlen (mm m) - 1) < bitlen (val (mm m))); [|lia]. apply (Z.pow_lt_mono_r_iff 2); lia. }
  split; [|split; [|split; [reflexivity|split; [reflexivity|]]]].
  - constructor; unfold magnitude, wlen; cbn [nm ne mm mn]; auto; try lia.
  - unfold normal, nonzero, magnitude, wlen. cbn [nm mm mn]. rewrite W3. split; [auto|]. pose proof (pow2_gt0 (64 * zlen (mm m) - bitlen (val (mm m))) W0). nia.
  - unfold value, magnitude, wlen. cbn [nm mm ns ne]. rewrite W1, W3, F2R_shift by auto. rewrite Hb. 
    replace (bitlen (val (mm m)) - 64 * zlen (mm m) + (64 * zlen (mm m) - bitlen (val (mm m)))) with 0 by lia. unfold F2R. cbn [Fnum Fexp bpow]. apply Rmult_1_r.
Qed.

(** ** Exact numbers are always accepted *)
Lemma try_exact x p rm s : wf x -> ninexact x = false -> 0 < p ->
  try_set_precision x p rm s = match set_precision x p rm with Ok y => Ok (y, true) | Err e => Err e | Panic => Panic end.
Proof.
  intros Wx Ix Hp. pose proof (wf_words x Wx) as Hok. unfold try_set_precision, set_precision, set_precision_internal, p_assertion. rewrite Ix.
  destruct (P_LIM <=? p); [reflexivity|]. cbn [bind]. unfold mantissa_max_bit_len, max_bit_len, mlen. fold (wlen x).
  replace (0 <? p) with true by lia. rewrite andb_true_r. cbv zeta. destruct (Z.ltb_spec p (64 * wlen x)) as [H|H].
  - rewrite (rm_unchecked _ _ rm _ s (64 * wlen x) false Hok) by (fold (wlen x); lia).
    assert (C : ro_chk (round_mantissa (mm (nm x)) (64 * wlen x - p) rm (is_positive x) false (64 * wlen x) false) = false).
    { destruct rm; [reflexivity|..]; 
      match goal with |- ro_chk (round_mantissa ?a ?b ?r ?c _ ?d _) = _ =>
        assert (Hb : 0 < b < 64 * zlen a) by (fold (wlen x); lia); destruct (round_mantissa_spec a b r c d false Hok Hb ltac:(discriminate)) as (_ & C & _); exact C end. }
    rewrite C. cbn [andb]. destruct (ro_ovf _); [destruct (_ =? _); reflexivity|].
    destruct (m_is_all_zero _); [reflexivity|]. destruct (m_is_subnormal _); reflexivity.
  - replace (p =? 0) with false by lia. reflexivity.
Qed.

(** ** A refused rounding *)
Lemma scan_kept td : forall l cc rz, Z.of_nat (length l) <= cc -> forall cc' rz', fold_left (scan_word td) l (true, cc, rz) = (true, cc', rz') -> Forall (fun v => v = td) l.
Proof.
  induction l as [|v l IH]; intros cc rz Hc cc' rz' E; [constructor|]. cbn [fold_left] in E. cbn [length] in Hc. rewrite Nat2Z.inj_succ in Hc.
  unfold scan_word in E at 2. replace (0 <? cc) with true in E by lia. cbn [andb] in E. destruct (Z.eqb_spec v td) as [->|N]; cbn [negb] in E.
  - constructor; [reflexivity|]. eapply IH; [|exact E]. lia.
  - destruct (scan_false l td cc (if v =? 0 then rz else false)) as (c2 & E2). rewrite E2 in E. discriminate E.
Qed.

Lemma val_const td l : Forall (fun v => v = td) l -> (2 ^ 64 - 1) * val l = td * (2 ^ (64 * zlen l) - 1).
Proof.
  induction 1 as [|v l -> H IH]; [rewrite val_nil; change (2 ^ (64 * zlen [])) with 1; lia|]. rewrite val_cons, zlen_cons.
  replace (64 * (1 + zlen l)) with (64 + 64 * zlen l) by lia. pose proof (zlen_nonneg l). rewrite Z.pow_add_r by lia. set (B := 2 ^ 64) in *. set (C := 2 ^ (64 * zlen l)) in *. replace ((B - 1) * (td + B * val l)) with ((B - 1) * td + B * ((B - 1) * val l)) by ring. rewrite IH. ring.
Qed.

Lemma peek_inside m i t cc : 0 < t -> exists chk rz td, rm_peek m i t true cc = (chk, cc, rz, td, i) /\ (td = 0 \/ td = WORD_MAX).
Proof.
  intros Ht. unfold rm_peek. replace (0 <? t) with true by lia. 
  destruct (negb _); [|do 3 eexists; split; [reflexivity|auto]]. destruct (_ =? _); [do 3 eexists; split; [reflexivity|auto]|]. destruct (negb _); do 3 eexists; split; try reflexivity; auto.
Qed.

(** [w] is the working precision; the approximation has one more word. *)
Lemma refused x p rm w y : wf x -> p mod 64 = 0 -> w mod 64 = 0 -> 0 < p -> p + 64 <= w -> 64 * wlen x = w + 64 ->
  try_set_precision x p rm w = Ok (y, false) -> exists c, 0 <= c <= 2 ^ (p + 64) /\ Z.abs (magnitude x - c * 2 ^ (w - p)) <= 2 ^ 64.
Proof.
  intros Wx Hp64 Hw64 Hp Hw HL T. pose proof (wf_words x Wx) as Hok. pose proof (wf_lim x Wx) as Hlen. pose proof (val_bound _ Hok) as HM. fold (magnitude x) (wlen x) in HM.
  assert (Ew : 2 ^ (64 * wlen x) = 2 ^ (p + 64) * 2 ^ (w - p)) by (rewrite <- Z.pow_add_r by lia; f_equal; lia).
  assert (G1 : 0 < 2 ^ (w - p)) by (apply Z.pow_pos_nonneg; lia).
  assert (Rm : rm <> RNone).
  { intros ->. revert T. unfold try_set_precision, set_precision_internal, p_assertion. replace (P_LIM <=? p) with false by lia. cbn [bind].
    unfold mantissa_max_bit_len, max_bit_len, mlen. fold (wlen x). replace (p <? 64 * wlen x) with true by lia. replace (0 <? p) with true by lia. cbn [andb]. cbv zeta.
    cbn [round_mantissa ro_chk ro_m ro_ovf andb]. destruct (m_is_all_zero _); [discriminate|]. destruct (m_is_subnormal _); discriminate. }
  destruct (nearest rm) eqn:Nr.
  - assert (Cn : ro_chk (round_mantissa (mm (nm x)) (64 * wlen x - p) rm (is_positive x) (ninexact x) w (ninexact x)) = true).
    { revert T. unfold try_set_precision, set_precision_internal, p_assertion. replace (P_LIM <=? p) with false by lia. cbn [bind].
      unfold mantissa_max_bit_len, max_bit_len, mlen. fold (wlen x). replace (p <? 64 * wlen x) with true by lia. replace (0 <? p) with true by lia. cbn [andb]. cbv zeta.
      destruct (ro_chk _); [reflexivity|]. cbn [andb]. destruct (ro_ovf _); [destruct (_ =? _); discriminate|]. destruct (m_is_all_zero _); [discriminate|]. destruct (m_is_subnormal _); discriminate. }
    destruct (ninexact x) eqn:Ix.
    2:{ destruct (round_mantissa_spec (mm (nm x)) (64 * wlen x - p) rm (is_positive x) w false Hok ltac:(fold (wlen x); lia) Rm) as (_ & C & _). exfalso. rewrite Cn in C. discriminate C. }
    revert Cn. unfold round_mantissa. cbv zeta. fold (wlen x). replace (0 <? 64 * wlen x - p) with true by lia. replace (64 * wlen x - p <? 64 * wlen x) with true by lia. cbn [andb].
    assert (B64 : 64 * wlen x < WORD_BASE) by (eapply Z.lt_trans; [exact Hlen|vm_compute; reflexivity]).
    replace ((64 * wlen x - p - (64 * wlen x - w)) mod WORD_BASE / 64) with ((w - p) / 64) by (rewrite Z.mod_small by lia; f_equal; lia).
    replace ((64 * wlen x - p - 1) / 64) with ((w - p) / 64) by (rewrite HL; clear - Hp64 Hw64; dlia).
    replace ((64 * wlen x - p - 1) mod 64) with 63 by (rewrite HL; clear - Hp64 Hw64; dlia).
    set (i := (w - p) / 64). assert (Hi : w - p = 64 * i) by (unfold i; clear - Hp64 Hw64; dlia). assert (I0 : 0 <= i < wlen x) by lia.
    destruct (peek_inside (mm (nm x)) i 63 i ltac:(lia)) as (chk & rz & td & -> & TD). set (l := ztake i (mm (nm x))).
    assert (Ll : zlen l = i) by (unfold l; apply zlen_ztake; fold (wlen x); lia).
    destruct (fold_left (scan_word td) l (chk, i, rz)) as [[chk' cc'] rz'] eqn:FE.
    intros Cn. assert (Ck : chk' = true). { destruct rm; try discriminate Nr; destruct chk'; auto; cbn [ro_chk] in Cn; repeat destruct (rm_finish _ _ _ _); try discriminate Cn;
      match type of Cn with context [let '(_, _) := ?e in _] => destruct e; discriminate Cn | _ => idtac end. }
    subst chk'. destruct chk; [|destruct (scan_false l td i rz) as (c2 & E2); rewrite E2 in FE; discriminate FE].
    pose proof (scan_kept td l i rz ltac:(fold (zlen l); lia) _ _ FE) as AL. pose proof (val_const td l AL) as VC. rewrite Ll, <- Hi in VC.
    pose proof (val_take_drop i (mm (nm x)) ltac:(fold (wlen x); lia)) as VD. fold l (magnitude x) in VD. rewrite <- Hi in VD.
    pose proof (val_nonneg _ (ok_zdrop i _ Hok)) as D0. set (h := val (zdrop i (mm (nm x)))) in *.
    assert (Hh : h < 2 ^ (p + 64)). { rewrite VD, Ew in HM. pose proof (val_nonneg l (ok_ztake i _ Hok)). apply (Z.mul_lt_mono_pos_r (2 ^ (w - p))); [exact G1|]. lia. }
    change (2 ^ 64) with 18446744073709551616 in *. destruct TD as [-> | ->].
    + exists h. split; [lia|]. assert (val l = 0) by lia. rewrite VD, H. replace (0 + 2 ^ (w - p) * h - h * 2 ^ (w - p)) with 0 by ring. cbn. lia.
    + change WORD_MAX with (18446744073709551616 - 1) in VC. apply Z.mul_reg_l in VC; [|lia].
      exists (h + 1). split; [lia|]. rewrite VD, VC. replace (2 ^ (w - p) - 1 + 2 ^ (w - p) * h - (h + 1) * 2 ^ (w - p)) with (-1) by ring. cbn. lia.
  - set (q := (w - p) / 64). assert (Hq : w - p = 64 * q) by (unfold q; clear - Hp64 Hw64; dlia).
    assert (E64 : 64 * wlen x - w = 64) by lia.
    pose proof (try_succeeds x p rm w Wx ltac:(lia) Hw64 ltac:(lia) Rm ltac:(intros E; congruence)) as TS. rewrite Nr, E64, T in TS. cbn [Z.b2z] in TS. rewrite Z.sub_0_r in TS. fold q in TS. cbv zeta in TS. rewrite <- Hq in TS.
    set (A := magnitude x / 2 ^ 64) in *. assert (A0 : 0 <= A) by (apply Z.div_pos; lia).
    pose proof (Z.div_mod (magnitude x) (2 ^ 64) ltac:(lia)) as E1. fold A in E1. pose proof (Z.mod_pos_bound (magnitude x) (2 ^ 64) ltac:(lia)) as B1.
    pose proof (Z.div_mod A (2 ^ (w - p)) ltac:(lia)) as E2. pose proof (Z.mod_pos_bound A (2 ^ (w - p)) G1) as B2. pose proof (Z.div_pos A (2 ^ (w - p)) A0 G1) as B3.
    set (h := A / 2 ^ (w - p)) in *. set (v := A mod 2 ^ (w - p)) in *. set (G := 2 ^ (w - p)) in *.
    assert (V : v = 0 \/ v = G - 1). { destruct (Z.eq_dec v 0); [auto|]. destruct (Z.eq_dec v (G - 1)); [auto|]. exfalso. assert (false = true) by (apply TS; lia). discriminate. }
    assert (P64 : 2 ^ (p + 64) = 2 ^ p * 2 ^ 64) by (rewrite <- Z.pow_add_r by lia; reflexivity).
    assert (Hh : h < 2 ^ p). { rewrite Ew, P64 in HM. set (Y := 2 ^ 64) in *. set (X := 2 ^ p) in *. assert (Y0 : 0 < Y) by reflexivity. assert (A < X * G) by (apply (Z.mul_lt_mono_pos_l Y); [exact Y0|]; clear -HM E1 B1; nia). apply (Z.mul_lt_mono_pos_r G); [exact G1|]. clear -H E2 B2. lia. }
    rewrite P64. set (Y := 2 ^ 64) in *. assert (Y0 : 0 < Y) by reflexivity. set (X := 2 ^ p) in *. clearbody h v G Y X A. destruct V as [-> | ->].
    + exists (h * Y). split; [split; [apply Z.mul_nonneg_nonneg; lia|apply Z.mul_le_mono_nonneg_r; lia]|]. rewrite E1, E2. replace (Y * (G * h + 0) + magnitude x mod Y - h * Y * G) with (magnitude x mod Y) by ring. lia.
    + exists ((h + 1) * Y). split; [split; [apply Z.mul_nonneg_nonneg; lia|apply Z.mul_le_mono_nonneg_r; lia]|]. rewrite E1, E2. replace (Y * (G * h + (G - 1)) + magnitude x mod Y - (h + 1) * Y * G) with (magnitude x mod Y - Y) by ring. lia.
Qed.

(** ** A decimal fraction close to a short binary fraction is equal to it *)
Lemma five_bits k : 0 <= k -> 5 ^ k <= 2 ^ (3 * k).
Proof. intros. replace (5 ^ k) with (5 ^ (1 * k)) by (f_equal; lia). apply pow_ub; try lia. Qed.

Lemma frac_equal D c k t g : 0 <= k -> g + 3 * k < t -> g + 3 * k < - k ->
  (Rabs (IZR D / IZR (10 ^ k) - IZR c * bpow radix2 t) <= bpow radix2 g)%R -> (IZR D / IZR (10 ^ k) = IZR c * bpow radix2 t)%R.
Proof.
  intros Hk H1 H2 H. set (h := Z.min t (- k)).
  assert (F0 : 0 < 5 ^ k) by (apply Z.pow_pos_nonneg; lia). assert (FR : (0 < IZR (5 ^ k))%R) by (apply IZR_lt; exact F0).
  assert (B0 : (0 < bpow radix2 (- h))%R) by apply bpow_gt_0.
  set (N := D * 2 ^ (- k - h) - c * 5 ^ k * 2 ^ (t - h)).
  assert (E : ((IZR D / IZR (10 ^ k) - IZR c * bpow radix2 t) * (IZR (5 ^ k) * bpow radix2 (- h)) = IZR N)%R).
  { unfold N. rewrite minus_IZR, !mult_IZR, <- !bpow_IZR by lia. unfold Z.sub. rewrite !bpow_plus. replace (10 ^ k) with (5 ^ k * 2 ^ k) by (rewrite <- Z.pow_mul_l; reflexivity).
    rewrite mult_IZR, <- (bpow_IZR k), (bpow_opp _ k) by lia. pose proof (bpow_gt_0 radix2 k). field. split; lra. }
  assert (AN : (Rabs (IZR N) < 1)%R).
  { rewrite <- E, Rabs_mult. rewrite (Rabs_pos_eq (_ * _)%R) by (apply Rmult_le_pos; lra).
    apply Rle_lt_trans with (bpow radix2 g * (bpow radix2 (3 * k) * bpow radix2 (- h)))%R.
    - apply Rmult_le_compat; [apply Rabs_pos|apply Rmult_le_pos; lra|exact H|]. apply Rmult_le_compat_r; [lra|]. rewrite bpow_IZR by lia. apply IZR_le. apply five_bits. exact Hk.
    - rewrite <- !bpow_plus. change 1%R with (bpow radix2 0). apply bpow_lt. unfold h. lia. }
  rewrite <- abs_IZR in AN. apply lt_IZR in AN. assert (N0 : N = 0) by lia. rewrite N0 in E.
  assert (X : (IZR D / IZR (10 ^ k) - IZR c * bpow radix2 t = 0)%R). { apply Rmult_integral in E. destruct E as [E|E]; [exact E|]. exfalso. apply Rmult_integral in E. lra. }
  lra.
Qed.
