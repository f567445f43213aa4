(** The sine for arguments from four to 2^64 in magnitude. *)

From Coq Require Import ZArith List Bool Lia Reals Lra.
From Flocq Require Import Core Relative.
From Verif Require Import Words IntModel Mantissa Num Pow Consts Elem Series Exp Sin SpecZ SpecOps SpecConst SpecPow SpecElem WordsP Spec RealP RealP2 NumP CmpP AddP SetP AddNum MulNum DivNum ArithTop ConvNum Conv2Num RootP ConstP ConstNum ExtP PowExt Refute1 ElemR ElemDom SmallP ElemNum ApproxR ApproxNum SeriesNum SinhR SinhNum SinhTop ExpNum RetryNum ConstReach SpecReach ExpTop HypNum HypTop TanhNum AltNum SinTop SinBig SinFour SinEight.
From Verif Require Import MulModel DivModel WordsP2 MulP MulP2 DivP DivP2 RemNum Ln AltDiv AtanR AtanTop PiNum IntNum WfTop AtanBig PropsConst CosBig TanBig.
Import ListNotations.
Open Scope Z_scope.
Ltac Zify.zify_post_hook ::= idtac.
Arguments Z.mul : simpl never.
Arguments Z.add : simpl never.
Arguments Z.pow : simpl never.
Arguments Z.sub : simpl never.
Arguments Z.of_nat : simpl never.
Ltac dlia := Z.div_mod_to_equations; lia.


(** ** The length of a remainder *)
Lemma rem_len x y q : wf x -> wf y -> normal x -> normal y -> wlen x < wlen y -> ne y <= ne x -> ne x - ne y <= 64 -> wlen y <= wlen x + 1 -> ne x - ne y < 64 * wlen x ->
  EMIN <= ne y - 64 * wlen y -> n_rem x y = Ok q -> wlen y <= wlen q <= wlen y + 1.
Proof.
  intros Wx Wy Nx Ny HL HE HE2 HL2 HE3 Hlow. unfold n_rem. rewrite (is_zero_false y Wy (proj2 Ny)), (is_zero_false x Wx (proj2 Nx)).
  destruct (nonzero_bits x Wx (proj2 Nx)) as (Mx & Bx & Lx). destruct (normalize_spec y Wy (proj2 Ny)) as (m2 & -> & O2 & L2 & N2 & T2 & _). cbn [bind]. pose proof (wf_words x Wx) as Okx.
  assert (NE : norm_exp y = ne y) by (unfold norm_exp; destruct Ny as [E _]; rewrite E; lia). rewrite NE. unfold max_bit_len, mlen. fold (wlen x). rewrite L2.
  assert (Mod2 : modulus m2) by (unfold modulus; repeat split; auto; pose proof (zlen_nonneg (mm (nm x))); unfold wlen in *; lia). destruct (modulus_div m2 Mod2) as (_ & K1 & K2 & P2). pose proof (val_bound (mm m2) O2) as VB2. rewrite L2 in VB2.
  set (d := ne x - 64 * wlen x - (ne y - 64 * wlen y)). assert (Hd : 0 < d < 64 * wlen y) by (unfold d; lia).
  replace (ne y - 64 * wlen y <? ne x - 64 * wlen x) with true by (symmetry; apply Z.ltb_lt; unfold d in Hd; lia). replace (64 * wlen y <=? d) with false by (symmetry; apply Z.leb_gt; lia). cbn [bind].
  destruct (two_pow2 d ltac:(lia)) as [PW1 PW2]. set (pw := m_pow2 (mk_m [2] 2) (d - 1)) in *. clearbody pw.
  unfold m_rem. unfold div_unbalanced at 1. replace (zlen (mm (nm x)) <? zlen (mm m2)) with true by (symmetry; apply Z.ltb_lt; rewrite L2; exact HL). cbn [bind].
  unfold m_mul_mod, mlen. cbn [mm].
  destruct (mul_unbalanced_spec (mm (nm x)) (mm pw) (zlen (mm (nm x)) + zlen (mm pw)) Okx PW1 ltac:(lia)) as (t & -> & T1 & T3 & _). cbn [bind].
  destruct (trunc_leading_zeroes_spec t T3) as (B1 & B2 & B3 & B4 & B5). set (u := trunc_leading_zeroes t) in *. clearbody u.
  assert (VX : 2 ^ (64 * wlen x - 1) <= val (mm (nm x)) < 2 ^ (64 * wlen x)).
  { destruct Nx as [E _]. pose proof (val_bound (mm (nm x)) Okx) as VB. fold (wlen x) in VB. split; [|lia]. unfold nonzero in *; pose proof (bitlen_spec (val (mm (nm x))) Mx) as BB. pose proof (wf_bits x Wx) as Bt. unfold magnitude in Bt. rewrite <- Bt, E in BB. apply BB. }
  rewrite PW2 in T1. assert (D0 : 0 < 2 ^ d) by (apply Z.pow_pos_nonneg; lia).
  assert (TL : 2 ^ (64 * wlen y - 1) <= val t). { rewrite T1. apply Z.le_trans with (2 ^ (64 * wlen x - 1) * 2 ^ d); [rewrite <- Z.pow_add_r by (pose proof (wf_exp x Wx); lia); apply Z.pow_le_mono_r; [lia|unfold d; lia]|apply Z.mul_le_mono_nonneg_r; lia]. }
  assert (TU : val t < 2 ^ (64 * (wlen y + 1))). { rewrite T1. apply Z.lt_le_trans with (2 ^ (64 * wlen x) * 2 ^ d); [apply Z.mul_lt_mono_pos_r; lia|]. rewrite <- Z.pow_add_r by lia. apply Z.pow_le_mono_r; [lia|unfold d; lia]. }
  assert (Z0 : val t <> 0) by (pose proof (Z.pow_pos_nonneg 2 (64 * wlen y - 1)); lia). destruct (B4 Z0) as [C1 C2]. pose proof (val_bound u B2) as UB. rewrite B1 in UB.
  assert (U1 : wlen y <= zlen u). { assert (64 * wlen y - 1 < 64 * zlen u); [|lia]. apply (Z.pow_lt_mono_r_iff 2); lia. }
  assert (U2 : zlen u <= wlen y + 1). { assert (64 * (zlen u - 1) < 64 * (wlen y + 1)); [|lia]. apply (Z.pow_lt_mono_r_iff 2); lia. }
  destruct (div_unbalanced_spec u (mm m2) B2 O2 K1 K2) as (qq & r & -> & A1 & A2 & A3 & A4 & A5 & A6 & A7). cbn [bind]. rewrite L2 in A7. specialize (A7 U1).
  set (m3 := mk_m r (find_bit_len r)). assert (L3 : wlen y <= zlen (mm m3) <= wlen y + 1) by (cbn [mm m3]; lia). assert (O3 : words_ok (mm m3)) by exact A4. assert (N3 : mn m3 = bitlen (val (mm m3))) by (cbn [mn mm m3]; now apply find_bit_len_spec). clearbody m3.
  unfold rem_finalize. destruct (Z.ltb_spec 0 (mn m3)) as [G|G]; [|intros E; injection E as <-; exact L3].
  destruct (EXPONENT_MAX <? ne y - 64 * wlen y + mn m3); [discriminate|]. replace (ne y - 64 * wlen y + mn m3 <? EXPONENT_MIN) with false by (symmetry; apply Z.ltb_ge; change EXPONENT_MIN with EMIN; lia).
  intros E. injection E as <-. change (wlen y <= zlen (mm (snd (m_normilize2 m3))) <= wlen y + 1). unfold m_normilize2. assert (V3 : 0 < val (mm m3)). { pose proof (val_nonneg _ O3). destruct (Z.eq_dec (val (mm m3)) 0) as [Q|Q]; [|lia]. rewrite N3, Q in G. cbn in G. lia. }
  destruct (maximize_spec (mm m3) O3 V3) as (w & -> & _ & _ & _ & LW & _). cbn [snd mm]. rewrite LW. exact L3.
Qed.

(** ** The sine is periodic *)
Lemma sin_diff a b : (Rabs (sin a - sin b) <= Rabs (a - b))%R.
Proof.
  rewrite form4, !Rabs_mult, (Rabs_pos_eq 2) by lra. pose proof (sin_abs_le ((a - b) / 2)) as S. assert (B : (Rabs (cos ((a + b) / 2)) <= 1)%R) by (apply Rabs_le; pose proof (COS_bound ((a + b) / 2)); lra).
  unfold Rdiv in S at 2. rewrite Rabs_mult, (Rabs_pos_eq (/ 2)) in S by lra. pose proof (Rabs_pos (sin ((a - b) / 2))) as S0. set (x := Rabs (sin ((a - b) / 2))) in *. set (y := Rabs (cos ((a + b) / 2))) in *. assert (y * x <= 1 * x)%R by (apply Rmult_le_compat_r; lra). lra.
Qed.
Lemma sin_turns x k : sin (x - IZR k * (2 * PI)) = sin x.
Proof.
  destruct (Z_le_gt_dec 0 k) as [H|H].
  - rewrite <- (sin_period (x - IZR k * (2 * PI)) (Z.to_nat k)). rewrite INR_IZR_INZ, Z2Nat.id by exact H. f_equal. ring.
  - rewrite <- (sin_period x (Z.to_nat (- k))). rewrite INR_IZR_INZ, Z2Nat.id, opp_IZR by lia. f_equal. ring.
Qed.
Lemma cos_turns x k : cos (x - IZR k * (2 * PI)) = cos x.
Proof. rewrite !cos_sin. replace (PI / 2 + (x - IZR k * (2 * PI)))%R with (PI / 2 + x - IZR k * (2 * PI))%R by ring. apply sin_turns. Qed.
Lemma sin_near_pi y : (Rabs (sin y) <= Rabs (y - PI))%R.
Proof. rewrite <- (sin_PI_x y), Rabs_minus_sym. apply sin_abs_le. Qed.
Lemma sin_near_2pi y : (Rabs (sin y) <= Rabs (y - 2 * PI))%R.
Proof. rewrite <- (sin_turns y 1), Rmult_1_l. apply sin_abs_le. Qed.
Lemma sin_abs_abs y : Rabs (sin (Rabs y)) = Rabs (sin y).
Proof. unfold Rabs at 2. destruct (Rcase_abs y); [rewrite sin_neg, Rabs_Ropp|]; reflexivity. Qed.

Lemma PI_lower : (PI < 17 / 5)%R.
Proof.
  destruct (Rlt_le_dec PI (17 / 5)) as [L|L]; [exact L|exfalso]. pose proof (pre_cos_bound (17 / 10) 0 ltac:(lra) ltac:(lra)) as [_ B]. unfold cos_approx, cos_term in B. cbn in B. pose proof (cos_ge_0 (17 / 10) ltac:(lra) ltac:(lra)). lra.
Qed.

(** ** The reduction: util.rs 7-17 *)
Definition red_post (P : Z) (x : num) (o : prun num) : Prop :=
  match o with
  | None => False
  | Some (c, res) => reachable pi_new pi_for_prec c /\
      match res with
      | Ok r => wf r /\ normal r /\ P + 64 <= 64 * wlen r <= P + 128 /\ (bpow radix2 (-60) <= Rabs (value r) <= 7)%R /\ (bpow radix2 (-60) <= Rabs (sin (value r)))%R /\ (Rabs (sin (value r) - sin (value x)) <= eps P)%R /\ (Rabs (cos (value r) - cos (value x)) <= eps P)%R
      | _ => overflowed res
      end
  end.
Lemma reduce_ok c x P : reachable pi_new pi_for_prec c -> wf x -> normal x -> 64 * wlen x = P -> 192 <= P <= 1792 -> 3 <= ne x <= 64 -> (bpow radix2 (-59) <= Rabs (sin (value x)))%R ->
  red_post P x (reduce_trig_arg 31 c x RNone).
Proof.
  intros R W N L HP He HS. unfold reduce_trig_arg. replace (2 <? ne x) with true by (symmetry; apply Z.ltb_lt; lia). rewrite max_len, L.
  assert (PU : prec_up (P + ne x) = P + 64) by (unfold prec_up; clear - L He; dlia).
  destruct (pi_num_ok c (P + ne x) RNone R ltac:(lia) ltac:(lia)) as (c1 & r & -> & R1 & Hr). destruct r as [pi|e|]; [|split; [exact R1|exact Hr]|contradiction]. rewrite PU in Hr. cbn [pbind].
  assert (H128 : 128 <= P + 64) by lia. pose proof (pi_exp (P + 64) pi H128 Hr) as EP. destruct (whole_pi (P + 64) pi Pos H128 Hr) as [(_ & Nh & Dh) _]. destruct Hr as (Wp & Lp & Sp & _ & _ & _).
  assert (VP : value (set_sign pi Pos) = value pi) by (unfold value; cbn [set_sign ns]; rewrite Sp; reflexivity). rewrite VP in Dh. replace (sr Pos * PI)%R with PI in Dh by (unfold sr; cbn [sgnZ]; ring).
  pose proof (eps_pos (P + 64)) as Ep. pose proof (eps_pos P) as Ep1. assert (EE : (eps P = bpow radix2 64 * eps (P + 64))%R) by (unfold eps; rewrite <- bpow_plus; f_equal; lia).
  assert (ES : (eps P <= bpow radix2 (-60))%R) by (unfold eps; apply bpow_le; lia). assert (B60 : (bpow radix2 (-60) <= / 1024)%R) by (change (/ 1024)%R with (bpow radix2 (-10)); apply bpow_le; lia). assert (B59 : (bpow radix2 (-59) = 2 * bpow radix2 (-60))%R) by (change (-59) with (1 + -60); rewrite bpow_plus; reflexivity).
  assert (ES2 : (eps (P + 64) <= eps P)%R) by (unfold eps; apply bpow_le; lia). pose proof PI_lower as PL. pose proof PI_high as PH. assert (VB : (3 <= value pi <= 7 / 2)%R) by (apply Rabs_le_inv in Dh; lra).
  rewrite EP. change (2 + 1) with 3. pose proof (set_exponent_spec pi 3 Wp ltac:(split; vm_compute; discriminate)) as SE. cbv zeta in SE. destruct SE as (W2 & L2 & _ & _ & V2). set (p2 := set_exponent pi 3) in *. clearbody p2. rewrite EP in V2. change (bpow radix2 (3 - 2)) with 2%R in V2.
  assert (VA : Rabs (value p2) = (2 * value pi)%R) by (rewrite V2, Rabs_pos_eq by lra; ring).
  assert (N2 : normal p2). { apply normal_iff; [exact W2|]. rewrite VA. apply Rle_trans with (bpow radix2 0); [apply bpow_le; vm_compute; discriminate|]. change (bpow radix2 0) with 1%R. lra. }
  assert (E2 : ne p2 = 3). { destruct (normal_range p2 W2 N2) as [H1 H2]. rewrite VA in H1, H2. assert (ne p2 - 1 < 3) by (apply (lt_bpow radix2); change (bpow radix2 3) with 8%R; lra). assert (2 < ne p2) by (apply (lt_bpow radix2); change (bpow radix2 2) with 4%R; lra). lia. }
  assert (LY : wlen p2 = wlen x + 1) by lia.
  destruct (rem_total x p2 W W2 (proj2 N2) ltac:(eapply Z.le_lt_trans with 40000; [lia|vm_compute; reflexivity])) as (q & E & RP). rewrite E. cbn [ppure]. split; [exact R1|].
  pose proof (rem_len x p2 q W W2 N N2 ltac:(lia) ltac:(lia) ltac:(lia) ltac:(lia) ltac:(lia) ltac:(change EMIN with (-2147483648); lia) E) as LQ.
  unfold rem_post in RP. cbv zeta in RP. destruct RP as (Wq & Sq & _ & _ & _ & VQ & _). pose proof (rem_real_props (value x) (value p2) ltac:(lra)) as (RB & _ & _). set (rr := rem_real (value x) (value p2)) in *.
  set (K := Ztrunc (value x / value p2)) in *. assert (ER : (rr = value x - IZR K * value p2)%R) by reflexivity.
  destruct (normal_range x W N) as [_ X2]. assert (X3 : (Rabs (value x) <= bpow radix2 64)%R) by (left; eapply Rlt_le_trans; [exact X2|apply bpow_le; lia]).
  assert (KB : (Rabs (IZR K) <= bpow radix2 62)%R).
  { assert (KT : (Rabs (IZR K) <= Rabs (value x / value p2))%R). { unfold K. rewrite <- abs_IZR, <- Ztrunc_abs. set (z := Rabs (value x / value p2)). rewrite Ztrunc_floor by apply Rabs_pos. apply Zfloor_lb. }
    eapply Rle_trans; [exact KT|]. unfold Rdiv. rewrite Rabs_mult, Rabs_inv, VA. assert (I : (/ (2 * value pi) <= / 4)%R) by (apply Rinv_le; lra). assert (I0 : (0 < / (2 * value pi))%R) by (apply Rinv_0_lt_compat; lra). replace (bpow radix2 62) with (bpow radix2 64 * / 4)%R by (change (/ 4)%R with (bpow radix2 (-2)); rewrite <- bpow_plus; reflexivity). apply Rmult_le_compat; [apply Rabs_pos|lra|exact X3|exact I]. }
  assert (RD : (Rabs (rr - (value x - IZR K * (2 * PI))) <= eps P)%R).
  { rewrite ER, V2. replace (value x - IZR K * (value pi * 2) - (value x - IZR K * (2 * PI)))%R with (- (2 * (IZR K * (value pi - PI))))%R by ring. rewrite Rabs_Ropp, !Rabs_mult, (Rabs_pos_eq 2) by lra.
    assert (Rabs (IZR K) * Rabs (value pi - PI) <= bpow radix2 62 * (2 * eps (P + 64)))%R by (apply Rmult_le_compat; [apply Rabs_pos|apply Rabs_pos|exact KB|exact Dh]). rewrite EE. replace (bpow radix2 64) with (4 * bpow radix2 62)%R by (change 64 with (2 + 62); rewrite bpow_plus; reflexivity). lra. }
  assert (SD : (Rabs (sin rr - sin (value x)) <= eps P)%R) by (rewrite <- (sin_turns (value x) K); eapply Rle_trans; [apply sin_diff|exact RD]).
  assert (CD : (Rabs (cos rr - cos (value x)) <= eps P)%R) by (rewrite <- (cos_turns (value x) K); eapply Rle_trans; [apply cos_diff|exact RD]).
  assert (SR : (bpow radix2 (-60) <= Rabs (sin rr))%R). { pose proof (Rabs_triang (sin rr) (- (sin rr - sin (value x)))) as T. rewrite Rabs_Ropp in T. replace (sin rr + - (sin rr - sin (value x)))%R with (sin (value x)) in T by ring. lra. }
  assert (RA : (bpow radix2 (-60) <= Rabs rr)%R) by (eapply Rle_trans; [exact SR|apply sin_abs_le]).
  assert (EQ : value q = rr). { apply VQ. eapply Rle_trans; [|exact RA]. apply bpow_le. vm_compute. discriminate. } rewrite EQ.
  split; [exact Wq|]. split; [apply normal_iff; [exact Wq|rewrite EQ; eapply Rle_trans; [|exact RA]; apply bpow_le; vm_compute; discriminate]|]. split; [lia|]. split; [split; [exact RA|rewrite VA in RB; lra]|]. split; [exact SR|]. split; [exact SD|exact CD].
Qed.

(** ** The proximity: util.rs 20-51 *)
Definition prox_any (o : prun (Z * Z)) : Prop :=
  match o with
  | None => False
  | Some (c, res) => reachable pi_new pi_for_prec c /\ match res with Ok (t, q) => Z.even q && (67 <? t) = false | _ => overflowed res end
  end.
Lemma small_t n : -61 <= n <= 4 -> forall q, Z.even q && (67 <? Z.abs n) = false.
Proof. intros H q. replace (67 <? Z.abs n) with false by (symmetry; apply Z.ltb_ge; lia). apply andb_false_r. Qed.
Lemma ne_between v a b : wf v -> normal v -> (bpow radix2 a <= Rabs (value v))%R -> (Rabs (value v) < bpow radix2 b)%R -> a < ne v <= b.
Proof. intros W N A B. destruct (normal_range v W N) as [H1 H2]. split; [apply (lt_bpow radix2); lra|]. assert (ne v - 1 < b); [|lia]. apply (lt_bpow radix2). lra. Qed.
Lemma proximity_three c y P : reachable pi_new pi_for_prec c -> wf y -> normal y -> 64 * wlen y = P -> 192 <= P <= 1984 -> ne y = 3 -> (Rabs (value y) <= 7)%R -> (bpow radix2 (-60) <= Rabs (Rabs (value y) - 2 * PI))%R ->
  prox_any (trig_arg_pi_proximity 31 c y RNone).
Proof.
  intros R W N L HP He H7 FAR. unfold trig_arg_pi_proximity. rewrite He. change (0 <? 3) with true. change (3 <? 2) with false. cbn iota. rewrite max_len, L.
  assert (PU : prec_up (P + 3) = P + 64) by (unfold prec_up; clear - L; dlia). assert (PP : prec_up P = P) by (unfold prec_up; clear - L; dlia).
  destruct (pi_num_ok c (P + 3) RNone R ltac:(lia) ltac:(lia)) as (c1 & r & -> & R1 & Hr). destruct r as [pi|e|]; [|split; [exact R1|exact Hr]|contradiction]. rewrite PU in Hr. cbn [pbind].
  assert (H128 : 128 <= P + 64) by lia. destruct (whole_pi (P + 64) pi (ns y) H128 Hr) as [Ah EH]. pose proof (pi_swap _ _ (ns y) H128 Hr) as SW. destruct (half_pi (P + 64) pi (ns y) H128 Hr) as [Ah2 _]. rewrite <- SW in Ah2. set (hp := set_sign pi (ns y)) in *. clearbody hp.
  pose proof (eps_pos (P + 64)) as Ep. pose proof (eps_pos P) as Ep1. assert (ES : (64 * eps P <= bpow radix2 (-80))%R). { change 64%R with (bpow radix2 6). unfold eps. rewrite <- bpow_plus. apply bpow_le. lia. } assert (EQ : (eps (P + 64) <= eps P)%R) by (unfold eps; apply bpow_le; lia).
  assert (B80 : (bpow radix2 (-80) <= / 1024)%R) by (change (/ 1024)%R with (bpow radix2 (-10)); apply bpow_le; lia). assert (B60 : (1024 * bpow radix2 (-80) <= bpow radix2 (-60))%R). { change 1024%R with (bpow radix2 10). rewrite <- bpow_plus. apply bpow_le. lia. }
  destruct (normal_range y W N) as [Y1 _]. rewrite He in Y1. change (bpow radix2 (3 - 1)) with 4%R in Y1. pose proof PI_low as PL. pose proof PI_high as PH.
  assert (PLIM : prec_up P < P_LIM) by (rewrite PP; eapply Z.le_lt_trans; [apply HP|vm_compute; reflexivity]). assert (HPP : 128 <= P <= prec_up P) by lia.
  pose proof (value_has_sign y W (proj2 N)) as VS. set (s := ns y) in *. set (ay := Rabs (value y)) in *. assert (YV : value y = (sr s * ay)%R) by (unfold ay, has_sign, sr in *; destruct s; cbn [sgnZ] in *; [rewrite Rabs_left by lra|rewrite Rabs_pos_eq by lra]; ring).
  assert (SA : forall a, Rabs (sr s * a) = Rabs a). { intros a. rewrite Rabs_mult. replace (Rabs (sr s)) with 1%R; [ring|]. unfold sr. destruct s; cbn [sgnZ]; [rewrite Rabs_left by lra|rewrite Rabs_pos_eq by lra]; ring. }
  assert (AY : sab 0 (sr s * ay) y) by (split; [exact W|]; split; [exact N|]; rewrite YV, Rminus_diag_eq, Rabs_R0 by reflexivity; lra).
  assert (D1 : (Rabs (sr s * ay - sr s * PI) = ay - PI)%R) by (replace (sr s * ay - sr s * PI)%R with (sr s * (ay - PI))%R by ring; rewrite SA, Rabs_pos_eq by lra; reflexivity).
  destruct (sab_sub P P RNone HPP PLIM _ _ _ _ _ _ AY Ah) as (ret & -> & A1 & L1 & _); [rewrite D1; lra|rewrite D1; apply (mid_range (-1) 2); [vm_compute; discriminate|vm_compute; discriminate|]; change (bpow radix2 (-1)) with (/ 2)%R; change (bpow radix2 2) with 4%R; lra|]. cbn [ppure pbind]. rewrite D1 in A1. replace (sr s * ay - sr s * PI)%R with (sr s * (ay - PI))%R in A1 by ring.
  assert (E1 : (0 + 2 * eps (P + 64) + 3 * eps P * (ay - PI) <= 16 * eps P)%R). { assert (eps P * (ay - PI) <= eps P * 4)%R by (apply Rmult_le_compat_l; lra). lra. } apply (sab_weak _ _ _ _ E1) in A1. pose proof A1 as (Wr & Nr & Dr).
  pose proof (value_has_sign ret Wr (proj2 Nr)) as VR. assert (SR : ns ret = s /\ (49 / 100 <= Rabs (value ret) < 4)%R).
  { apply Rabs_le_inv in Dr. unfold has_sign, sr in *. destruct (ns ret), s; cbn [sgnZ] in *; try (exfalso; lra); (split; [reflexivity|]); [rewrite Rabs_left by lra|rewrite Rabs_pos_eq by lra]; lra. } destruct SR as [SR AR].
  pose proof (ne_between ret (-2) 2 Wr Nr ltac:(change (bpow radix2 (-2)) with (/ 4)%R; lra) ltac:(change (bpow radix2 2) with 4%R; lra)) as NR.
  destruct (Z.ltb_spec 0 (ne ret)) as [G|G]; cbn [andb]; [|split; [exact R1|]; apply small_t; lia]. rewrite SR. replace (sign_eqb s s) with true by (destruct s; reflexivity).
  destruct (Z.ltb_spec (ne ret) 2) as [G2|G2].
  - (* an odd multiple of half of pi *)
    pose proof Ah2 as (Wh & Nh & Dh). set (h2 := set_exponent hp 1) in *. clearbody h2.
    assert (AH : (3 / 2 <= Rabs (value h2) < 2)%R). { apply Rabs_le_inv in Dh. unfold sr in Dh. destruct s; cbn [sgnZ] in Dh; [rewrite Rabs_left by lra|rewrite Rabs_pos_eq by lra]; lra. }
    pose proof (ne_between h2 0 1 Wh Nh ltac:(change (bpow radix2 0) with 1%R; lra) ltac:(change (bpow radix2 1) with 2%R; lra)) as NH.
    assert (OV : (Rabs (rnd_prec P RNone (value ret - value h2)) < bpow radix2 EMAX)%R). { eapply Rle_lt_trans with (bpow radix2 3); [|apply bpow_lt; vm_compute; reflexivity]. eapply Rle_trans; [apply trunc_le; lia|]. eapply Rle_trans; [apply Rabs_triang|]. rewrite Rabs_Ropp. change (bpow radix2 3) with 8%R. lra. }
    destruct (sub_ov ret h2 P RNone Wr Wh ltac:(lia) PLIM) as [_ O]. rewrite PP in O. destruct (O OV) as (ret2 & ->). cbn [ppure pbind]. split; [exact R1|]. rewrite EH. replace (ne h2) with 1 by lia. reflexivity.
  - assert (D2 : (Rabs (sr s * (ay - PI) - sr s * PI) = Rabs (ay - 2 * PI))%R) by (replace (sr s * (ay - PI) - sr s * PI)%R with (sr s * (ay - 2 * PI))%R by ring; apply SA). assert (D3 : (Rabs (ay - 2 * PI) <= 3)%R) by (apply Rabs_le; lra).
    destruct (sab_sub P P RNone HPP PLIM _ _ _ _ _ _ A1 Ah) as (ret2 & -> & A2 & _ & _); [rewrite D2; lra|rewrite D2; apply (mid_range (-60) 2); [vm_compute; discriminate|vm_compute; discriminate|]; change (bpow radix2 2) with 4%R; lra|]. cbn [ppure pbind]. split; [exact R1|]. rewrite D2 in A2. destruct A2 as (W2 & N2 & DD).
    assert (E2 : (16 * eps P + 2 * eps (P + 64) + 3 * eps P * Rabs (ay - 2 * PI) <= bpow radix2 (-80))%R). { assert (eps P * Rabs (ay - 2 * PI) <= eps P * 3)%R by (apply Rmult_le_compat_l; lra). lra. }
    set (a2 := (sr s * (ay - PI) - sr s * PI)%R) in *. assert (B61 : (bpow radix2 (-60) = 2 * bpow radix2 (-61))%R) by (change (-60) with (1 + -61); rewrite bpow_plus; reflexivity).
    assert (Q1 : (bpow radix2 (-61) <= Rabs (value ret2))%R). { pose proof (Rabs_triang (value ret2) (- (value ret2 - a2))) as T. rewrite Rabs_Ropp in T. replace (value ret2 + - (value ret2 - a2))%R with a2 in T by ring. lra. }
    assert (Q2 : (Rabs (value ret2) < 4)%R). { pose proof (Rabs_triang a2 (value ret2 - a2)) as T. replace (a2 + (value ret2 - a2))%R with (value ret2) in T by ring. lra. }
    pose proof (ne_between ret2 (-61) 2 W2 N2 Q1 ltac:(change (bpow radix2 2) with 4%R; exact Q2)) as NQ. apply small_t. lia.
Qed.
Lemma proximity_any c y P : reachable pi_new pi_for_prec c -> wf y -> normal y -> 64 * wlen y = P -> 192 <= P <= 1984 -> (bpow radix2 (-60) <= Rabs (value y) <= 7)%R -> (bpow radix2 (-60) <= Rabs (sin (value y)))%R ->
  prox_any (trig_arg_pi_proximity 31 c y RNone).
Proof.
  intros R W N L HP [V1 V2] FAR. pose proof (ne_between y (-60) 3 W N V1 ltac:(change (bpow radix2 3) with 8%R; lra)) as NY. rewrite <- sin_abs_abs in FAR.
  destruct (Z_le_gt_dec (ne y) 0) as [H0|H0]; [unfold trig_arg_pi_proximity; replace (0 <? ne y) with false by (symmetry; apply Z.ltb_ge; exact H0); cbn [ppure]; split; [exact R|apply small_t; lia]|].
  destruct (Z.eq_dec (ne y) 1) as [H1|H1]; [|destruct (Z.eq_dec (ne y) 2) as [H2|H2]].
  - pose proof (proximity_ok c y P R W N L ltac:(lia) H1) as O. destruct (trig_arg_pi_proximity 31 c y RNone) as [[c1 [[t q]|e|]]|]; try exact O. destruct O as (O1 & -> & _). split; [exact O1|reflexivity].
  - pose proof (proximity_two c y P R W N L ltac:(lia) H2) as O. destruct (trig_arg_pi_proximity 31 c y RNone) as [[c1 [[t q]|e|]]|]; try exact O. destruct O as (O1 & -> & O2). split; [exact O1|]. specialize (O2 (Rle_trans _ _ _ FAR (sin_near_pi _))). replace (67 <? t) with false by (symmetry; apply Z.ltb_ge; lia). reflexivity.
  - apply (proximity_three c y P); try assumption; [lia|]. exact (Rle_trans _ _ _ FAR (sin_near_2pi _)).
Qed.

(** ** The series of a reduced argument *)
Lemma sin_series_any g y P : 192 <= P <= 2 ^ 20 -> wf y -> normal y -> 64 * wlen y = P -> (bpow radix2 (-60) <= Rabs (value y) <= 7)%R -> (bpow radix2 (-60) <= Rabs (sin (value y)))%R ->
  ends (sin_series g y RNone) (fun q => sab (bpow radix2 58 * eps P) (sin (value y)) q /\ P <= 64 * wlen q /\ ninexact q = true).
Proof.
  intros HP W N L [V1 V2] FAR. pose proof (ne_between y (-60) 3 W N V1 ltac:(change (bpow radix2 3) with 8%R; lra)) as NY. rewrite <- sin_abs_abs in FAR. assert (FAR2 : (bpow radix2 (-61) <= Rabs (sin (Rabs (value y))))%R) by (eapply Rle_trans; [|exact FAR]; apply bpow_le; lia).
  pose proof (sr_sin _ _ (value_has_sign y W (proj2 N))) as SS. pose proof (eps_pos P) as Ep. pose proof (SIN_bound (Rabs (value y))) as SB.
  assert (AP : forall k q, 0 <= k <= 2 ^ 57 -> apx P (ns y) k (sin (Rabs (value y))) q -> sab (bpow radix2 58 * eps P) (sin (value y)) q).
  { intros k q Hk A. pose proof A as (_ & _ & _ & (A0 & _)). apply apx_sab in A; [|lia|lia]. rewrite SS in A. eapply sab_weak; [|exact A]. assert (K : (0 <= IZR k <= bpow radix2 57)%R) by (split; [apply IZR_le; lia|change (bpow radix2 57) with (IZR (2 ^ 57)); apply IZR_le; lia]). replace (bpow radix2 58) with (2 * bpow radix2 57)%R by (change 58 with (1 + 57); rewrite bpow_plus; reflexivity).
    apply Rle_trans with (2 * IZR k * eps P * 1)%R; [apply Rmult_le_compat_l; [apply Rmult_le_pos; lra|lra]|]. assert (IZR k * eps P <= bpow radix2 57 * eps P)%R by (apply Rmult_le_compat_r; lra). lra. }
  destruct (Z_le_gt_dec (ne y) 0) as [H0|H0]; [|destruct (Z.eq_dec (ne y) 1) as [H1|H1]; [|destruct (Z.eq_dec (ne y) 2) as [H2|H2]]].
  - destruct (sin_series_ok g y P (ns y) ltac:(lia) W N eq_refl L ltac:(lia)) as [E|(q & E & A & B)]; [left; exact E|right; exists q; split; [exact E|]; split; [|exact B]]. apply (AP SinTop.KN); [split; vm_compute; discriminate|exact A].
  - destruct (sin_series_big g y P (ns y) ltac:(lia) W N eq_refl L H1) as [E|(q & E & A & B)]; [left; exact E|right; exists q; split; [exact E|]; split; [|exact B]]. apply (AP SinBig.KS); [split; vm_compute; discriminate|exact A].
  - destruct (sin_series_four g y P (ns y) ltac:(lia) W N eq_refl L H2 FAR2) as [E|(q & E & A & B)]; [left; exact E|right; exists q; split; [exact E|]; split; [|exact B]]. rewrite SS in A. exact A.
  - destruct (sin_series_eight g y P (ns y) ltac:(lia) W N eq_refl L ltac:(lia) V2 FAR2) as [E|(q & E & A & B)]; [left; exact E|right; exists q; split; [exact E|]; split; [|exact B]]. rewrite SS in A. exact A.
Qed.

(** ** The loop *)
Section Loop.
Context (x0 : num) (p : Z) (rm : rmode) (g : nat).
Hypotheses (W0 : wf x0) (N0 : nonzero x0) (Hp : 0 < p) (Hp64 : p mod 64 = 0) (He : 3 <= ne x0 <= 64) (FAR : (bpow radix2 (-59) <= Rabs (sin (value x0)))%R).

Theorem sin_loop_huge : forall f c w i, reachable pi_new pi_for_prec c -> p + 64 <= w -> w mod 64 = 0 -> 64 <= i -> i mod 64 = 0 -> 128 <= w -> 64 * wlen x0 <= w -> i <= 64 * (((w + i) / 5 + 63) / 64) ->
  work f w i + 128 <= 1792 -> sin_big_post x0 p rm (sin_loop f g 31 c x0 p rm w i 67).
Proof.
  induction f as [|f IH]; intros c w i RC Hpw Hw64 Hi Hi64 Hw HLx Hii HB; [exact I|].
  pose proof (work_ge (Datatypes.S f) w i ltac:(lia) ltac:(lia)) as HG.
  change (work (Datatypes.S f) w i) with (work f (w + i) (64 * (((w + i) / 5 + 63) / 64))) in HB, HG.
  pose proof (work_ge f (w + i) (64 * (((w + i) / 5 + 63) / 64)) ltac:(lia) ltac:(clear - Hw Hi; dlia)) as HG2.
  assert (PW : prec_up (w + 67) = w + 128) by (unfold prec_up; clear - Hw64; dlia). assert (HPX : 192 <= w + 128 <= 1792) by (clear - HB HG HG2 Hw Hi; lia). assert (PL : prec_up (w + 67) < P_LIM) by (rewrite PW; apply Z.le_lt_trans with 1792; [apply HPX|vm_compute; reflexivity]).
  assert (HX : argument x0 w x0). { pose proof (argument_start x0 W0 N0 ltac:(change EMIN with (-2147483648); clear - He; lia)) as (_ & H2 & _). split; [exact W0|]. split; [exact H2|]. split; [reflexivity|]. split; [reflexivity|exact HLx]. }
  cbn [sin_loop]. destruct (argument_len x0 w x0 (w + 67) ltac:(lia) PL ltac:(lia) HX) as (y & -> & HY & Sy & Ly). rewrite PW in HY, Ly. cbn [ppure pbind]. pose proof HY as (Wy & Ny & Vy & Ey & _). rewrite <- Ey in He.
  assert (VV : value y = value x0). { pose proof (value_has_sign x0 W0 N0) as S1. pose proof (value_has_sign y Wy (proj2 Ny)) as S2. rewrite Sy in S2. unfold has_sign, Rabs in *. destruct (Rcase_abs (value y)), (Rcase_abs (value x0)), (ns x0); cbn [sgnZ] in *; lra. }
  pose proof (reduce_ok c y (w + 128) RC Wy Ny Ly ltac:(clear - HPX; lia) He ltac:(rewrite VV; exact FAR)) as RO. destruct (reduce_trig_arg 31 c y RNone) as [[c0 [z|e|]]|]; [|exact RO|exact RO|exact I]. cbn [red_post pbind] in RO |- *. destruct RO as (RC0 & Wz & Nz & Lz & Vz & Sz & Dz & _). rewrite VV in Dz. set (Q := 64 * wlen z) in *.
  pose proof (proximity_any c0 z Q RC0 Wz Nz eq_refl ltac:(clear - HPX Lz; lia) Vz Sz) as PP. destruct (trig_arg_pi_proximity 31 c0 z RNone) as [[c1 [[t q]|e|]]|]; [|exact PP|exact PP|exact I]. destruct PP as (R1 & PF). cbn [pbind]. rewrite PF.
  destruct (sin_series_any g z Q ltac:(clear - HPX Lz; lia) Wz Nz eq_refl Vz Sz) as [->|(ret & -> & A & L & Ir)]; [exact I|]. set (r := sin (value x0)) in *. cbn [ppure pbind].
  pose proof (bpow_gt_0 radix2 (-59)) as B59. assert (R0 : r <> 0%R) by (intros E; rewrite E, Rabs_R0 in FAR; lra). destruct (sign_of r R0) as (s & HS & ER).
  assert (AP : apx (w + 64) s (2 ^ 58) (Rabs r) ret).
  { apply (sab_apx (w + 64) s (2 ^ 58) (Rabs r) (2 * eps (w + 128)) ret ltac:(clear - Hw; lia) ltac:(lra) ltac:(clear; lia)).
    - rewrite <- ER. destruct A as (Wa & Na & Da). split; [exact Wa|]. split; [exact Na|]. pose proof (Rabs_triang (value ret - sin (value z)) (sin (value z) - r)) as T. replace (value ret - sin (value z) + (sin (value z) - r))%R with (value ret - r)%R in T by ring.
      assert (bpow radix2 58 * eps Q <= eps (w + 128))%R by (unfold eps; rewrite <- bpow_plus; apply bpow_le; clear - Lz; lia). lra.
    - apply Rle_trans with (IZR (2 ^ 58) * eps (w + 64) * bpow radix2 (-59))%R; [|apply Rmult_le_compat_l; [apply Rmult_le_pos; [apply IZR_le; lia|left; apply eps_pos]|exact FAR]]. change (IZR (2 ^ 58)) with (bpow radix2 58). replace (2 * (2 * eps (w + 128)))%R with (bpow radix2 2 * eps (w + 128))%R by (change (bpow radix2 2) with 4%R; ring). unfold eps. rewrite <- !bpow_plus. apply bpow_le. lia. }
  destruct AP as (Wr & Nr & Sr & LCr).
  pose proof (accept_elem r ret p rm w (2 ^ 58) Wr Nr Ir ltac:(clear - L Lz; lia) ltac:(rewrite Sr; exact HS) LCr ltac:(clear; lia) Hp Hp64 Hw64 Hpw) as AE.
  destruct (try_set_precision ret p rm w) as [[qq [|]]|[tt| | |]|]; try contradiction; cbn [ppure pbind].
  - split; [exact R1|]. now apply elem_mark.
  - rewrite round_step by (clear - HG HG2 HB Hw Hi; lia). apply IH; [exact R1|lia| |clear - Hw Hi; dlia|rewrite Z.mul_comm; apply Z.mod_mul; lia|lia|lia| |exact HB].
    + clear - Hw64 Hi64. dlia.
    + assert (D : (w + i) / 5 <= (w + i + 64 * (((w + i) / 5 + 63) / 64)) / 5) by (apply Z.div_le_mono; [lia|]; clear - Hw Hi; dlia). assert ((((w + i) / 5 + 63) / 64) <= (((w + i + 64 * (((w + i) / 5 + 63) / 64)) / 5 + 63) / 64)) by (apply Z.div_le_mono; lia). lia.
  - split; [exact R1|exact I].
Qed.
End Loop.

Theorem sin_huge_ok f g c x p rm : reachable pi_new pi_for_prec c -> wf x -> 0 < p -> (4 <= Rabs (value x) < bpow radix2 64)%R -> (bpow radix2 (-59) <= Rabs (sin (value x)))%R ->
  work f (Z.max (prec_up p) (64 * wlen x) + 64) 64 + 128 <= 1792 ->
  sin_big_post x (prec_up p) rm (f_sin f g 31 c x p rm).
Proof.
  intros R W Hp HV FAR HB. assert (N : normal x). { apply normal_iff; [exact W|]. eapply Rle_trans with (bpow radix2 0); [apply bpow_le; vm_compute; discriminate|]. change (bpow radix2 0) with 1%R. lra. }
  assert (He : 3 <= ne x <= 64). { pose proof (ne_between x 2 64 W N ltac:(change (bpow radix2 2) with 4%R; lra) ltac:(lra)). lia. }
  change (Z.max (prec_up p) (64 * wlen x)) with (max64 (prec_up p) x) in HB. assert (P64 : 64 <= prec_up p) by (unfold prec_up; clear - Hp; dlia). assert (M1 : prec_up p <= max64 (prec_up p) x) by (unfold max64; lia). assert (M2 : 64 * wlen x <= max64 (prec_up p) x) by (unfold max64; lia).
  pose proof (work_ge f (max64 (prec_up p) x + 64) 64 ltac:(lia) ltac:(lia)) as HG. assert (PL : max64 (prec_up p) x + 64 < P_LIM) by (eapply Z.le_lt_trans with 1984; [lia|vm_compute; reflexivity]).
  unfold f_sin. match goal with |- context [@odd_in ?A ?ok ?rest 2 true x p rm] => rewrite (@odd_in_rest A ok rest 2 true x p rm W (proj2 N) Hp ltac:(lia) ltac:(lia)) end. cbv beta. change (mantissa_max_bit_len x) with (64 * wlen x). change (Z.max (prec_up p) (64 * wlen x)) with (max64 (prec_up p) x).
  apply sin_loop_huge; [exact W|exact (proj2 N)|lia|apply prec_up_mod|exact He|exact FAR|exact R|lia|apply max_mod|lia|reflexivity|lia|lia|clear - M1 P64; dlia|exact HB].
Qed.
