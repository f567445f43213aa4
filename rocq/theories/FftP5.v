(** The decomposition of the factors and the product of two large slices (Fft.v). *)

From Coq Require Import ZArith List Bool Lia.
From Verif Require Import Words IntModel Fft SpecZ WordsP WordsP2 IntP MulP MulToom FftP1 FftP2 FftP3 FftP4.
Import ListNotations.
Open Scope Z_scope.
Ltac Zify.zify_post_hook ::= idtac.
Ltac dlia := Z.div_mod_to_equations; lia.
Arguments Z.mul : simpl never.
Arguments Z.add : simpl never.
Arguments Z.pow : simpl never.
Arguments Z.sub : simpl never.
#[local] Arguments Z.opp : simpl never.
Arguments Z.of_nat : simpl never.
#[local] Arguments Nat.pow : simpl never.

(** ** Decomposition *)
Fixpoint leval (m : Z) (ps : list sws) : Z :=
  match ps with [] => 0 | p :: r => val (sw p) + 2 ^ m * leval m r end.
Fixpoint parts_ok (m M pl : Z) (ps : list sws) : Prop :=
  match ps with
  | [] => True
  | p :: r => words_ok (sw p) /\ sg p = 1 /\ zlen (sw p) = pl /\ val (sw p) < 2 ^ (match r with [] => M | _ => m end) /\ parts_ok m M pl r
  end.

Lemma parts_cons m M pl p r : m <= M -> 0 <= m -> words_ok (sw p) -> sg p = 1 -> zlen (sw p) = pl -> val (sw p) < 2 ^ m -> parts_ok m M pl r -> parts_ok m M pl (p :: r).
Proof.
  intros HM H0 W S L V R. cbn [parts_ok]. repeat split; auto. destruct r; auto. apply Z.lt_le_trans with (2 ^ m); auto. apply Z.pow_le_mono_r; lia.
Qed.

(** Masking the word at [c] and clearing the one above keeps the low bits. *)
Lemma mask_val p c u : words_ok p -> 0 <= c -> c + 1 < zlen p -> 0 < u < 64 -> val p < 2 ^ (64 * (c + 2)) ->
  let q := zupd (c + 1) 0 p in let q := zupd c (Z.land (znth c q) (wshr WORD_MAX (64 - u))) q in
  words_ok q /\ zlen q = zlen p /\ val q = val p mod 2 ^ (64 * c + u).
Proof.
  intros W Hc Hl Hu Hv. cbv zeta. set (q := zupd (c + 1) 0 p).
  assert (Wq : words_ok q) by (apply ok_zupd; auto; lia). assert (Lq : zlen q = zlen p) by apply zlen_zupd.
  assert (EM : wshr WORD_MAX (64 - u) = Z.ones u).
  { unfold wshr. change WORD_MAX with (Z.ones 64). rewrite Z.ones_equiv, Z.ones_equiv, Z.shiftr_div_pow2 by lia.
    symmetry. apply Z.div_unique with (2 ^ (64 - u) - 1).
    - left. pose proof (pow2_gt0 (64 - u) ltac:(lia)). lia.
    - replace 64 with (64 - u + u) at 1 by ring. rewrite pow2_split by lia. unfold Z.pred. ring. }
  rewrite EM, Z.land_ones by lia.
  pose proof (val_take_drop c p ltac:(lia)) as D. pose proof (val_bound _ (ok_ztake c _ W)) as B. rewrite zlen_ztake in B by lia.
  rewrite val_zdrop in D by (auto; lia). set (lo := val (ztake c p)) in *. set (h := val p / 2 ^ (64 * c)) in *.
  assert (Eq : val q = lo + 2 ^ (64 * c) * (h mod 2 ^ 64)).
  { unfold q. rewrite zupd_val by lia. rewrite znth_val by (auto; lia). rewrite Z.mod_small.
    - rewrite D at 1. replace (64 * (c + 1)) with (64 * c + 64) by ring. rewrite pow2_split by lia. rewrite <- Z.div_div by (try apply Z.pow_nonzero; try apply pow2_gt0; lia). fold h.
      pose proof (Z.div_mod h (2 ^ 64) ltac:(lia)). set (A := 2 ^ (64 * c)) in *. clearbody A. set (hq := h / 2 ^ 64) in *. set (hr := h mod 2 ^ 64) in *. clearbody hq hr. rewrite H. ring.
    - pose proof (val_nonneg _ W). split; [apply Z.div_pos; [lia|apply pow2_gt0; lia]|]. apply Z.div_lt_upper_bound; [apply pow2_gt0; lia|].
      rewrite <- pow2_split by lia. replace (64 * (c + 1) + 64) with (64 * (c + 2)) by ring. exact Hv. }
  pose proof (pow2_gt0 (64 * c) ltac:(lia)) as PA.
  assert (En : znth c q = h mod 2 ^ 64).
  { rewrite znth_val by (auto; lia). rewrite Eq. rewrite Z.mul_comm, Z.div_add by lia. rewrite (Z.div_small lo) by lia. rewrite Z.add_0_l. apply Z.mod_mod. lia. }
  split; [apply ok_zupd; auto; rewrite En; pose proof (Z.mod_pos_bound (h mod 2 ^ 64) (2 ^ u) (pow2_gt0 u ltac:(lia))); assert (2 ^ u < 2 ^ 64) by (apply Z.pow_lt_mono_r; lia); lia|].
  split; [rewrite zlen_zupd; auto|].
  rewrite zupd_val by lia. rewrite En, Eq.
  assert (EE : (h mod 2 ^ 64) mod 2 ^ u = h mod 2 ^ u).
  { replace 64 with (u + (64 - u)) by ring. rewrite pow2_split by lia. pose proof (pow2_gt0 u ltac:(lia)). pose proof (pow2_gt0 (64 - u) ltac:(lia)).
    rewrite Z.rem_mul_r by lia. rewrite Z.mul_comm, Z.mod_add, Z.mod_mod by lia. reflexivity. }
  rewrite EE. rewrite pow2_split by lia. pose proof (pow2_gt0 u ltac:(lia)). rewrite Z.rem_mul_r by lia. fold h.
  assert (Ev : val p mod 2 ^ (64 * c) = lo) by (rewrite D, (Z.mul_comm _ h), Z.mod_add by lia; apply Z.mod_small; lia).
  rewrite Ev. ring.
Qed.

Lemma mod_div_mod D a b c : 0 <= a -> 0 <= b -> a + b <= c -> (D mod 2 ^ c / 2 ^ a) mod 2 ^ b = (D / 2 ^ a) mod 2 ^ b.
Proof.
  intros Ha Hb Hc. replace c with (a + (c - a)) by ring. rewrite pow2_split by lia. pose proof (pow2_gt0 a Ha). pose proof (pow2_gt0 (c - a) ltac:(lia)).
  rewrite Z.rem_mul_r by lia. rewrite (Z.mul_comm (2 ^ a)), Z.div_add by lia. rewrite (Z.div_small (D mod 2 ^ a)) by (apply Z.mod_pos_bound; lia). rewrite Z.add_0_l.
  replace (c - a) with (b + (c - a - b)) by ring. rewrite pow2_split by lia. pose proof (pow2_gt0 b Hb). pose proof (pow2_gt0 (c - a - b) ltac:(lia)).
  rewrite Z.rem_mul_r by lia. rewrite (Z.mul_comm (2 ^ b)), Z.mod_add by lia. apply Z.mod_mod. lia.
Qed.

Lemma decomp_bits_ok d m pl : words_ok d -> 1 <= m -> m mod 64 <> 0 -> (m + 63) / 64 + 1 <= pl -> forall room s, 0 <= s -> 64 * zlen d <= s + m * Z.of_nat room ->
  exists ps, decomp_bits room d m ((m + 63) / 64 + 1) (wshr WORD_MAX (64 - m mod 64)) s pl = Ok ps /\ (length ps <= room)%nat /\ parts_ok m (64 * ((m + 63) / 64)) pl ps /\
    leval m ps = val d / 2 ^ s /\ (ps <> [] -> s + m * (plen ps - 1) < 64 * zlen d) /\ (s < 64 * zlen d -> ps <> []).
Proof.
  intros W Hm Hm64 Hpl. pose proof (val_bound _ W) as B. pose proof (zlen_nonneg d) as L0.
  assert (Hu : 0 < m mod 64 < 64) by (pose proof (Z.mod_pos_bound m 64); lia).
  set (cs := (m + 63) / 64 + 1) in *. assert (Ecs : m = 64 * (cs - 2) + m mod 64) by (unfold cs; dlia). assert (Ecs1 : (m + 63) / 64 = cs - 1) by (unfold cs; ring). rewrite Ecs1.
  assert (Hcs : 2 <= cs) by (clear - Ecs Hm Hu; lia). clearbody cs.
  induction room as [|room IH]; intros s Hs Hroom; cbn [decomp_bits];
    (assert (Es : s = 64 * (s / 64) + s mod 64) by (apply Z.div_mod; lia)); pose proof (Z.mod_pos_bound s 64 ltac:(lia)) as Hsh; assert (Hidx : 0 <= s / 64) by (apply Z.div_pos; lia);
    set (idx := s / 64) in *; set (sh := s mod 64) in *; clearbody idx sh; pose proof (pow2_gt0 s Hs) as Ps.
  - change (Z.of_nat 0) with 0 in Hroom. rewrite (proj2 (Z.ltb_lt (zlen d) (idx + cs))) by lia. rewrite (proj2 (Z.ltb_ge idx (zlen d))) by lia.
    exists []. split; [reflexivity|]. split; [auto|]. split; [exact I|]. split.
    + symmetry. apply Z.div_small. split; [lia|]. apply Z.lt_le_trans with (1 := proj2 B). apply Z.pow_le_mono_r; lia.
    + split; [congruence|lia].
  - destruct (Z.ltb_spec (zlen d) (idx + cs)) as [H1|H1]; [destruct (Z.ltb_spec idx (zlen d)) as [H2|H2]|].
    + set (b := zdrop idx d ++ zeros (pl - (zlen d - idx))). eexists. split; [reflexivity|].
      assert (Wz : words_ok (zdrop idx d)) by (apply ok_zdrop; auto). assert (Lz : zlen (zdrop idx d) = zlen d - idx) by (apply zlen_zdrop; lia).
      assert (Wb : words_ok b) by (unfold b; rewrite ok_app; split; auto using ok_zeros).
      assert (Lb : zlen b = pl) by (unfold b; rewrite zlen_app, zlen_zeros by lia; lia).
      assert (Vb : val b = val d / 2 ^ (64 * idx)) by (unfold b; rewrite val_app, val_zeros, val_zdrop by (auto; lia); lia).
      destruct (shift_slice_right_spec b sh Wb ltac:(lia)) as (V & Wo & Lo). set (o := shift_slice_right b sh) in *.
      assert (Vo : val o = val d / 2 ^ s).
      { rewrite V, Vb, Z.div_div by (try apply Z.pow_nonzero; try apply pow2_gt0; lia). rewrite <- pow2_split by lia. rewrite Es. reflexivity. }
      split; [cbn; lia|]. split; [|split; [|split]].
      * cbn [parts_ok sw sg]. repeat split; auto; [lia|]. rewrite V. apply Z.le_lt_trans with (val b).
        { apply Z.div_le_upper_bound; [apply pow2_gt0; lia|]. pose proof (val_nonneg _ Wb). pose proof (pow2_gt0 sh ltac:(lia)). nia. }
        replace (val b) with (val (zdrop idx d)) by (rewrite Vb, val_zdrop by (auto; lia); reflexivity).
        apply Z.lt_le_trans with (1 := proj2 (val_bound _ Wz)). rewrite Lz. apply Z.pow_le_mono_r; lia.
      * cbn [leval sw]. rewrite Vo. ring.
      * intros _. unfold plen. cbn [length]. change (Z.of_nat 1) with 1. lia.
      * discriminate.
    + exists []. split; [reflexivity|]. split; [cbn; lia|]. split; [exact I|]. split.
      * symmetry. apply Z.div_small. split; [lia|]. apply Z.lt_le_trans with (1 := proj2 B). apply Z.pow_le_mono_r; lia.
      * split; [congruence|lia].
    + set (b := ztake cs (zdrop idx d) ++ zeros (pl - cs)).
      assert (Wz : words_ok (zdrop idx d)) by (apply ok_zdrop; auto). assert (Lz : zlen (zdrop idx d) = zlen d - idx) by (apply zlen_zdrop; lia).
      assert (Wt : words_ok (ztake cs (zdrop idx d))) by (apply ok_ztake; auto). assert (Lt : zlen (ztake cs (zdrop idx d)) = cs) by (apply zlen_ztake; lia).
      assert (Wb : words_ok b) by (unfold b; rewrite ok_app; split; auto using ok_zeros).
      assert (Lb : zlen b = pl) by (unfold b; rewrite zlen_app, zlen_zeros by lia; lia).
      assert (Vb : val b = (val d / 2 ^ (64 * idx)) mod 2 ^ (64 * cs)) by (unfold b; rewrite val_app, val_zeros, val_ztake, val_zdrop by (auto; lia); lia).
      destruct (shift_slice_right_spec b sh Wb ltac:(lia)) as (V & Wo & Lo). set (o := shift_slice_right b sh) in *. clearbody o.
      assert (Bo : val o < 2 ^ (64 * (cs - 2 + 2))).
      { rewrite V. replace (cs - 2 + 2) with cs by ring. apply Z.le_lt_trans with (val b).
        - apply Z.div_le_upper_bound; [apply pow2_gt0; lia|]. pose proof (val_nonneg _ Wb). pose proof (pow2_gt0 sh ltac:(lia)). nia.
        - rewrite Vb. apply Z.mod_pos_bound. apply pow2_gt0. lia. }
      destruct (mask_val o (cs - 2) (m mod 64) Wo ltac:(lia) ltac:(lia) Hu Bo) as (Wq & Lq & Vq).
      replace (cs - 2 + 1) with (cs - 1) in Wq, Lq, Vq by ring. rewrite <- Ecs in Vq.
      set (q := zupd (cs - 2) _ _) in *. clearbody q.
      assert (Vq' : val q = (val d / 2 ^ s) mod 2 ^ m).
      { rewrite Vq, V, Vb, mod_div_mod by lia. rewrite Z.div_div by (try apply Z.pow_nonzero; try apply pow2_gt0; lia). rewrite <- pow2_split by lia. rewrite <- Es. reflexivity. }
      destruct (IH (s + m)) as (ps & E & R & P & V2 & N1 & N2); [lia|rewrite Nat2Z.inj_succ in Hroom; lia|].
      rewrite E. cbn [bind]. eexists. split; [reflexivity|]. pose proof (pow2_gt0 m ltac:(lia)) as Pm.
      split; [cbn [length]; lia|]. split; [|split; [|split]].
      * apply parts_cons; auto; [lia|lia|cbn [sw]; lia|]. cbn [sw]. rewrite Vq'. apply Z.mod_pos_bound. exact Pm.
      * cbn [leval sw]. rewrite V2, Vq'. rewrite pow2_split by lia. rewrite <- Z.div_div by lia. pose proof (Z.div_mod (val d / 2 ^ s) (2 ^ m) ltac:(lia)). lia.
      * intros _. rewrite plen_cons. destruct ps as [|p0 ps0]; [unfold plen; cbn [length]; change (Z.of_nat 0) with 0; lia|]. specialize (N1 ltac:(discriminate)). lia.
      * discriminate.
Qed.

Lemma decomp_words_ok c pl : 1 <= c <= pl -> forall room d, words_ok d -> zlen d <= c * Z.of_nat room ->
  let ps := decomp_words room d c pl in (length ps <= room)%nat /\ parts_ok (64 * c) (64 * c) pl ps /\ leval (64 * c) ps = val d /\ (ps <> [] -> c * (plen ps - 1) < zlen d) /\ (0 < zlen d -> ps <> []).
Proof.
  intros Hc. induction room as [|room IH]; intros d W Hl; cbv zeta; cbn [decomp_words].
  - change (Z.of_nat 0) with 0 in Hl. pose proof (zlen_nonneg d). assert (d = []) by (apply zlen_0_nil; lia). subst d. split; [cbn; lia|]; split; [exact I|]; split; [reflexivity|]; split; [congruence|rewrite zlen_nil; lia].
  - destruct d as [|x d]; [split; [cbn; lia|]; split; [exact I|]; split; [reflexivity|]; split; [congruence|rewrite zlen_nil; lia]|]. set (e := x :: d) in *. assert (He : 0 < zlen e) by (unfold e; rewrite zlen_cons; pose proof (zlen_nonneg d); lia). clearbody e. clear x d. cbv zeta.
    assert (Wt : words_ok (ztake c e)) by (apply ok_ztake; auto). assert (Wd : words_ok (zdrop c e)) by (apply ok_zdrop; auto).
    assert (Lt : zlen (ztake c e) = Z.min c (zlen e)).
    { destruct (Z.le_gt_cases c (zlen e)); [rewrite zlen_ztake; lia|rewrite ztake_all; lia]. }
    assert (Ld : zlen (zdrop c e) = Z.max 0 (zlen e - c)) by (apply zlen_zdrop_max; lia).
    assert (V : val e = val (ztake c e) + 2 ^ (64 * c) * val (zdrop c e)).
    { destruct (Z.le_gt_cases c (zlen e)); [apply val_take_drop; lia|]. rewrite ztake_all by lia. assert (E0 : zdrop c e = []) by (apply zlen_0_nil; lia). rewrite E0, val_nil. lia. }
    destruct (IH (zdrop c e) Wd) as (R & P & V2 & N1 & N2); [rewrite Nat2Z.inj_succ in Hl; lia|].
    set (ps := decomp_words room (zdrop c e) c pl) in *. clearbody ps. set (t := ztake c e) in *. clearbody t.
    assert (Wp : words_ok (t ++ zeros (pl - zlen t))) by (rewrite ok_app; split; auto using ok_zeros).
    assert (Lp : zlen (t ++ zeros (pl - zlen t)) = pl) by (rewrite zlen_app, zlen_zeros by lia; lia).
    assert (Vp : val (t ++ zeros (pl - zlen t)) = val t) by apply val_app_zeros.
    split; [cbn [length]; lia|]. split; [|split; [|split]].
    + apply parts_cons; auto; [lia|lia|]. cbn [sw]. rewrite Vp. apply Z.lt_le_trans with (1 := proj2 (val_bound _ Wt)). apply Z.pow_le_mono_r; lia.
    + cbn [leval sw]. rewrite Vp, V2. lia.
    + intros _. rewrite plen_cons. destruct ps as [|p0 ps0]; [unfold plen; cbn [length]; change (Z.of_nat 0) with 0; lia|]. specialize (N1 ltac:(discriminate)). rewrite plen_cons in *. pose proof (plen_nonneg ps0). assert (0 <= c * plen ps0) by (apply Z.mul_nonneg_nonneg; lia). lia.
    + discriminate.
Qed.

(** The values of a list of parts followed by zeros. *)
Lemma leval_sm m : 0 <= m -> forall ps, leval m ps = sm (length ps) (fun i => pv ps i * 2 ^ (m * i)).
Proof.
  intros Hm. induction ps as [|p ps IH]; [reflexivity|]. cbn [leval]. change (length (p :: ps)) with (1 + length ps)%nat. rewrite sm_app. cbn [sm]. change (Z.of_nat 0) with 0. change (Z.of_nat 1) with 1.
  unfold pv at 1. rewrite pget_0, Z.mul_0_r, Z.add_0_l. change (2 ^ 0) with 1. rewrite Z.mul_1_r. f_equal. rewrite IH, <- sm_scale. apply sm_ext. intros i Hi.
  unfold pv. rewrite (Z.add_comm 1 i), pget_S by lia. rewrite Z.mul_add_distr_l, Z.mul_1_r, pow2_split by nia. ring.
Qed.

Lemma parts_get m M pl ps : 0 <= m <= M -> parts_ok m M pl ps -> forall i, 0 <= i < plen ps ->
  words_ok (sw (pget i ps)) /\ sg (pget i ps) = 1 /\ zlen (sw (pget i ps)) = pl /\ pv ps i < 2 ^ M /\ (i < plen ps - 1 -> pv ps i < 2 ^ m).
Proof.
  intros HM. induction ps as [|p ps IH]; intros P i Hi; [unfold plen in Hi; cbn in Hi; lia|]. cbn [parts_ok] in P. destruct P as (W & S & L & V & P). rewrite plen_cons in *. unfold pv.
  destruct (Z.eq_dec i 0) as [->|Hne].
  - rewrite pget_0. repeat split; auto.
    + apply Z.lt_le_trans with (1 := V). apply Z.pow_le_mono_r; [lia|]. destruct ps; lia.
    + intros H. destruct ps; [unfold plen in H; cbn in H; lia|exact V].
  - replace i with (i - 1 + 1) by ring. rewrite pget_S by lia. destruct (IH P (i - 1) ltac:(lia)) as (A & B & C & D & E). repeat split; auto. intros H. apply E. lia.
Qed.

Lemma pget_repeat z n i : 0 <= i < Z.of_nat n -> pget i (repeat z n) = z.
Proof. intros Hi. unfold pget. apply nth_repeat_lt || (rewrite nth_indep with (d' := z); [apply nth_repeat|rewrite repeat_length; lia]). Qed.

Lemma decompose_ok d m k N : words_ok d -> 1 <= zlen d -> 1 <= m -> 0 <= k -> 64 * zlen d <= m * 2 ^ k -> 64 * ((m + 63) / 64) <= 64 * N ->
  exists ps na, fft_decompose d m (2 ^ k) (N + 1) = Ok ps /\ plen ps = 2 ^ k /\ (forall i, 0 <= i < 2 ^ k -> gp N (pget i ps)) /\
    seq_ok m (64 * ((m + 63) / 64)) na (pv ps) /\ na <= 2 ^ k /\ m * (na - 1) < 64 * zlen d /\
    sm (Z.to_nat (2 ^ k)) (fun i => pv ps i * 2 ^ (m * i)) = val d.
Proof.
  intros W Hd Hm Hk Hroom HN. pose proof (pow2_gt0 k Hk) as Pk. set (K := 2 ^ k) in *. clearbody K. set (M := 64 * ((m + 63) / 64)).
  assert (HM : 0 <= m <= M) by (unfold M; dlia).
  assert (D : exists ps, (if m mod 64 =? 0 then Ok (decomp_words (Z.to_nat K) d (m / 64) (N + 1)) else decomp_bits (Z.to_nat K) d m ((m + 63) / 64 + 1) (wshr WORD_MAX (64 - m mod 64)) 0 (N + 1)) = Ok ps /\
     (length ps <= Z.to_nat K)%nat /\ parts_ok m M (N + 1) ps /\ leval m ps = val d /\ ps <> [] /\ m * (plen ps - 1) < 64 * zlen d).
  { destruct (Z.eqb_spec (m mod 64) 0) as [E|E].
    - assert (Em : m = 64 * (m / 64)) by dlia. assert (EM : M = m) by (unfold M; dlia).
      destruct (decomp_words_ok (m / 64) (N + 1) ltac:(unfold M in *; dlia) (Z.to_nat K) d W) as (A & B & C & N1 & N2).
      { rewrite Z2Nat.id by lia. rewrite Em in Hroom. nia. }
      eexists. split; [reflexivity|]. rewrite <- Em in B, C. rewrite EM. repeat split; auto; [apply N2; lia|]. specialize (N1 (N2 ltac:(lia))). rewrite Em at 1. rewrite <- Z.mul_assoc. lia.
    - destruct (decomp_bits_ok d m (N + 1) W Hm E ltac:(lia) (Z.to_nat K) 0 ltac:(lia)) as (ps & A & B & C & V & N1 & N2); [rewrite Z2Nat.id by lia; lia|].
      exists ps. change (2 ^ 0) with 1 in V. rewrite Z.div_1_r in V. repeat split; auto; [apply N2; lia|]. specialize (N1 (N2 ltac:(lia))). lia. }
  destruct D as (ps & E & R & P & V & Ne & Hna). unfold fft_decompose. rewrite E. cbn [bind].
  set (zs := repeat (mk_sws (zeros (N + 1)) 1) (Z.to_nat K - length ps)).
  assert (Lzs : plen zs = K - plen ps) by (unfold zs, plen; rewrite repeat_length; lia).
  assert (Hn : 1 <= plen ps <= K) by (destruct ps; [congruence|rewrite plen_cons; unfold plen in *; cbn [length] in R; lia]).
  assert (HN0 : 0 <= N) by (unfold M in *; lia).
  assert (Gz : forall i, 0 <= i < K - plen ps -> pget i zs = mk_sws (zeros (N + 1)) 1) by (intros i Hi; unfold zs; apply pget_repeat; unfold plen in *; lia).
  assert (VM : 2 ^ M <= 2 ^ (64 * N)) by (apply Z.pow_le_mono_r; lia).
  assert (Hlo : forall i, 0 <= i < plen ps -> pv (ps ++ zs) i = pv ps i) by (intros i Hi; unfold pv; rewrite pget_app1 by lia; reflexivity).
  assert (Hhi : forall i, plen ps <= i -> pv (ps ++ zs) i = 0).
  { intros i Hi. unfold pv. rewrite pget_app2 by lia. destruct (Z.lt_ge_cases (i - plen ps) (K - plen ps)); [rewrite Gz by lia; cbn [sw]; apply val_zeros|rewrite pget_over by lia; reflexivity]. }
  exists (ps ++ zs), (plen ps). split; [reflexivity|]. split; [rewrite plen_app; lia|]. split; [|split; [|split; [lia|split; [exact Hna|]]]].
  - intros i Hi. destruct (Z.lt_ge_cases i (plen ps)).
    + rewrite pget_app1 by lia. destruct (parts_get m M (N + 1) ps HM P i ltac:(lia)) as (A & B & C & D & _). split; auto. pose proof (val_nonneg _ A). unfold pv in D. lia.
    + rewrite pget_app2, Gz by lia. split; cbn [sw sg]; auto using ok_zeros; [apply zlen_zeros; lia|]. rewrite val_zeros. split; [lia|apply pow2_nonneg].
  - split; [lia| | | |exact Hhi].
    + intros i Hi. destruct (Z.lt_ge_cases i (plen ps)); [|rewrite Hhi; lia]. rewrite Hlo by lia. destruct (parts_get m M (N + 1) ps HM P i ltac:(lia)) as (A & _). apply val_nonneg. exact A.
    + intros i Hi. rewrite Hlo by lia. destruct (parts_get m M (N + 1) ps HM P i ltac:(lia)) as (_ & _ & _ & _ & D). apply D. lia.
    + rewrite Hlo by lia. destruct (parts_get m M (N + 1) ps HM P (plen ps - 1) ltac:(lia)) as (_ & _ & _ & D & _). exact D.
  - replace (Z.to_nat K) with (length ps + (Z.to_nat K - length ps))%nat by lia. rewrite sm_app. rewrite (sm_zero (Z.to_nat K - length ps)).
    + rewrite <- V, leval_sm by lia. rewrite Z.add_0_r. apply sm_ext. intros i Hi. rewrite Hlo by exact Hi. reflexivity.
    + intros i Hi. rewrite Hhi by (unfold plen; lia). lia.
Qed.

(** ** The coefficients fit *)
Lemma coeff_bound L k1 k m n1 t N a b na nb l1 l2 : params_ok L k1 k m n1 t N -> seq_ok m (64 * ((m + 63) / 64)) na a -> seq_ok m (64 * ((m + 63) / 64)) nb b ->
  l1 + l2 = L -> m * (na - 1) < 64 * l1 -> m * (nb - 1) < 64 * l2 -> na + nb - 2 < k1 /\ forall j, 0 <= j -> 0 <= cv a b j <= 2 ^ n1.
Proof.
  intros P A B EL Ha Hb. destruct P as [Hk Hk1 Hm HmL Hn1 HN Hfit _ _ _].
  assert (S : na + nb - 2 < k1) by (apply Z.mul_lt_mono_pos_l with m; lia). split; [exact S|].
  set (M := 64 * ((m + 63) / 64)) in *. assert (HM : 0 <= m <= M) by (unfold M; dlia).
  assert (E7 : exists q, n1 = 128 * q).
  { exists (t * 2 ^ (k - 7)). rewrite Hn1, Hk1. change 128 with (2 ^ 7). replace k with (7 + (k - 7)) at 1 by ring. rewrite pow2_split by lia. ring. }
  destruct E7 as (q & Eq).
  assert (F1 : 2 * M <= n1) by (unfold M; clear - Hfit Eq Hk Hm; dlia).
  assert (F2 : m + M + 2 <= n1) by (unfold M; clear - Hfit Eq Hk Hm; dlia). clearbody M.
  intros j Hj. split; [apply (cv_nonneg m M na nb); auto|].
  destruct (Z.eq_dec j (na + nb - 2)) as [->|Hne].
  - pose proof (cv_bound_top m M na nb a b A B ltac:(lia)) as H. rewrite <- pow2_split in H by lia. apply Z.le_trans with (1 := H). apply Z.pow_le_mono_r; lia.
  - assert (Ek : k1 = 2 * 2 ^ (k - 1)) by (rewrite Hk1; change 2 with (2 ^ 1) at 2; rewrite <- pow2_split by lia; f_equal; ring).
    pose proof (cv_bound m M na nb a b j (2 ^ (k - 1)) A B Hj HM ltac:(lia) Hne) as H. rewrite <- !pow2_split in H by lia.
    assert (H1 : 2 * 2 ^ (m + M) <= 2 ^ (n1 - 1)) by (change 2 with (2 ^ 1) at 1; rewrite <- pow2_split by lia; apply Z.pow_le_mono_r; lia).
    assert (H2 : 2 ^ (k - 1 + (m + m)) <= 2 ^ (n1 - 1)) by (apply Z.pow_le_mono_r; lia).
    assert (H3 : 2 ^ n1 = 2 * 2 ^ (n1 - 1)) by (change 2 with (2 ^ 1) at 2; rewrite <- pow2_split by lia; f_equal; ring). lia.
Qed.

(** ** The product *)
Lemma modulus_ok N : 2 <= N -> let md := mk_sws (zupd N 1 (zupd 0 1 (zeros (N + 1)))) 1 in sok md /\ sval md = 2 ^ (64 * N) + 1 /\ zlen (sw md) = N + 1.
Proof.
  intros HN. cbv zeta. cbn [sw]. assert (L0 : zlen (zeros (N + 1)) = N + 1) by (apply zlen_zeros; lia).
  assert (W0 : words_ok (zupd 0 1 (zeros (N + 1)))) by (apply ok_zupd; [lia|apply ok_zeros]). assert (W : words_ok (zupd N 1 (zupd 0 1 (zeros (N + 1))))) by (apply ok_zupd; auto; lia).
  assert (Z0 : forall i, znth i (zeros (N + 1)) = 0).
  { intros i. unfold znth, zeros. destruct (Nat.lt_ge_cases (Z.to_nat i) (Z.to_nat (N + 1))); [apply nth_repeat|]. apply nth_overflow. rewrite repeat_length. exact H. }
  assert (V0 : val (zupd 0 1 (zeros (N + 1))) = 1) by (rewrite zupd_val, val_zeros, Z0 by lia; reflexivity).
  assert (V : val (zupd N 1 (zupd 0 1 (zeros (N + 1)))) = 2 ^ (64 * N) + 1).
  { rewrite zupd_val by (rewrite zlen_zupd; lia). rewrite znth_val by (auto; rewrite zlen_zupd; lia). rewrite V0. rewrite Z.div_small; [rewrite Z.mod_0_l by lia; lia|].
    split; [lia|]. change 1 with (2 ^ 0) at 1. apply Z.pow_lt_mono_r; lia. }
  split; [split; cbn; auto|]. split; [unfold sval; cbn [sw sg]; rewrite V; ring|]. rewrite !zlen_zupd. exact L0.
Qed.

Lemma tr_weight w t x K r : w = t * 2 -> 0 <= t -> 0 <= r -> tr w (fun j => x j * 2 ^ (t * j)) K r = sm K (fun j => x j * 2 ^ (t * (2 * r + 1) * j)).
Proof.
  intros -> Ht Hr. unfold tr. apply sm_ext. intros j Hj. rewrite <- Z.mul_assoc, <- pow2_split by nia. do 2 f_equal. ring.
Qed.

Theorem fft_mul_ok f d1 d2 l3 : words_ok d1 -> words_ok d2 -> 1 <= zlen d1 -> 1 <= zlen d2 -> 1024 <= zlen d1 + zlen d2 < 2 ^ 26 -> zlen d1 + zlen d2 <= l3 ->
  mul_good f (zlen d1 + zlen d2 - 1) -> mul_res d1 d2 l3 (fft_mul f d1 d2 l3).
Proof.
  intros W1 W2 L1 L2 HL Hl3 Hf. unfold fft_mul. destruct (params_spec (zlen d1 + zlen d2) HL) as (k1 & k & m & n1 & t & N & E & P). rewrite E. cbv zeta.
  pose proof P as [Hk Hk1 Hm HmL Hn1 HN Hfit Hup Hmup Hk1up]. pose proof (zlen_nonneg d1). pose proof (zlen_nonneg d2). set (L := zlen d1 + zlen d2) in *.
  assert (K7 : 128 <= k1) by (rewrite Hk1; change 128 with (2 ^ 7); apply Z.pow_le_mono_r; lia).
  assert (Hm2 : 2 * m <= L + 2) by nia. assert (T0 : 0 <= t) by nia. assert (Hdec : 2 * (N + 1) <= L - 1) by lia.
  assert (HN2 : 2 <= N). { assert (1 <= t) by nia. assert (128 <= n1) by nia. lia. }
  assert (HM : 64 * ((m + 63) / 64) <= 64 * N) by (clear - Hfit HN Hk Hm; dlia).
  assert (Ediv : n1 / 64 = N) by (rewrite HN; rewrite Z.mul_comm; apply Z.div_mul; lia). rewrite Ediv.
  pose proof (modulus_ok N HN2) as Hmd. cbv zeta in Hmd. set (md := mk_sws (zupd N 1 (zupd 0 1 (zeros (N + 1)))) 1) in *. clearbody md.
  destruct (decompose_ok d1 m k N W1 L1 Hm ltac:(lia) ltac:(rewrite <- Hk1; lia) HM) as (p1 & na & E1 & Lp1 & G1 & S1 & Na1 & Nb1 & V1).
  destruct (decompose_ok d2 m k N W2 L2 Hm ltac:(lia) ltac:(rewrite <- Hk1; lia) HM) as (p2 & nb & E2 & Lp2 & G2 & S2 & Na2 & Nb2 & V2).
  rewrite Hk1, E1. cbn [bind]. rewrite E2. cbn [bind].
  destruct (coeff_bound L k1 k m n1 t N (pv p1) (pv p2) na nb (zlen d1) (zlen d2) P S1 S2 eq_refl Nb1 Nb2) as (Hsum & Hc). rewrite HN in Hc |- *. rewrite Hk1 in Hsum.
  destruct (weight_ok N HN2 md Hmd t T0 p1 0 ltac:(lia)) as (q1 & Eq1 & Lq1 & Rq1); [intros i Hi; apply G1; lia|]. rewrite Eq1. cbn [bind].
  destruct (weight_ok N HN2 md Hmd t T0 p2 0 ltac:(lia)) as (q2 & Eq2 & Lq2 & Rq2); [intros i Hi; apply G2; lia|]. rewrite Eq2. cbn [bind].
  set (kn := Z.to_nat k). assert (Ek : Z.of_nat kn = k) by (unfold kn; lia). assert (Hkn : (1 <= kn <= 64)%nat) by (unfold kn; lia).
  assert (EK : Z.of_nat (2 ^ kn) = 2 ^ k) by (rewrite <- Ek; apply pow_nat). assert (EK' : Z.to_nat (2 ^ k) = (2 ^ kn)%nat) by lia.
  assert (Hw : t * 2 * 2 ^ (Z.of_nat kn - 1) = 64 * N).
  { rewrite <- HN, Hn1, Hk1, Ek. replace k with (1 + (k - 1)) at 2 by ring. rewrite pow2_split by lia. change (2 ^ 1) with 2. ring. }
  destruct (forward_ok N HN2 md Hmd kn Hkn q1 0 (t * 2) 1 ltac:(lia) ltac:(lia) ltac:(lia) Hw) as (f1 & Ef1 & Lf1 & Rf1 & _).
  { intros i Hi. rewrite Ek in Hi. split; [lia|]. replace (0 + i * 1) with i by ring. apply (Rq1 i). lia. }
  rewrite Ek in Ef1. rewrite Ef1. cbn [bind].
  destruct (forward_ok N HN2 md Hmd kn Hkn q2 0 (t * 2) 1 ltac:(lia) ltac:(lia) ltac:(lia) Hw) as (f2 & Ef2 & Lf2 & Rf2 & _).
  { intros i Hi. rewrite Ek in Hi. split; [lia|]. replace (0 + i * 1) with i by ring. apply (Rq2 i). lia. }
  rewrite Ek in Ef2. rewrite Ef2. cbn [bind]. rewrite Ek in Rf1, Rf2.
  destruct (products_ok N HN2 md Hmd f) with (ps1 := f1) (ps2 := f2) as (p3 & E3 & Lp3 & R3).
  { intros a b Wa Wb La Lb. apply Hf; auto; lia. } { lia. }
  { intros i Hi. replace i with (0 + i * 1) by ring. apply Rf1. lia. } { intros i Hi. replace i with (0 + i * 1) by ring. apply Rf2. lia. }
  rewrite E3. cbn [bind]. set (F := 2 ^ (64 * N) + 1) in *. set (c := cv (pv p1) (pv p2)) in *.
  assert (Z0 : forall i l, 0 <= i -> 0 <= l -> Z.of_nat (2 ^ kn) <= i + l -> pv p1 i * pv p2 l = 0).
  { intros i l Hi Hl Hs. rewrite EK in Hs. destruct (Z.lt_ge_cases i na); [rewrite (so_hi _ _ _ _ S2 l) by lia|rewrite (so_hi _ _ _ _ S1 i) by lia]; ring. }
  destruct (reverse_ok N HN2 md Hmd kn Hkn p3 0 (t * 2) (fun j => c j * 2 ^ (t * j)) ltac:(lia) ltac:(lia) Hw) as (p4 & E4 & Lp4 & R4 & _).
  { rewrite Ek. lia. }
  { intros i Hi. rewrite Ek in Hi. destruct (R3 i ltac:(lia)) as (G3 & C3). rewrite Z.add_0_l. split; [exact G3|]. eapply cg_trans; [exact C3|].
    destruct (Rf1 i Hi) as (_ & C1). destruct (Rf2 i Hi) as (_ & C2). replace (0 + i * 1) with i in C1, C2 by ring.
    pose proof (brev_bound kn i) as Br. set (r := brev kn i) in *. clearbody r.
    rewrite (tr_weight (t * 2) t) by lia.
    rewrite <- (cauchy_product (pv p1) (pv p2) (fun j => 2 ^ (t * (2 * r + 1) * j))).
    - rewrite <- !(tr_weight (t * 2) t) by lia. apply cg_mul.
      + eapply cg_trans; [exact C1|]. apply tr_cg. intros j Hj. rewrite EK in Hj. replace (0 + j * 1) with j by ring. destruct (Rq1 j ltac:(lia)) as (_ & C). rewrite Z.add_0_l in C. exact C.
      + eapply cg_trans; [exact C2|]. apply tr_cg. intros j Hj. rewrite EK in Hj. replace (0 + j * 1) with j by ring. destruct (Rq2 j ltac:(lia)) as (_ & C). rewrite Z.add_0_l in C. exact C.
    - intros u v Hu Hv. rewrite Z.mul_add_distr_l, pow2_split by nia. reflexivity.
    - exact Z0. }
  rewrite Ek in E4, R4. rewrite E4. cbn [bind].
  assert (EP : sm (length p4) (fun i => c (0 + i) * 2 ^ (m * (0 + i))) = val d1 * val d2).
  { replace (length p4) with (2 ^ kn)%nat by (unfold plen in *; lia). rewrite <- V1, <- V2, EK'. rewrite (cauchy_product (pv p1) (pv p2) (fun j => 2 ^ (m * j))).
    - apply sm_ext. intros j Hj. rewrite Z.add_0_l. reflexivity.
    - intros u v Hu Hv. rewrite Z.mul_add_distr_l, pow2_split by nia. reflexivity.
    - exact Z0. }
  pose proof (mul_bound d1 d2 l3 W1 W2 Hl3) as Bd. assert (Lz : zlen (zeros l3) = l3) by (apply zlen_zeros; lia).
  destruct (output_ok N HN2 md Hmd c k t m ltac:(lia) T0 Hm Hc p4 0 (zeros l3) ltac:(lia) (ok_zeros _)) as (r & Er & Wr & Lr & Vr).
  { intros i Hi. destruct (R4 i ltac:(lia)) as (G4 & C4). rewrite !Z.add_0_l in *. split; [exact G4|exact C4]. }
  { rewrite EP, val_zeros, Lz. lia. } { rewrite val_zeros. apply pow2_gt0. lia. }
  exists r. split; [exact Er|]. split; [rewrite Vr, EP, val_zeros; ring|]. split; [exact Wr|lia].
Qed.
