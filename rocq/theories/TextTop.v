(** Text conversion: reading literals, formatting, and the round trip. *)

From Coq Require Import ZArith Reals List Bool Lia Lra.
From Flocq Require Import Core.
From Verif Require Import Words Mantissa Num Ext Conv Parser SpecZ SpecText WordsP WordsP2 RoundP Spec SpecOps RealP RealP2 NumP CmpP AddP SetP AddNum IntNum RadixP RadixNum ParserP.
Import ListNotations.
Open Scope Z_scope.
Ltac Zify.zify_post_hook ::= idtac.
Arguments Z.mul : simpl never.
Arguments Z.add : simpl never.
Arguments Z.pow : simpl never.
Arguments Z.sub : simpl never.
Arguments Z.of_nat : simpl never.
Ltac dlia := Z.div_mod_to_equations; lia.

Lemma drop_zeros_ok b ds : digits_ok b ds -> digits_ok b (drop_zeros ds).
Proof.
  induction ds as [|d t IH]; intros H; [exact H|]. cbn [drop_zeros]. apply dok_cons in H as H'. destruct (d =? 0); [apply IH; apply H'|exact H].
Qed.
Lemma drop_zeros_len ds : zlen (drop_zeros ds) <= zlen ds.
Proof. induction ds as [|d t IH]; [cbn; lia|]. cbn [drop_zeros]. destruct (d =? 0); rewrite ?zlen_cons; lia. Qed.
Lemma lit_digits_ok r l : lit_ok r l -> digits_ok (rdx_num r) (lit_digits l).
Proof.
  intros (A & B & _). unfold lit_digits. apply dok_app. split; [apply drop_zeros_ok|]; apply digits_ok_chars; assumption.
Qed.
Lemma lit_digits_len l : zlen (lit_digits l) <= zlen (l_int l) + zlen (frac_digits l).
Proof.
  unfold lit_digits, int_digits. rewrite zlen_app, zlen_map. pose proof (drop_zeros_len (map digit_at (l_int l))) as H. rewrite zlen_map in H. lia.
Qed.

Lemma as_i32_id e : EMIN <= e <= EMAX -> as_i32 e = e.
Proof. intros. unfold as_i32. rewrite Z.mod_small; lia. Qed.

Lemma literal_reads dec r l p rm : r <> Dec -> lit_ok r l -> Z.abs (lit_exp r l) < 2 ^ 32 ->
  bits_of r * (zlen (l_int l) + zlen (frac_digits l)) + 128 < P_LIM -> 0 < p -> prec_up p + 64 < P_LIM ->
  lit_digits l <> [] -> EMIN <= lit_adjusted r l <= EMAX ->
  text_readable r (prec_up p) rm (lit_sign l) (lit_digits l) (lit_adjusted r l) ->
  let z := rnd_grad (prec_up p) rm (lit_value r l) in
  ((bpow radix2 EMAX <= Rabs z)%R -> x_parse dec (lit_text r l) r p rm = Ok (Inf (lit_sign l))) /\
  ((Rabs z < bpow radix2 EMAX)%R -> exists q, x_parse dec (lit_text r l) r p rm = Ok (Value q) /\ wf q /\ 64 * wlen q = prec_up p /\
     ns q = lit_sign l /\ value q = z /\ (ninexact q = true <-> z <> lit_value r l)).
Proof.
  intros Hr Hok Hb Hl Hp HP Hne Hadj HR z.
  pose proof (zlen_nonneg (l_int l)) as L1. pose proof (zlen_nonneg (frac_digits l)) as L2.
  assert (Hk : 1 <= bits_of r) by (destruct r; try congruence; cbn; lia).
  assert (Hll : zlen (l_int l) + zlen (frac_digits l) <= bits_of r * (zlen (l_int l) + zlen (frac_digits l))) by nia.
  destruct (parse_literal r l Hok Hb ltac:(lia)) as (ps & E & O1 & O2 & O). fold (lit_digits l) in O. destruct O as (_ & _ & _ & O). destruct (O Hne Hadj) as (O3 & O4 & O5).
  unfold x_parse. rewrite E, O3, O2. unfold raw_parts. rewrite O4, O1, O5, as_i32_id by exact Hadj.
  pose proof (lit_digits_len l) as Hlen.
  pose proof (from_radix_reads dec r (lit_sign l) (lit_digits l) (lit_adjusted r l) p rm Hr (lit_digits_ok r l Hok) Hp HP) as FR.
  specialize (FR ltac:(assert (bits_of r * zlen (lit_digits l) <= bits_of r * (zlen (l_int l) + zlen (frac_digits l))) by (apply Z.mul_le_mono_nonneg_l; lia); lia) Hadj).
  specialize (FR ltac:(intros ->; exact HR) ltac:(intros Hb2; destruct r; try congruence; exact HR)).
  unfold lit_digits in FR. rewrite lit_digits_value in FR. fold (lit_digits l) in FR. destruct FR as [FA FB]. fold z in FA, FB. split.
  - intros H. rewrite (FA H). cbn [result_to_ext]. destruct (lit_sign l); reflexivity.
  - intros H. destruct (FB H) as (q & Q1 & Q). rewrite Q1. exists q. split; [reflexivity|exact Q].
Qed.

(** ** Formatting *)

Lemma digit_char_ok r d : 0 <= d < rdx_num r -> exists c, digit_char d = Ok c /\ char_digit c = Some d.
Proof.
  intros H. assert (rdx_num r <= 16) by (destruct r; cbn; lia). unfold digit_char, char_digit.
  destruct (Z_lt_le_dec d 10) as [Hd|Hd].
  - replace ((0 <=? d) && (d <? 10)) with true by lia. eexists. split; [reflexivity|]. replace ((48 <=? 48 + d) && (48 + d <=? 57)) with true by lia. f_equal. lia.
  - replace ((0 <=? d) && (d <? 10)) with false by lia. replace ((10 <=? d) && (d <? 16)) with true by lia. eexists. split; [reflexivity|].
    replace ((48 <=? 55 + d) && (55 + d <=? 57)) with false by lia. replace ((65 <=? 55 + d) && (55 + d <=? 70)) with true by lia. f_equal. lia.
Qed.

Lemma digit_chars_spec r ds : digits_ok (rdx_num r) ds -> exists cs, digit_chars ds = Ok cs /\ digit_chars_ok r cs /\ map digit_at cs = ds.
Proof.
  induction ds as [|d t IH]; intros H.
  - exists []. split; [reflexivity|]. split; [constructor|reflexivity].
  - apply dok_cons in H. destruct H as [Hd Ht]. destruct (IH Ht) as (cs & A & B & C). destruct (digit_char_ok r d Hd) as (c & E & F).
    exists (c :: cs). cbn [digit_chars]. rewrite E. cbn [bind]. rewrite A. cbn [bind]. split; [reflexivity|]. split.
    + constructor; [exists d; split; [exact F|lia]|exact B].
    + cbn [map]. unfold digit_at at 1. rewrite F, C. reflexivity.
Qed.

Lemma low_digit_ok r d : 0 <= d < rdx_num r -> char_digit (low_digit d) = Some d.
Proof.
  intros H. assert (rdx_num r <= 16) by (destruct r; cbn; lia). unfold low_digit, char_digit.
  destruct (Z.ltb_spec d 10) as [Hd|Hd].
  - replace ((48 <=? 48 + d) && (48 + d <=? 57)) with true by lia. f_equal. lia.
  - replace ((48 <=? 87 + d) && (87 + d <=? 57)) with false by lia. replace ((65 <=? 87 + d) && (87 + d <=? 70)) with false by lia.
    replace ((97 <=? 87 + d) && (87 + d <=? 102)) with true by lia. f_equal. lia.
Qed.

Lemma fmt_loop_spec r : forall f v acc, 0 <= v < rdx_num r ^ Z.of_nat f ->
  exists l, fmt_loop f (rdx_num r) v acc = l ++ acc /\ digit_chars_ok r l /\ number_of r l = v.
Proof.
  assert (Hb : 2 <= rdx_num r <= 16) by (destruct r; cbn; lia).
  induction f as [|f IH]; intros v acc Hv.
  - change (Z.of_nat 0) with 0 in Hv. rewrite Z.pow_0_r in Hv. exists []. split; [reflexivity|]. split; [constructor|]. change (number_of r []) with 0. lia.
  - cbn [fmt_loop]. cbv zeta. assert (Hm : 0 <= v mod rdx_num r < rdx_num r) by (apply Z.mod_pos_bound; lia).
    pose proof (low_digit_ok r _ Hm) as Hc. set (c := low_digit (v mod rdx_num r)) in *. assert (Da : digit_at c = v mod rdx_num r) by (unfold digit_at; rewrite Hc; reflexivity).
    assert (Ok1 : digit_chars_ok r [c]) by (constructor; [exists (v mod rdx_num r); split; [exact Hc|lia]|constructor]).
    destruct (Z.ltb_spec v (rdx_num r)) as [Hlt|Hge].
    + exists [c]. split; [reflexivity|]. split; [exact Ok1|]. unfold number_of. cbn [map]. rewrite dig_val_single, Da. apply Z.mod_small. lia.
    + destruct (IH (v / rdx_num r) (c :: acc)) as (l & A & B & C).
      { split; [apply Z.div_pos; lia|]. apply Z.div_lt_upper_bound; [lia|]. replace (Z.of_nat (S f)) with (1 + Z.of_nat f) in Hv by lia. rewrite Z.pow_add_r, Z.pow_1_r in Hv by lia. lia. }
      exists (l ++ [c]). rewrite A, <- app_assoc. split; [reflexivity|]. split; [apply Forall_app; split; [exact B|exact Ok1]|].
      unfold number_of in *. rewrite map_app, dig_val_app. cbn [map]. rewrite dig_val_single, C, Da. change (zlen [v mod rdx_num r]) with 1. rewrite Z.pow_1_r.
      pose proof (Z.div_mod v (rdx_num r) ltac:(lia)). lia.
Qed.

Lemma fmt_int_spec r v : 0 <= v < 2 ^ 64 -> digit_chars_ok r (fmt_int r v) /\ number_of r (fmt_int r v) = v.
Proof.
  intros Hv. destruct (fmt_loop_spec r 64 v []) as (l & A & B & C).
  { split; [lia|]. apply Z.lt_le_trans with (2 ^ 64); [lia|]. change (Z.of_nat 64) with 64. apply Z.pow_le_mono_l. destruct r; cbn; lia. }
  unfold fmt_int. rewrite A, app_nil_r. split; assumption.
Qed.

(** A bound on the number of digits written. *)
Lemma digits_few b k ds M n : b = 2 ^ k -> 1 <= k -> digits_ok b ds -> last ds 0 <> 0 -> 0 <= n -> 0 <= M ->
  dig_val b ds * 2 ^ n = M * 2 ^ (k * zlen ds) -> k * zlen ds < n + k.
Proof.
  intros Hb Hk D Hla Hn HM E. destruct (Z_lt_le_dec (k * zlen ds) (n + k)) as [H|H]; [exact H|exfalso].
  assert (Ed : dig_val b ds = M * 2 ^ (k * zlen ds - n)).
  { apply (Z.mul_cancel_r _ _ (2 ^ n)); [apply Z.pow_nonzero; lia|]. rewrite E, <- Z.mul_assoc, <- Z.pow_add_r by lia. f_equal. f_equal. lia. }
  destruct (exists_last (l := ds)) as (l & d & El); [intros ->; apply Hla; reflexivity|]. subst ds. rewrite last_last in Hla.
  rewrite dig_val_app, dig_val_single in Ed. change (zlen [d]) with 1 in Ed. rewrite Z.pow_1_r in Ed.
  apply dok_app in D. destruct D as [_ D]. apply dok_cons in D. destruct D as [Hd _].
  replace (k * zlen (l ++ [d]) - n) with (k + (k * zlen (l ++ [d]) - n - k)) in Ed by lia. rewrite Z.pow_add_r, <- Hb in Ed by lia.
  assert (Hmod : d mod b = 0).
  { replace d with ((M * 2 ^ (k * zlen (l ++ [d]) - n - k) - dig_val b l) * b) by lia. apply Z.mod_mul. lia. }
  rewrite Z.mod_small in Hmod by exact Hd. contradiction.
Qed.

(** The text of a number is a literal denoting it. *)
Lemma format_literal x r : r <> Dec -> wf x -> 0 < wlen x ->
  exists l, (forall dec rm, n_format dec x r rm = Ok (lit_text r l)) /\ lit_ok r l /\ lit_sign l = ns x /\ lit_value r l = value x /\
    lit_digits l <> [] /\ Z.abs (lit_exp r l) < 2 ^ 32 /\ EMIN <= lit_adjusted r l <= EMAX /\
    bits_of r * (zlen (l_int l) + zlen (frac_digits l)) < 64 * wlen x + 16 /\
    (magnitude x = 0 -> dig_val (rdx_num r) (lit_digits l) = 0 /\ lit_adjusted r l = 0) /\
    (normal x -> hd 0 (lit_digits l) <> 0) /\ (magnitude x <> 0 -> ~ normal x -> r = Bin -> lit_adjusted r l = EMIN).
Proof.
  intros Hr W HL. destruct (to_digits_value x r Hr W HL) as (ds & e & A & B & V & Z0 & Hla & He & G).
  pose proof (wf_exp x W) as Hex. assert (Hk : 1 <= bits_of r <= 4) by (destruct r; try congruence; cbn; lia).
  assert (Hb : rdx_num r = 2 ^ bits_of r) by (destruct r; try congruence; reflexivity).
  assert (Hmag : 0 <= magnitude x) by (apply val_nonneg, (wf_words x W)).
  set (so := match ns x with Neg => Some Neg | Pos => None end).
  assert (Hso : match so with Some s => s | None => Pos end = ns x) by (unfold so; destruct (ns x); reflexivity).
  assert (Hsc : match ns x with Neg => [45] | Pos => [] end = sign_chars so) by (unfold so; destruct (ns x); reflexivity).
  destruct ds as [|d t].
  { (* zero *)
    exists (mk_lit so [48] (Some [48]) None). assert (M0 : magnitude x = 0) by (apply Z0; reflexivity).
    assert (Oc : digit_chars_ok r [48]) by (constructor; [exists 0; split; [reflexivity|destruct r; cbn; lia]|constructor]).
    split. { intros dec rm. unfold n_format. rewrite A. cbn [bind]. unfold lit_text. cbn [l_sign l_int l_frac l_exp app]. rewrite Hsc. reflexivity. }
    split. { split; [exact Oc|]. split; [exact Oc|]. split; [left; discriminate|exact I]. }
    split; [exact Hso|]. split.
    { rewrite value_zero by exact M0. unfold lit_value. cbn [l_int]. change (frac_digits (mk_lit so [48] (Some [48]) None)) with [48].
      assert (number_of r ([48] ++ [48]) = 0) as -> by (destruct r; reflexivity). rewrite Z.mul_0_r. apply F2R_0. }
    split; [discriminate|]. split; [change (lit_exp r (mk_lit so [48] (Some [48]) None)) with 0; lia|]. split; [change (lit_adjusted r (mk_lit so [48] (Some [48]) None)) with 0; lia|]. split; [cbn [l_int]; change (frac_digits (mk_lit so [48] (Some [48]) None)) with [48]; change (zlen [48]) with 1; lia|].
    split; [intros _; split; [destruct r; reflexivity|reflexivity]|].
    split; [intros [_ N]; unfold nonzero in N; contradiction|intros; contradiction]. }
  assert (M0 : magnitude x <> 0) by (intros H; apply Z0 in H; discriminate).
  destruct Hla as [Hla|Hla]; [discriminate|].
  assert (Hfew : bits_of r * zlen (d :: t) < 64 * wlen x + (bits_of r * e - ne x) + bits_of r).
  { apply (digits_few (rdx_num r) (bits_of r) (d :: t) (magnitude x)); [exact Hb|lia|exact B|exact Hla|lia|exact Hmag|]. rewrite Hb. exact G. }
  assert (Eb : EMIN <= e <= EMAX) by nia.
  pose proof B as B'. apply dok_cons in B'. destruct B' as [Bd Bt].
  destruct (digit_char_ok r d Bd) as (c & Ec & Ed). destruct (digit_chars_spec r t Bt) as (cs & Ecs & Ocs & Mcs).
  assert (Oc : digit_chars_ok r [c]) by (constructor; [exists d; split; [exact Ed|lia]|constructor]).
  assert (Dc : digit_at c = d) by (unfold digit_at; rewrite Ed; reflexivity).
  assert (Hnorm : normal x <-> is_subnormal x = false).
  { unfold normal, is_subnormal, m_is_subnormal, max_bit_len, mlen. fold (wlen x). pose proof (wf_bits x W). pose proof (val_bound _ (wf_words x W)) as Vb. fold (magnitude x) in Vb. fold (wlen x) in Vb.
    assert (bitlen (magnitude x) <= 64 * wlen x) by (apply bitlen_le; lia). unfold nonzero. split; [lia|]. intros Hf. split; [lia|exact M0]. }
  assert (Hcslen : zlen cs = zlen t) by (rewrite <- Mcs, zlen_map; reflexivity). rewrite zlen_cons in Hfew.
  destruct (is_subnormal x) eqn:Esub.
  - (* subnormal *)
    assert (Hne : ne x = EMIN).
    { apply (wf_sub x W). unfold is_subnormal, m_is_subnormal, max_bit_len, mlen in Esub. fold (wlen x) in Esub. rewrite (wf_bits x W) in *. pose proof (bitlen_pos (magnitude x) ltac:(lia)). lia. }
    assert (He0 : e < 1) by nia. destruct (fmt_int_spec r (Z.abs e) ltac:(lia)) as [F1 F2'].
    exists (mk_lit so [48] (Some (c :: cs)) (Some (false, Some Neg, fmt_int r (Z.abs e)))).
    assert (Ozero : digit_chars_ok r [48]) by (constructor; [exists 0; split; [reflexivity|destruct r; cbn; lia]|constructor]).
    assert (Occ : digit_chars_ok r (c :: cs)) by (apply Forall_cons; [exists d; split; [exact Ed|lia]|exact Ocs]).
    assert (Hexp : lit_exp r (mk_lit so [48] (Some (c :: cs)) (Some (false, Some Neg, fmt_int r (Z.abs e)))) = e) by (unfold lit_exp; cbn [l_exp sgnZ]; rewrite F2'; lia).
    set (l := mk_lit so [48] (Some (c :: cs)) (Some (false, Some Neg, fmt_int r (Z.abs e)))) in *.
    assert (Hadj : lit_adjusted r l = e) by (unfold lit_adjusted; rewrite Hexp; change (int_digits l) with (@nil Z); cbn [length]; lia).
    assert (Hds : lit_digits l = d :: t) by (unfold lit_digits; change (int_digits l) with (@nil Z); change (frac_digits l) with (c :: cs); cbn [app map]; rewrite Dc, Mcs; reflexivity).
    split. { intros dec rm. unfold n_format. rewrite A. cbn [bind]. rewrite Esub. cbn [digit_chars]. rewrite Ec. cbn [bind]. rewrite Ecs. cbn [bind].
             replace (e <? 1) with true by lia. unfold lit_text. cbn [l l_sign l_int l_frac l_exp]. rewrite Hsc. unfold l. cbn [l_sign l_int l_frac l_exp].
             destruct r; cbn [app sign_chars]; rewrite <- ?app_comm_cons; try reflexivity. }
    split. { split; [exact Ozero|]. split; [exact Occ|]. split; [left; discriminate|exact F1]. }
    assert (Hsg : lit_sign l = ns x) by exact Hso.
    split; [exact Hsg|]. split; [rewrite <- lit_digits_value; fold (lit_digits l); rewrite Hds, Hadj, Hsg; exact V|].
    split; [rewrite Hds; discriminate|]. split; [rewrite Hexp; lia|]. split; [rewrite Hadj; exact Eb|].
    split; [change (l_int l) with [48]; change (frac_digits l) with (c :: cs); change (zlen [48]) with 1; rewrite zlen_cons, Hcslen; lia|].
    split; [intros; contradiction|]. split; [intros H; apply Hnorm in H; discriminate|].
    intros _ _ ->. rewrite Hadj. cbn [bits_of] in He. lia.
  - (* normal *)
    assert (Hn : normal x) by (apply Hnorm; reflexivity). destruct (to_digits_first x r Hr W Hn) as (ds' & e' & A' & Hd).
    assert (ds' = d :: t) by (specialize (A' (fun _ _ => Panic) RNone); rewrite A in A'; congruence). subst ds'. cbn [hd] in Hd.
    set (es := if e <? 1 then Neg else Pos). set (ev := fmt_int r (Z.abs (e - 1))).
    destruct (fmt_int_spec r (Z.abs (e - 1)) ltac:(lia)) as [F1 F2']. fold ev in F1, F2'.
    assert (Hexp : lit_exp r (mk_lit so [c] (Some cs) (Some (false, Some es, ev))) = e - 1).
    { unfold lit_exp. cbn [l_exp]. rewrite F2'. unfold es. destruct (Z.ltb_spec e 1); cbn [sgnZ]; lia. }
    set (l := mk_lit so [c] (Some cs) (Some (false, Some es, ev))) in *. exists l.
    assert (Hint : int_digits l = [d]) by (unfold int_digits; cbn [l l_int map drop_zeros]; unfold l; cbn [l_int map drop_zeros]; rewrite Dc; replace (d =? 0) with false by lia; reflexivity).
    assert (Hadj : lit_adjusted r l = e) by (unfold lit_adjusted; rewrite Hexp, Hint; cbn [length]; lia).
    assert (Hds : lit_digits l = d :: t) by (unfold lit_digits; rewrite Hint; change (frac_digits l) with cs; rewrite Mcs; reflexivity).
    split. { intros dec rm. unfold n_format. rewrite A. cbn [bind]. rewrite Esub, Ec. cbn [bind]. rewrite Ecs. cbn [bind]. rewrite Hsc.
             unfold lit_text, l. cbn [l_sign l_int l_frac l_exp]. unfold es, ev. destruct (Z.ltb_spec e 1).
             - destruct r; cbn [app sign_chars]; try reflexivity.
             - replace (Z.abs (e - 1)) with (e - 1) by lia. destruct r; cbn [app sign_chars]; reflexivity. }
    split. { split; [exact Oc|]. split; [exact Ocs|]. split; [left; discriminate|exact F1]. }
    assert (Hsg : lit_sign l = ns x) by exact Hso.
    split; [exact Hsg|]. split; [rewrite <- lit_digits_value; fold (lit_digits l); rewrite Hds, Hadj, Hsg; exact V|].
    split; [rewrite Hds; discriminate|]. split; [rewrite Hexp; lia|]. split; [rewrite Hadj; exact Eb|].
    split; [change (l_int l) with [c]; change (frac_digits l) with cs; rewrite Hcslen; change (zlen [c]) with 1; lia|].
    split; [intros; contradiction|]. split; [intros _; rewrite Hds; exact Hd|]. intros _ H. contradiction.
Qed.

(** ** Round trip *)

Lemma tiny_value x : wf x -> magnitude x <> 0 -> (bpow radix2 (EMIN - 64 * wlen x) <= Rabs (value x))%R.
Proof.
  intros W N. pose proof (val_nonneg _ (wf_words x W)) as P. fold (magnitude x) in P. unfold value. rewrite F2_abs by exact P.
  pose proof (wf_exp x W). apply Rle_trans with (1 * bpow radix2 (ne x - 64 * wlen x))%R.
  - rewrite Rmult_1_l. apply bpow_le. lia.
  - apply Rmult_le_compat_r; [apply bpow_ge_0|]. apply IZR_le. lia.
Qed.

Lemma round_trip dec dec' x r p rm rm' : r <> Dec -> wf x -> 0 < wlen x -> 64 * wlen x <= p -> prec_up p + 256 < P_LIM ->
  (rm <> RNone \/ normal x \/ magnitude x = 0) ->
  exists txt q, x_format dec (Value x) r rm' = Ok txt /\ x_parse dec' txt r p rm = Ok (Value q) /\
    wf q /\ value q = value x /\ ns q = ns x /\ 64 * wlen q = prec_up p /\ ninexact q = false.
Proof.
  intros Hr W HL Hp HP Hm. destruct (format_literal x r Hr W HL) as (l & F & Lok & Ls & Lv & Ld & Le & La & Lb & L0 & Ln & Lsub).
  assert (Hpp : p <= prec_up p) by (unfold prec_up; clear; dlia).
  exists (lit_text r l).
  assert (TR : text_readable r (prec_up p) rm (lit_sign l) (lit_digits l) (lit_adjusted r l)).
  { assert (Hdv : digits_value r (lit_sign l) (lit_digits l) (lit_adjusted r l) = value x) by (unfold lit_digits; rewrite lit_digits_value; exact Lv).
    assert (Hrd : readable (prec_up p) rm (lit_sign l) (value x)).
    { destruct (Z.eq_dec (magnitude x) 0) as [E|E]; [left; apply value_zero; exact E|].
      right. destruct (Rle_dec (bpow radix2 (EMIN - 1)) (Rabs (value x))) as [H|H]; [left; exact H|right].
      assert (NN : ~ normal x) by (intros N; apply H; apply normal_iff; assumption).
      split; [destruct Hm as [Hm|[Hm|Hm]]; [exact Hm|contradiction|contradiction]|]. right.
      apply Rle_trans with (bpow radix2 (EMIN - 64 * wlen x)); [apply bpow_le; lia|apply tiny_value; assumption]. }
    destruct r; try congruence; cbn [text_readable]; try (rewrite Hdv; exact Hrd).
    destruct (Z.eq_dec (magnitude x) 0) as [E|E].
    - right. left. destruct (L0 E). split; [exact Ld|]. split; assumption.
    - destruct (Z.eq_dec (mn (nm x)) (64 * wlen x)) as [Eb|Nb].
      + left. assert (N : normal x) by (split; assumption). specialize (Ln N). pose proof (lit_digits_ok Bin l Lok) as D. destruct (lit_digits l) as [|d t]; [congruence|].
        cbn [hd] in *. apply dok_cons in D. destruct D as [D _]. cbn [rdx_num] in D. lia.
      + right. right. assert (NN : ~ normal x) by (intros [N _]; contradiction).
        split; [|split; [apply Lsub; auto|destruct Hm as [Hm|[Hm|Hm]]; [exact Hm|contradiction|contradiction]]].
        intros H. assert (Hz : value x = 0%R).
        { rewrite <- Hdv. unfold digits_value. change (rdx_num Bin) with 2. rewrite H, Z.mul_0_r. apply F2R_0. }
        apply value_zero_iff in Hz; contradiction. }
  destruct (literal_reads dec' r l p rm Hr Lok Le ltac:(lia) ltac:(lia) ltac:(lia) Ld La TR) as [_ RD].
  rewrite Lv in RD. rewrite (rnd_grad_long x (prec_up p) rm W ltac:(lia) ltac:(lia)) in RD.
  destruct (RD (value_lt_max x W)) as (q & Q1 & Q2 & Q3 & Q4 & Q5 & Q6). exists q.
  split; [unfold x_format; rewrite F; reflexivity|]. split; [exact Q1|]. split; [exact Q2|]. split; [exact Q5|]. split; [congruence|]. split; [exact Q3|].
  destruct (ninexact q); [|reflexivity]. exfalso. apply (proj1 Q6 eq_refl). reflexivity.
Qed.

Lemma round_trip_special dec dec' r p rm rm' :
  (forall s, exists txt, x_format dec (Inf s) r rm' = Ok txt /\ x_parse dec' txt r p rm = Ok (Inf s)) /\
  (forall e, exists txt, x_format dec (NaN e) r rm' = Ok txt /\ x_parse dec' txt r p rm = Ok NAN).
Proof.
  split.
  - intros []; eexists; (split; [reflexivity|]); destruct r; reflexivity.
  - intros e; eexists; (split; [reflexivity|]); destruct r; reflexivity.
Qed.
