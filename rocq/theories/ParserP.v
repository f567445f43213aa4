(** The parser of numeric literals. *)

From Coq Require Import ZArith Reals List Bool Lia Lra.
From Flocq Require Import Core.
From Verif Require Import Words Mantissa Num Ext Conv Parser SpecZ SpecText WordsP Spec RadixP.
Import ListNotations.
Open Scope Z_scope.
Ltac Zify.zify_post_hook ::= idtac.
Arguments Z.mul : simpl never.
Arguments Z.add : simpl never.
Arguments Z.pow : simpl never.
Arguments Z.sub : simpl never.
Arguments Z.of_nat : simpl never.
Ltac dlia := Z.div_mod_to_equations; lia.

(** ** Characters *)

Lemma radix_digit_some c r : is_radix_digit c r = true -> exists d, to_digit c (rdx_num r) = Some d /\ 0 <= d < rdx_num r.
Proof.
  intros H. unfold is_radix_digit in H. unfold to_digit.
  assert (R : 48 <= c <= 57 \/ (r = Hex /\ 97 <= c <= 102)) .
  { destruct r; cbn in H; try (left; lia). destruct (Z_le_gt_dec 97 c); [right; split; [reflexivity|lia]|left; lia]. }
  assert (V : (48 <= c <= 57 -> c - 48 < rdx_num r)) by (destruct r; cbn [rdx_num]; lia).
  destruct R as [R|[-> R]].
  - replace ((48 <=? c) && (c <=? 57)) with true by lia. replace (c - 48 <? rdx_num r) with true by lia. exists (c - 48). split; [reflexivity|]. lia.
  - replace ((48 <=? c) && (c <=? 57)) with false by lia. replace ((97 <=? c) && (c <=? 122)) with true by lia.
    cbn [rdx_num]. replace (c - 87 <? 16) with true by lia. exists (c - 87). split; [reflexivity|]. lia.
Qed.

(** A digit character, lowered, is a digit of the radix with the same value. *)
Lemma digit_char_lower r c d : char_digit c = Some d -> d < rdx_num r ->
  is_radix_digit (lower c) r = true /\ to_digit (lower c) (rdx_num r) = Some d /\ 0 <= d /\ digit_at c = d.
Proof.
  intros H Hd. unfold digit_at. rewrite H. unfold char_digit in H. unfold lower, is_radix_digit, to_digit.
  destruct ((48 <=? c) && (c <=? 57)) eqn:E1.
  { injection H as <-. replace ((65 <=? c) && (c <=? 90)) with false by lia. rewrite E1. replace (c - 48 <? rdx_num r) with true by lia.
    split; [destruct r; cbn [rdx_num] in Hd; lia|]. split; [reflexivity|]. split; [lia|reflexivity]. }
  destruct ((65 <=? c) && (c <=? 70)) eqn:E2.
  { injection H as <-. replace ((65 <=? c) && (c <=? 90)) with true by lia.
    replace ((48 <=? c + 32) && (c + 32 <=? 57)) with false by lia. replace ((97 <=? c + 32) && (c + 32 <=? 122)) with true by lia.
    replace (c + 32 - 87) with (c - 55) by lia. replace (c - 55 <? rdx_num r) with true by lia.
    split; [destruct r; cbn [rdx_num] in Hd; lia|]. split; [reflexivity|]. split; [lia|reflexivity]. }
  destruct ((97 <=? c) && (c <=? 102)) eqn:E3; [|discriminate].
  injection H as <-. replace ((65 <=? c) && (c <=? 90)) with false by lia. rewrite E1.
  replace ((97 <=? c) && (c <=? 122)) with true by lia. replace (c - 87 <? rdx_num r) with true by lia.
  split; [destruct r; cbn [rdx_num] in Hd; lia|]. split; [reflexivity|]. split; [lia|reflexivity].
Qed.

(** The characters a run of digits of radix [r] may be followed by. *)
Definition stops (r : rdx) (l : list Z) : Prop := match l with [] => True | c :: _ => is_radix_digit (lower c) r = false end.

(** The iterator after next_char on the characters [l]. *)
Definition at_rest (l : list Z) : list Z := match l with [] => [] | _ :: t => t end.
Definition at_cur (l : list Z) : option Z := match l with [] => None | c :: _ => Some (lower c) end.

Lemma digit_run_cons r c l : digit_chars_ok r (c :: l) <->
  (is_radix_digit (lower c) r = true /\ to_digit (lower c) (rdx_num r) = Some (digit_at c) /\ 0 <= digit_at c < rdx_num r /\ char_digit c <> None) /\ digit_chars_ok r l.
Proof.
  unfold digit_chars_ok. split.
  - intros H. inversion H as [|? ? (d & E & L) T]; subst. destruct (digit_char_lower r c d E L) as (A & B & C & D). rewrite D.
    split; [|exact T]. split; [exact A|]. split; [exact B|]. split; [lia|congruence].
  - intros [(A & B & C & D) T]. constructor; [|exact T]. destruct (char_digit c) as [d|] eqn:E; [|congruence]. exists d. split; [reflexivity|].
    unfold digit_at in C. rewrite E in C. lia.
Qed.

Lemma digits_loop_spec r l : digit_chars_ok r l -> forall tl bytes len, stops r tl ->
  digits_loop (at_rest (l ++ tl)) (at_cur (l ++ tl)) r bytes len =
  Ok (at_rest tl, at_cur tl, bytes ++ map digit_at l, len + zlen l).
Proof.
  induction l as [|c t IH]; intros H tl bytes len Hs.
  - cbn [app map]. rewrite app_nil_r. change (zlen []) with 0. rewrite Z.add_0_r. destruct tl as [|c t]; [reflexivity|]. cbn [at_rest at_cur] in *.
    cbn [stops] in Hs. destruct t; cbn [digits_loop]; rewrite Hs; reflexivity.
  - apply digit_run_cons in H. destruct H as [(A & B & C & _) Ht]. rewrite zlen_cons.
    specialize (IH Ht tl (bytes ++ [digit_at c]) (len + 1) Hs).
    cbn [app at_rest at_cur map]. rewrite <- app_assoc in IH. cbn [app] in IH. rewrite Z.add_assoc.
    destruct (t ++ tl) as [|c' u] eqn:E; cbn [digits_loop]; rewrite A, B; cbn [unwrap bind].
    + rewrite <- IH. cbn [at_rest at_cur]. destruct t; [|discriminate]. reflexivity.
    + rewrite <- IH. reflexivity.
Qed.

Lemma skip_zeroes_loop_spec r l : digit_chars_ok r l -> forall tl len skip, stops r tl ->
  exists k l', l = firstn k l ++ l' /\ map digit_at (firstn k l) = repeat 0 k /\ drop_zeros (map digit_at l) = map digit_at l' /\ (k <= length l)%nat /\
  digit_chars_ok r l' /\
  skip_zeroes_loop (at_rest (l ++ tl)) (at_cur (l ++ tl)) r true len skip = Ok (at_rest (l' ++ tl), at_cur (l' ++ tl), len, skip + Z.of_nat k).
Proof.
  induction l as [|c t IH]; intros H tl len skip Hs.
  - exists O, []. cbn [firstn map repeat app drop_zeros length]. repeat (split; [reflexivity|]). split; [exact H|].
    change (Z.of_nat 0) with 0. rewrite Z.add_0_r. destruct tl as [|c t]; [reflexivity|]. cbn [at_rest at_cur] in *.
    cbn [stops] in Hs. destruct t; cbn [skip_zeroes_loop]; rewrite Hs; reflexivity.
  - pose proof H as H'. apply digit_run_cons in H. destruct H as [(A & B & C & _) Ht].
    cbn [app at_rest at_cur]. destruct (Z.eqb_spec (digit_at c) 0) as [E0|N0].
    + destruct (IH Ht tl len (skip + 1) Hs) as (k & l' & E1 & E2 & E3 & E4 & E5 & E6).
      exists (S k), l'. cbn [firstn map repeat app drop_zeros length]. rewrite E0. cbn [Z.eqb]. split; [f_equal; exact E1|]. split; [f_equal; exact E2|].
      split; [exact E3|]. split; [lia|]. split; [exact E5|].
      replace (skip + Z.of_nat (S k)) with (skip + 1 + Z.of_nat k) by lia. rewrite <- E6.
      destruct (t ++ tl) as [|c' u] eqn:E; cbn [skip_zeroes_loop]; rewrite A, B; cbn [unwrap bind]; rewrite E0; cbn [Z.eqb].
      * destruct t; [|discriminate]. cbn [app] in E. subst tl. reflexivity.
      * reflexivity.
    + exists O, (c :: t). cbn [firstn map repeat app drop_zeros length]. replace (digit_at c =? 0) with false by lia.
      repeat (split; [reflexivity|]). split; [lia|]. split; [exact H'|]. change (Z.of_nat 0) with 0. rewrite Z.add_0_r.
      destruct (t ++ tl); cbn [skip_zeroes_loop at_rest at_cur]; rewrite A, B; cbn [unwrap bind]; replace (digit_at c =? 0) with false by lia; reflexivity.
Qed.

Lemma sat_id z : 0 <= z < 2 ^ 62 -> sat z = z.
Proof. intros. unfold sat. lia. Qed.

Lemma exp_loop_spec r l : digit_chars_ok r l -> forall tl e, stops r tl -> 0 <= e -> e * rdx_num r ^ zlen l + number_of r l < 2 ^ 32 ->
  exp_loop (at_rest (l ++ tl)) (at_cur (l ++ tl)) r e = Ok (at_rest tl, at_cur tl, e * rdx_num r ^ zlen l + number_of r l).
Proof.
  assert (Hb : 2 <= rdx_num r <= 16) by (destruct r; cbn; lia).
  induction l as [|c t IH]; intros H tl e Hs He Hlt.
  - cbn [app map]. change (number_of r []) with 0. change (zlen []) with 0. rewrite Z.pow_0_r, Z.mul_1_r, Z.add_0_r. destruct tl as [|c t]; [reflexivity|]. cbn [at_rest at_cur] in *.
    cbn [stops] in Hs. destruct t; cbn [exp_loop]; rewrite Hs; reflexivity.
  - apply digit_run_cons in H. destruct H as [(A & B & C & _) Ht].
    assert (En : forall x, x * rdx_num r ^ zlen (c :: t) + number_of r (c :: t) = (x * rdx_num r + digit_at c) * rdx_num r ^ zlen t + number_of r t).
    { intros x. unfold number_of. cbn [map]. rewrite dig_val_cons, !zlen_cons. pose proof (zlen_nonneg t).
      assert (zlen (map digit_at t) = zlen t) as -> by (unfold zlen; now rewrite map_length). rewrite Z.pow_add_r, Z.pow_1_r by lia. ring. }
    rewrite En in Hlt. rewrite En. pose proof (zlen_nonneg t) as Hzt.
    assert (Hpw : 1 <= rdx_num r ^ zlen t) by (assert (0 < rdx_num r ^ zlen t) by (apply Z.pow_pos_nonneg; lia); lia).
    assert (Hn0 : 0 <= number_of r t).
    { unfold number_of. assert (Dk : digits_ok (rdx_num r) (map digit_at t)).
      { clear -Ht. induction t as [|x u IH]; [constructor|]. apply digit_run_cons in Ht. destruct Ht as [(_ & _ & D & _) Hu]. cbn [map]. apply dok_cons. split; [exact D|apply IH; exact Hu]. }
      apply (dig_val_bound (rdx_num r) _ ltac:(lia) Dk). }
    assert (Hx : 0 <= e * rdx_num r + digit_at c < 2 ^ 32) by nia. assert (He2 : e < 2 ^ 31) by nia.
    specialize (IH Ht tl (e * rdx_num r + digit_at c) Hs ltac:(lia) Hlt).
    cbn [app at_rest at_cur].
    assert (S1 : sat (e * rdx_num r) = e * rdx_num r) by (apply sat_id; nia). assert (S2 : sat (e * rdx_num r + digit_at c) = e * rdx_num r + digit_at c) by (apply sat_id; lia).
    destruct (t ++ tl) as [|c' u] eqn:E; cbn [exp_loop]; rewrite A; replace (E_THRES <? e) with false by lia; rewrite B; cbn [unwrap bind]; rewrite S1, S2.
    + rewrite <- IH. destruct t; [|discriminate]. reflexivity.
    + rewrite <- IH. reflexivity.
Qed.

(** ** The whole literal *)

Definition st (l : list Z) (sg : sign) (b : list Z) (e : Z) (i n : bool) : pstate := mk_ps (at_rest l) (at_cur l) sg b e i n.

Lemma next_st l sg b e i n : next_char (st l sg b e i n) = st (at_rest l) sg b e i n.
Proof. unfold next_char, st. cbn [p_rest p_sign p_bytes p_e p_inf p_nan]. destruct l as [|c [|c' t]]; reflexivity. Qed.

Lemma digit_not r c l x : digit_chars_ok r (c :: l) -> lower x = x -> is_radix_digit x r = false -> (lower c =? x) = false.
Proof. intros H Hx Hn. apply digit_run_cons in H. destruct H as [(A & _) _]. apply Z.eqb_neq. intros E. rewrite E in A. congruence. Qed.

Lemma cur_not r l tl x : digit_chars_ok r l -> lower x = x -> is_radix_digit x r = false -> is_ch (at_cur tl) x = false -> is_ch (at_cur (l ++ tl)) x = false.
Proof. intros H Hx Hn Ht. destruct l as [|c t]; [exact Ht|]. cbn [app at_cur is_ch]. eapply digit_not; eauto. Qed.

Lemma number_nonneg r l : digit_chars_ok r l -> 0 <= number_of r l.
Proof.
  intros H. unfold number_of. assert (Dk : digits_ok (rdx_num r) (map digit_at l)).
  { induction l as [|x u IH]; [constructor|]. apply digit_run_cons in H. destruct H as [(_ & _ & D & _) Hu]. cbn [map]. apply dok_cons. split; [exact D|apply IH; exact Hu]. }
  apply (dig_val_bound (rdx_num r) _ ltac:(destruct r; cbn; lia) Dk).
Qed.

Lemma digits_ok_chars r l : digit_chars_ok r l -> digits_ok (rdx_num r) (map digit_at l).
Proof.
  intros H. induction l as [|x u IH]; [constructor|]. apply digit_run_cons in H. destruct H as [(_ & _ & D & _) Hu]. cbn [map]. apply dok_cons. split; [exact D|apply IH; exact Hu].
Qed.

Lemma parse_exp_spec r so ds sg b i n : digit_chars_ok r ds -> number_of r ds < 2 ^ 32 ->
  parse_exp (st (sign_chars so ++ ds) sg b 0 i n) r =
  Ok (st [] sg b (sgnZ (match so with Some s => s | None => Pos end) * number_of r ds) i n).
Proof.
  intros H Hn. pose proof (number_nonneg r ds H) as H0.
  assert (Nr : forall x, x = 43 \/ x = 45 -> is_radix_digit x r = false) by (intros x [-> | ->]; destruct r; reflexivity).
  pose proof (exp_loop_spec r ds H [] 0 I ltac:(lia)) as L. rewrite Z.mul_0_l, Z.add_0_l in L. specialize (L Hn). rewrite app_nil_r in L. cbn [at_rest at_cur] in L.
  unfold parse_exp. destruct so as [[]|]; cbn [sign_chars app sgnZ].
  - change (is_ch (p_cur (st (45 :: ds) sg b 0 i n)) 43) with false. change (is_ch (p_cur (st (45 :: ds) sg b 0 i n)) 45) with true.
    cbv iota beta. rewrite next_st. cbn [at_rest]. unfold st at 1 2 3. cbn [p_rest p_cur p_e p_sign p_bytes p_inf p_nan]. rewrite L. cbn [bind].
    replace (number_of r ds =? _) with false by lia. cbn [bind]. unfold st. cbn [at_rest at_cur p_sign p_bytes p_inf p_nan]. rewrite ?Z.mul_1_l; try reflexivity; repeat f_equal; lia.
  - change (is_ch (p_cur (st (43 :: ds) sg b 0 i n)) 43) with true. cbv iota beta. rewrite next_st. cbn [at_rest]. unfold st at 1 2 3. cbn [p_rest p_cur p_e p_sign p_bytes p_inf p_nan]. rewrite L. cbn [bind].
    unfold st. cbn [at_rest at_cur p_sign p_bytes p_inf p_nan]. rewrite ?Z.mul_1_l; try reflexivity; repeat f_equal; lia.
  - assert (C1 : is_ch (p_cur (st ds sg b 0 i n)) 43 = false).
    { unfold st. cbn [p_cur]. rewrite <- (app_nil_r ds). apply (cur_not r); [exact H|reflexivity|apply Nr; left; reflexivity|reflexivity]. }
    assert (C2 : is_ch (p_cur (st ds sg b 0 i n)) 45 = false).
    { unfold st. cbn [p_cur]. rewrite <- (app_nil_r ds). apply (cur_not r); [exact H|reflexivity|apply Nr; right; reflexivity|reflexivity]. }
    rewrite C1, C2. unfold st at 1 2 3. cbn [p_rest p_cur p_e p_sign p_bytes p_inf p_nan]. rewrite L. cbn [bind].
    unfold st. cbn [at_rest at_cur p_sign p_bytes p_inf p_nan]. rewrite ?Z.mul_1_l; try reflexivity; repeat f_equal; lia.
Qed.

Definition exp_text (r : rdx) (l : literal) : list Z :=
  match l_exp l with
  | None => []
  | Some (up, s, ds) => match r with Hex => [95] | _ => [] end ++ (if up : bool then 69 else 101) :: sign_chars s ++ ds
  end.
Definition frac_text (l : literal) : list Z := match l_frac l with None => [] | Some f => 46 :: f end.

Lemma exp_text_stops r l : stops r (exp_text r l) /\ is_ch (at_cur (exp_text r l)) 46 = false.
Proof. unfold exp_text. destruct (l_exp l) as [[[[] s] ds]|]; [| |split; [exact I|reflexivity]]; destruct r; split; reflexivity. Qed.

(** The exponent part, from the state reached after the digits. *)
Lemma exp_part r l sg b i n : match l_exp l with None => True | Some (_, _, ds) => digit_chars_ok r ds end -> Z.abs (lit_exp r l) < 2 ^ 32 ->
  let s := st (exp_text r l) sg b 0 i n in
  match r with
  | Hex =>
      if is_ch (p_cur s) 95 then
        let s := next_char s in
        if is_ch (p_cur s) 101 then parse_exp (next_char s) r else Ok s
      else Ok s
  | _ => if is_ch (p_cur s) 101 then parse_exp (next_char s) r else Ok s
  end = Ok (st [] sg b (lit_exp r l) i n).
Proof.
  intros H Hb s. unfold s, exp_text, lit_exp in *. destruct (l_exp l) as [[[up so] ds]|]; [|destruct r; reflexivity].
  assert (Hn : number_of r ds < 2 ^ 32).
  { pose proof (number_nonneg r ds H). destruct so as [[]|]; cbn [sgnZ] in Hb; lia. }
  pose proof (parse_exp_spec r so ds sg b i n H Hn) as P.
  destruct r; destruct up; cbn [app]; try exact P.
  all: try (match goal with |- (if is_ch ?a ?b then _ else _) = _ => change (is_ch a b) with true; cbv iota end; rewrite next_st; exact P).
  all: match goal with |- (if is_ch ?a ?b then _ else _) = _ => change (is_ch a b) with true; cbv iota end; cbv zeta; rewrite next_st; cbn [at_rest app];
    match goal with |- (if is_ch ?a ?b then _ else _) = _ => change (is_ch a b) with true; cbv iota end; rewrite next_st; exact P.
Qed.

Lemma sat_id2 z : Z.abs z < 2 ^ 63 -> sat z = z.
Proof. intros. unfold sat. lia. Qed.

Lemma zlen_map (f : Z -> Z) l : zlen (map f l) = zlen l.
Proof. unfold zlen. now rewrite map_length. Qed.

(** The outcome of parsing a literal. *)
Definition lit_outcome (r : rdx) (l : literal) (ps : pstate) : Prop :=
  p_sign ps = lit_sign l /\ p_nan ps = false /\
  let ds := int_digits l ++ map digit_at (frac_digits l) in
  (ds = [] -> p_inf ps = false /\ p_bytes ps = [] /\ p_e ps = 0) /\
  (ds <> [] -> lit_adjusted r l < EMIN -> p_inf ps = false /\ p_bytes ps = [0] /\ p_e ps = 0) /\
  (ds <> [] -> EMAX < lit_adjusted r l -> p_inf ps = true) /\
  (ds <> [] -> EMIN <= lit_adjusted r l <= EMAX -> p_inf ps = false /\ p_bytes ps = ds /\ p_e ps = lit_adjusted r l).

Lemma parse_num_spec r l sg : lit_ok r l -> Z.abs (lit_exp r l) < 2 ^ 32 -> zlen (l_int l) < 2 ^ 62 -> lit_sign l = sg ->
  exists ps, parse_num (st (l_int l ++ frac_text l ++ exp_text r l) sg [] 0 false true) r = Ok ps /\ lit_outcome r l ps.
Proof.
  intros (Hi & Hf & Hne & He) Hb Hlen Hsg. unfold parse_num.
  destruct (exp_text_stops r l) as [Es Ed]. set (et := exp_text r l) in *.
  assert (Fs : stops r (frac_text l ++ et)).
  { unfold frac_text. destruct (l_frac l) as [f|]; [|exact Es]. cbn [app stops]. destruct r; reflexivity. }
  destruct (skip_zeroes_loop_spec r (l_int l) Hi (frac_text l ++ et) 0 0 Fs) as (k & l' & E1 & E2 & E3 & E4 & E5 & E6).
  unfold parse_digits at 1. unfold st at 1 2 3. cbn [p_rest p_cur p_sign p_bytes p_e p_inf p_nan]. rewrite E6. cbn [bind].
  rewrite (digits_loop_spec r l' E5 _ _ _ Fs). cbn [bind negb andb app p_sign p_e p_inf p_nan].
  change (mk_ps (at_rest (frac_text l ++ et)) (at_cur (frac_text l ++ et)) (p_sign (st (l_int l ++ frac_text l ++ et) sg [] 0 false true)) (map digit_at l') (p_e (st (l_int l ++ frac_text l ++ et) sg [] 0 false true)) (p_inf (st (l_int l ++ frac_text l ++ et) sg [] 0 false true)) (p_nan (st (l_int l ++ frac_text l ++ et) sg [] 0 false true))) with (st (frac_text l ++ et) sg (map digit_at l') 0 false true).
  assert (Edot : (if is_ch (p_cur (st (frac_text l ++ et) sg (map digit_at l') 0 false true)) 46
       then next_char (st (frac_text l ++ et) sg (map digit_at l') 0 false true) else st (frac_text l ++ et) sg (map digit_at l') 0 false true) =
       st (frac_digits l ++ et) sg (map digit_at l') 0 false true).
  { unfold frac_text, frac_digits. destruct (l_frac l) as [f|]; cbn [app].
    - match goal with |- (if ?a then _ else _) = _ => change a with true end. cbv iota. rewrite next_st. reflexivity.
    - unfold st at 1. cbn [p_cur]. rewrite Ed. reflexivity. }
  rewrite Edot. unfold parse_digits. cbn [bind]. unfold st at 1 2 3. cbn [p_rest p_cur p_bytes].
  rewrite (digits_loop_spec r (frac_digits l) Hf et _ _ Es). cbn [bind negb andb].
  change (mk_ps (at_rest et) (at_cur et) (p_sign (st (frac_digits l ++ et) sg (map digit_at l') 0 false true)) (map digit_at l' ++ map digit_at (frac_digits l)) (p_e (st (frac_digits l ++ et) sg (map digit_at l') 0 false true)) (p_inf (st (frac_digits l ++ et) sg (map digit_at l') 0 false true)) (p_nan (st (frac_digits l ++ et) sg (map digit_at l') 0 false true))) with (st et sg (map digit_at l' ++ map digit_at (frac_digits l)) 0 false true).
  rewrite !Z.add_0_l. set (fl := if 0 =? zlen (frac_digits l) then 0 else zlen (frac_digits l)).
  pose proof (zlen_nonneg (frac_digits l)) as Hfl. assert (Hfl2 : fl = zlen (frac_digits l)) by (unfold fl; destruct (Z.eqb_spec 0 (zlen (frac_digits l))); lia).
  rewrite Hfl2. clear fl Hfl2. pose proof (zlen_nonneg l') as Hl'.
  assert (Hll : zlen l' <= zlen (l_int l)).
  { rewrite E1, zlen_app. pose proof (zlen_nonneg (firstn k (l_int l))). lia. }
  unfold lit_outcome, int_digits. rewrite E3. set (ds := map digit_at l' ++ map digit_at (frac_digits l)) in *.
  assert (Hdl : zlen ds = zlen l' + zlen (frac_digits l)) by (unfold ds; rewrite zlen_app, !zlen_map; reflexivity).
  assert (Hadj : lit_adjusted r l = lit_exp r l + zlen l') by (unfold lit_adjusted, int_digits; rewrite E3; fold (zlen (map digit_at l')); rewrite zlen_map; reflexivity).
  rewrite Hadj.
  destruct ((0 <? zlen (frac_digits l)) || (0 <? zlen l')) eqn:Hpos.
  - assert (Hds : ds <> []) by (intros E; rewrite E in Hdl; change (zlen []) with 0 in Hdl; lia).
    change (ps_flags (st et sg ds 0 false true) (p_inf (st et sg ds 0 false true)) false) with (st et sg ds 0 false false).
    pose proof (exp_part r l sg ds false false He Hb) as EP. cbv zeta in EP. fold et in EP. cbv zeta. rewrite EP. cbn [bind]. clear EP.
    set (s1 := if negb (zlen l' =? 0) then _ else _).
    assert (Hs1 : s1 = st [] sg ds (lit_exp r l + zlen l') false false).
    { unfold s1. destruct (Z.eqb_spec (zlen l') 0) as [E0|E0]; cbn [negb].
      - rewrite E0, Z.add_0_r. reflexivity.
      - unfold ps_e, st. cbn [p_rest p_cur p_sign p_bytes p_e p_inf p_nan]. rewrite sat_id2 by lia. reflexivity. }
    rewrite Hs1. cbn [p_e st]. change (p_e (st [] sg ds (lit_exp r l + zlen l') false false)) with (lit_exp r l + zlen l').
    set (adj := lit_exp r l + zlen l'). clearbody adj.
    destruct (Z.ltb_spec adj EMIN) as [H1|H1]; [|destruct (Z.ltb_spec EMAX adj) as [H2|H2]].
    + eexists. split; [reflexivity|]. cbn. split; [symmetry; exact Hsg|]. split; [reflexivity|]. split; [congruence|]. split; [auto|]. split; lia.
    + eexists. split; [reflexivity|]. cbn. split; [symmetry; exact Hsg|]. split; [reflexivity|]. split; [congruence|]. split; [lia|]. split; [auto|]. lia.
    + eexists. split; [reflexivity|]. cbn. split; [symmetry; exact Hsg|]. split; [reflexivity|]. split; [congruence|]. split; [lia|]. split; [lia|]. auto.
  - assert (Hds : ds = []) by (destruct ds as [|d t]; [reflexivity|]; rewrite zlen_cons in Hdl; pose proof (zlen_nonneg t); lia).
    assert (Hk : 0 < Z.of_nat k).
    { destruct k; [|lia]. exfalso. cbn [firstn app] in E1. destruct Hne as [H|H]; apply H.
      - rewrite E1. destruct l'; [reflexivity|]. rewrite zlen_cons in Hpos. pose proof (zlen_nonneg l'). lia.
      - destruct (frac_digits l) as [|x u]; [reflexivity|]. rewrite zlen_cons in Hpos. pose proof (zlen_nonneg u). lia. }
    replace (0 <? Z.of_nat k) with true by lia. eexists. split; [reflexivity|]. rewrite Hds. cbn.
    split; [symmetry; exact Hsg|]. split; [reflexivity|]. split; [auto|]. split; [congruence|]. split; congruence.
Qed.

Lemma parse_literal r l : lit_ok r l -> Z.abs (lit_exp r l) < 2 ^ 32 -> zlen (l_int l) < 2 ^ 62 ->
  exists ps, parse (lit_text r l) r = Ok ps /\ lit_outcome r l ps.
Proof.
  intros Hok Hb Hlen. pose proof Hok as (Hi & Hf & Hne & He).
  set (body := l_int l ++ frac_text l ++ exp_text r l).
  assert (Et : lit_text r l = sign_chars (l_sign l) ++ body) by reflexivity.
  assert (Hhd : exists c t, body = c :: t /\ (lower c = 46 \/ is_radix_digit (lower c) r = true)).
  { unfold body, frac_text, frac_digits in *. destruct (l_int l) as [|c t].
    - destruct (l_frac l) as [f|]; [|destruct Hne; congruence]. eexists _, _. split; [reflexivity|]. left. reflexivity.
    - eexists _, _. split; [reflexivity|]. right. apply digit_run_cons in Hi. apply Hi. }
  destruct Hhd as (c & t & Hbody & Hc).
  assert (Main : forall sg, lit_sign l = sg -> exists ps,
     match p_cur (st body sg [] 0 false true) with
     | None => Ok (st body sg [] 0 false true)
     | Some c =>
         if c =? 105 then Ok (parse_inf (st body sg [] 0 false true))
         else if c =? 110 then Ok (parse_nan (st body sg [] 0 false true))
         else
           let starts :=
             match r with
             | Bin => (c =? 46) || (c =? 48) || (c =? 49)
             | Oct => (c =? 46) || ((48 <=? c) && (c <=? 55))
             | Dec => (c =? 46) || ((48 <=? c) && (c <=? 57))
             | Hex => (c =? 46) || ((48 <=? c) && (c <=? 57)) || ((97 <=? c) && (c <=? 102))
             end in
           if starts then parse_num (st body sg [] 0 false true) r else Ok (st body sg [] 0 false true)
     end = Ok ps /\ lit_outcome r l ps).
  { intros sg Hsg. destruct (parse_num_spec r l sg Hok Hb Hlen Hsg) as (ps & E & O). exists ps. split; [|exact O]. fold body in E. rewrite E.
    rewrite Hbody. unfold st. cbn [p_cur at_cur]. set (x := lower c) in *. clearbody x. cbv zeta.
    assert (x <> 105 /\ x <> 110) by (destruct Hc as [->|Hc]; [lia|]; destruct r; cbn in Hc; lia).
    replace (x =? 105) with false by lia. replace (x =? 110) with false by lia.
    match goal with |- (if ?b then _ else _) = _ => assert (b = true) as ->; [|reflexivity] end.
    destruct Hc as [->|Hc]; destruct r; try reflexivity; cbn in Hc; lia. }
  unfold parse. change (mk_ps (lit_text r l) None Pos [] 0 false true) with (mk_ps (lit_text r l) None Pos [] 0 false true).
  assert (E0 : next_char (mk_ps (lit_text r l) None Pos [] 0 false true) = st (lit_text r l) Pos [] 0 false true) by (destruct (lit_text r l); reflexivity).
  rewrite E0, Et. unfold lit_sign in Main. destruct (l_sign l) as [[]|]; cbn [sign_chars app].
  - change (is_ch (p_cur (st (45 :: body) Pos [] 0 false true)) 43) with false. change (is_ch (p_cur (st (45 :: body) Pos [] 0 false true)) 45) with true. cbv iota.
    change (ps_sign (st (45 :: body) Pos [] 0 false true) Neg) with (st (45 :: body) Neg [] 0 false true). rewrite next_st. cbn [at_rest]. apply Main. reflexivity.
  - change (is_ch (p_cur (st (43 :: body) Pos [] 0 false true)) 43) with true. cbv iota.
    rewrite next_st. cbn [at_rest]. apply Main. reflexivity.
  - assert (C : forall x, x = 43 \/ x = 45 -> is_ch (p_cur (st body Pos [] 0 false true)) x = false).
    { intros x Hx. rewrite Hbody. unfold st. cbn [p_cur at_cur is_ch]. apply Z.eqb_neq. intros E. rewrite E in Hc.
      destruct Hx as [-> | ->]; destruct Hc as [Hc|Hc]; try discriminate Hc; destruct r; discriminate Hc. }
    rewrite !C by auto. apply Main. reflexivity.
Qed.

(** The digits and exponent returned denote the literal. *)
Lemma drop_zeros_val b ds : dig_val b (drop_zeros ds) = dig_val b ds.
Proof.
  induction ds as [|d t IH]; [reflexivity|]. cbn [drop_zeros]. destruct (Z.eqb_spec d 0) as [->|]; [|reflexivity].
  rewrite IH, dig_val_cons. ring.
Qed.

Lemma lit_digits_value r l :
  digits_value r (lit_sign l) (int_digits l ++ map digit_at (frac_digits l)) (lit_adjusted r l) = lit_value r l.
Proof.
  unfold digits_value, lit_value, lit_adjusted. rewrite app_length, map_length. f_equal. f_equal; [|lia].
  f_equal. unfold number_of. rewrite map_app, !dig_val_app. unfold int_digits. rewrite drop_zeros_val. reflexivity.
Qed.

Lemma lit_digits_zero r l : int_digits l ++ map digit_at (frac_digits l) = [] -> lit_value r l = 0%R.
Proof.
  intros H. rewrite <- lit_digits_value, H. unfold digits_value. rewrite dig_val_nil, Z.mul_0_r. apply F2R_0.
Qed.

(** ** No input makes the parser panic *)

Lemma skip_total r int : forall rest cur len skip, exists a b c d, skip_zeroes_loop rest cur r int len skip = Ok (a, b, c, d).
Proof.
  induction rest as [|x t IH]; intros cur len skip; cbn [skip_zeroes_loop]; destruct cur as [c|]; try (repeat eexists; reflexivity).
  - destruct (is_radix_digit c r) eqn:E; [|repeat eexists; reflexivity].
    destruct (radix_digit_some c r E) as (d & -> & _). cbn [unwrap bind]. destruct (d =? 0); repeat eexists; reflexivity.
  - destruct (is_radix_digit c r) eqn:E; [|repeat eexists; reflexivity].
    destruct (radix_digit_some c r E) as (d & -> & _). cbn [unwrap bind]. destruct (d =? 0); [apply IH|repeat eexists; reflexivity].
Qed.

Lemma digits_total r : forall rest cur bytes len, digits_ok (rdx_num r) bytes ->
  exists a b c d, digits_loop rest cur r bytes len = Ok (a, b, c, d) /\ digits_ok (rdx_num r) c.
Proof.
  induction rest as [|x t IH]; intros cur bytes len D; cbn [digits_loop]; destruct cur as [c|]; try (repeat eexists; exact D).
  - destruct (is_radix_digit c r) eqn:E; [|repeat eexists; exact D].
    destruct (radix_digit_some c r E) as (d & -> & Hd). cbn [unwrap bind]. repeat eexists. apply dok_app. split; [exact D|]. apply dok_cons. split; [exact Hd|constructor].
  - destruct (is_radix_digit c r) eqn:E; [|repeat eexists; exact D].
    destruct (radix_digit_some c r E) as (d & -> & Hd). cbn [unwrap bind]. apply IH. apply dok_app. split; [exact D|]. apply dok_cons. split; [exact Hd|constructor].
Qed.

Lemma parse_digits_total s sk int r : digits_ok (rdx_num r) (p_bytes s) ->
  exists s' a b, parse_digits s sk int r = Ok (s', a, b) /\ digits_ok (rdx_num r) (p_bytes s') /\ p_e s' = p_e s.
Proof.
  intros D. unfold parse_digits. destruct sk.
  - destruct (skip_total r int (p_rest s) (p_cur s) 0 0) as (a & b & c & d & ->). cbn [bind].
    destruct (digits_total r a b (p_bytes s) c D) as (a' & b' & c' & d' & -> & D'). cbn [bind]. repeat eexists. exact D'.
  - cbn [bind]. destruct (digits_total r (p_rest s) (p_cur s) (p_bytes s) 0 D) as (a' & b' & c' & d' & -> & D'). cbn [bind]. repeat eexists. exact D'.
Qed.

Lemma exp_step r e d : 0 <= e <= 2 ^ 31 -> 0 <= d < rdx_num r -> 0 <= sat (sat (e * rdx_num r) + d) < 2 ^ 40.
Proof. intros He Hd. assert (rdx_num r <= 16) by (destruct r; cbn; lia). assert (0 <= e * rdx_num r <= 2 ^ 31 * 16) by nia. unfold sat. lia. Qed.

Lemma exp_total r : forall rest cur e, 0 <= e < 2 ^ 40 -> exists a b c, exp_loop rest cur r e = Ok (a, b, c) /\ 0 <= c < 2 ^ 40.
Proof.
  induction rest as [|x t IH]; intros cur e He; cbn [exp_loop]; destruct cur as [c|].
  - destruct (is_radix_digit c r) eqn:E; [|eexists _, _, _; split; [reflexivity|exact He]].
    destruct (radix_digit_some c r E) as (d & -> & Hd). destruct (Z.ltb_spec E_THRES e); [eexists _, _, _; split; [reflexivity|exact He]|]. cbn [unwrap bind].
    eexists _, _, _; split; [reflexivity|apply exp_step; [lia|exact Hd]].
  - eexists _, _, _; split; [reflexivity|exact He].
  - destruct (is_radix_digit c r) eqn:E; [|eexists _, _, _; split; [reflexivity|exact He]].
    destruct (radix_digit_some c r E) as (d & -> & Hd). destruct (Z.ltb_spec E_THRES e); [eexists _, _, _; split; [reflexivity|exact He]|]. cbn [unwrap bind].
    apply IH. apply exp_step; [lia|exact Hd].
  - eexists _, _, _; split; [reflexivity|exact He].
Qed.

Lemma parse_exp_total s r : p_e s = 0 -> exists s', parse_exp s r = Ok s' /\ p_bytes s' = p_bytes s.
Proof.
  intros H. unfold parse_exp. destruct (if is_ch (p_cur s) 43 then _ else _) as [s1 neg] eqn:E1.
  assert (He : p_e s1 = 0 /\ p_bytes s1 = p_bytes s).
  { destruct (is_ch (p_cur s) 43); [|destruct (is_ch (p_cur s) 45)]; injection E1 as <- <-; unfold next_char; try destruct (p_rest s); cbn; auto. }
  destruct He as [He Hb]. rewrite He. destruct (exp_total r (p_rest s1) (p_cur s1) 0 ltac:(lia)) as (a & b & c & -> & Hc). cbn [bind].
  destruct neg; cbn [bind]; [replace (c =? -9223372036854775808) with false by lia; cbn [bind]|]; eexists; (split; [reflexivity|exact Hb]).
Qed.

Lemma next_bytes s : p_bytes (next_char s) = p_bytes s /\ p_e (next_char s) = p_e s.
Proof. unfold next_char. destruct (p_rest s); split; reflexivity. Qed.

Definition good_state (r : rdx) (ps : pstate) : Prop := digits_ok (rdx_num r) (p_bytes ps) /\ (p_inf ps = false -> p_nan ps = false -> EMIN <= p_e ps <= EMAX).

Lemma parse_num_total s r : digits_ok (rdx_num r) (p_bytes s) -> p_e s = 0 -> exists ps, parse_num s r = Ok ps /\ good_state r ps.
Proof.
  intros D He. unfold parse_num. destruct (parse_digits_total s true true r D) as (s1 & n1 & k1 & -> & D1 & E1). cbn [bind].
  set (s2 := if is_ch (p_cur s1) 46 then next_char s1 else s1).
  assert (D2 : p_bytes s2 = p_bytes s1 /\ p_e s2 = p_e s1) by (unfold s2; destruct (is_ch _ _); [apply next_bytes|split; reflexivity]).
  destruct (parse_digits_total s2 false false r ltac:(rewrite (proj1 D2); exact D1)) as (s3 & n3 & k3 & -> & D3 & E3). cbn [bind].
  destruct ((0 <? n3) || (0 <? n1)).
  - set (s4 := ps_flags s3 (p_inf s3) false). assert (D4 : digits_ok (rdx_num r) (p_bytes s4)) by exact D3.
    assert (E4 : p_e s4 = 0) by (change (p_e s4) with (p_e s3); destruct D2; congruence).
    assert (X : exists s5, match r with
      | Hex => if is_ch (p_cur s4) 95 then let s := next_char s4 in if is_ch (p_cur s) 101 then parse_exp (next_char s) r else Ok s else Ok s4
      | _ => if is_ch (p_cur s4) 101 then parse_exp (next_char s4) r else Ok s4 end = Ok s5 /\ digits_ok (rdx_num r) (p_bytes s5)).
    { assert (G : exists s5, (if is_ch (p_cur s4) 101 then parse_exp (next_char s4) r else Ok s4) = Ok s5 /\ digits_ok (rdx_num r) (p_bytes s5)).
      { destruct (is_ch (p_cur s4) 101); [|exists s4; split; [reflexivity|exact D4]]. destruct (next_bytes s4) as [B E].
        destruct (parse_exp_total (next_char s4) r ltac:(congruence)) as (s5 & P & Q). exists s5. split; [exact P|]. rewrite Q, B. exact D4. }
      assert (G2 : exists s5, (if is_ch (p_cur s4) 95 then let s := next_char s4 in if is_ch (p_cur s) 101 then parse_exp (next_char s) r else Ok s else Ok s4) = Ok s5 /\ digits_ok (rdx_num r) (p_bytes s5)).
      { destruct (is_ch (p_cur s4) 95); [|exists s4; split; [reflexivity|exact D4]]. destruct (next_bytes s4) as [B E]. cbv zeta.
        destruct (is_ch (p_cur (next_char s4)) 101); [|exists (next_char s4); split; [reflexivity|rewrite B; exact D4]]. destruct (next_bytes (next_char s4)) as [B' E'].
        destruct (parse_exp_total (next_char (next_char s4)) r ltac:(congruence)) as (s5 & P & Q). exists s5. split; [exact P|]. rewrite Q, B', B. exact D4. }
      destruct r; [exact G|exact G|exact G|exact G2]. }
    destruct X as (s5 & X1 & X2). cbv zeta. cbv zeta in X1. rewrite X1. cbn [bind].
    set (s6 := if negb (n1 =? 0) then _ else s5). assert (D6 : digits_ok (rdx_num r) (p_bytes s6)) by (unfold s6; destruct (negb _); exact X2).
    destruct (Z.ltb_spec (p_e s6) EMIN); [|destruct (Z.ltb_spec EMAX (p_e s6))].
    + eexists. split; [reflexivity|]. split; [apply dok_cons; split; [destruct r; cbn; lia|constructor]|]. cbn. lia.
    + eexists. split; [reflexivity|]. split; [exact D6|]. cbn. discriminate.
    + eexists. split; [reflexivity|]. split; [exact D6|]. intros. lia.
  - assert (E3' : p_e s3 = 0) by (destruct D2; congruence).
    destruct (0 <? k1); eexists; (split; [reflexivity|]); split; try exact D3; cbn; intros; rewrite E3'; lia.
Qed.

Lemma parse_total str r : exists ps, parse str r = Ok ps /\ good_state r ps.
Proof.
  unfold parse. set (s0 := next_char _). assert (H0 : p_bytes s0 = [] /\ p_e s0 = 0 /\ p_nan s0 = true) by (unfold s0, next_char; cbn; destruct str; auto).
  set (s1 := if is_ch (p_cur s0) 43 then _ else _).
  assert (N : forall s, p_nan (next_char s) = p_nan s) by (intros s; unfold next_char; destruct (p_rest s); reflexivity).
  assert (H1 : p_bytes s1 = [] /\ p_e s1 = 0 /\ p_nan s1 = true).
  { unfold s1. destruct (is_ch _ _); [|destruct (is_ch _ _)]; [| |exact H0]; rewrite ?N, ?(proj1 (next_bytes _)), ?(proj2 (next_bytes _)); exact H0. }
  assert (G1 : good_state r s1) by (split; [rewrite (proj1 H1); constructor|destruct H1 as (_ & _ & H1); intros; congruence]).
  destruct (p_cur s1) as [c|]; [|exists s1; split; [reflexivity|exact G1]].
  assert (G2 : p_bytes (next_char (next_char s1)) = [] /\ p_e (next_char (next_char s1)) = 0 /\ p_nan (next_char (next_char s1)) = true).
  { rewrite !N, !(proj1 (next_bytes _)), !(proj2 (next_bytes _)). exact H1. }
  destruct (c =? 105).
  { eexists. split; [reflexivity|]. unfold parse_inf. destruct (_ && _); (split; [cbn; rewrite (proj1 G2); constructor|cbn; intros; try discriminate]).
    destruct G2 as (_ & _ & G2). congruence. }
  destruct (c =? 110).
  { eexists. split; [reflexivity|]. unfold parse_nan. destruct (_ && _); (split; [cbn; rewrite (proj1 G2); constructor|cbn; intros; try discriminate]).
    destruct G2 as (_ & _ & G2). congruence. }
  cbv zeta. destruct (match r with Bin => _ | Oct => _ | Dec => _ | Hex => _ end); [|exists s1; split; [reflexivity|exact G1]].
  apply parse_num_total; [rewrite (proj1 H1); constructor|apply H1].
Qed.

(** ** The words inf and nan *)

Lemma parse_words r sg c1 c2 c3 rest : 
  (map lower [c1; c2; c3] = [105; 110; 102] -> exists ps, parse (sign_chars sg ++ c1 :: c2 :: c3 :: rest) r = Ok ps /\ p_inf ps = true /\ p_sign ps = match sg with Some s => s | None => Pos end) /\
  (map lower [c1; c2; c3] = [110; 97; 110] -> exists ps, parse (sign_chars sg ++ c1 :: c2 :: c3 :: rest) r = Ok ps /\ p_inf ps = false /\ p_nan ps = true).
Proof.
  split; intros H; cbn [map] in H; injection H as H1 H2 H3; destruct sg as [[]|]; unfold parse, next_char; cbn [sign_chars app p_rest p_cur p_sign p_bytes p_e p_inf p_nan is_ch];
    rewrite ?H1; cbn; unfold parse_inf, parse_nan, next_char; cbn; rewrite ?H1, ?H2, ?H3; cbn; rewrite ?H1, ?H2, ?H3; eexists; (split; [reflexivity|]); split; reflexivity.
Qed.
