(** Lemmas for C63: the transformer, the parsers, agreement with C54, uniqueness. *)
From Verif Require Import L_Trans L_Extra L_Float L_IntTok L_FloatAll.
From Verif Require Export S_FloatAll.

(** ** The transformer and the parsers *)
Lemma ParseFloat_all n c l ss : Forall2 string_ast l ss ->
  exists r, float_answer (concat ss) r /\
    ParseFloat strconv_ParseFloat64 n c l = Ok (match r with
      | inr x => inr [mkAst 0 (head_cls l) TFloat (VFloat x) (head_sp l)]
      | inl er => inl (ENum "ParseFloat" (concat ss) (is_range er))
      end).
Proof.
  intros H. exists (strconv_ParseFloat64 (concat ss)). split; [apply ParseFloat64_answer|]. unfold ParseFloat. rewrite (with_concat_ok _ _ _ H).
  destruct (strconv_ParseFloat64 (concat ss)); reflexivity.
Qed.
Lemma parsed_token_of e cls R : token e cls R -> peg_gram e -> parsed_token (ETrans e [ParseFloat strconv_ParseFloat64]) cls R.
Proof.
  set (t := ParseFloat strconv_ParseFloat64).
  intros T G env c He Hb Hp Hs. destruct (T env c He Hb Hp Hs) as (n & o & E & H).
  set (w := mkW (c_str c) (c_slice c) (c_tag c) env).
  assert (Hw : in_world w c) by (repeat split).
  assert (Gt : peg_gram (ETrans e [t])). { split; [exact G|]. split; [apply parse_float_gram|exact I]. }
  destruct H as [(x & s & a & Lo & S1 & P1 & K1 & C1 & T1 & V1)|[N S1]].
  - assert (P : peg w e (c_sp c) (RSucc (c_sp o) [a])).
    { apply (peg_adequate w _ c He G Hw Hs). exists n, o, None. split; [exact E|]. repeat split; auto. }
    assert (Sa : Forall2 string_ast [a] [s]) by (constructor; [split; auto|constructor]).
    destruct (ParseFloat_all 0%nat (fresh w (c_sp c)) [a] [s] Sa) as (r & A & Et).
    assert (Es : concat [s] = s) by (cbn; apply app_nil_r). rewrite Es in *. destruct r as [er|y].
    + assert (P2 : peg w (ETrans e [t]) (c_sp c) (RErr (c_sp o) (ENum "ParseFloat" s (is_range er)))).
      { eapply peg_trans_bad; [exact P|]. eapply (pl_err _ 0%nat); exact Et. }
      destruct (proj1 (peg_adequate w _ c He Gt Hw Hs _) P2) as (n2 & o2 & err & E2 & Rr). simpl in Rr. destruct Rr as (-> & A1 & A2).
      exists n2, o2. eexists. split; [exact E2|]. left. exists x, s, (inl er). auto.
    + assert (P2 : peg w (ETrans e [t]) (c_sp c) (RSucc (c_sp o) [mkAst 0 (a_cls a) TFloat (VFloat y) (a_sp a)])).
      { eapply peg_trans_ok; [exact P|]. eapply (pl_ok _ 0%nat); [exact Et|constructor]. }
      destruct (proj1 (peg_adequate w _ c He Gt Hw Hs _) P2) as (n2 & o2 & err & E2 & Rr). simpl in Rr. destruct Rr as (-> & A1 & A2 & A3).
      exists n2, o2, None. split; auto. left. exists x, s, (inr y). split; [exact Lo|]. split; [exact A|]. split; [auto|]. split; [auto|].
      split; [unfold c_pos in *; rewrite A2; auto|]. eexists. split; [exact A3|]. auto.
  - assert (P : peg w e (c_sp c) RFail).
    { apply (peg_adequate w _ c He G Hw Hs). exists n, o, None. split; [exact E|]. repeat split; auto. }
    assert (P2 : peg w (ETrans e [t]) (c_sp c) RFail) by (apply peg_trans_fail; auto).
    destruct (proj1 (peg_adequate w _ c He Gt Hw Hs _) P2) as (n2 & o2 & err & E2 & Rr). simpl in Rr. destruct Rr as (-> & A1).
    exists n2, o2, None. split; auto.
Qed.
Lemma float_parsed_token : parsed_token (ETrans FloatNumberStr [ParseFloat strconv_ParseFloat64]) ":extra:FloatNumberStr" (outL strip float_word).
Proof. apply parsed_token_of; [apply float_token|xgram]. Qed.
Lemma numeric_parsed_token : parsed_token (ETrans NumericStr [ParseFloat strconv_ParseFloat64]) ":extra:NumericStr" (outL strip numeric_word).
Proof. apply parsed_token_of; [apply numeric_token|xgram]. Qed.

(** ** Agreement with the decimal reading of C54 *)
Lemma byte_facts c : decimal_byte c = true -> (c =? 95) = false /\ (lower c =? 105) = false /\ (lower c =? 110) = false /\ (lower c =? 120) = false /\ (lower c =? 101) = is_exp c.
Proof.
  unfold decimal_byte, is_exp, is_num, lower, in_rng. intros H.
  assert (K : c = 43 \/ c = 45 \/ c = 46 \/ (48 <= c <= 57) \/ c = 69 \/ c = 101) by lia.
  destruct K as [->|[->|[->|[K|[->| ->]]]]]; try (repeat split; reflexivity).
  destruct ((65 <=? c) && (c <=? 90)) eqn:E; repeat split; lia.
Qed.
Lemma mant_agrees s : forallb decimal_byte s = true -> forall dot dig m frac,
  read_mant false s dot dig false m frac =
  (let '(m', f', d', r) := read_mantissa s dot dig m frac in (m', f', d', false, r)) /\
  forallb decimal_byte (snd (read_mantissa s dot dig m frac)) = true.
Proof.
  induction s as [|c s IH]; intros H dot dig m frac; [split; reflexivity|]. cbn [forallb] in H. apply andb_true_iff in H. destruct H as [Hc Hs].
  destruct (byte_facts c Hc) as (U & _). cbn [read_mant read_mantissa]. rewrite U.
  assert (Z0 : forallb decimal_byte (c :: s) = true) by (cbn [forallb]; rewrite Hc, Hs; reflexivity).
  destruct (c =? 46); [destruct dot; [split; [reflexivity|exact Z0]|apply IH, Hs]|].
  destruct (is_num c); [apply IH, Hs|]. cbn [andb]. split; [reflexivity|exact Z0].
Qed.
Lemma exp_digits_agree s : forallb decimal_byte s = true -> forall e, read_exp_digits s e false = (let '(e', r) := read_digits s e in (e', false, r)).
Proof.
  induction s as [|c s IH]; intros H e; [reflexivity|]. cbn [forallb] in H. apply andb_true_iff in H. destruct H as [Hc Hs].
  destruct (byte_facts c Hc) as (U & _). cbn [read_exp_digits read_digits]. rewrite U. destruct (is_num c); [apply IH, Hs|reflexivity].
Qed.
Lemma exp_agrees s : forallb decimal_byte s = true ->
  read_exp false s false = match read_exponent s with Some (e, r) => Some (e, false, r) | None => None end.
Proof.
  intros H. destruct s as [|c s]; [reflexivity|]. cbn [forallb] in H. apply andb_true_iff in H. destruct H as [Hc Hs].
  destruct (byte_facts c Hc) as (_ & _ & _ & _ & X). unfold read_exp, read_exponent. rewrite X. destruct (is_exp c); [|reflexivity].
  assert (K : forall sg (r1 : bytes), forallb decimal_byte r1 = true ->
    match r1 with d :: _ => if is_num d then let '(e, us', r2) := read_exp_digits r1 0 false in Some (sg * e, us', r2) else None | [] => None end =
    match match r1 with d :: _ => if is_num d then let '(e, r2) := read_digits r1 0 in Some (sg * e, r2) else None | [] => None end with
    | Some (e, r) => Some (e, false, r) | None => None end).
  { intros sg [|d r1] F; [reflexivity|]. destruct (is_num d); [|reflexivity]. rewrite (exp_digits_agree _ F). destruct (read_digits (d :: r1) 0). reflexivity. }
  destruct s as [|x s]; [reflexivity|]. cbn [forallb] in Hs. pose proof Hs as Hs'. apply andb_true_iff in Hs'. destruct Hs' as [_ Hs2].
  destruct (x =? 43); [apply K, Hs2|]. destruct (x =? 45); [apply K, Hs2|]. exact (K 1 (x :: s) Hs).
Qed.
Lemma special_decimal s : forallb decimal_byte s = true -> special s = None.
Proof.
  intros H. destruct s as [|c s]; [reflexivity|]. cbn [forallb] in H. apply andb_true_iff in H. destruct H as [Hc Hs].
  destruct (byte_facts c Hc) as (_ & I & N & _). unfold special. rewrite I, N. destruct ((c =? 43) || (c =? 45)); [|reflexivity].
  apply special_inf_none. destruct s as [|d s]; [reflexivity|]. cbn [forallb] in Hs. apply andb_true_iff in Hs. destruct Hs as [Hd _].
  change (bs "infinity") with (105 :: bs "nfinity"). cbn [prefix_len]. destruct (byte_facts d Hd) as (_ & Id & _). rewrite Id. reflexivity.
Qed.
Lemma decimal_agrees other s : decimal_alphabet s -> strconv_ParseFloat other s = strconv_ParseFloat64 s.
Proof.
  intros A. apply alphabet_spec in A. unfold strconv_ParseFloat, strconv_ParseFloat64. rewrite A, (special_decimal _ A). unfold read_float, read_float_all.
  assert (K : forall neg (s1 : bytes), forallb decimal_byte s1 = true ->
    match (let '(m, frac, dig, r) := read_mantissa s1 false false 0 0 in
           if dig then match read_exponent r with Some (e, []) => Some (neg, m, e - frac) | _ => None end else None) with
    | Some (neg, m, e) => decimal_to_float neg m e
    | None => inl ErrSyntax
    end =
    match (let '(hex, s2) := match s1 with
                    | z :: x :: ((_ :: _) as t) => if (z =? 48) && (lower x =? 120) then (true, t) else (false, s1)
                    | _ => (false, s1)
                    end in
  let '(m, frac, dig, us, r) := read_mant hex s2 false false false 0 0 in
  if dig then
    match read_exp hex r us with
    | Some (e, us', rest) =>
        if us' && negb (underscore_ok (firstn (length s - length rest) s)) then None
        else Some (neg, hex, m, if hex then e - 4 * frac else e - frac, rest)
    | None => None
    end
  else None) with
      | Some (neg, hex, m, e, []) => if hex : bool then binary_to_float neg m e else decimal_to_float neg m e
      | _ => inl ErrSyntax
      end).
  { intros neg s1 F.
    assert (X : match s1 with
                    | z :: x :: ((_ :: _) as t) => if (z =? 48) && (lower x =? 120) then (true, t) else (false, s1)
                    | _ => (false, s1)
                    end = (false, s1)).
    { destruct s1 as [|z [|x [|y t]]]; try reflexivity. cbn [forallb] in F. apply andb_true_iff in F. destruct F as [_ F]. apply andb_true_iff in F. destruct F as [F _].
      destruct (byte_facts x F) as (_ & _ & _ & N & _). rewrite N, andb_false_r. reflexivity. }
    rewrite X. destruct (mant_agrees s1 F false false 0 0) as [M R]. rewrite M.
    destruct (read_mantissa s1 false false 0 0) as [[[m frac] dig] r]. cbn [snd] in R. destruct dig; [|reflexivity].
    rewrite (exp_agrees _ R). destruct (read_exponent r) as [[e [|c r']]|]; reflexivity. }
  destruct s as [|c s]; [reflexivity|]. cbn [forallb] in A. pose proof A as A'. apply andb_true_iff in A'. destruct A' as [_ A2].
  destruct (c =? 43); [exact (K false s A2)|]. destruct (c =? 45); [exact (K true s A2)|exact (K false (c :: s) A)].
Qed.
Lemma same_reading s : strconv_ParseFloat strconv_ParseFloat64 s = strconv_ParseFloat64 s.
Proof.
  destruct (forallb decimal_byte s) eqn:F; [apply decimal_agrees, alphabet_spec, F|]. unfold strconv_ParseFloat. rewrite F. reflexivity.
Qed.

(** ** One answer *)
Lemma nearest_func neg n d r r' : 0 < d -> nearest neg n d r -> nearest neg n d r' -> r = r'.
Proof.
  intros D [(x & -> & R & S & T)|[-> T]] [(y & -> & R' & S' & T')|[-> T']]; try contradiction; [|reflexivity].
  f_equal. apply (rounded_func n d); auto. congruence.
Qed.
Lemma answer_func s r : float_answer s r -> (Z.of_nat (length s) <= 2000 -> r = strconv_ParseFloat64 s) /\
  ((forall neg m b k ex, float_literal s neg m b k ex -> Z.abs ex < 100000) -> r = strconv_ParseFloat64 s).
Proof.
  intros A. pose proof (ParseFloat64_answer s) as A0.
  assert (K : (Z.of_nat (length s) <= 2000 \/ forall neg m b k ex, float_literal s neg m b k ex -> Z.abs ex < 100000) -> r = strconv_ParseFloat64 s).
  { intros L. destruct A as (Ai & An & Al & _ & Ae), A0 as (Bi & Bn & Bl & _ & Be).
    assert (X : (exists neg, infinity_text s neg) \/ nan_text s \/ (exists neg m b k ex, float_literal s neg m b k ex) \/
      ((forall neg, ~ infinity_text s neg) /\ ~ nan_text s /\ (forall neg m b k ex, ~ float_literal s neg m b k ex))).
    { destruct (special s) as [[x n]|] eqn:Sp.
      - destruct (Nat.eq_dec n (length s)) as [->|Ne].
        + destruct (special_back _ _ Sp); auto.
        + right. right. right. split; [|split].
          * intros neg H. rewrite (special_infinity _ _ H) in Sp. congruence.
          * intros H. rewrite (special_nan _ H) in Sp. congruence.
          * intros neg m b k ex H. rewrite (literal_special _ _ _ _ _ _ H) in Sp. discriminate.
      - right. right. destruct (read_float_all s) as [[[[[neg hex] m] e] [|c t]]|] eqn:R.
        + left. exact (read_literal _ _ _ _ _ R).
        + right. split; [intros neg' H; rewrite (special_infinity _ _ H) in Sp; discriminate|]. split; [intros H; rewrite (special_nan _ H) in Sp; discriminate|].
          intros neg' m' b k ex H. destruct (literal_read _ _ _ _ _ _ H) as (hex' & e' & _ & _ & E). congruence.
        + right. split; [intros neg' H; rewrite (special_infinity _ _ H) in Sp; discriminate|]. split; [intros H; rewrite (special_nan _ H) in Sp; discriminate|].
          intros neg' m' b k ex H. destruct (literal_read _ _ _ _ _ _ H) as (hex' & e' & _ & _ & E). congruence. }
    destruct X as [[neg H]|[H|[(neg & m & b & k & ex & H)|(N1 & N2 & N3)]]].
    - rewrite (Ai _ H), (Bi _ H). reflexivity.
    - rewrite (An H), (Bn H). reflexivity.
    - assert (L' : Z.abs ex < 100000 \/ Z.of_nat (length s) <= 2000) by (destruct L as [L|L]; [auto|left; eapply L; eauto]).
      eapply nearest_func; [|eapply Al; eauto|eapply Bl; eauto]. apply denom_pos. eapply literal_base; eauto.
    - rewrite (Ae N1 N2 N3), (Be N1 N2 N3). reflexivity. }
  split; intros L; apply K; auto.
Qed.

(** ** A long text whose exponent is not read exactly *)
Section Long.
Variable zeros : nat.
Hypothesis Hz : Z.of_nat zeros = 99999.
Definition long_text : bytes := bs "0." ++ repeat 48 zeros ++ bs "1e100000".
Lemma mant_zeros n t frac : read_mant false (repeat 48 n ++ t) true true false 0 frac = read_mant false t true true false 0 (frac + Z.of_nat n).
Proof.
  revert frac. induction n as [|n IH]; intros frac; cbn [repeat app].
  - f_equal. lia.
  - cbn [read_mant]. change (is_num 48) with true. cbn [Z.eqb Pos.eqb andb]. change (0 * 10 + (48 - 48)) with 0. rewrite IH. f_equal. lia.
Qed.
Lemma read_point (d : Z) (r : bytes) m frac us e : read_mant false (48 :: 46 :: d :: r) false false false 0 0 = (m, frac, true, us, bs "e100000") ->
  read_exp false (bs "e100000") us = Some (e, false, []) ->
  read_float_all (48 :: 46 :: d :: r) = Some (false, false, m, e - frac, []).
Proof.
  intros M E.
  assert (K : forall x, read_mant false (48 :: 46 :: d :: r) false false false 0 0 = x -> read_float_all (48 :: 46 :: d :: r) =
    let '(m, frac, dig, us, rest) := x in
    if dig : bool then match read_exp false rest us with
      | Some (e, us', rest') => if us' && negb (underscore_ok (firstn (length (48 :: 46 :: d :: r) - length rest') (48 :: 46 :: d :: r))) then None
          else Some (false, false, m, e - frac, rest')
      | None => None end
    else None) by (intros x <-; reflexivity).
  rewrite (K _ M), E. reflexivity.
Qed.
Lemma long_read : read_float_all long_text = Some (false, false, 1, 10000 - 100000, []).
Proof.
  assert (M : read_mant false long_text false false false 0 0 = (1, 100000, true, false, bs "e100000")).
  { unfold long_text. change (bs "0." ++ repeat 48 zeros ++ bs "1e100000") with (48 :: 46 :: repeat 48 zeros ++ bs "1e100000").
    cbn [read_mant]. change (is_num 48) with true. cbn [Z.eqb Pos.eqb]. change (0 * 10 + (48 - 48)) with 0. rewrite mant_zeros.
    rewrite Hz. reflexivity. }
  revert M. unfold long_text. change (bs "0." ++ repeat 48 zeros ++ bs "1e100000") with (48 :: 46 :: repeat 48 zeros ++ bs "1e100000").
  destruct (repeat 48 zeros ++ bs "1e100000") as [|d r] eqn:X; [destruct (repeat 48 zeros); discriminate X|]. intros M.
  exact (read_point d r 1 100000 false 10000 M eq_refl).
Qed.
Lemma positional_zeros n ds : positional 10 (repeat 0 n ++ ds) = positional 10 ds.
Proof. induction n as [|n IH]; [reflexivity|]. cbn [repeat app positional]. rewrite IH. lia. Qed.
Lemma separated_zeros n t ds : separated 10 t ds -> separated 10 (repeat 48 n ++ t) (repeat 0 n ++ ds).
Proof. intros S. induction n as [|n IH]; [exact S|]. cbn [repeat app]. apply sp_next; [|exact IH]. apply (d_num 10 0); lia. Qed.
Lemma long_literal : float_literal long_text false 1 10 0 100000.
Proof.
  assert (D0 : digit 10 48 0) by (apply (d_num 10 0); lia). assert (D1 : digit 10 49 1) by (apply (d_num 10 1); lia).
  replace 0 with (100000 - Z.of_nat (length (repeat 0 zeros ++ [1]))).
  2:{ rewrite app_length, repeat_length, Nat2Z.inj_add. rewrite Hz. reflexivity. }
  apply (fl_decimal _ _ _ [] [48] [46] (repeat 48 zeros ++ [49]) (bs "e100000") [0] (repeat 0 zeros ++ [1]) 100000).
  - unfold long_text. rewrite <- app_assoc. reflexivity.
  - left. auto.
  - right. apply sp_last. exact D0.
  - left. reflexivity.
  - right. apply separated_zeros, sp_last, D1.
  - discriminate.
  - symmetry. change ([0] ++ repeat 0 zeros ++ [1]) with (repeat 0 (Datatypes.S zeros) ++ [1]). rewrite positional_zeros. reflexivity.
  - right. exists 101, [], false, (bs "100000"), [1;0;0;0;0;0]. split; [reflexivity|]. split; [auto|]. split; [left; auto|]. split; [|reflexivity].
    apply sp_next; [exact D1|]. do 4 (apply sp_next; [exact D0|]). apply sp_last, D0.
Qed.
Lemma long_inexact : strconv_ParseFloat64 long_text = inr (S754_zero false) /\ ~ nearest false (numer_of false 1 10 0) (denom_of 10 0) (strconv_ParseFloat64 long_text).
Proof.
  assert (E : strconv_ParseFloat64 long_text = inr (S754_zero false)).
  { unfold strconv_ParseFloat64. rewrite (literal_special _ _ _ _ _ _ long_literal), long_read, decimal_is.
    pose proof (to_float_rounds 10 false 1 (10000 - 100000) ltac:(lia) ltac:(lia)) as N.
    assert (T : nearest false (numer_of false 1 10 (10000 - 100000)) (denom_of 10 (10000 - 100000)) (inr (S754_zero false))).
    { apply tiny_zero; [lia| |lia]. split; [lia|]. apply Z.ltb_lt. vm_compute. reflexivity. }
    eapply nearest_func; [|exact N|exact T]. apply denom_pos. lia. }
  split; [exact E|]. rewrite E. intros [(x & Ex & (_ & _ & C & _) & _)|[X _]]; [|discriminate]. injection Ex as <-.
  specialize (C (S754_finite false 1 0) ltac:(split; [vm_compute; reflexivity|lia])). apply Z.leb_le in C. vm_compute in C. discriminate.
Qed.
End Long.
