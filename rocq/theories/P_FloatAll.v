(** Property theorems for ParseFloat on every text (string/transformers.go:140-153 and
    strconv.ParseFloat): C63. *)
From Verif Require Import S_FloatAll L_FloatAll L_FloatUse.

(** The words for infinity and NaN, Go's decimal and hexadecimal floating-point literals
    with single underscores between digits, rounded to the nearest float64, and a syntax
    error for every other text. *)
Theorem C63_parse_float : forall s, float_answer s (strconv_ParseFloat64 s).
Proof. exact ParseFloat64_answer. Qed.
Print Assumptions C63_parse_float.
(** The specification leaves no choice for texts of at most 2000 bytes, and none for
    exponents below 100000. *)
Theorem C63_one_answer : forall s r, float_answer s r ->
  (Z.of_nat (length s) <= 2000 -> r = strconv_ParseFloat64 s) /\
  ((forall neg m b k ex, float_literal s neg m b k ex -> Z.abs ex < 100000) -> r = strconv_ParseFloat64 s).
Proof. exact answer_func. Qed.
Print Assumptions C63_one_answer.
(** The transformer: one float64 in place of the concatenated texts, or the error of
    strconv with the text. *)
Theorem C63_transformer : forall n c l ss, Forall2 string_ast l ss ->
  exists r, float_answer (concat ss) r /\
    ParseFloat strconv_ParseFloat64 n c l = Ok (match r with
      | inr x => inr [mkAst 0 (head_cls l) TFloat (VFloat x) (head_sp l)]
      | inl er => inl (ENum "ParseFloat" (concat ss) (is_range er))
      end).
Proof. exact ParseFloat_all. Qed.
Print Assumptions C63_transformer.
(** The number parsers followed by ParseFloat. *)
Theorem C63_float_token : parsed_token (ETrans FloatNumberStr [ParseFloat strconv_ParseFloat64]) ":extra:FloatNumberStr" (outL strip float_word).
Proof. exact float_parsed_token. Qed.
Print Assumptions C63_float_token.
Theorem C63_numeric_token : parsed_token (ETrans NumericStr [ParseFloat strconv_ParseFloat64]) ":extra:NumericStr" (outL strip numeric_word).
Proof. exact numeric_parsed_token. Qed.
Print Assumptions C63_numeric_token.
(** On texts of digits, points, signs and exponent letters this is the function of C54,
    whatever its parameter. *)
Theorem C63_agrees : forall other s, decimal_alphabet s -> strconv_ParseFloat other s = strconv_ParseFloat64 s.
Proof. exact decimal_agrees. Qed.
Print Assumptions C63_agrees.
(** The bounds of the specification are needed: 0.00...01e100000 with 99999 zeros behind
    the point is 1, and the answer is 0. *)
Theorem C63_long_text_refuted : exists s neg m b k ex, float_literal s neg m b k ex /\
  strconv_ParseFloat64 s = inr (S754_zero false) /\
  numer_of neg m b k = 1 /\ denom_of b k = 1 /\
  ~ nearest neg (numer_of neg m b k) (denom_of b k) (strconv_ParseFloat64 s).
Proof.
  assert (Hz : Z.of_nat (Z.to_nat 99999) = 99999) by (apply Z2Nat.id; lia).
  exists (long_text (Z.to_nat 99999)), false, 1, 10, 0, 100000. split; [exact (long_literal _ Hz)|].
  destruct (long_inexact _ Hz) as [E N]. split; [exact E|]. split; [reflexivity|]. split; [reflexivity|exact N].
Qed.
Print Assumptions C63_long_text_refuted.

Example C63_example :
  strconv_ParseFloat64 (bs "0x_1_2.3_4_5p+1_2") = inr (S754_finite false 5124067782819840 (-36)) /\
  strconv_ParseFloat64 (bs "1_23.50_0_0e+1_2") = inr (S754_finite false 7904000000000000 (-6)) /\
  strconv_ParseFloat64 (bs "-0X.8P-1074") = inr (S754_zero true) /\
  strconv_ParseFloat64 (bs "0x1.8p-1074") = inr (S754_finite false 2 (-1074)) /\
  strconv_ParseFloat64 (bs "0x1p1024") = inl ErrRange /\
  strconv_ParseFloat64 (bs "-iNfInItY") = inr (S754_infinity true) /\
  strconv_ParseFloat64 (bs "+Inf") = inr (S754_infinity false) /\
  strconv_ParseFloat64 (bs "nAn") = inr S754_nan /\
  map strconv_ParseFloat64 (map bs ["+nan"; "infi"; "0x1"; "0x"; "0x.p1"; "1__0"; "_1"; "1_"; "1_.5"; "1e"; "1e5_"; "0x1e5"; "1.2.3"; ""]%string)
    = repeat (inl ErrSyntax) 14.
Proof. repeat split; vm_compute; reflexivity. Qed.
Example C63_literal_example : float_literal (bs "-0x_Fp-1_0") true 15 2 (-10) (-10) /\ infinity_text (bs "-INF") true /\ nan_text (bs "Nan").
Proof.
  split; [|split].
  - apply (fl_hex (bs "-0x_Fp-1_0") true 15 [45] 120 [95] [70] [] [] (bs "p-1_0") [15] [] (-10)).
    + reflexivity.
    + right. auto.
    + auto.
    + right. reflexivity.
    + right. discriminate.
    + right. apply sp_last. apply (d_upper 16 15); lia.
    + right. auto.
    + left. auto.
    + discriminate.
    + reflexivity.
    + exists 112, [45], true, (bs "1_0"), [1; 0]. split; [reflexivity|]. split; [auto|]. split; [right; auto|]. split; [|reflexivity].
      apply (sp_under 10 49 1); [apply (d_num 10 1); lia|]. apply sp_last. apply (d_num 10 0); lia.
  - exists [45], (bs "INF"). split; [reflexivity|]. split; [right; auto|]. left. repeat (apply Forall2_cons; [cbn; lia|]). apply Forall2_nil.
  - repeat (apply Forall2_cons; [cbn; lia|]). apply Forall2_nil.
Qed.
