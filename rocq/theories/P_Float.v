(** Property theorems for ParseFloat (string/transformers.go:140-153): C54. *)
From Verif Require Import S_Float L_Extra L_Float.

(** ParseFloat concatenates the texts and returns the nearest float64, ties to even; a
    number too large for float64 is a range error, a text that is no number a syntax
    error. *)
Theorem C54_parse_float : forall other n c l ss, Forall2 string_ast l ss -> decimal_alphabet (concat ss) ->
  (exists x, denotes (concat ss) x /\
     ParseFloat (strconv_ParseFloat other) n c l = Ok (inr [mkAst 0 (head_cls l) TFloat (VFloat x) (head_sp l)])) \/
  (overflows (concat ss) /\ ParseFloat (strconv_ParseFloat other) n c l = Ok (inl (ENum "ParseFloat" (concat ss) true))) \/
  (~ is_number (concat ss) /\ ParseFloat (strconv_ParseFloat other) n c l = Ok (inl (ENum "ParseFloat" (concat ss) false))).
Proof. exact ParseFloat_ok. Qed.
Print Assumptions C54_parse_float.

(** The number parsers followed by ParseFloat. *)
Theorem C54_float_token : forall other,
  float64_token (ETrans FloatNumberStr [ParseFloat (strconv_ParseFloat other)]) ":extra:FloatNumberStr" (outL strip float_word).
Proof. exact float_number_token. Qed.
Print Assumptions C54_float_token.
Theorem C54_numeric_token : forall other,
  float64_token (ETrans NumericStr [ParseFloat (strconv_ParseFloat other)]) ":extra:NumericStr" (outL strip numeric_word).
Proof. exact numeric_number_token. Qed.
Print Assumptions C54_numeric_token.

(** The numbers are the decimal floats of C33, and a text denotes one number. *)
Theorem C54_numbers : forall s, is_number s <-> decimal_float s.
Proof. exact number_decimal. Qed.
Print Assumptions C54_numbers.
Theorem C54_value_unique : forall s neg m ex frac neg' m' ex' frac',
  decimal_value s neg m ex frac -> decimal_value s neg' m' ex' frac' -> Z.abs ex < 100000 -> Z.abs ex' < 100000 ->
  neg = neg' /\ m = m' /\ ex - frac = ex' - frac'.
Proof. exact value_unique. Qed.
Print Assumptions C54_value_unique.
(** A fraction has one rounded float64, up to the sign of zero. *)
Theorem C54_rounded_unique : forall n d x y, 0 < d -> rounded n d x -> rounded n d y -> negative x = negative y -> x = y.
Proof. exact rounded_func. Qed.
Print Assumptions C54_rounded_unique.

(** Not every token is a number: the point without a digit of C33 is rejected here. *)
Theorem C54_digitless_token : forall other n c, exists w a,
  float_word w /\ numeric_word w /\ strip w = [46] /\ a_val a = VStr (strip w) /\
  ParseFloat (strconv_ParseFloat other) n c [a] = Ok (inl (ENum "ParseFloat" [46] false)).
Proof.
  intros other n c. exists [46; 95], (mkAst 0 "" TString (VStr [46]) (mkSP 0 0)).
  assert (P : point_mantissa [46; 95]). { right. exists [95]. split; [reflexivity|]. split; [discriminate|]. constructor; auto. }
  split; [exists [], [46; 95], []; split; [reflexivity|]; split; [left; reflexivity|]; left; split; [exact P|left; reflexivity]|].
  split; [exists [], [46; 95], []; split; [reflexivity|]; split; [left; reflexivity|]; split; [left; exact P|left; reflexivity]|].
  split; [reflexivity|]. split; [reflexivity|]. reflexivity.
Qed.
Print Assumptions C54_digitless_token.

Definition f1 (s : string) : ast := mkAst 0 "x" TString (VStr (bs s)) (mkSP 3 1).
Definition no_other : bytes -> numerr + spec_float := fun _ => inl ErrSyntax.
Definition pf (l : list string) : res (gerr + list ast) := ParseFloat (strconv_ParseFloat no_other) 0%nat (new_string_ctx []) (map f1 l).
Definition fl (x : spec_float) : res (gerr + list ast) := Ok (inr [mkAst 0 "x" TFloat (VFloat x) (mkSP 3 1)]).
Example C54_example :
  pf ["0."; "1"]%string = fl (S754_finite false 7205759403792794 (-56)) /\
  pf ["-0"]%string = fl (S754_zero true) /\
  (* a tie between 2^53 and 2^53 + 2 *)
  pf ["9007199254740993"]%string = fl (S754_finite false 4503599627370496 1) /\
  (* the smallest positive number *)
  pf ["4.9e-324"]%string = fl (S754_finite false 1 (-1074)) /\
  pf ["1.7976931348623159e308"]%string = Ok (inl (ENum "ParseFloat" (bs "1.7976931348623159e308") true)) /\
  pf ["1.e"]%string = Ok (inl (ENum "ParseFloat" (bs "1.e") false)).
Proof. repeat split; vm_compute; reflexivity. Qed.
Example C54_value_example : decimal_value (bs "-1.50e+3") true 150 3 2 /\ decimal_alphabet (bs "-1.50e+3").
Proof.
  split; [|apply alphabet_spec; reflexivity].
  assert (N : forall s, forallb is_num s = true -> s <> [] -> numeral 10 s (dval 0 s) /\ Forall dec_digit s).
  { intros s H Ne. assert (F : Forall dec_digit s). { apply Forall_forall. intros b I. apply is_num_spec. exact (proj1 (forallb_forall _ _) H b I). }
    split; [apply numeral_digits; auto|exact F]. }
  exists [45], [49], [46], (bs "50"), (bs "e+3"). split; [reflexivity|]. split; [auto|].
  split; [apply N; [reflexivity|discriminate]|]. split; [auto|]. split; [apply N; [reflexivity|discriminate]|].
  split; [exact (proj1 (N (bs "150") eq_refl ltac:(discriminate)))|]. split; [|reflexivity].
  right. exists 101, [43], (bs "3"), 3. split; [reflexivity|]. split; [auto|].
  destruct (N (bs "3") eq_refl ltac:(discriminate)) as [A B]. split; [exact A|]. split; [exact B|]. auto.
Qed.
Example C54_rounded_example : rounded 1 10 (S754_finite false 7205759403792794 (-56)) /\ ~ too_large 1 10.
Proof.
  destruct (decimal_rounds false 1 0 1 ltac:(lia)) as [(x & E & R & _ & T)|[E _]]; [|exfalso; vm_compute in E; discriminate].
  vm_compute in E. injection E as <-. split; [exact R|exact T].
Qed.
