(** C64: the texts of the errors of the transformers. *)
From Verif Require Import L_Quote.

(** What Quote writes is a Go string literal for exactly this text. *)
Theorem C64_quote : forall isprint s, prints isprint -> Forall is_byte s ->
  exists q, QuoteAll isprint s = [34] ++ q ++ [34] /\ literal_text q s.
Proof. exact quote_ok. Qed.
Print Assumptions C64_quote.
Theorem C64_literal_unique : forall q s s', literal_text q s -> literal_text q s' -> s = s'.
Proof. intros q s s' H H'. exact (literal_func q s H s' H'). Qed.
Print Assumptions C64_literal_unique.

(** The messages name the transformer, the text and the cause, and the cause is right. *)
Theorem C64_int_message : forall isprint n c base l ss e, prints isprint -> 2 <= base <= 36 -> Forall2 string_ast l ss -> Forall is_byte (concat ss) ->
  ParseIntRadix base n c l = Ok (inl e) ->
  exists range m, int_fault base (concat ss) range /\ error_text_all isprint e = Some m /\
    number_message "parseIntImpl" "ParseInt" (concat ss) (concat ss) range m.
Proof. exact int_message. Qed.
Print Assumptions C64_int_message.
Theorem C64_uint_message : forall isprint n c base l ss e, prints isprint -> 2 <= base <= 36 -> Forall2 string_ast l ss -> Forall is_byte (concat ss) ->
  ParseUintRadix base n c l = Ok (inl e) ->
  exists t range m, (concat ss = 43 :: t \/ (concat ss = t /\ forall u, t <> 43 :: u)) /\ uint_fault base t range /\ error_text_all isprint e = Some m /\
    number_message "parseUintImpl" "ParseUint" (concat ss) t range m.
Proof. exact uint_message. Qed.
Print Assumptions C64_uint_message.
Theorem C64_float_message : forall isprint n c l ss e, prints isprint -> Forall2 string_ast l ss -> Forall is_byte (concat ss) ->
  ParseFloat strconv_ParseFloat64 n c l = Ok (inl e) ->
  exists er m, float_answer (concat ss) (inl er) /\ error_text_all isprint e = Some m /\
    number_message "ParseFloat" "ParseFloat" (concat ss) (concat ss) (is_range er) m.
Proof. exact float_message. Qed.
Print Assumptions C64_float_message.

(** The texts of C57 are these, as far as they are modelled there. *)
Theorem C64_agrees : forall isprint e t, prints_ascii isprint -> error_bytes e -> error_text e = Some t -> error_text_all isprint e = Some t.
Proof. exact ascii_error. Qed.
Print Assumptions C64_agrees.

(** Different types and different results of a match have different names, so the message
    about a type that cannot be concatenated tells which type it was. *)
Theorem C64_type_names : forall isprint t t', error_text_all isprint (EBadType t) = error_text_all isprint (EBadType t') -> t = t'.
Proof. intros p t t' H. destruct t, t'; try reflexivity; vm_compute in H; discriminate. Qed.
Print Assumptions C64_type_names.
Theorem C64_status_names : forall t t', MatchStatus_String t = MatchStatus_String t' -> t = t'.
Proof. intros t t' H. destruct t, t'; try reflexivity; vm_compute in H; discriminate. Qed.
Print Assumptions C64_status_names.
(** The names are those of the Go constants, without the prefixes MatchStatus_ and AstType_,
    in the order of their declaration (base/types.go:40-48, base/ast.go:14-40). *)
Theorem C64_constant_names :
  map MatchStatus_String [Matched; Unmatched; Errored] = [bs "Matched"; bs "Unmatched"; bs "Error"] /\
  map AstType_String [TNil; TRune; TInt; TUint; TFloat; TBool; TString; TAstCons; TListOfAst; TListOfAny; TFunction; TAny] =
    [bs "Nil"; bs "Rune"; bs "Int"; bs "Uint"; bs "Float"; bs "Bool"; bs "String"; bs "AstCons"; bs "ListOfAst"; bs "ListOfAny"; bs "Function"; bs "Any"].
Proof. split; reflexivity. Qed.
Print Assumptions C64_constant_names.

Definition print_ascii (r : Z) : bool := (32 <=? r) && (r <? 127).
Example C64_hypotheses : prints print_ascii /\ prints_ascii print_ascii.
Proof. split; intros r; unfold print_ascii; [lia|reflexivity]. Qed.
(** A quote, a backslash, LF, NUL, a malformed byte, e acute and U+1F600. *)
Example C64_example : QuoteAll print_ascii ([34; 92; 10; 0; 255; 195; 169; 240; 159; 152; 128] ++ bs "a") =
  [34] ++ [92; 34] ++ bs "\\\n\x00\xff\u00e9\U0001f600a" ++ [34].
Proof. vm_compute. reflexivity. Qed.
Example C64_message_example :
  match ParseInt 0%nat (new_string_ctx []) [mkAst 0 "" TString (VStr (bs "1" ++ [34])) (mkSP 0 0)] with
  | Ok (inl e) => error_text_all print_ascii e
  | _ => None
  end = Some (bs "Transformer:parseIntImpl:Bad number format:1" ++ [34] ++ bs ":strconv.ParseInt: parsing " ++ [34] ++ bs "1\" ++ [34; 34] ++ bs ": invalid syntax").
Proof. vm_compute. reflexivity. Qed.
