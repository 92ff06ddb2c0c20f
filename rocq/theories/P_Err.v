(** C57: failed parses report where they failed. *)
From Verif Require Import L_ErrText L_Err L_Formula L_Torpn L_CsvBack.
From Verif Require P_Csv.

(** ** Combinators *)
(** An error value comes out of a grammar exactly where a leaf or a transformer that the
    parse reaches raises it, and with the position at which it was raised. *)
Theorem C57_error_origin : forall env n e c x p, (forall k, gram comb_spec (env k)) -> gram comb_spec e -> c_st c = Matched ->
  ((exists o, run env n e c = Ok (o, Some x) /\ c_sp o = p) <-> exists m e' c', reaches env n e c m e' c' /\ raises env m e' c' x p).
Proof. exact origin_iff. Qed.
Print Assumptions C57_error_origin.

(** A sequence, a choice, a look-ahead or a transformation that does not match stays at
    the position and the stack it was called with, however far it has read. *)
Theorem C57_unmatched_position : forall env n e c o x, gives_up e -> c_st c = Matched -> run env n e c = Ok (o, x) -> c_st o = Unmatched ->
  c_sp o = c_sp c /\ c_stack o = c_stack c.
Proof. exact gives_up_pos. Qed.
Print Assumptions C57_unmatched_position.

(** ** Examples *)
(** The errors of the formula and torpn examples are right about what is wrong where. *)
Theorem C57_formula_errors : forall s x lc n, Forall is_byte s -> formula_Parse n s = Ok (inl (mkPE x lc)) -> explains s x lc.
Proof. exact formula_explains. Qed.
Print Assumptions C57_formula_errors.
Theorem C57_torpn_errors : forall s x lc n, Forall is_byte s -> torpn_Parse n s = Ok (inl (mkPE x lc)) -> explains s x lc.
Proof. exact torpn_explains. Qed.
Print Assumptions C57_torpn_errors.

(** And so are the messages, with line, column and the lines around. *)
Theorem C57_formula_message : forall s x lc n, Forall is_byte s -> Z.of_nat (length s) < 10 ^ 19 -> formula_Parse n s = Ok (inl (mkPE x lc)) ->
  exists m, message x lc = Some m /\ explained s m.
Proof. intros s x lc n Hb L E. apply explains_message; [eapply formula_explains; eassumption|exact L]. Qed.
Print Assumptions C57_formula_message.
Theorem C57_torpn_message : forall s x lc n, Forall is_byte s -> Z.of_nat (length s) < 10 ^ 19 -> torpn_Parse n s = Ok (inl (mkPE x lc)) ->
  exists m, message x lc = Some m /\ explained s m.
Proof. intros s x lc n Hb L E. apply explains_message; [eapply torpn_explains; eassumption|exact L]. Qed.
Print Assumptions C57_torpn_message.
(** Unmatched and Error consume nothing, push nothing and have length 0, wherever they stand. *)
Theorem C57_failing_leaves : forall env n c msg,
  (exists o, run env n EUnmatched c = Ok (o, None) /\ c_st o = Unmatched /\ c_sp o = mkSP (c_pos c) 0 /\ c_stack o = c_stack c /\ c_tag o = c_tag c) /\
  (exists o, run env n (EError msg) c = Ok (o, Some (EText msg)) /\ c_st o = Errored /\ c_sp o = mkSP (c_pos c) 0 /\ c_stack o = c_stack c /\ c_tag o = c_tag c).
Proof. intros env n c msg. split; eexists; repeat split. Qed.
Print Assumptions C57_failing_leaves.
(** An unclosed quote in CSV is reported for the end of the text, anything else for its
    start. *)
Theorem C57_csv_message : forall s x lc n, Forall is_byte s -> Z.of_nat (length s) < 10 ^ 19 -> Parse n s = Ok (inl (mkCE x lc)) ->
  exists m, message x lc = Some m /\
    ((read_csv s Unclosed /\ told (bs "Unexpected EOF") s [] m) \/ (read_csv s Junk /\ told (bs "Parse failed") [] s m)).
Proof.
  intros s x lc n Hb L E.
  assert (U : forall r, P_Csv.answers s r -> r = inl (mkCE x lc)).
  { intros r (n0 & H). pose proof (H (n0 + n)%nat ltac:(lia)) as H1. rewrite (L_CsvBack.parse_stable n (n0 + n)%nat _ _ ltac:(lia) E) in H1. congruence. }
  destruct (P_Csv.C37_csv_reading s Hb) as ([rows| |] & R & _ & H).
  - apply U in H. discriminate.
  - destruct H as (lc' & H & G). apply U in H. injection H as <- ->.
    destruct (message_told (Some (EText "Unexpected EOF")) lc s [] (bs "Unexpected EOF")) as (m & M & T); rewrite ?app_nil_r; auto; [constructor|discriminate|]. eauto.
  - destruct H as (lc' & H & G). apply U in H. injection H as <- ->.
    destruct (message_told None lc [] s (bs "Parse failed")) as (m & M & T); auto; [constructor|discriminate|]. eauto.
Qed.
Print Assumptions C57_csv_message.

(** The position is not where the text stops being right: with something after a complete
    formula the start of the text is reported, on whatever line the rest is. *)
Theorem C57_position_refuted : ~ forall s p q v n m lc, s = p ++ q -> Forall is_byte s -> formula_Parse n p = Ok (inr v) ->
  formula_Parse m s = Ok (inl (mkPE None lc)) -> (length p <= lc_pos lc)%nat.
Proof.
  intros H. assert (C := H (bs "1 +" ++ [10] ++ bs "2 3") (bs "1 +" ++ [10] ++ bs "2 ") (bs "3") 3 60%nat 60%nat
    (mkLC 0 1 1 0 (bs " > | 1 +" ++ [10] ++ bs "   | ^^^^")) eq_refl).
  refine (_ (C _ _ _)); [cbn; lia|apply byte_list; reflexivity|vm_compute; reflexivity|vm_compute; reflexivity].
Qed.
Print Assumptions C57_position_refuted.

(** ** Examples of the hypotheses *)
Definition text_of_error (r : res (parse_error + Z)) : option bytes :=
  match r with Ok (inl e) => message (pe_err e) (pe_pos e) | _ => None end.
(** "1 +", LF, TAB, "(2 * )": the operand is missing on line 2 before column 7. *)
Example C57_operand : text_of_error (formula_Parse 80 (bs "1 +" ++ [10; 9] ++ bs "(2 * )")) =
  Some (bs "Error in the expression after the binary operator" ++ [10] ++ bs " --> Line 2, Col 7" ++ [10] ++
        bs "   | 1 +" ++ [10] ++ bs " > |     (2 * )" ++ [10] ++ bs "   |          ^^^^").
Proof. vm_compute. reflexivity. Qed.
Example C57_value : text_of_error (formula_Parse 80 (bs " - x")) =
  Some (bs "Value required" ++ [10] ++ bs " --> Line 1, Col 4" ++ [10] ++ bs " > |  - x" ++ [10] ++ bs "   |    ^^^^").
Proof. vm_compute. reflexivity. Qed.
Example C57_group : text_of_error (formula_Parse 80 (bs "2*(1 x")) =
  Some (bs "Error in grouped expression" ++ [10] ++ bs " --> Line 1, Col 4" ++ [10] ++ bs " > | 2*(1 x" ++ [10] ++ bs "   |    ^^^^").
Proof. vm_compute. reflexivity. Qed.
Example C57_range : text_of_error (formula_Parse 80 (bs "9223372036854775808")) =
  Some (bs "strconv.ParseInt: parsing " ++ [34] ++ bs "9223372036854775808" ++ [34] ++ bs ": value out of range" ++ [10] ++
        bs " --> Line 1, Col 20" ++ [10] ++ bs " > | 9223372036854775808" ++ [10] ++ bs "   |                    ^^^^").
Proof. vm_compute. reflexivity. Qed.
Example C57_failed : text_of_error (formula_Parse 80 (bs "1 2")) =
  Some (bs "Parse failed" ++ [10] ++ bs " --> Line 1, Col 1" ++ [10] ++ bs " > | 1 2" ++ [10] ++ bs "   | ^^^^").
Proof. vm_compute. reflexivity. Qed.
Example C57_csv : exists lc, Parse 300 (bs "a," ++ [34] ++ bs "b") = Ok (inl (mkCE (Some (EText "Unexpected EOF")) lc)) /\
  message (Some (EText "Unexpected EOF")) lc = Some (bs "Unexpected EOF" ++ [10] ++ bs " --> Line 1, Col 5" ++ [10] ++ bs " > | a," ++ [34] ++ bs "b" ++ [10] ++ bs "   |     ^^^^").
Proof. eexists. split; vm_compute; reflexivity. Qed.
(** An error two sequences deep: raised behind "ab", reported behind "ab". *)
Definition deep : pexp := EFirst [EFlatGroup [SSeq (bs "ab"); EFirst [SSeq (bs "c"); EError "c expected"]]; SSeq (bs "x")].
Example C57_origin_example : gram comb_spec deep /\
  exists o, run (fun _ => EUnmatched) 20 deep (new_string_ctx (bs "abd")) = Ok (o, Some (EText "c expected")) /\ c_sp o = mkSP 2 0.
Proof.
  split; [|eexists; split; vm_compute; reflexivity].
  cbn. repeat split; intros n c o; cbn; unfold lift, seq_fn; intros Hc H; repeat match type of H with context [if ?q then _ else _] => destruct q end; try discriminate H; injection H as <-; cbn; congruence.
Qed.
(** "ab" was read, but the sequence gives up in front of it. *)
Example C57_unmatched_example : exists o,
  run (fun _ => EUnmatched) 20 (EFlatGroup [SSeq (bs "ab"); SSeq (bs "c")]) (new_string_ctx (bs "abd")) = Ok (o, None) /\ c_st o = Unmatched /\ c_sp o = mkSP 0 0.
Proof. eexists. split; [vm_compute; reflexivity|]. split; vm_compute; reflexivity. Qed.
