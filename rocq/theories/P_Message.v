(** Property theorems for what can be read from error messages: C91. *)
From Verif Require Import L_Message L_Err L_Formula L_Torpn L_CsvBack.
From Verif Require P_Csv.

(** Two failed parses with the same message, of whatever texts, have failed for the same
    reason on the same line and column, with the same lines shown. *)
Theorem C91_formula : forall s1 s2 x1 x2 lc1 lc2 n1 n2 m, Forall is_byte s1 -> Forall is_byte s2 -> Z.of_nat (length s1) < 10 ^ 19 -> Z.of_nat (length s2) < 10 ^ 19 ->
  formula_Parse n1 s1 = Ok (inl (mkPE x1 lc1)) -> formula_Parse n2 s2 = Ok (inl (mkPE x2 lc2)) -> message x1 lc1 = Some m -> message x2 lc2 = Some m ->
  x1 = x2 /\ lc_line lc1 = lc_line lc2 /\ lc_col lc1 = lc_col lc2 /\ lc_src lc1 = lc_src lc2.
Proof.
  intros s1 s2 x1 x2 lc1 lc2 n1 n2 m B1 B2 L1 L2 F1 F2 M1 M2. apply formula_explains, explains_known in F1 as (K1 & p1 & G1); [|exact B1]. apply formula_explains, explains_known in F2 as (K2 & p2 & G2); [|exact B2]. exact (message_once s1 s2 p1 p2 x1 x2 lc1 lc2 m L1 L2 K1 K2 G1 G2 M1 M2).
Qed.
Print Assumptions C91_formula.
Theorem C91_torpn : forall s1 s2 x1 x2 lc1 lc2 n1 n2 m, Forall is_byte s1 -> Forall is_byte s2 -> Z.of_nat (length s1) < 10 ^ 19 -> Z.of_nat (length s2) < 10 ^ 19 ->
  torpn_Parse n1 s1 = Ok (inl (mkPE x1 lc1)) -> torpn_Parse n2 s2 = Ok (inl (mkPE x2 lc2)) -> message x1 lc1 = Some m -> message x2 lc2 = Some m ->
  x1 = x2 /\ lc_line lc1 = lc_line lc2 /\ lc_col lc1 = lc_col lc2 /\ lc_src lc1 = lc_src lc2.
Proof.
  intros s1 s2 x1 x2 lc1 lc2 n1 n2 m B1 B2 L1 L2 F1 F2 M1 M2. apply torpn_explains, explains_known in F1 as (K1 & p1 & G1); [|exact B1]. apply torpn_explains, explains_known in F2 as (K2 & p2 & G2); [|exact B2]. exact (message_once s1 s2 p1 p2 x1 x2 lc1 lc2 m L1 L2 K1 K2 G1 G2 M1 M2).
Qed.
Print Assumptions C91_torpn.
Lemma csv_known s x lc n : Forall is_byte s -> Parse n s = Ok (inl (mkCE x lc)) -> known x /\ exists p, GetLineAndColPosition s p 4 = Ok lc.
Proof.
  intros Hb E. assert (U : forall r, P_Csv.answers s r -> r = inl (mkCE x lc)).
  { intros r (n0 & H). pose proof (H (n0 + n)%nat ltac:(lia)) as H1. rewrite (L_CsvBack.parse_stable n (n0 + n)%nat _ _ ltac:(lia) E) in H1. congruence. }
  destruct (P_Csv.C37_csv_reading s Hb) as ([rows| |] & R & _ & H).
  - apply U in H. discriminate.
  - destruct H as (lc' & H & G). apply U in H. injection H as <- ->. split; [constructor|eauto].
  - destruct H as (lc' & H & G). apply U in H. injection H as <- ->. split; [constructor|eauto].
Qed.
Theorem C91_csv : forall s1 s2 x1 x2 lc1 lc2 n1 n2 m, Forall is_byte s1 -> Forall is_byte s2 -> Z.of_nat (length s1) < 10 ^ 19 -> Z.of_nat (length s2) < 10 ^ 19 ->
  Parse n1 s1 = Ok (inl (mkCE x1 lc1)) -> Parse n2 s2 = Ok (inl (mkCE x2 lc2)) -> message x1 lc1 = Some m -> message x2 lc2 = Some m ->
  x1 = x2 /\ lc_line lc1 = lc_line lc2 /\ lc_col lc1 = lc_col lc2 /\ lc_src lc1 = lc_src lc2.
Proof.
  intros s1 s2 x1 x2 lc1 lc2 n1 n2 m B1 B2 L1 L2 F1 F2 M1 M2. apply csv_known in F1 as (K1 & p1 & G1); [|exact B1]. apply csv_known in F2 as (K2 & p2 & G2); [|exact B2]. exact (message_once s1 s2 p1 p2 x1 x2 lc1 lc2 m L1 L2 K1 K2 G1 G2 M1 M2).
Qed.
Print Assumptions C91_csv.

(** The position in bytes cannot be told: "1", two LF, "+" and "1", CR LF, LF, "+" have the same
    message at the positions 4 and 5. *)
Theorem C91_position_refuted : ~ (forall s1 s2 x1 x2 lc1 lc2 n1 n2 m,
  formula_Parse n1 s1 = Ok (inl (mkPE x1 lc1)) -> formula_Parse n2 s2 = Ok (inl (mkPE x2 lc2)) -> message x1 lc1 = Some m -> message x2 lc2 = Some m -> lc_pos lc1 = lc_pos lc2).
Proof.
  intros H. assert (F1 : exists lc, formula_Parse 60 (bs "1" ++ [10; 10] ++ bs "+") = Ok (inl (mkPE (Some (EText "Error in the expression after the binary operator")) lc)) /\ lc_pos lc = 4%nat /\
    message (Some (EText "Error in the expression after the binary operator")) lc = message (Some (EText "Error in the expression after the binary operator")) (mkLC 3 3 2 4 (bs "   | " ++ [10] ++ bs " > | +" ++ [10] ++ bs "   |  ^^^^"))).
  { eexists. split; [vm_compute; reflexivity|]. split; vm_compute; reflexivity. }
  assert (F2 : exists lc, formula_Parse 60 (bs "1" ++ [13; 10; 10] ++ bs "+") = Ok (inl (mkPE (Some (EText "Error in the expression after the binary operator")) lc)) /\ lc_pos lc = 5%nat /\
    message (Some (EText "Error in the expression after the binary operator")) lc = message (Some (EText "Error in the expression after the binary operator")) (mkLC 3 3 2 4 (bs "   | " ++ [10] ++ bs " > | +" ++ [10] ++ bs "   |  ^^^^"))).
  { eexists. split; [vm_compute; reflexivity|]. split; vm_compute; reflexivity. }
  destruct F1 as (l1 & E1 & P1 & M1), F2 as (l2 & E2 & P2 & M2). specialize (H _ _ _ _ _ _ _ _ _ E1 E2 M1 M2). congruence.
Qed.
Print Assumptions C91_position_refuted.

(** Two texts that differ behind the line shown, with the same message. *)
Definition told_by (s : bytes) : option bytes := match formula_Parse 60 s with Ok (inl e) => message (pe_err e) (pe_pos e) | _ => None end.
Example C91_example : told_by (bs "1 * )" ++ [10] ++ bs "x") = told_by (bs "1 * )" ++ [10] ++ bs "yy") /\
  told_by (bs "1 * )" ++ [10] ++ bs "x") = Some (bs "Error in the expression after the binary operator" ++ [10] ++ bs " --> Line 1, Col 5" ++ [10] ++ bs " > | 1 * )" ++ [10] ++ bs "   |     ^^^^").
Proof. split; vm_compute; reflexivity. Qed.
