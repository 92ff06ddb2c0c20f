(** C72: the arguments and the error messages of Marshal and Unmarshal of the CSV example. *)
From Verif Require Import L_Csv L_FloatAll L_FloatUse S_CsvAny.
From Verif Require P_Csv P_Err P_Quote P_MarshalX.

(** Marshal refuses everything but slices of structs, and has no other error. *)
Theorem C72_marshal_argument : forall order cols a rows m,
  MarshalAny order cols a rows = Ok (inl m) <-> (forall fields, ~ struct_slice a fields) /\ m = bs "Data should be slice of struct".
Proof.
  intros order cols a rows m. unfold MarshalAny, struct_slice. destruct a as [fs|[fs|e|b e|]|b e|].
  2:{ split; [destruct (Marshal _ _ _ _ _); discriminate|]. intros [H _]. destruct (H fs eq_refl). }
  all: split; [intros H; injection H as <-; split; [discriminate|reflexivity]|intros [_ ->]; reflexivity].
Qed.
Print Assumptions C72_marshal_argument.
(** Unmarshal refuses everything but pointers, not nil, to slices of structs, whatever the text. *)
Theorem C72_unmarshal_argument : forall isprint n order a s, (forall fields, ~ struct_target a fields) ->
  UnmarshalAny isprint n order a s = Ok (inl (Some (bs "Out parameter should be pointer to slice of struct"))).
Proof.
  intros isprint n order a s H. destruct a as [fs|e|[] e|]; try reflexivity. destruct e as [fs|[fs|e|b e|]|b e|]; try reflexivity.
  destruct (H fs). exists (ShSlice (ShStruct fs)). split; reflexivity.
Qed.
Print Assumptions C72_unmarshal_argument.

Lemma inside_bytes s a : inside s a -> forall x t, a = Some (x, t) -> Forall is_byte x.
Proof.
  induction 1 as [|t a H IH|t N|s v t a N (r & l & _ & _ & Hv & _) H IH]; intros x u E; try discriminate.
  - eauto.
  - injection E as <- <-. constructor.
  - destruct a as [[y z]|]; [|discriminate]. injection E as <- <-. apply Forall_app. split; [|eauto]. apply valid_byte. eapply valid_char; eauto.
Qed.
Lemma quoted_bytes s a : quoted s a -> forall x t, a = Some (x, t) -> Forall is_byte x.
Proof.
  induction 1 as [| s t o t1 t2 R I R2 N | s t o t1 t2 a R I R2 Q IH]; intros x u E; try discriminate.
  - injection E as <- <-. eapply inside_bytes; eauto.
  - destruct a as [[y z]|]; [|discriminate]. injection E as <- <-. apply Forall_app. split; [eapply inside_bytes; eauto|eauto].
Qed.
Lemma cell_bytes s a : read_cell s a -> forall x t, a = Some (x, t) -> Forall is_byte x.
Proof.
  intros [s' a' Q|s' t x t1 c R N U T] y u E.
  - eapply quoted_bytes; eauto.
  - injection E as <- <-. apply unquoted_bytes in U. destruct T as (p & q & -> & _). rewrite !Forall_app in U. apply U.
Qed.
Lemma row_bytes s a : read_row s a -> forall x t, a = Some (x, t) -> Forall (Forall is_byte) x.
Proof.
  induction 1 as [|s c t C N|s c t a C R IH]; intros x u E; try discriminate.
  - injection E as <- <-. constructor; [eapply cell_bytes; eauto|constructor].
  - destruct a as [[y z]|]; [|discriminate]. injection E as <- <-. constructor; [eapply cell_bytes; eauto|eauto].
Qed.
Lemma table_bytes s a : read_rows s a -> forall rows, a = Table rows -> Forall (Forall (Forall is_byte)) rows.
Proof.
  induction 1 as [|s r R| |s r t t1 a R A L H IH]; intros rows E; try discriminate.
  - injection E as <-. constructor; [eapply row_bytes; eauto|constructor].
  - destruct a; try discriminate. injection E as <-. constructor; [eapply row_bytes; eauto|eauto].
Qed.
Lemma csv_bytes s rows : read_csv s (Table rows) -> Forall (Forall (Forall is_byte)) rows.
Proof.
  intros H. inversion H as [s' all kept R (tail & E & _)| |]; subst. pose proof (table_bytes _ _ R _ eq_refl) as F. rewrite Forall_app in F. apply F.
Qed.
Lemma refuses_fault k w e : refuses strconv_ParseFloat64 k w e -> exists fn range, cell_fault k w fn range /\ e = ENum fn w range.
Proof.
  intros [bits v r F|bits v r F|bits v er F].
  - do 2 eexists. split; [constructor; exact F|reflexivity].
  - do 2 eexists. split; [constructor; exact F|reflexivity].
  - exists "ParseFloat"%string, (is_range er). split; [|destruct er; reflexivity]. constructor. rewrite <- F. apply ParseFloat64_answer.
Qed.
Lemma cell_in header fields row c f w : cell_for header fields row c f w -> In w row.
Proof. intros (i & j & _ & _ & N). eapply nth_error_In; eauto. Qed.

(** Every error has a text, and it tells what is wrong with the CSV text. *)
Theorem C72_unmarshal_message : forall isprint n order a fields s m, prints isprint -> any_order order -> struct_target a fields ->
  NoDup (map fd_name fields) -> Forall sized fields -> Forall is_byte s -> Z.of_nat (length s) < 10 ^ 19 ->
  UnmarshalAny isprint n order a s = Ok (inl m) -> exists t, m = Some t /\ complains fields s t.
Proof.
  intros isprint n order a fields s m Pr O (b & -> & ->) Nn Sz Hb L E. cbn [UnmarshalAny] in E.
  unfold Unmarshal in E. destruct (Parse n s) as [[[x lc]|data]| |] eqn:P; try discriminate.
  - injection E as <-. destruct (P_Err.C57_csv_message s x lc n Hb L P) as (t & M & [[R T]|[R T]]); exists t; (split; [exact M|]); [apply cp_unclosed|apply cp_junk]; auto.
  - destruct (from_table strconv_ParseFloat64 to_float32 order fields data) as [[e|r]| |] eqn:F; try discriminate. injection E as <-.
    destruct data as [|header [|r0 rest0]]; try discriminate.
    assert (R : read_csv s (Table (header :: r0 :: rest0))).
    { destruct (P_Csv.C37_csv_reading s Hb) as (a & R & _ & A).
      assert (U : forall r, P_Csv.answers s r -> r = inr (header :: r0 :: rest0)).
      { intros r (n0 & H). pose proof (H (n0 + n)%nat ltac:(lia)) as H1. rewrite (L_CsvBack.parse_stable n (n0 + n)%nat _ _ ltac:(lia) P) in H1. congruence. }
      destruct a as [rows| |].
      - apply U in A. injection A as ->. exact R.
      - destruct A as (lc & A & _). apply U in A. discriminate.
      - destruct A as (lc & A & _). apply U in A. discriminate. }
    destruct (P_MarshalX.C45_unmarshal_fault strconv_ParseFloat64 to_float32 order fields header (r0 :: rest0) O Nn Sz ltac:(discriminate))
      as [(rows & H)|(good & row & rest & D & G & [(e' & H & (c & f & w & C & Q))|(why & H & _)])]; rewrite F in H; try discriminate. injection H as <-.
    destruct (refuses_fault _ _ _ Q) as (fn & range & CF & ->).
    pose proof (csv_bytes _ _ R) as B. rewrite D in B. inversion B as [|? ? _ B']; subst. rewrite Forall_app in B'. destruct B' as [_ B'].
    inversion B' as [|? ? B1 _]; subst. rewrite Forall_forall in B1. pose proof (B1 _ (cell_in _ _ _ _ _ _ C)) as Bw.
    destruct (P_Quote.C64_quote isprint w Pr Bw) as (q & Eq & Lt).
    eexists. split; [reflexivity|]. rewrite D in R. eapply cp_cell; eauto. exists q. split; [exact Lt|]. unfold num_text_all. rewrite Eq, <- !app_assoc. reflexivity.
Qed.
Print Assumptions C72_unmarshal_message.

(** Every bad cell of the first bad row can be the one that is reported: which one depends on the
    order in which the entries of a map are visited.  (For cells of thousands of bytes see C63.) *)
Theorem C72_every_message : forall isprint fields s header good row rest c f w fn range, prints isprint ->
  NoDup (map fd_name fields) -> Forall sized fields -> Forall is_byte s -> read_csv s (Table (header :: good ++ row :: rest)) ->
  Forall (fun r => exists vals, struct_of strconv_ParseFloat64 to_float32 header fields r vals) good ->
  cell_for header fields row c f w -> cell_fault (fd_kind f) w fn range -> Z.of_nat (length w) <= 2000 ->
  exists order n0 m, any_order order /\ cell_message fn w range m /\
    forall n, (n0 <= n)%nat -> UnmarshalAny isprint n order (ShPtr false (ShSlice (ShStruct fields))) s = Ok (inl (Some m)).
Proof.
  intros isprint fields s header good row rest c f w fn range Pr Nn Sz Hb R G C CF U.
  assert (Q : refuses strconv_ParseFloat64 (fd_kind f) w (ENum fn w range)).
  { inversion CF as [bits w' r F K|bits w' r F K|bits w' er F K]; subst.
    - constructor. exact F.
    - constructor. exact F.
    - replace (ENum "ParseFloat" w (is_range er)) with (ENum "ParseFloat" w (match er with ErrRange => true | _ => false end)) by (destruct er; reflexivity).
      constructor. symmetry. apply (proj1 (answer_func _ _ F) U). }
  pose proof (csv_bytes _ _ R) as B. inversion B as [|? ? _ B']; subst. rewrite Forall_app in B'. destruct B' as [_ B'].
  inversion B' as [|? ? B1 _]; subst. rewrite Forall_forall in B1. pose proof (B1 _ (cell_in _ _ _ _ _ _ C)) as Bw.
  destruct (P_Quote.C64_quote isprint w Pr Bw) as (q & Eq & Lt).
  destruct (P_MarshalX.C45_unmarshal_every_fault strconv_ParseFloat64 to_float32 fields header good row rest Nn Sz G) as [H _].
  destruct (H (ENum fn w range)) as (order & O & E); [exists c, f, w; split; [exact C|exact Q]|].
  destruct (P_Csv.C37_csv_reading s Hb) as (a & R' & Un & A). rewrite <- (Un _ R) in A. destruct A as (n0 & A).
  exists order, n0, (num_text_all isprint fn w range). split; [exact O|]. split; [exists q; split; [exact Lt|]; unfold num_text_all; rewrite Eq, <- !app_assoc; reflexivity|].
  intros n Hn. cbn [UnmarshalAny]. unfold Unmarshal. rewrite (A n Hn). cbv iota beta. 
  match goal with |- context [from_table ?x ?y ?z ?u ?v] => replace (from_table x y z u v) with (@Ok (gerr + option (list (list gval))) (inl (ENum fn w range))) by (symmetry; exact E) end. reflexivity.
Qed.
Print Assumptions C72_every_message.

(** ** The hypotheses are met *)
Definition some_fields : list field := [mkFd (bs "A") (bs "x") (KInt 8) true; mkFd (bs "B") [] (KFloat 64) true].
Definition some_target : shape := ShPtr false (ShSlice (ShStruct some_fields)).
Definition some_order : range_order := fun _ m => m.
Definition some_csv : bytes := bs "x,B" ++ [10] ++ bs "1,2" ++ [10] ++ bs "0x1,1e999".
Example C72_some : prints P_Quote.print_ascii /\ any_order some_order /\ struct_target some_target some_fields /\
  NoDup (map fd_name some_fields) /\ Forall sized some_fields /\ Forall is_byte some_csv /\ Z.of_nat (length some_csv) < 10 ^ 19.
Proof.
  split; [apply P_Quote.C64_hypotheses|]. split; [intros i m; apply Permutation_refl|]. split; [eexists; split; reflexivity|].
  split; [repeat constructor; cbn; intuition discriminate|]. split; [repeat constructor; cbn; lia|]. split; [apply Forall_forall; intros b Hb; revert b Hb; apply Forall_forall; repeat constructor; unfold is_byte; lia|reflexivity].
Qed.
(** The fields are visited in one order and in the other: two messages for one text. *)
Example C72_some_message :
  UnmarshalAny P_Quote.print_ascii 300 (fun _ m => rev m) some_target some_csv =
    Ok (inl (Some (bs "strconv.ParseInt: parsing " ++ [34] ++ bs "0x1" ++ [34] ++ bs ": invalid syntax"))) /\
  UnmarshalAny P_Quote.print_ascii 300 some_order some_target some_csv =
    Ok (inl (Some (bs "strconv.ParseFloat: parsing " ++ [34] ++ bs "1e999" ++ [34] ++ bs ": value out of range"))).
Proof. split; vm_compute; reflexivity. Qed.
Example C72_some_position :
  UnmarshalAny P_Quote.print_ascii 300 some_order some_target (bs "x" ++ [10] ++ bs "1," ++ [34] ++ bs "2") =
    Ok (inl (Some (bs "Unexpected EOF" ++ [10] ++ bs " --> Line 2, Col 5" ++ [10] ++ bs "   | x" ++ [10] ++ bs " > | 1," ++ [34] ++ bs "2" ++ [10] ++ bs "   |     ^^^^"))).
Proof. vm_compute. reflexivity. Qed.
Example C72_some_arguments :
  (forall fields, ~ struct_slice (ShSlice (ShPtr false (ShStruct some_fields))) fields) /\
  (forall fields, ~ struct_target (ShPtr true (ShSlice (ShStruct some_fields))) fields) /\
  MarshalAny some_order [bs "x"] (ShSlice (ShStruct some_fields)) [[GInt 5; GFloat (S754_zero true)]] = Ok (inr (bs "5")).
Proof. split; [discriminate|]. split; [intros fields (b & _ & H); discriminate|vm_compute; reflexivity]. Qed.
