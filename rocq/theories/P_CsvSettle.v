(** C81: a CSV text settles.  What is read from a text changes at most twice when it is
    written with ToCsv and read again with Parse, and never after that. *)
From Verif Require Import L_CsvSettle.

Definition answers (s : bytes) (r : csv_error + list (list bytes)) : Prop :=
  exists n0, forall n, (n0 <= n)%nat -> Parse n s = Ok r.

(** A text that is read as a table can be written and read again for ever: the first time
    its cells are trimmed and rows go as [table_back] says, the second time only rows
    without text go, and after that nothing changes. *)
Theorem C81_settles : forall s r1, Forall is_byte s -> answers s (inr r1) ->
  exists r2 r3, table_back r1 r2 /\ answers (ToCsv r1) (inr r2) /\
    r3 = without_blank_rows r2 /\ answers (ToCsv r2) (inr r3) /\ answers (ToCsv r3) (inr r3).
Proof.
  intros s r1 Hb H. destruct (text_read s r1 Hb H) as [B R]. destruct (table_twice r1 B R) as (r2 & r3 & T2 & A2 & T3 & A3 & S2 & _ & A4).
  exists r2, r3. split; [exact T2|]. split; [exact A2|]. split; [|split; assumption].
  exact (second_time r2 r3 S2 (table_back_last r1 r2 T2) T3).
Qed.
Print Assumptions C81_settles.

(** What the first time does to the cells of a text: a cell with a comma or a line break
    stays as it is, every other cell loses the space around it and nothing else. *)
Theorem C81_cells : forall s r1, Forall is_byte s -> answers s (inr r1) ->
  forall r c d, In r r1 -> In c r -> (comes_back c d <-> (has_break c /\ d = c) \/ (~ has_break c /\ trimmed c d)).
Proof.
  intros s r1 Hb H r c d Ir Ic. destruct (text_read_well s r1 Hb H) as [F _]. rewrite Forall_forall in F. destruct (F r Ir) as [_ Fr]. rewrite Forall_forall in Fr.
  apply well_back. exact (Fr c Ic).
Qed.
Print Assumptions C81_cells.

(** For tables that a program makes: if the written table can be read, one more reading
    and writing is needed than for a text, and then it is settled. *)
Theorem C81_tables : forall rows, Forall (Forall (Forall is_byte)) rows ->
  (exists e, answers (ToCsv rows) (inl e)) \/
  (exists r1 r2, answers (ToCsv rows) (inr r1) /\ answers (ToCsv r1) (inr r2) /\ answers (ToCsv (without_blank_rows r2)) (inr (without_blank_rows r2))).
Proof.
  intros rows Hb. pose proof (table_bytes rows Hb true : Forall is_byte (ToCsv rows)) as Ht. destruct (csv_total (ToCsv rows) Ht) as (a & R). destruct (parse_reads _ a Ht R) as ([e|r1] & _ & H).
  - left. exists e. exact H.
  - right. destruct (C81_settles _ _ Ht H) as (r2 & r3 & _ & A2 & -> & _ & A4). exists r1, r2. split; [exact H|]. split; assumption.
Qed.
Print Assumptions C81_tables.

(** And if no cell of the table looks like a quoted one, two readings are enough. *)
Theorem C81_readable_tables : forall rows, Forall (Forall (Forall is_byte)) rows -> Forall (Forall readable) rows ->
  exists r2, table_back rows r2 /\ answers (ToCsv rows) (inr r2) /\
    answers (ToCsv r2) (inr (without_blank_rows r2)) /\ answers (ToCsv (without_blank_rows r2)) (inr (without_blank_rows r2)).
Proof.
  intros rows Hb R. destruct (table_twice rows Hb R) as (r2 & r3 & T2 & A2 & T3 & A3 & S2 & _ & A4).
  exists r2. rewrite (second_time r2 r3 S2 (table_back_last rows r2 T2) T3) in *. auto.
Qed.
Print Assumptions C81_readable_tables.

(** Once is not enough: the cell of space becomes an empty one, and its row goes the
    next time only. *)
Definition twice : bytes := bs "a" ++ [10; 34; 32; 34; 10] ++ bs "b".
Theorem C81_once_refuted :
  answers twice (inr [[bs "a"]; [bs " "]; [bs "b"]]) /\
  answers (ToCsv [[bs "a"]; [bs " "]; [bs "b"]]) (inr [[bs "a"]; [[]]; [bs "b"]]) /\
  answers (ToCsv [[bs "a"]; [[]]; [bs "b"]]) (inr [[bs "a"]; [bs "b"]]) /\
  answers (ToCsv [[bs "a"]; [bs "b"]]) (inr [[bs "a"]; [bs "b"]]).
Proof. repeat split; exists 300%nat; intros n Hn; (eapply parse_stable; [exact Hn|]); vm_compute; reflexivity. Qed.
Print Assumptions C81_once_refuted.

(** Space in quotes is kept by Parse and lost by ToCsv, which does not quote it. *)
Theorem C81_unchanged_refuted :
  answers ([34] ++ bs " a" ++ [34]) (inr [[bs " a"]]) /\ answers (ToCsv [[bs " a"]]) (inr [[bs "a"]]).
Proof. repeat split; exists 300%nat; intros n Hn; (eapply parse_stable; [exact Hn|]); vm_compute; reflexivity. Qed.
Print Assumptions C81_unchanged_refuted.

(** The hypotheses are met by the text above; what goes is its middle row. *)
Example C81_text : Forall is_byte twice /\ without_blank_rows [[bs "a"]; [[]]; [bs "b"]] = [[bs "a"]; [bs "b"]].
Proof. split; [repeat constructor; unfold is_byte; lia|reflexivity]. Qed.
(** A first row without text stays. *)
Example C81_first_row : without_blank_rows [[[]]; [bs "b"]] = [[[]]; [bs "b"]].
Proof. reflexivity. Qed.
