(** C36 and C37: the CSV example.  Parse takes a number of steps as fuel; "Parse s
    answers r" is: with enough of it, and then always, Parse returns r. *)
From Verif Require Import L_CsvBack.

Definition answers (s : bytes) (r : csv_error + list (list bytes)) : Prop :=
  exists n0, forall n, (n0 <= n)%nat -> Parse n s = Ok r.

(** ** C37 *)
(** Every text is answered with a table or an error. *)
Theorem C37_csv_total : forall s, Forall is_byte s -> exists r, answers s r.
Proof. intros s Hb. destruct (csv_total s Hb) as (a & R). destruct (parse_reads s a Hb R) as (r & _ & H). exists r. exact H. Qed.
Print Assumptions C37_csv_total.

(** Every text is read in exactly one way, as a table, as an unclosed quote or as
    junk after a closing quote, and Parse answers accordingly. *)
Theorem C37_csv_reading : forall s, Forall is_byte s -> exists a, read_csv s a /\ (forall a', read_csv s a' -> a' = a) /\
  match a with
  | Table rows => answers s (inr rows)
  | Unclosed => exists lc, answers s (inl (mkCE (Some (EText "Unexpected EOF")) lc)) /\ GetLineAndColPosition s (length s) 4 = Ok lc
  | Junk => exists lc, answers s (inl (mkCE None lc)) /\ GetLineAndColPosition s 0 4 = Ok lc
  end.
Proof.
  intros s Hb. destruct (csv_total s Hb) as (a & R). exists a. split; auto. split; [intros a' R'; eapply csv_det; eauto|].
  destruct (parse_reads s a Hb R) as (r & A & H). destruct a; simpl in A.
  - subst r. exact H.
  - destruct A as (lc & -> & E). exists lc. split; [exact H|exact E].
  - destruct A as (lc & -> & E). exists lc. split; [exact H|exact E].
Qed.
Print Assumptions C37_csv_reading.

(** The three kinds of answers. *)
Example C37_table : Parse 300 (bs "a, b" ++ [10] ++ [34] ++ bs "x,y" ++ [34]) = Ok (inr [[bs "a"; bs "b"]; [bs "x,y"]]).
Proof. vm_compute. reflexivity. Qed.
Example C37_unclosed : exists lc, Parse 300 (bs "a," ++ [34] ++ bs "b") = Ok (inl (mkCE (Some (EText "Unexpected EOF")) lc)).
Proof. eexists. vm_compute. reflexivity. Qed.
Example C37_junk : exists lc, Parse 300 (bs "a," ++ [34] ++ bs "b" ++ [34] ++ bs "c") = Ok (inl (mkCE None lc)).
Proof. eexists. vm_compute. reflexivity. Qed.

(** ** C36 *)
(** The round trip changes tables: a double quote in a cell with a comma is lost, space
    around a cell is lost, rows without text in the middle and at the end are lost,
    malformed bytes are replaced, and some tables cannot be read back at all. *)
Theorem C36_round_trip_refuted :
  answers (ToCsv [[bs "a," ++ [34]]]) (inr [[bs "a,"]]) /\
  answers (ToCsv [[bs " a"]]) (inr [[bs "a"]]) /\
  answers (ToCsv [[bs "a"]; [[]]; [bs "b"]]) (inr [[bs "a"]; [bs "b"]]) /\
  answers (ToCsv [[bs "a"]; [[]]]) (inr [[bs "a"]]) /\
  answers (ToCsv [[[255]]]) (inr [[[239; 191; 189]]]) /\
  exists e, answers (ToCsv [[34 :: bs "a"]]) (inl e).
Proof.
  split; [|split; [|split; [|split; [|split; [|eexists]]]]]; exists 300%nat; intros n Hn; (eapply parse_stable; [exact Hn|]); vm_compute; reflexivity.
Qed.
Print Assumptions C36_round_trip_refuted.

(** What does come back from any table whose cells do not look like quoted ones: cell
    for cell and row for row, as [table_back] describes. *)
Theorem C36_what_comes_back : forall rows, Forall (Forall (Forall is_byte)) rows -> Forall (Forall readable) rows ->
  exists kept, table_back rows kept /\ answers (ToCsv rows) (inr kept).
Proof. exact parse_back. Qed.
Print Assumptions C36_what_comes_back.

(** The tables that come back unchanged are exactly those of [safe_table]. *)
Theorem C36_round_trip_iff : forall rows, Forall (Forall (Forall is_byte)) rows ->
  (answers (ToCsv rows) (inr rows) <-> safe_table rows).
Proof. exact round_trip. Qed.
Print Assumptions C36_round_trip_iff.

(** A table with a quoted cell, an empty cell, an empty first row and non-ASCII text. *)
Definition some_table : list (list bytes) := [[[]]; [bs "x,y"; []; bs "a b"]; [[195; 169]]].
Lemma ascii_utf8 s : Forall (fun b => 0 <= b < 128) s -> utf8 s s.
Proof. induction 1 as [|b s Hb H IH]; [constructor|]. apply (u_cons b [b] s s); auto. apply u_1. auto. Qed.
Lemma safe_quoted : safe_cell (bs "x,y").
Proof.
  split; [exists (bs "x,y"); apply ascii_utf8; repeat constructor; lia|].
  left. split; [|simpl; lia]. exists (bs "x"), (bs ",y"). split; auto. exists [44]. split; [left; auto|]. exists (bs "y"). auto.
Qed.
Lemma plain_safe rs c : utf8 rs c -> Forall (fun r => ~ In r [44; 10; 11; 12; 13; 133; 34]) rs -> trim_both c = c -> needs_quotes c = false -> safe_cell c.
Proof.
  intros U F T N. split; [exists rs; auto|]. right. split; [rewrite <- needs_quotes_iff; congruence|]. split.
  - rewrite <- T at 2. apply trim_both_ok. apply valid_byte. exists rs. auto.
  - intros [t ->]. inversion U as [|r cs rs' s Hc U' E1 E2]; subst. inversion F; subst.
    assert (H34 : utf8_char 34 [34]) by (apply u_1; lia). destruct (char_inj _ _ _ _ _ _ Hc H34 E2) as (-> & _). simpl in *. tauto.
Qed.
Example C36_some_table : Forall (Forall (Forall is_byte)) some_table /\ safe_table some_table.
Proof.
  split; [unfold some_table; simpl; repeat constructor; unfold is_byte; lia|]. split.
  - assert (K0 : safe_cell []) by (apply (plain_safe []); try constructor).
    assert (K1 : safe_cell (bs "a b")).
    { apply (plain_safe (bs "a b")); [apply ascii_utf8; repeat constructor; lia| |reflexivity|reflexivity].
      repeat constructor; simpl; lia. }
    assert (K2 : safe_cell [195; 169]).
    { apply (plain_safe [233]); [apply (u_cons 233 [195; 169] [] []); [apply (u_2 3 41); lia|constructor]| |reflexivity|reflexivity].
      repeat constructor; simpl; lia. }
    pose proof safe_quoted as K3. unfold some_table. repeat (assumption || discriminate || apply Forall_nil || apply Forall_cons || split).
  - split; [repeat constructor; discriminate|discriminate].
Qed.
Example C36_some_table_back : Parse 500 (ToCsv some_table) = Ok (inr some_table).
Proof. vm_compute. reflexivity. Qed.
