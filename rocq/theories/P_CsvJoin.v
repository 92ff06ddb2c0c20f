(** C83: CSV texts can be put together.  Texts joined by line breaks are read one after the other. *)
From Verif Require Import L_CsvJoin.

Definition answers (s : bytes) (r : csv_error + list (list bytes)) : Prop :=
  exists n0, forall n, (n0 <= n)%nat -> Parse n s = Ok r.
Lemma reads_answer s rows : Forall is_byte s -> read_csv s (Table rows) -> answers s (inr rows).
Proof. intros Hb R. destruct (parse_reads s _ Hb R) as (r & A & H). cbn in A. subst r. exact H. Qed.
Lemma breaks_bytes b : breaks b -> Forall is_byte b.
Proof.
  intros (ws & _ & F & ->). induction F as [|w ws W F IH]; cbn [concat]; [constructor|]. apply Forall_app. split; [|exact IH].
  unfold line_break in W. cbn [In] in W. destruct W as [<-|[<-|[<-|[<-|[<-|[]]]]]]; repeat constructor; unfold is_byte; lia.
Qed.

(** A text whose last row has text, then line breaks, then a text that does not start with
    one: the rows of the first and then the rows of the second. *)
Theorem C83_join : forall s r1 b t r2, Forall is_byte s -> Forall is_byte t -> read_rows s (Table r1) -> texts_last r1 -> breaks b -> ~ at_line_break t ->
  answers t (inr r2) -> answers s (inr r1) /\ answers (s ++ b ++ t) (inr (r1 ++ r2)).
Proof.
  intros s r1 b t r2 Hs Ht R T B Nt (n0 & H). assert (Rt : read_csv t (Table r2)) by (eapply parse_iff; eauto; reflexivity). split.
  - apply reads_answer; [exact Hs|]. eapply rd_table; [exact R|]. exists []. split; [rewrite app_nil_r; reflexivity|]. split; [constructor|].
    destruct T as (l & r & -> & N). intros l' r' E. apply app_inj_tail in E. destruct E as [_ <-]. exact N.
  - apply reads_answer; [|exact (csv_join s r1 b t (Table r2) R T B Nt Rt)]. apply Forall_app. split; [exact Hs|]. apply Forall_app. split; [apply breaks_bytes; exact B|exact Ht].
Qed.
Print Assumptions C83_join.
(** If the second text is not closed or cannot be read, neither can the two together; if the
    first has text after a closing quote, nothing after it matters. *)
Theorem C83_errors : forall s r1 b t e1 lc1, Forall is_byte s -> Forall is_byte t -> read_rows s (Table r1) -> texts_last r1 -> breaks b -> ~ at_line_break t ->
  answers t (inl (mkCE e1 lc1)) -> exists lc, answers (s ++ b ++ t) (inl (mkCE e1 lc)).
Proof.
  intros s r1 b t e1 lc1 Hs Ht R T B Nt H. destruct (csv_total t Ht) as (a & Ra). pose proof (csv_join s r1 b t a R T B Nt Ra) as J.
  assert (Hj : Forall is_byte (s ++ b ++ t)) by (apply Forall_app; split; [exact Hs|]; apply Forall_app; split; [apply breaks_bytes; exact B|exact Ht]).
  destruct (parse_reads t a Ht Ra) as (r & A & n1 & H1), (parse_reads _ _ Hj J) as (r' & A' & H'), H as (n0 & H).
  assert (E : r = inl (mkCE e1 lc1)) by (specialize (H (Nat.max n0 n1) ltac:(lia)); specialize (H1 (Nat.max n0 n1) ltac:(lia)); congruence). subst r.
  destruct a as [rows| |]; cbn in A, A'; [discriminate| |]; destruct A as (x & E & _), A' as (y & -> & _); injection E as -> _; exists y; exact H'.
Qed.
Print Assumptions C83_errors.
Theorem C83_junk : forall s b t lc, Forall is_byte s -> Forall is_byte t -> breaks b -> ~ at_line_break t ->
  answers s (inl (mkCE None lc)) -> exists lc', answers (s ++ b ++ t) (inl (mkCE None lc')).
Proof.
  intros s b t lc Hs Ht B Nt (n0 & H). destruct (csv_total s Hs) as (a & Ra).
  assert (Hj : Forall is_byte (s ++ b ++ t)) by (apply Forall_app; split; [exact Hs|]; apply Forall_app; split; [apply breaks_bytes; exact B|exact Ht]).
  destruct (parse_reads s a Hs Ra) as (r & A & n1 & H1). assert (E : r = inl (mkCE None lc)) by (specialize (H (Nat.max n0 n1) ltac:(lia)); specialize (H1 (Nat.max n0 n1) ltac:(lia)); congruence). subst r.
  destruct a as [rows| |]; cbn in A; [discriminate|destruct A as (x & E & _); discriminate|].
  destruct (parse_reads _ _ Hj (csv_junk s b t Ht Ra B Nt)) as (r' & A' & H'). cbn in A'. destruct A' as (y & -> & _). exists y. exact H'.
Qed.
Print Assumptions C83_junk.

(** Lines that are each read as a row with text, with any line breaks between them, are read
    as these rows; so a change to one line changes one row. *)
Theorem C83_lines : forall xs s rows, Forall (Forall is_byte) xs -> joined xs s -> Forall2 (fun x r => read_row x (Some (r, [])) /\ ~ textless r) xs rows -> answers s (inr rows).
Proof.
  intros xs s rows Hx J F. destruct (joined_rows xs s J rows F) as (R & T & _). apply reads_answer.
  - clear F R T. induction J as [x|x b xs s B J IH]; inversion Hx; subst; [assumption|]. apply Forall_app. split; [assumption|]. apply Forall_app. split; [apply breaks_bytes; exact B|auto].
  - eapply rd_table; [exact R|]. exists []. split; [rewrite app_nil_r; reflexivity|]. split; [constructor|]. destruct T as (l & r & -> & N). intros l' r' E. apply app_inj_tail in E. destruct E as [_ <-]. exact N.
Qed.
Print Assumptions C83_lines.

(** Without the conditions it is not so: a last row without text, or a line break at the
    start of the second text, is a row of its own before and not after, or the other way round. *)
Theorem C83_concatenation_refuted :
  (answers (bs "a" ++ [10; 34; 34]) (inr [[bs "a"]]) /\ answers (bs "b") (inr [[bs "b"]]) /\
   answers ((bs "a" ++ [10; 34; 34]) ++ [10] ++ bs "b") (inr [[bs "a"]; [[]]; [bs "b"]])) /\
  (answers ([10] ++ bs "b") (inr [[[]]; [bs "b"]]) /\ answers (bs "a" ++ [10] ++ [10] ++ bs "b") (inr [[bs "a"]; [bs "b"]])).
Proof. repeat split; exists 300%nat; intros n Hn; (eapply parse_stable; [exact Hn|]); vm_compute; reflexivity. Qed.
Print Assumptions C83_concatenation_refuted.

(** The hypotheses are met by a line with a quoted cell and a line break in it, joined to another with CR LF. *)
Definition head_text : bytes := bs "a, " ++ [34; 120; 10; 121; 34].
Lemma ascii_take b s : 0 <= b < 128 -> take_char (b :: s) [b] s.
Proof. intros Hb. exists b, 1%nat. split; [apply (nc_char b [b] s); constructor; exact Hb|]. split; [lia|]. split; [constructor; exact Hb|reflexivity]. Qed.
Ltac no_begin := let t := fresh in let E := fresh in intros [t E]; discriminate E.
Ltac no_blank := apply ro_stop; intros w W [t E]; unfold blank_char in W; cbn [In] in W; destruct W as [<-|[<-|[<-|[]]]]; discriminate E.
Lemma head_row : read_row head_text (Some ([bs "a"; [120; 10; 121]], [])).
Proof.
  apply (rr_more head_text (bs "a") (32 :: [34; 120; 10; 121; 34]) (Some ([[120; 10; 121]], []))).
  - eapply rc_plain; [no_blank|no_begin| |].
    + apply (uq_char _ [97] (44 :: 32 :: [34; 120; 10; 121; 34]) [] (44 :: 32 :: [34; 120; 10; 121; 34])).
      * intros (w & W & t & E). unfold break_char, line_break in W. cbn [In] in W. destruct W as [->|[<-|[<-|[<-|[<-|[<-|[]]]]]]]; discriminate E.
      * apply (ascii_take 97). lia.
      * apply uq_stop. right. exists [44]. split; [left; reflexivity|eexists; reflexivity].
    + change (trimmed (bs "a") (trim_both (bs "a"))). apply trim_both_ok. repeat constructor; unfold is_byte; lia.
  - apply rr_last; [|no_begin]. apply rc_quoted. eapply (q_last _ [120; 10; 121; 34] [120; 10; 121] [] []).
    + apply (ro_more _ [32] [34; 120; 10; 121; 34]); [right; left; reflexivity|]. no_blank.
    + apply (in_char _ [120] [10; 121; 34] (Some ([10; 121], []))); [no_begin|apply ascii_take; lia|].
      apply (in_char _ [10] [121; 34] (Some ([121], []))); [no_begin|apply ascii_take; lia|].
      apply (in_char _ [121] [34] (Some ([], []))); [no_begin|apply ascii_take; lia|]. apply in_close. no_begin.
    + no_blank.
    + no_begin.
Qed.
Example C83_join_example : read_rows head_text (Table [[bs "a"; [120; 10; 121]]]) /\ texts_last [[bs "a"; [120; 10; 121]]] /\ breaks [13; 10] /\ ~ at_line_break (bs "b") /\ answers (bs "b") (inr [[bs "b"]]) /\ answers (head_text ++ [13; 10] ++ bs "b") (inr [[bs "a"; [120; 10; 121]]; [bs "b"]]).
Proof.
  split; [apply rt_last; exact head_row|]. split; [exists [], [bs "a"; [120; 10; 121]]; split; [reflexivity|intros [E|E]; discriminate]|].
  split; [exists [[13]; [10]]; split; [discriminate|]; split; [repeat constructor; cbn; tauto|reflexivity]|].
  split; [intros (w & W & t & E); unfold line_break in W; cbn [In] in W; destruct W as [<-|[<-|[<-|[<-|[<-|[]]]]]]; discriminate E|].
  split; exists 300%nat; intros n Hn; (eapply parse_stable; [exact Hn|]); vm_compute; reflexivity.
Qed.
Example C83_errors_example : exists lc lc', answers (34 :: bs "b") (inl (mkCE (Some (EText "Unexpected EOF")) lc)) /\ answers ([34; 34] ++ bs "b") (inl (mkCE None lc')).
Proof. do 2 eexists. split; exists 300%nat; intros n Hn; (eapply parse_stable; [exact Hn|]); vm_compute; reflexivity. Qed.
Example C83_lines_example : joined [head_text; head_text] (head_text ++ [10] ++ head_text) /\ Forall2 (fun x r => read_row x (Some (r, [])) /\ ~ textless r) [head_text; head_text] [[bs "a"; [120; 10; 121]]; [bs "a"; [120; 10; 121]]].
Proof.
  split; [apply jn_more; [exists [[10]]; split; [discriminate|]; split; [repeat constructor|reflexivity]|apply jn_one]|].
  repeat constructor; try exact head_row; intros [E|E]; discriminate.
Qed.
