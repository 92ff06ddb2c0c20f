(** C93: the cells of a CSV text are made of its characters. *)
From Verif Require Import L_CsvKept L_CsvBack L_Utf8.

(** [Parse] answers, with enough fuel. *)
Definition answers (s : bytes) (r : csv_error + list (list bytes)) : Prop :=
  exists n0, forall n, (n0 <= n)%nat -> Parse n s = Ok r.
(** The cells one after another are the text with some of it left out, where every malformed
    byte counts as U+FFFD; and there are no more cells than separators and one. *)
Theorem C93_kept : forall s rows, Forall is_byte s -> answers s (inr rows) ->
  exists rs y, chars s rs /\ utf8 rs y /\ subseq (concat (concat rows)) y.
Proof.
  intros s rows Hb (n0 & H). assert (R : read_csv s (Table rows)) by (eapply parse_iff; eauto; reflexivity). destruct (csv_from s rows R) as (y & (rs & C & U) & S & _). eauto.
Qed.
Print Assumptions C93_kept.
Theorem C93_cells : forall s rows, Forall is_byte s -> answers s (inr rows) -> (length (concat rows) <= 1 + length (filter separator s))%nat.
Proof.
  intros s rows Hb (n0 & H). assert (R : read_csv s (Table rows)) by (eapply parse_iff; eauto; reflexivity). destruct (csv_from s rows R) as (y & _ & _ & C). exact C.
Qed.
Print Assumptions C93_cells.
(** A well-formed text: nothing is added at all. *)
Theorem C93_valid : forall s rows, valid_text s -> Forall is_byte s -> answers s (inr rows) -> subseq (concat (concat rows)) s /\ (length (concat (concat rows)) <= length s)%nat.
Proof.
  intros s rows (rs' & V) Hb H. destruct (C93_kept s rows Hb H) as (rs & y & C & U & S). rewrite (chars_valid _ _ _ C V) in U. rewrite (utf8_func _ _ _ U V) in S. split; [exact S|apply subseq_length; exact S].
Qed.
Print Assumptions C93_valid.
(** Any text: the cells are at most three times as long together. *)
Lemma shown_length s rs : chars s rs -> forall y, utf8 rs y -> (length y <= 3 * length s)%nat.
Proof.
  induction 1 as [|s r l rs N L C IH]; intros y U; inversion U as [|r0 cs rs0 y0 Uc Uy]; subst; [cbn; lia|]. rewrite app_length. specialize (IH _ Uy). rewrite skipn_length in IH. inversion N as [|r1 cs1 s1 U1|b s1 B]; subst; [lia| |].
  - apply encode_char in Uc. apply encode_char in U1. rewrite <- Uc, <- U1 in *. rewrite app_length in *. lia.
  - apply encode_char in Uc. rewrite <- Uc. change (length (encode_rune 65533)) with 3%nat. cbn [length] in *. lia.
Qed.
Theorem C93_size : forall s rows, Forall is_byte s -> answers s (inr rows) -> (length (concat (concat rows)) <= 3 * length s)%nat.
Proof.
  intros s rows Hb H. destruct (C93_kept s rows Hb H) as (rs & y & C & U & S). apply subseq_length in S. pose proof (shown_length s rs C y U). lia.
Qed.
Print Assumptions C93_size.
(** Malformed bytes do grow, up to that bound. *)
Theorem C93_malformed_refuted : exists s rows, Forall is_byte s /\ answers s (inr rows) /\ length (concat (concat rows)) = (3 * length s)%nat /\ ~ subseq (concat (concat rows)) s.
Proof.
  exists [255; 254], [[[239; 191; 189; 239; 191; 189]]]. split; [repeat constructor; lia|]. split; [exists 300%nat; intros n Hn; (eapply parse_stable; [exact Hn|]); vm_compute; reflexivity|]. split; [reflexivity|].
  intros H. apply subseq_length in H. cbn in H. lia.
Qed.
Print Assumptions C93_malformed_refuted.

(** A text with a quoted comma, a doubled quote, blanks and a blank line: four cells, six separators. *)
Definition mixed : bytes := bs " a ," ++ [34] ++ bs "b," ++ [34; 34; 34; 10; 10] ++ bs "c,d" ++ [10].
Example C93_example : Forall is_byte mixed /\ valid_text mixed /\ answers mixed (inr [[bs "a"; bs "b,"]; [bs "c"; bs "d"]]) /\ length (filter separator mixed) = 6%nat.
Proof.
  split; [repeat constructor; lia|]. split; [|split; [exists 300%nat; intros n Hn; (eapply parse_stable; [exact Hn|]); vm_compute; reflexivity|reflexivity]].
  exists mixed. assert (G : forall l, Forall (fun b => 0 <= b < 128) l -> utf8 l l) by (induction 1 as [|b l B _ IH]; [constructor|exact (u_cons b [b] l l (u_1 b B) IH)]). apply G. repeat constructor; lia.
Qed.
