(** C89: cells and rows can be put together.  Texts joined by a comma are read one after the other, the last
    row of the first and the first row of the second as one row. *)
From Verif Require Import L_CsvCells.

Definition answers (s : bytes) (r : csv_error + list (list bytes)) : Prop :=
  exists n0, forall n, (n0 <= n)%nat -> Parse n s = Ok r.
Lemma answers_once s a b : answers s a -> answers s b -> a = b.
Proof. intros (n & H) (m & G). specialize (H (Nat.max n m) ltac:(lia)). specialize (G (Nat.max n m) ltac:(lia)). congruence. Qed.
Lemma rows_read s rows : Forall is_byte s -> answers s (inr rows) <-> read_csv s (Table rows).
Proof.
  intros Hb. split; [intros (n & H); eapply parse_iff; eauto; reflexivity|]. intros R. destruct (parse_reads s _ Hb R) as (r & A & H). cbn in A. subst r. exact H.
Qed.
Lemma comma_bytes l r : Forall is_byte l -> Forall is_byte r -> Forall is_byte (l ++ [44] ++ r).
Proof. intros Hl Hr. apply Forall_app. split; [exact Hl|]. constructor; [unfold is_byte; lia|exact Hr]. Qed.
Lemma ends_comma l : comma_last (l ++ [44]). Proof. exists l. reflexivity. Qed.

(** A text with a comma at its end that is accepted has an empty cell at the end of its last
    row, after at least one other. *)
Theorem C89_shape : forall l all, Forall is_byte l -> answers (l ++ [44]) (inr all) -> exists rows xs, all = rows ++ [xs ++ [[]]] /\ xs <> [].
Proof.
  intros l all Hl H. apply rows_read in H; [|apply (comma_bytes l []); [exact Hl|constructor]]. destruct (csv_comma _ _ H (ends_comma l)) as (rows & xs & E & N & _). eauto.
Qed.
Print Assumptions C89_shape.
Lemma split_once (rows rows' : list (list bytes)) xs xs' : rows ++ [xs ++ [[]]] = rows' ++ [xs' ++ [[]]] -> rows = rows' /\ xs = xs'.
Proof. intros E. apply app_inj_tail in E. destruct E as [-> E]. apply app_inj_tail in E. destruct E as [-> _]. auto. Qed.
Lemma joined_read l rows xs r a : Forall is_byte l -> answers (l ++ [44]) (inr (rows ++ [xs ++ [[]]])) -> read_csv r a -> read_csv (l ++ [44] ++ r) (on_table (keep_on rows xs) a).
Proof.
  intros Hl H R. apply rows_read in H; [|apply (comma_bytes l []); [exact Hl|constructor]]. destruct (csv_comma _ _ H (ends_comma l)) as (rows' & xs' & E & _ & F). destruct (split_once _ _ _ _ E) as [<- <-].
  rewrite app_assoc. apply F. exact R.
Qed.
(** Such a text followed by any other accepted text: the cell after the comma and all that
    follows is read as if the second text stood alone, *)
Theorem C89_cells : forall l rows xs r ys rest, Forall is_byte l -> Forall is_byte r -> answers (l ++ [44]) (inr (rows ++ [xs ++ [[]]])) -> answers r (inr (ys :: rest)) ->
  answers (l ++ [44] ++ r) (inr (rows ++ (xs ++ ys) :: rest)).
Proof.
  intros l rows xs r ys rest Hl Hr H G. apply rows_read; [apply comma_bytes; assumption|]. apply rows_read in G; [|exact Hr]. exact (joined_read l rows xs r _ Hl H G).
Qed.
Print Assumptions C89_cells.
(** also if it has no rows with text, *)
Theorem C89_blank : forall l rows xs r, Forall is_byte l -> Forall is_byte r -> answers (l ++ [44]) (inr (rows ++ [xs ++ [[]]])) -> answers r (inr []) ->
  answers (l ++ [44] ++ r) (inr (rows ++ [xs ++ [[]]])).
Proof.
  intros l rows xs r Hl Hr H G. apply rows_read; [apply comma_bytes; assumption|]. apply rows_read in G; [|exact Hr]. exact (joined_read l rows xs r _ Hl H G).
Qed.
Print Assumptions C89_blank.
(** and an error in it is an error of the whole. *)
Theorem C89_error : forall l all r e lc, Forall is_byte l -> Forall is_byte r -> answers (l ++ [44]) (inr all) -> answers r (inl (mkCE e lc)) ->
  exists lc', answers (l ++ [44] ++ r) (inl (mkCE e lc')).
Proof.
  intros l all r e lc Hl Hr H G. destruct (C89_shape l all Hl H) as (rows & xs & -> & _). destruct (csv_total r Hr) as (a & Ra). pose proof (joined_read l rows xs r a Hl H Ra) as J.
  destruct (parse_reads r a Hr Ra) as (x & A & Ax), (parse_reads _ _ (comma_bytes l r Hl Hr) J) as (y & B & By). pose proof (answers_once _ _ _ G Ax) as E. subst x.
  destruct a as [t| |]; cbn in A, B; [discriminate| |]; destruct A as (c & E & _), B as (d & -> & _); injection E as -> _; exists d; exact By.
Qed.
Print Assumptions C89_error.
(** So how a cell is written does not matter to the rest: beginnings that are read alike can
    be exchanged before every text. *)
Theorem C89_exchange : forall l l' all r, Forall is_byte l -> Forall is_byte l' -> Forall is_byte r -> answers (l ++ [44]) (inr all) -> answers (l' ++ [44]) (inr all) ->
  (forall w, answers (l ++ [44] ++ r) (inr w) <-> answers (l' ++ [44] ++ r) (inr w)) /\
  (forall e, (exists lc, answers (l ++ [44] ++ r) (inl (mkCE e lc))) <-> exists lc, answers (l' ++ [44] ++ r) (inl (mkCE e lc))).
Proof.
  intros l l' all r Hl Hl' Hr H H'. destruct (C89_shape l all Hl H) as (rows & xs & -> & _). destruct (csv_total r Hr) as (a & Ra).
  pose proof (joined_read l rows xs r a Hl H Ra) as J. pose proof (joined_read l' rows xs r a Hl' H' Ra) as J'.
  destruct (parse_reads _ _ (comma_bytes l r Hl Hr) J) as (x & A & Ax), (parse_reads _ _ (comma_bytes l' r Hl' Hr) J') as (y & B & By). destruct a as [t| |]; cbn [on_table csv_answer] in A, B.
  - subst x y. split; [intros w; split; intros G|intros e; split; intros (lc & G)]; try (pose proof (answers_once _ _ _ G Ax) as E); try (pose proof (answers_once _ _ _ G By) as E); inversion E; subst; assumption.
  - destruct A as (c & -> & _), B as (d & -> & _). split; [intros w; split; intros G|intros e; split; intros (lc & G)]; try (pose proof (answers_once _ _ _ G Ax) as E); try (pose proof (answers_once _ _ _ G By) as E); inversion E; subst; eexists; eassumption.
  - destruct A as (c & -> & _), B as (d & -> & _). split; [intros w; split; intros G|intros e; split; intros (lc & G)]; try (pose proof (answers_once _ _ _ G Ax) as E); try (pose proof (answers_once _ _ _ G By) as E); inversion E; subst; eexists; eassumption.
Qed.
Print Assumptions C89_exchange.
(** And a row can be put together from cells: each cell is read as it is alone before a comma. *)
Theorem C89_row : forall cs xs, cs <> [] -> Forall (Forall is_byte) cs -> Forall2 (fun c x => answers (c ++ [44]) (inr [[x; []]])) cs xs ->
  answers (concat (map (fun c => c ++ [44]) cs)) (inr [xs ++ [[]]]).
Proof.
  intros cs xs N Hb F. induction F as [|c x cs xs H F IH]; [contradiction|]. inversion Hb as [|? ? Hc Hcs]; subst. cbn [map concat]. destruct F as [|c' x' cs xs H' F].
  - cbn [map concat app]. rewrite app_nil_r. exact H.
  - rewrite <- app_assoc. apply (C89_cells c [] [x] (concat (map (fun c0 => c0 ++ [44]) (c' :: cs))) ((x' :: xs) ++ [[]]) []); [exact Hc| |exact H|apply IH; [discriminate|exact Hcs]].
    clear -Hcs. induction Hcs as [|d ds Hd Hds IH]; cbn [map concat]; [constructor|]. rewrite <- app_assoc. apply comma_bytes; assumption.
Qed.
Print Assumptions C89_row.

Ltac by_parse := exists 300%nat; let n := fresh in let Hn := fresh in intros n Hn; (eapply parse_stable; [exact Hn|]); vm_compute; reflexivity.
(** It is not enough that the first text is accepted without the comma: a line break at its
    end is dropped with the row after it. *)
Theorem C89_alone_refuted : answers (bs "a" ++ [10]) (inr [[bs "a"]]) /\ answers (bs "b") (inr [[bs "b"]]) /\ answers ((bs "a" ++ [10]) ++ [44] ++ bs "b") (inr [[bs "a"]; [[]; bs "b"]]).
Proof. repeat split; by_parse. Qed.
Print Assumptions C89_alone_refuted.

Example C89_cells_example : answers ((bs "a" ++ [10] ++ bs " b ") ++ [44]) (inr ([[bs "a"]] ++ [[bs "b"] ++ [[]]])) /\ answers ([34; 44; 34] ++ bs ",c" ++ [13; 10] ++ bs "d") (inr ([bs ","; bs "c"] :: [[bs "d"]])) /\
  answers ((bs "a" ++ [10] ++ bs " b ") ++ [44] ++ [34; 44; 34] ++ bs ",c" ++ [13; 10] ++ bs "d") (inr ([[bs "a"]] ++ ([bs "b"] ++ [bs ","; bs "c"]) :: [[bs "d"]])).
Proof. repeat split; by_parse. Qed.
Example C89_blank_example : answers (bs "a" ++ [44]) (inr ([] ++ [[bs "a"] ++ [[]]])) /\ answers [32; 10; 10] (inr []) /\ answers (bs "a" ++ [44] ++ [32; 10; 10]) (inr [[bs "a"; []]]).
Proof. repeat split; by_parse. Qed.
Example C89_exchange_example : answers (bs " ab" ++ [44]) (inr [[bs "ab"; []]]) /\ answers ([34; 97; 34; 32; 34; 98; 34] ++ [44]) (inr [[bs "ab"; []]]) /\ answers (bs " ab" ++ [44] ++ bs "c") (inr [[bs "ab"; bs "c"]]).
Proof. repeat split; by_parse. Qed.
Example C89_error_example : exists lc lc', answers (bs "b" ++ [10; 34]) (inl (mkCE (Some (EText "Unexpected EOF")) lc)) /\ answers (bs "a" ++ [44] ++ bs "b" ++ [10; 34]) (inl (mkCE (Some (EText "Unexpected EOF")) lc')).
Proof. eexists. eexists. split; by_parse. Qed.
Example C89_row_example : answers (bs "a" ++ [44]) (inr [[bs "a"; []]]) /\ answers ([34; 10; 34] ++ [44]) (inr [[[10]; []]]) /\ answers (concat (map (fun c => c ++ [44]) [bs "a"; [34; 10; 34]])) (inr [[bs "a"; [10]; []]]).
Proof. repeat split; by_parse. Qed.
