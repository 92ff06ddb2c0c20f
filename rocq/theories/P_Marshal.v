(** C45: Marshal and Unmarshal of the CSV example.  The order in which a map is ranged
    over is any function that permutes it, differently for every row.  Rendering and
    reading of floats are arbitrary functions [ff], [pf] and [narrow]. *)
From Verif Require Import L_Marshal.

(** Every field goes to its column, all other cells stay empty: for fields with distinct
    columns that are all listed. *)
Theorem C45_marshal_cells_partial : forall ff order cols fields rows, any_order order ->
  NoDup (map fd_name fields) -> NoDup cols -> separate fields ->
  (forall f c, In f fields -> written f -> own_column f c -> In c cols) ->
  Forall (Forall2 (fun f v => fits (fd_kind f) v) fields) rows ->
  exists cells, Marshal ff order cols fields rows = Ok (ToCsv cells) /\
    Forall2 (fun vals row => Forall2 (cell_of ff fields vals) cols row) rows cells.
Proof. intros ff order cols fields rows O Nn Nc Sep Cov Fit. apply marshal_ok; auto. intros f Hf W. apply (Cov f); auto. apply own_iff. reflexivity. Qed.
Print Assumptions C45_marshal_cells_partial.

(** Then the order does not matter. *)
Theorem C45_marshal_any_order_partial : forall ff order order' cols fields rows, any_order order -> any_order order' ->
  NoDup (map fd_name fields) -> NoDup cols -> separate fields ->
  (forall f c, In f fields -> written f -> own_column f c -> In c cols) ->
  Forall (Forall2 (fun f v => fits (fd_kind f) v) fields) rows ->
  Marshal ff order cols fields rows = Marshal ff order' cols fields rows.
Proof. intros ff order order' cols fields rows O O' Nn Nc Sep Cov Fit. apply marshal_any_order; auto. intros f Hf W. apply (Cov f); auto. apply own_iff. reflexivity. Qed.
Print Assumptions C45_marshal_any_order_partial.

(** Marshal never panics unless the list of columns is empty. *)
Theorem C45_marshal_total : forall ff order cols fields rows, any_order order -> cols <> [] -> NoDup (map fd_name fields) ->
  Forall (Forall2 (fun f v => fits (fd_kind f) v) fields) rows -> exists s, Marshal ff order cols fields rows = Ok s.
Proof. exact marshal_total. Qed.
Print Assumptions C45_marshal_total.

(** Unmarshal reads every field from its column. *)
Theorem C45_unmarshal_fields_partial : forall pf narrow order fields header data rows, any_order order ->
  NoDup (map fd_name fields) -> NoDup header -> (~ In [] header \/ forall f, In f fields -> fd_tag f <> []) ->
  sources_apart header fields -> data <> [] ->
  Forall2 (fun row vals => Forall2 (field_read pf narrow header row) fields vals) data rows ->
  from_table pf narrow order fields (header :: data) = Ok (inr (Some rows)).
Proof. exact unmarshal_ok. Qed.
Print Assumptions C45_unmarshal_fields_partial.

(** It does not panic if no row is shorter than the header and the fields that are read
    are exported. *)
Theorem C45_unmarshal_total_partial : forall pf narrow order fields s header data n, any_order order ->
  (forall f, In f fields -> fd_exported f = true \/ ~ written f) ->
  Parse n s = Ok (inr (header :: data)) -> Forall (fun row => (length header <= length row)%nat) data ->
  exists r, Unmarshal pf narrow n order fields s = Ok r.
Proof.
  intros pf narrow order fields s header data n O X P L. unfold Unmarshal. rewrite P. cbv iota beta.
  destruct (unmarshal_total pf narrow order fields header data O X L) as (r & E). match goal with |- context [from_table ?a ?b ?c ?d ?e] => set (q := from_table a b c d e) end.
  assert (q = Ok r) as -> by exact E. destruct r; eauto.
Qed.
Print Assumptions C45_unmarshal_total_partial.

(** A document of fewer than two records leaves the target as it is, whatever it holds;
    any other that is read gives one element for every record but the header. *)
Theorem C45_unmarshal_rows : forall pf narrow order fields s data n, Parse n s = Ok (inr data) ->
  ((length data < 2)%nat -> Unmarshal pf narrow n order fields s = Ok (inr None)) /\
  (Unmarshal pf narrow n order fields s = Ok (inr None) -> (length data < 2)%nat) /\
  (forall rows, Unmarshal pf narrow n order fields s = Ok (inr (Some rows)) -> length data = S (length rows) /\ rows <> []).
Proof. exact unmarshal_rows. Qed.
Print Assumptions C45_unmarshal_rows.
(** A document that cannot be parsed gives the error of Parse, and an error of the rows is
    passed on as it is. *)
Theorem C45_unmarshal_errors : forall pf narrow order fields s n,
  (forall e, Unmarshal pf narrow n order fields s = Ok (inl (inl e)) <-> Parse n s = Ok (inl e)) /\
  (forall e, Unmarshal pf narrow n order fields s = Ok (inl (inr e)) <->
    exists data, Parse n s = Ok (inr data) /\ from_table pf narrow order fields data = Ok (inl e)).
Proof.
  intros. unfold Unmarshal. destruct (Parse n s) as [[e|data]| |]; split; intros e'.
  - split; intros H; inversion H; reflexivity.
  - split; [discriminate|]. intros (d & H & _). discriminate.
  - destruct (from_table pf narrow order fields data) as [[x|x]| |]; split; discriminate.
  - split.
    + intros H. exists data. split; [reflexivity|]. destruct (from_table pf narrow order fields data) as [[x|x]| |]; try discriminate. inversion H. reflexivity.
    + intros (d & H & F). injection H as <-. rewrite F. reflexivity.
  - split; discriminate.
  - split; [discriminate|]. intros (d & H & _). discriminate.
  - split; discriminate.
  - split; [discriminate|]. intros (d & H & _). discriminate.
Qed.
Print Assumptions C45_unmarshal_errors.

(** Unmarshal, given the column names and what Marshal wrote, restores the rows.  The
    conditions: every field is exported, of a supported kind and has a column of its own;
    columns have distinct non-empty names; the texts survive CSV (C36); floats survive
    being written and read. *)
Theorem C45_round_trip_partial : forall ff pf narrow order order' cols fields rows, any_order order -> any_order order' ->
  NoDup (map fd_name fields) -> NoDup cols -> ~ In [] cols -> separate fields -> plain_struct fields ->
  (forall f c, In f fields -> own_column f c -> In c cols) -> cols <> [] -> rows <> [] -> Forall safe_cell cols ->
  Forall (Forall2 (fun f v => fits (fd_kind f) v) fields) rows ->
  Forall (safe_row_values ff) rows -> Forall (kept_row ff cols) rows -> Forall (floats_return ff pf narrow fields) rows ->
  exists s n0, Marshal ff order cols fields rows = Ok s /\
    forall n, (n0 <= n)%nat -> Unmarshal pf narrow n order' fields (ToCsv [cols] ++ [10] ++ s) = Ok (inr (Some rows)).
Proof.
  intros ff pf narrow order order' cols fields rows O O' Nn Nc Ne Sep Pl Cov. apply marshal_round; auto. intros f Hf. apply (Cov f); auto. apply own_iff. reflexivity.
Qed.
Print Assumptions C45_round_trip_partial.

(** ** The hypotheses are met *)
Definition some_fields : list field :=
  [mkFd (bs "Name") (bs "name") KString true; mkFd (bs "N") [] (KInt 8) true; mkFd (bs "F") (bs "f") (KFloat 64) true].
Definition some_cols : list bytes := [bs "f"; bs "extra"; bs "N"; bs "name"].
Definition some_rows : list (list gval) :=
  [[GStr (bs "x"); GInt (-128); GFloat (S754_zero false)]; [GStr []; GInt 42; GFloat (S754_zero true)]].
Definition some_format (x : spec_float) : bytes := match x with S754_zero true => bs "-0" | _ => bs "0" end.
Definition some_parse (w : bytes) : numerr + spec_float := if bytes_eqb w (bs "-0") then inr (S754_zero true) else inr (S754_zero false).
Definition in_order : range_order := fun _ m => m.
Definition backwards : range_order := fun _ m => rev m.
Lemma orders : any_order in_order /\ any_order backwards.
Proof. split; intros i m; [apply Permutation_refl|apply Permutation_rev]. Qed.
Lemma field_cases (P : field -> Prop) i f : nth_error some_fields i = Some f ->
  (i = 0%nat /\ f = mkFd (bs "Name") (bs "name") KString true) \/ (i = 1%nat /\ f = mkFd (bs "N") [] (KInt 8) true) \/ (i = 2%nat /\ f = mkFd (bs "F") (bs "f") (KFloat 64) true).
Proof. destruct i as [|[|[|i]]]; cbn; intros H; try (injection H as <-); auto. destruct i; discriminate. Qed.
Ltac graphic := apply graphic_safe; repeat constructor; cbn; lia.
Example C45_some_data : NoDup (map fd_name some_fields) /\ NoDup some_cols /\ ~ In [] some_cols /\ separate some_fields /\ plain_struct some_fields /\
  (forall f c, In f some_fields -> own_column f c -> In c some_cols) /\ Forall safe_cell some_cols /\
  Forall (Forall2 (fun f v => fits (fd_kind f) v) some_fields) some_rows /\ Forall (safe_row_values some_format) some_rows /\
  Forall (kept_row some_format some_cols) some_rows /\ Forall (floats_return some_format some_parse (fun x => x) some_fields) some_rows.
Proof.
  split; [|split; [|split; [|split; [|split; [|split; [|split; [|split; [|split; [|split]]]]]]]]].
  - repeat constructor; cbn; intuition discriminate.
  - repeat constructor; cbn; intuition discriminate.
  - cbn. intuition discriminate.
  - intros i j f g c Hf Hg _ _ O1 O2. apply own_iff in O1. apply own_iff in O2.
    apply (field_cases (fun _ => True)) in Hf as [[-> ->]|[[-> ->]|[-> ->]]]; apply (field_cases (fun _ => True)) in Hg as [[-> ->]|[[-> ->]|[-> ->]]]; auto; subst c; discriminate.
  - intros f [<-|[<-|[<-|[]]]]; split; auto; discriminate.
  - intros f c Hf O. apply own_iff in O. subst c. destruct Hf as [<-|[<-|[<-|[]]]]; cbn; auto.
  - repeat (constructor; [graphic|]). constructor.
  - repeat constructor; cbn; lia.
  - constructor; [|constructor; [|constructor]]; split; intros x [H|[H|[H|[]]]]; try discriminate; injection H as <-; graphic.
  - constructor; [|constructor; [|constructor]]; left; cbn; lia.
  - constructor; [|constructor; [|constructor]]; (constructor; [|constructor; [|constructor; [|constructor]]]); intros bits x Hk Hx; try discriminate;
      injection Hk as <-; injection Hx as <-; eexists; split; reflexivity.
Qed.
Example C45_some_marshal : Marshal some_format in_order some_cols some_fields some_rows = Ok (bs "0,,-128,x" ++ [10] ++ bs "-0,,42,").
Proof. vm_compute. reflexivity. Qed.
Example C45_some_unmarshal : Unmarshal some_parse (fun x => x) 300 backwards some_fields
    (bs "f,extra,N,name" ++ [10] ++ bs "0,,-128,x" ++ [10] ++ bs "-0,,42,") = Ok (inr (Some some_rows)).
Proof. vm_compute. reflexivity. Qed.
Example C45_header_only : Parse 300 (bs "f,extra,N,name") = Ok (inr [[bs "f"; bs "extra"; bs "N"; bs "name"]]) /\
  Unmarshal some_parse (fun x => x) 300 backwards some_fields (bs "f,extra,N,name") = Ok (inr None).
Proof. split; vm_compute; reflexivity. Qed.

(** ** What is wrong *)
Definition two_ints : list field := [mkFd (bs "A") [] (KInt 64) true; mkFd (bs "B") [] (KInt 64) true].
(** A field that is not listed overwrites the first column, or not, as the map is
    visited. *)
Theorem C45_any_order_refuted : forall ff, exists order order', any_order order /\ any_order order' /\
  Marshal ff order [bs "A"] two_ints [[GInt 1; GInt 2]] = Ok (bs "1") /\ Marshal ff order' [bs "A"] two_ints [[GInt 1; GInt 2]] = Ok (bs "2").
Proof. intros ff. exists in_order, backwards. split; [apply orders|]. split; [apply orders|]. split; vm_compute; reflexivity. Qed.
Print Assumptions C45_any_order_refuted.
(** Even alone: a column that no field owns is not left empty. *)
Theorem C45_other_columns_empty_refuted : forall ff order, any_order order ->
  Marshal ff order [bs "X"; bs "Y"] [mkFd (bs "A") [] (KInt 64) true] [[GInt 1]] = Ok (bs "1,").
Proof.
  intros ff order O. unfold Marshal. cbn [marshal_rows]. set (m := map_of (map (fun f => (fd_name f, column_name f)) _)). pose proof (O 0%nat m) as P.
  apply Permutation_length_1_inv in P. rewrite P. vm_compute. reflexivity.
Qed.
Print Assumptions C45_other_columns_empty_refuted.
(** Without columns Marshal panics. *)
Theorem C45_marshal_panics_refuted : forall ff, exists order, any_order order /\ exists why, Marshal ff order [] two_ints [[GInt 1; GInt 2]] = Panic why.
Proof. intros ff. exists in_order. split; [apply orders|]. eexists. vm_compute. reflexivity. Qed.
Print Assumptions C45_marshal_panics_refuted.
(** Unmarshal panics on a row shorter than the header, and on an unexported field. *)
Theorem C45_unmarshal_panics_refuted : forall pf narrow, exists order, any_order order /\
  (exists why, forall n, (300 <= n)%nat -> Unmarshal pf narrow n order two_ints (bs "A,B" ++ [10] ++ bs "1") = Panic why) /\
  (exists why, forall n, (300 <= n)%nat -> Unmarshal pf narrow n order [mkFd (bs "a") [] KString false] (bs "a" ++ [10] ++ bs "x") = Panic why).
Proof.
  intros pf narrow. exists in_order. split; [apply orders|]. split; eexists; intros n Hn; unfold Unmarshal.
  - rewrite (parse_stable 300 n _ (inr [[bs "A"; bs "B"]; [bs "1"]]) Hn) by (vm_compute; reflexivity). vm_compute. reflexivity.
  - rewrite (parse_stable 300 n _ (inr [[bs "a"]; [bs "x"]]) Hn) by (vm_compute; reflexivity). vm_compute. reflexivity.
Qed.
Print Assumptions C45_unmarshal_panics_refuted.
(** Numbers that do not fit are changed without an error, and an empty header cell is
    read into every field without a tag, even if the field has a column. *)
Theorem C45_unmarshal_wrong_refuted : forall pf narrow, exists order, any_order order /\
  (forall n, (300 <= n)%nat -> Unmarshal pf narrow n order [mkFd (bs "A") [] (KInt 8) true] (bs "A" ++ [10] ++ bs "300") = Ok (inr (Some [[GInt 44]]))) /\
  (forall n, (300 <= n)%nat -> Unmarshal pf narrow n order [mkFd (bs "A") [] (KInt 8) true] (bs "A," ++ [10] ++ bs "1,2") = Ok (inr (Some [[GInt 2]]))).
Proof.
  intros pf narrow. exists in_order. split; [apply orders|]. split; intros n Hn; unfold Unmarshal.
  - rewrite (parse_stable 300 n _ (inr [[bs "A"]; [bs "300"]]) Hn) by (vm_compute; reflexivity). vm_compute. reflexivity.
  - rewrite (parse_stable 300 n _ (inr [[bs "A"; []]; [bs "1"; bs "2"]]) Hn) by (vm_compute; reflexivity). vm_compute. reflexivity.
Qed.
Print Assumptions C45_unmarshal_wrong_refuted.
