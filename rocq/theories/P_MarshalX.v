(** C45: Marshal and Unmarshal of the CSV example for any columns and tags: what the code does
    where the promise of the documentation fails.  The order in which a map is ranged over is any
    function that permutes it; rendering and reading of floats are arbitrary functions. *)
From Verif Require Import S_MarshalX L_Trans L_Marshal L_MarshalX.

(** Every row is what the fields write in some order: each its text into the last column of its
    name, or into the first one if it has no column. *)
Theorem C45_marshal_exact : forall ff order cols fields rows, any_order order -> NoDup (map fd_name fields) ->
  (cols <> [] \/ forall f, In f fields -> ~ written f) -> Forall (Forall2 (fun f v => fits (fd_kind f) v) fields) rows ->
  exists cells, Marshal ff order cols fields rows = Ok (ToCsv cells) /\
    Forall2 (fun vals row => exists visit, an_order fields visit /\ row_by ff cols fields visit vals row) rows cells.
Proof.
  intros ff order cols fields rows O Nn C Fit. destruct (orders_of fields order (length rows) O Nn) as (vs & L & V).
  destruct (marshal_visits ff order cols fields rows vs Nn C Fit L) as (cells & E & H); [intros i v Hv; apply (V i v Hv)|]. exists cells. split; [exact E|]. clear E Fit.
  assert (A : Forall (an_order fields) vs) by (apply Forall_forall; intros v I; apply In_nth_error in I; destruct I as (i & I); apply (V i v I)). clear V.
  revert vs cells L H A. induction rows as [|r rows IH]; intros [|v vs] cells L H A; try discriminate; inversion H; subst; [constructor|]. inversion A; subst. constructor; [eexists; split; eauto|]. eapply IH; eauto.
Qed.
Print Assumptions C45_marshal_exact.

(** Each choice of orders is possible, and gives one result only. *)
Theorem C45_marshal_every_order : forall ff cols fields rows cells, NoDup (map fd_name fields) ->
  (cols <> [] \/ forall f, In f fields -> ~ written f) -> Forall (Forall2 (fun f v => fits (fd_kind f) v) fields) rows ->
  Forall2 (fun vals row => exists visit, an_order fields visit /\ row_by ff cols fields visit vals row) rows cells ->
  exists order, any_order order /\ Marshal ff order cols fields rows = Ok (ToCsv cells).
Proof.
  intros ff cols fields rows cells Nn C Fit H.
  assert (Vs : exists vs, length vs = length rows /\ Forall (an_order fields) vs /\ Forall2 (fun vv row => row_by ff cols fields (snd vv) (fst vv) row) (combine rows vs) cells).
  { clear C Fit. induction H as [|r c rows cells (v & A & R) _ (vs & L & As & H)]; [exists []; repeat split; constructor|]. exists (v :: vs). split; [cbn; congruence|]. split; constructor; auto. }
  destruct Vs as (vs & L & A & H'). destruct (order_for fields vs Nn A) as (order & O & V). exists order. split; [exact O|].
  destruct (marshal_visits ff order cols fields rows vs Nn C Fit L V) as (cells' & E & H2). rewrite E. f_equal. f_equal. clear -H' H2. revert cells' H2. induction H' as [|x c l cells R _ IH]; intros cells' H2; inversion H2; subst; [reflexivity|].
  f_equal; [eapply row_by_func; eauto|auto].
Qed.
Print Assumptions C45_marshal_every_order.
Theorem C45_marshal_order_result : forall ff cols fields visit vals row row',
  row_by ff cols fields visit vals row -> row_by ff cols fields visit vals row' -> row = row'.
Proof. exact row_by_func. Qed.
Print Assumptions C45_marshal_order_result.

(** Marshal panics only without columns, and then it does so always. *)
Theorem C45_marshal_panics_exact : forall ff order cols fields rows, any_order order -> NoDup (map fd_name fields) ->
  Forall (Forall2 (fun f v => fits (fd_kind f) v) fields) rows ->
  ((exists why, Marshal ff order cols fields rows = Panic why) <-> cols = [] /\ rows <> [] /\ exists f, In f fields /\ written f).
Proof.
  intros ff order cols fields rows O Nn Fit. split.
  - intros (why & P). assert (D : (exists f, In f fields /\ written f) \/ forall f, In f fields -> ~ written f).
    { clear. induction fields as [|f fields [(g & I & W)|N]]; [right; intros f []|left; exists g; split; [right; auto|auto]|]. destruct (kind_dec f) as [W|W]; [left; exists f; split; [left; auto|auto]|]. right. intros g [<-|I]; auto. }
    assert (Q : ~ (cols <> [] \/ forall f, In f fields -> ~ written f)). { intros C. destruct (C45_marshal_exact ff order cols fields rows O Nn C Fit) as (cells & E & _). rewrite E in P. discriminate. }
    split; [destruct cols; [reflexivity|exfalso; apply Q; left; discriminate]|]. split; [|destruct D as [D|D]; [exact D|elim Q; auto]].
    intros ->. discriminate P.
  - intros (-> & Ne & f & I & W). destruct rows as [|vals rows]; [congruence|]. inversion Fit; subst. exists "index out of range"%string. unfold Marshal. cbn [marshal_rows]. fold (types fields).
    destruct (visit_of fields _ (mapping_perm order 0 fields O Nn)) as (visit & A & V). apply In_nth_error in I. destruct I as (i & Hi).
    assert (Iv : In i visit). { eapply Permutation_in; [exact A|]. apply in_seq. assert (nth_error fields i <> None) as K by congruence. apply nth_error_Some in K. lia. }
    assert (E := fill_empty ff [] fields vals Nn ltac:(assumption) visit _ V eq_refl (ex_intro _ i (ex_intro _ f (conj Iv (conj Hi W))))). cbn [length repeat].
    match goal with |- context [fill_row ?a ?b ?c ?d ?e ?g ?h] => replace (fill_row a b c d e g h) with (@Panic (list bytes) "index out of range") by (symmetry; exact E) end. reflexivity.
Qed.
Print Assumptions C45_marshal_panics_exact.

(** Unmarshal returns the structs that the rows give, if they all give one. *)
Theorem C45_unmarshal_exact : forall pf narrow order fields header data rows, any_order order -> NoDup (map fd_name fields) -> Forall sized fields -> data <> [] ->
  (from_table pf narrow order fields (header :: data) = Ok (inr (Some rows)) <-> Forall2 (struct_of pf narrow header fields) data rows).
Proof.
  intros pf narrow order fields header data rows O Nn Sz Ne. unfold from_table. destruct data as [|r0 data0]; [congruence|]. fold (pairs header fields). fold (mp header fields).
  rewrite <- (lines_ok pf narrow header fields Nn Sz order O (r0 :: data0) 0 rows). destruct (fill_structs pf narrow order (columns_of header) (mp header fields) fields 0 (r0 :: data0)) as [[e|x]| |]; split; intros H; try discriminate; congruence.
Qed.
Print Assumptions C45_unmarshal_exact.
(** Otherwise the first row that gives none explains the result. *)
Theorem C45_unmarshal_fault : forall pf narrow order fields header data, any_order order -> NoDup (map fd_name fields) -> Forall sized fields -> data <> [] ->
  (exists rows, from_table pf narrow order fields (header :: data) = Ok (inr (Some rows))) \/
  exists good row rest, data = good ++ row :: rest /\ Forall (fun r => exists vals, struct_of pf narrow header fields r vals) good /\
    ((exists e, from_table pf narrow order fields (header :: data) = Ok (inl e) /\ row_error pf header fields row e) \/
     (exists why, from_table pf narrow order fields (header :: data) = Panic why /\ row_panics pf narrow header fields row)).
Proof.
  intros pf narrow order fields header data O Nn Sz Ne. unfold from_table. destruct data as [|r0 data0]; [congruence|]. fold (pairs header fields). fold (mp header fields).
  destruct (lines_first pf narrow header fields Nn Sz order O (r0 :: data0) 0) as [(rows & -> & _)|(good & row & rest & E & Hg & [(e & -> & R)|(why & -> & R)])].
  - left. eauto.
  - right. exists good, row, rest. split; [exact E|]. split; [exact Hg|]. left. eauto.
  - right. exists good, row, rest. split; [exact E|]. split; [exact Hg|]. right. eauto.
Qed.
Print Assumptions C45_unmarshal_fault.
(** Each fault of that row is the result for some order. *)
Theorem C45_unmarshal_every_fault : forall pf narrow fields header good row rest, NoDup (map fd_name fields) -> Forall sized fields ->
  Forall (fun r => exists vals, struct_of pf narrow header fields r vals) good ->
  (forall e, row_error pf header fields row e -> exists order, any_order order /\ from_table pf narrow order fields (header :: good ++ row :: rest) = Ok (inl e)) /\
  (row_panics pf narrow header fields row -> exists order why, any_order order /\ from_table pf narrow order fields (header :: good ++ row :: rest) = Panic why).
Proof.
  intros pf narrow fields header good row rest Nn Sz Hg.
  assert (U : forall order, from_table pf narrow order fields (header :: good ++ row :: rest) =
    match fill_structs pf narrow order (columns_of header) (mp header fields) fields 0 (good ++ row :: rest) with
    | Ok (inr rows) => Ok (inr (Some rows)) | Ok (inl e) => Ok (inl e) | Panic w => Panic w | Fuel => Fuel end).
  { intros order. unfold from_table. fold (pairs header fields). fold (mp header fields). destruct (good ++ row :: rest) eqn:E; [destruct good; discriminate|reflexivity]. }
  split.
  - intros e R. destruct (round_error pf narrow header fields Nn Sz row e R) as (x & I & E). destruct (first_order header fields x I) as (order & tl & O & F). exists order. split; [exact O|].
    rewrite U, (lines_reach pf narrow header fields Nn Sz order row rest good (Ok (inl e)) O Hg); [reflexivity| |eauto]. intros i. rewrite F, fill_cons, E. reflexivity.
  - intros R. destruct (round_panic pf narrow header fields Nn Sz row R) as (x & why & I & E). destruct (first_order header fields x I) as (order & tl & O & F). exists order, why. split; [exact O|].
    rewrite U, (lines_reach pf narrow header fields Nn Sz order row rest good (Panic why) O Hg); [reflexivity| |eauto]. intros i. rewrite F, fill_cons, E. reflexivity.
Qed.
Print Assumptions C45_unmarshal_every_fault.
(** A row does not give a struct and have a fault, and it gives one struct at most. *)
Theorem C45_unmarshal_one_struct : forall pf narrow fields header row vals, Forall sized fields -> struct_of pf narrow header fields row vals ->
  (forall vals', struct_of pf narrow header fields row vals' -> vals' = vals) /\
  (forall e, ~ row_error pf header fields row e) /\ ~ row_panics pf narrow header fields row.
Proof. intros pf narrow fields header row vals Sz H. split; [intros v H'; eapply struct_func; eauto|eapply struct_fine; eauto]. Qed.
Print Assumptions C45_unmarshal_one_struct.

(** ** The hypotheses are met: two fields share a column, one has none, a column stands twice, a
    number does not fit its field, one field is not exported. *)
Definition odd_fields : list field := [mkFd (bs "A") (bs "x") (KInt 8) true; mkFd (bs "x") [] (KInt 64) true; mkFd (bs "C") [] (KUint 8) true].
Definition odd_cols : list bytes := [bs "first"; bs "x"; bs "x"].
Definition plain_order : range_order := fun _ m => m.
Lemma plain_any : any_order plain_order.
Proof. intros i m. apply Permutation_refl. Qed.
Example C45_exact_data : NoDup (map fd_name odd_fields) /\ Forall sized odd_fields /\ odd_cols <> [] /\
  Forall (Forall2 (fun f v => fits (fd_kind f) v) odd_fields) [[GInt 5; GInt 6; GUint 7]].
Proof. split; [repeat constructor; cbn; intuition discriminate|]. split; [repeat constructor; cbn; lia|]. split; [discriminate|]. repeat constructor; cbn; lia. Qed.
Example C45_exact_marshal : forall ff,
  Marshal ff plain_order odd_cols odd_fields [[GInt 5; GInt 6; GUint 7]] = Ok (bs "7,,5") /\
  row_by ff odd_cols odd_fields [2; 1; 0]%nat [GInt 5; GInt 6; GUint 7] [bs "7"; []; bs "5"].
Proof.
  intros ff. split; [vm_compute; reflexivity|]. split; [reflexivity|]. assert (T5 : int_text 5 (bs "5")) by (apply (int_canonical 5); lia). assert (T7 : canonical (bs "7") 7) by (apply (uint_canonical 7); lia).
  intros [|[|[|j]]] cell H; cbn in H; [injection H as <-|injection H as <-|injection H as <-|destruct j; discriminate].
  - left. exists [], 2%nat, [1; 0]%nat, (mkFd (bs "C") [] (KUint 8) true), (GUint 7). split; [reflexivity|]. split; [reflexivity|]. split; [reflexivity|]. split; [discriminate|]. split; [apply aims_iff; reflexivity|]. split; [constructor; exact T7|].
    intros i f [<-|[<-|[]]] Hf _ A; injection Hf as <-; apply aims_iff in A; discriminate.
  - right. split; [reflexivity|]. intros i f [<-|[<-|[<-|[]]]] Hf _ A; injection Hf as <-; apply aims_iff in A; discriminate.
  - left. exists [2; 1]%nat, 0%nat, [], (mkFd (bs "A") (bs "x") (KInt 8) true), (GInt 5). split; [reflexivity|]. split; [reflexivity|]. split; [reflexivity|]. split; [discriminate|]. split; [apply aims_iff; reflexivity|]. split; [constructor; exact T5|]. intros i f [].
Qed.
(** The field A asks for x and so does the field x, which gets it; the last cell counts. *)
Example C45_exact_unmarshal : forall pf narrow,
  from_table pf narrow plain_order odd_fields [[bs "C"; bs "x"; bs "x"]; [bs "300"; bs "1"; bs "2"]] = Ok (inr (Some [[GInt 0; GInt 2; GUint 44]])) /\
  from_table pf narrow plain_order odd_fields [[bs "C"; bs "x"; bs "x"]; [bs "-"; bs "1"; bs "2"]] = Ok (inl (ENum "ParseUint" (bs "-") false)) /\
  from_table pf narrow plain_order odd_fields [[bs "C"; bs "x"; bs "x"]; [bs "1"; bs "1"]] = Panic "index out of range".
Proof. intros pf narrow. repeat split; vm_compute; reflexivity. Qed.
