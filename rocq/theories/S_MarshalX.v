(** Marshal and Unmarshal without conditions on columns and tags (C45). *)
From Verif Require Export S_Marshal S_NumErr.

(** The last place at which a name stands. *)
Definition last_at (l : list bytes) (c : bytes) (j : nat) : Prop := nth_error l j = Some c /\ forall k, (j < k)%nat -> nth_error l k <> Some c.

(** ** Marshal *)
(** The column a field is written to: the last one with its name, and the first column if there is
    none. *)
Definition aims (cols : list bytes) (f : field) (j : nat) : Prop :=
  exists c, own_column f c /\ (last_at cols c j \/ (~ In c cols /\ j = 0%nat)).
(** The cell in column [j] if the fields are visited in the order [visit]: the text of the last field
    written to it. *)
Definition cell_by (ff : spec_float -> bytes) (cols : list bytes) (fields : list field) (vals : list gval) (visit : list nat) (j : nat) (cell : bytes) : Prop :=
  (exists before i after f v, visit = before ++ i :: after /\ nth_error fields i = Some f /\ nth_error vals i = Some v /\
     written f /\ aims cols f j /\ field_text ff v cell /\
     forall i' f', In i' after -> nth_error fields i' = Some f' -> written f' -> ~ aims cols f' j) \/
  (cell = [] /\ forall i f, In i visit -> nth_error fields i = Some f -> written f -> ~ aims cols f j).
Definition row_by (ff : spec_float -> bytes) (cols : list bytes) (fields : list field) (visit : list nat) (vals : list gval) (row : list bytes) : Prop :=
  length row = length cols /\ forall j cell, nth_error row j = Some cell -> cell_by ff cols fields vals visit j cell.
(** An order of all fields. *)
Definition an_order (fields : list field) (visit : list nat) : Prop := Permutation (seq 0 (length fields)) visit.

(** ** Unmarshal *)
(** The column a field asks for: the one named by its tag (be it empty) if there is one, or else
    by its name. *)
Definition asks (header : list bytes) (f : field) (c : bytes) : Prop :=
  (In (fd_tag f) header /\ c = fd_tag f) \/ (~ In (fd_tag f) header /\ In (fd_name f) header /\ c = fd_name f).
(** Of several fields that ask for a column the last one gets it. *)
Definition gets (header : list bytes) (fields : list field) (c : bytes) (i : nat) (f : field) : Prop :=
  nth_error fields i = Some f /\ asks header f c /\ forall k g, (i < k)%nat -> nth_error fields k = Some g -> ~ asks header g c.
Definition sized (f : field) : Prop := match fd_kind f with KInt bits | KUint bits => 1 <= bits <= 64 | _ => True end.
(** What is stored for a text: integers are reduced to the size of the field. *)
Inductive stores (pf : bytes -> numerr + spec_float) (narrow : spec_float -> spec_float) : kind -> bytes -> gval -> Prop :=
| st_str : forall w, stores pf narrow KString w (GStr w)
| st_int : forall bits w z r, int_numeral 10 w z -> int64 z -> (z - r) mod 2 ^ bits = 0 -> - 2 ^ (bits - 1) <= r < 2 ^ (bits - 1) ->
    stores pf narrow (KInt bits) w (GInt r)
| st_uint : forall bits w z r, numeral 10 w z -> uint64 z -> (z - r) mod 2 ^ bits = 0 -> 0 <= r < 2 ^ bits -> stores pf narrow (KUint bits) w (GUint r)
| st_float : forall bits w x, pf w = inr x -> stores pf narrow (KFloat bits) w (GFloat (if bits =? 32 then narrow x else x)).
(** The error for a text. *)
Inductive refuses (pf : bytes -> numerr + spec_float) : kind -> bytes -> gerr -> Prop :=
| rf_int : forall bits w range, int_fault 10 w range -> refuses pf (KInt bits) w (ENum "ParseInt" w range)
| rf_uint : forall bits w range, uint_fault 10 w range -> refuses pf (KUint bits) w (ENum "ParseUint" w range)
| rf_float : forall bits w e, pf w = inl e -> refuses pf (KFloat bits) w (ENum "ParseFloat" w (match e with ErrRange => true | _ => false end)).

Section Rows.
Variables (pf : bytes -> numerr + spec_float) (narrow : spec_float -> spec_float).
Variables (header : list bytes) (fields : list field) (row : list bytes).
(** The cell for the column [c], which field [f] gets. *)
Definition cell_for (c : bytes) (f : field) (w : bytes) : Prop := exists i j, gets header fields c i f /\ last_at header c j /\ nth_error row j = Some w.
(** The struct read from the row. *)
Definition struct_of (vals : list gval) : Prop :=
  length vals = length fields /\
  (forall c i f, gets header fields c i f -> exists w, cell_for c f w) /\
  forall i f v, nth_error fields i = Some f -> nth_error vals i = Some v ->
    (exists c w, gets header fields c i f /\ cell_for c f w /\ fd_exported f = true /\ stores pf narrow (fd_kind f) w v) \/
    (v = zero_val (fd_kind f) /\ ((forall c, ~ gets header fields c i f) \/ ~ written f)).
(** What is wrong with a row: a cell in the column of some field is missing, or the field
    cannot be set, or the cell is no number. *)
Definition row_panics : Prop :=
  exists c i f, gets header fields c i f /\
    ((exists j, last_at header c j /\ nth_error row j = None) \/
     (exists w v, cell_for c f w /\ fd_exported f = false /\ stores pf narrow (fd_kind f) w v)).
Definition row_error (e : gerr) : Prop := exists c f w, cell_for c f w /\ refuses pf (fd_kind f) w e.
End Rows.
