(** Tables of structs: which cell belongs to which field (C45). *)
From Verif Require Export S_Csv S_Trans M_Marshal.
From Coq Require Export Permutation.

Definition written (f : field) : Prop := fd_kind f <> KOther.
(** The column a field is written to: the one its tag names or else its own name. *)
Definition own_column (f : field) (c : bytes) : Prop := (fd_tag f <> [] /\ c = fd_tag f) \/ (fd_tag f = [] /\ c = fd_name f).
(** The value fits the field. *)
Inductive fits : kind -> gval -> Prop :=
| fit_str : forall s, fits KString (GStr s)
| fit_int : forall bits z, 1 <= bits <= 64 -> - 2 ^ (bits - 1) <= z < 2 ^ (bits - 1) -> fits (KInt bits) (GInt z)
| fit_uint : forall bits z, 1 <= bits <= 64 -> 0 <= z < 2 ^ bits -> fits (KUint bits) (GUint z)
| fit_float : forall bits x, fits (KFloat bits) (GFloat x)
| fit_other : forall n, fits KOther (GOther n).
(** Decimal texts without sign, underscore or leading zero. *)
Definition canonical (c : bytes) (z : Z) : Prop := numeral 10 c z /\ (c = [48] \/ exists d r, c = d :: r /\ d <> 48).
Definition int_text (z : Z) (c : bytes) : Prop := (0 <= z /\ canonical c z) \/ (z < 0 /\ exists d, c = 45 :: d /\ canonical d (- z)).
(** The text of a value; floats in a given rendering. *)
Inductive field_text (ff : spec_float -> bytes) : gval -> bytes -> Prop :=
| tx_str : forall s, field_text ff (GStr s) s
| tx_int : forall z c, int_text z c -> field_text ff (GInt z) c
| tx_uint : forall z c, canonical c z -> field_text ff (GUint z) c
| tx_float : forall x, field_text ff (GFloat x) (ff x).
(** The cell of the column [name]: the text of the field that owns the column, or empty. *)
Definition cell_of (ff : spec_float -> bytes) (fields : list field) (vals : list gval) (name cell : bytes) : Prop :=
  (exists i f v, nth_error fields i = Some f /\ nth_error vals i = Some v /\ written f /\ own_column f name /\ field_text ff v cell) \/
  (cell = [] /\ forall f, In f fields -> written f -> ~ own_column f name).
(** Every visit order of a map. *)
Definition any_order (order : range_order) : Prop := forall i m, Permutation m (order i m).
(** No two written fields own the same column. *)
Definition separate (fields : list field) : Prop :=
  forall i j f g c, nth_error fields i = Some f -> nth_error fields j = Some g -> written f -> written g ->
    own_column f c -> own_column g c -> i = j.

(** ** Unmarshal *)
(** The column a field is read from: the one its tag names, or else its own name, where
    the header has it. *)
Definition source (header : list bytes) (f : field) (c : bytes) : Prop :=
  In c header /\ ((fd_tag f <> [] /\ c = fd_tag f) \/ ((fd_tag f = [] \/ ~ In (fd_tag f) header) /\ c = fd_name f)).
(** What the text of a cell means for a field. *)
Inductive means (pf : bytes -> numerr + spec_float) (narrow : spec_float -> spec_float) : kind -> bytes -> gval -> Prop :=
| mn_str : forall w, means pf narrow KString w (GStr w)
| mn_int : forall bits w z, int_numeral 10 w z -> - 2 ^ (bits - 1) <= z < 2 ^ (bits - 1) -> 1 <= bits <= 64 -> means pf narrow (KInt bits) w (GInt z)
| mn_uint : forall bits w z, numeral 10 w z -> 0 <= z < 2 ^ bits -> 1 <= bits <= 64 -> means pf narrow (KUint bits) w (GUint z)
| mn_float : forall bits w x, pf w = inr x -> means pf narrow (KFloat bits) w (GFloat (if bits =? 32 then narrow x else x)).
(** The value of a field after reading a row. *)
Definition field_read (pf : bytes -> numerr + spec_float) (narrow : spec_float -> spec_float) (header row : list bytes) (f : field) (v : gval) : Prop :=
  (exists j c w, source header f c /\ nth_error header j = Some c /\ nth_error row j = Some w /\ written f /\ fd_exported f = true /\ means pf narrow (fd_kind f) w v) \/
  (v = zero_val (fd_kind f) /\ ((forall c, ~ source header f c) \/ (~ written f /\ forall j c, source header f c -> nth_error header j = Some c -> (j < length row)%nat))).
(** No two fields are read from the same column. *)
Definition sources_apart (header : list bytes) (fields : list field) : Prop :=
  forall i j f g c, nth_error fields i = Some f -> nth_error fields j = Some g -> source header f c -> source header g c -> i = j.

(** ** Marshal, then Unmarshal *)
(** Every field is written and can be set. *)
Definition plain_struct (fields : list field) : Prop := forall f, In f fields -> written f /\ fd_exported f = true.
(** The texts of the row survive being written to and read from CSV, where they are not
    just digits. *)
Definition safe_row_values (ff : spec_float -> bytes) (vals : list gval) : Prop :=
  (forall s, In (GStr s) vals -> safe_cell s) /\ (forall x, In (GFloat x) vals -> safe_cell (ff x)).
(** The row has a cell with text, or two cells. *)
Definition kept_row (ff : spec_float -> bytes) (cols : list bytes) (vals : list gval) : Prop :=
  (2 <= length cols)%nat \/ (vals <> [] /\ ~ In (GStr []) vals /\ forall x, In (GFloat x) vals -> ff x <> []).
(** Rendering and reading the floats of the row gives them back. *)
Definition floats_return (ff : spec_float -> bytes) (pf : bytes -> numerr + spec_float) (narrow : spec_float -> spec_float)
    (fields : list field) (vals : list gval) : Prop :=
  Forall2 (fun f v => forall bits x, fd_kind f = KFloat bits -> v = GFloat x ->
    exists y, pf (ff x) = inr y /\ x = if bits =? 32 then narrow y else y) fields vals.
