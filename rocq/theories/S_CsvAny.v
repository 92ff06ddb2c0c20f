(** The arguments and the errors of Marshal and Unmarshal (C72). *)
From Verif Require Export S_MarshalX S_Quote S_ErrText M_CsvAny.

(** The only arguments that are accepted. *)
Definition struct_slice (a : shape) (fields : list field) : Prop := a = ShSlice (ShStruct fields).
Definition struct_target (a : shape) (fields : list field) : Prop := exists b, struct_slice b fields /\ a = ShPtr false b.

(** Why a cell is not a number for the field, and which function of strconv says so. *)
Inductive cell_fault : kind -> bytes -> string -> bool -> Prop :=
| cf_int : forall bits w range, int_fault 10 w range -> cell_fault (KInt bits) w "ParseInt" range
| cf_uint : forall bits w range, uint_fault 10 w range -> cell_fault (KUint bits) w "ParseUint" range
| cf_float : forall bits w e, float_answer w (inl e) -> cell_fault (KFloat bits) w "ParseFloat" (is_range e).
(** The text of such an error. *)
Definition cell_message (fn : string) (w : bytes) (range : bool) (m : bytes) : Prop :=
  exists q, literal_text q w /\
    m = bs "strconv." ++ bs fn ++ bs ": parsing " ++ [34] ++ q ++ [34] ++ bs ": " ++ (if range then bs "value out of range" else bs "invalid syntax").
(** The errors of Unmarshal for a CSV text and a struct type. *)
Inductive complains (fields : list field) (s : bytes) : bytes -> Prop :=
| cp_unclosed : forall m, read_csv s Unclosed -> told (bs "Unexpected EOF") s [] m -> complains fields s m
| cp_junk : forall m, read_csv s Junk -> told (bs "Parse failed") [] s m -> complains fields s m
| cp_cell : forall header good row rest c f w fn range m, read_csv s (Table (header :: good ++ row :: rest)) ->
    Forall (fun r => exists vals, struct_of strconv_ParseFloat64 to_float32 header fields r vals) good ->
    cell_for header fields row c f w -> cell_fault (fd_kind f) w fn range -> cell_message fn w range m -> complains fields s m.
