(** Model of Marshal and Unmarshal of _examples/csv/marshal.go.  Reflection is modelled
    by a description of the struct type: names, csv tags, kinds and whether the field is
    exported.  FieldByName looks at the fields of the struct itself first, so it finds the
    field even if others are embedded; an embedded field is one named like its type.  Structs
    have at most one blank field. *)
From Verif Require Export M_Csv.

(** reflect.Kind, as far as the code distinguishes kinds; the sizes are in bits. *)
Inductive kind := KString | KInt (bits : Z) | KUint (bits : Z) | KFloat (bits : Z) | KOther.
Record field := mkFd { fd_name : bytes; fd_tag : bytes; fd_kind : kind; fd_exported : bool }.
(** The value of one field. *)
Inductive gval := GStr (s : bytes) | GInt (z : Z) | GUint (z : Z) | GFloat (f : spec_float) | GOther (n : nat).
Definition zero_val (k : kind) : gval :=
  match k with
  | KString => GStr [] | KInt _ => GInt 0 | KUint _ => GUint 0 | KFloat _ => GFloat (S754_zero false) | KOther => GOther 0
  end.

(** ** Go maps with string keys.  A map is a list of pairs without repeated keys; its
    order means nothing, the order in which [range] visits it is a parameter. *)
Definition gmap (A : Type) := list (bytes * A).
Definition map_set {A} (m : gmap A) (k : bytes) (v : A) : gmap A :=
  (k, v) :: filter (fun p => negb (bytes_eqb (fst p) k)) m.
Fixpoint map_get {A} (m : gmap A) (k : bytes) : option A :=
  match m with
  | [] => None
  | (k', v) :: m' => if bytes_eqb k' k then Some v else map_get m' k
  end.
(** The loops that fill a map. *)
Definition map_of {A} (l : list (bytes * A)) : gmap A := fold_left (fun m p => map_set m (fst p) (snd p)) l [].
(** marshal.go:65-68 and 159-162 *)
Definition columns_of (cols : list bytes) : gmap nat := map_of (combine cols (seq 0 (length cols))).
(** The order in which [range] visits the map for the i-th row. *)
Definition range_order := nat -> list (bytes * bytes) -> list (bytes * bytes).

(** ** strconv.FormatInt and FormatUint with base 10 (Go standard library); 20 digits
    are enough for 64 bits. *)
Fixpoint dec_digits (k : nat) (z : Z) : bytes :=
  match k with
  | O => []
  | S k' => if z <? 10 then [48 + z] else dec_digits k' (z / 10) ++ [48 + z mod 10]
  end.
Definition FormatUint (z : Z) : bytes := dec_digits 20 z.
Definition FormatInt (z : Z) : bytes := if z <? 0 then 45 :: FormatUint (- z) else FormatUint z.

(** ** Marshal *)
Section Marshal.
(** strconv.FormatFloat(x, 'g', -1, 64) *)
Variable format_float : spec_float -> bytes.
(** marshal.go:101-110: the text to write, if any; Value.String() etc. panic on a
    value of another kind, String() returns a placeholder there, which cannot happen. *)
Definition render (k : kind) (v : gval) : res (option bytes) :=
  match k, v with
  | KString, GStr s => Ok (Some s)
  | KInt _, GInt z => Ok (Some (FormatInt z))
  | KUint _, GUint z => Ok (Some (FormatUint z))
  | KFloat _, GFloat f => Ok (Some (format_float f))
  | KOther, _ => Ok None
  | _, _ => Panic "reflect: call of Value method on another kind"
  end.
(** rvi.FieldByName *)
Fixpoint field_by_name (fields : list field) (vals : list gval) (k : bytes) : option gval :=
  match fields, vals with
  | f :: fields', v :: vals' => if bytes_eqb (fd_name f) k then Some v else field_by_name fields' vals' k
  | _, _ => None
  end.
(** marshal.go:79-82 *)
Definition column_name (f : field) : bytes := match fd_tag f with [] => fd_name f | t => t end.
Definition upd {A} (l : list A) (i : nat) (x : A) : list A := firstn i l ++ x :: skipn (S i) l.
(** marshal.go:98-111; [columns[v]] of a missing key is 0. *)
Fixpoint fill_row (columns : gmap nat) (types : gmap kind) (fields : list field) (vals : list gval)
    (todo : list (bytes * bytes)) (buf : list bytes) : res (list bytes) :=
  match todo with
  | [] => Ok buf
  | (k, v) :: todo' =>
      let index := match map_get columns v with Some i => i | None => O end in
      match map_get types k, field_by_name fields vals k with
      | Some kd, Some x =>
          match render kd x with
          | Ok (Some t) => if Nat.ltb index (length buf) then fill_row columns types fields vals todo' (upd buf index t)
                           else Panic "index out of range"
          | Ok None => fill_row columns types fields vals todo' buf
          | Panic w => Panic w
          | Fuel => Fuel
          end
      | _, _ => Panic "no such field"
      end
  end.
(** marshal.go:92-116: the rows; the text of a row does not depend on the others. *)
Fixpoint marshal_rows (order : range_order) (columns : gmap nat) (mapping : gmap bytes) (types : gmap kind) (n : nat)
    (fields : list field) (i : nat) (rows : list (list gval)) : res (list (list bytes)) :=
  match rows with
  | [] => Ok []
  | vals :: rows' =>
      match fill_row columns types fields vals (order i mapping) (repeat [] n) with
      | Ok buf => match marshal_rows order columns mapping types n fields (S i) rows' with
                  | Ok bufs => Ok (buf :: bufs) | Panic w => Panic w | Fuel => Fuel end
      | Panic w => Panic w
      | Fuel => Fuel
      end
  end.
(** marshal.go:46-119 for a slice of structs (lines 47-59 only reject other data).  Lines
    74-87 fill the maps from the type of the first row; without rows they stay empty and
    nothing reads them. *)
Definition Marshal (order : range_order) (cols : list bytes) (fields : list field) (rows : list (list gval)) : res bytes :=
  let mapping := map_of (map (fun f => (fd_name f, column_name f)) fields) in
  let types := map_of (map (fun f => (fd_name f, fd_kind f)) fields) in
  match marshal_rows order (columns_of cols) mapping types (length cols) fields 0 rows with
  | Ok bufs => Ok (ToCsv bufs)
  | Panic w => Panic w
  | Fuel => Fuel
  end.
End Marshal.

(** ** Unmarshal *)
Section Unmarshal.
(** strconv.ParseFloat(w, 64); the conversion done by SetFloat on a float32 *)
Variable parse_float : bytes -> numerr + spec_float.
Variable to_float32 : spec_float -> spec_float.
Definition wrap_int (bits z : Z) : Z :=
  let r := z mod 2 ^ bits in if r <? 2 ^ (bits - 1) then r else r - 2 ^ bits.
Definition num_error (who : string) (w : bytes) (e : numerr) : gerr := ENum who w (match e with ErrRange => true | _ => false end).
(** marshal.go:193-214: the error, or the new value if the field is set at all.  Setting
    an unexported field panics, but only after the text has been parsed. *)
Definition load_cell (f : field) (w : bytes) : res (gerr + option gval) :=
  let set v := if fd_exported f then Ok (inr (Some v)) else Panic "reflect: using value obtained using unexported field" in
  match fd_kind f with
  | KString => set (GStr w)
  | KInt bits => match parse_int w 10 with inl e => Ok (inl (num_error "ParseInt" w e)) | inr z => set (GInt (wrap_int bits z)) end
  | KUint bits => match parse_uint w 10 with inl e => Ok (inl (num_error "ParseUint" w e)) | inr z => set (GUint (z mod 2 ^ bits)) end
  | KFloat bits => match parse_float w with
                   | inl e => Ok (inl (num_error "ParseFloat" w e))
                   | inr x => set (GFloat (if bits =? 32 then to_float32 x else x))
                   end
  | KOther => Ok (inr None)
  end.
(** marshal.go:168-185: the pairs put into the maps, in the order of the fields. *)
Definition mapping_pairs (columns : gmap nat) (fields : list field) : list (bytes * field) :=
  flat_map (fun f => match map_get columns (fd_tag f) with
                     | Some _ => [(fd_tag f, f)]
                     | None => match map_get columns (fd_name f) with Some _ => [(fd_name f, f)] | None => [] end
                     end) fields.
Fixpoint set_by_name (fields : list field) (vals : list gval) (k : bytes) (x : gval) : list gval :=
  match fields, vals with
  | f :: fields', v :: vals' => if bytes_eqb (fd_name f) k then x :: vals' else v :: set_by_name fields' vals' k x
  | _, _ => vals
  end.
Fixpoint field_named (fields : list field) (k : bytes) : option field :=
  match fields with
  | [] => None
  | f :: fields' => if bytes_eqb (fd_name f) k then Some f else field_named fields' k
  end.
(** marshal.go:190-215.  colTypes is left out: colTypes[k] is the kind of the field that
    mapping[k] names. *)
Fixpoint fill_struct (columns : gmap nat) (fields : list field) (row : list bytes) (todo : list (bytes * bytes)) (vals : list gval)
    : res (gerr + list gval) :=
  match todo with
  | [] => Ok (inr vals)
  | (k, v) :: todo' =>
      match field_named fields v with
      | None => Panic "no such field"
      | Some f =>
          match nth_error row (match map_get columns k with Some i => i | None => O end) with
          | None => Panic "index out of range"
          | Some w =>
              match load_cell f w with
              | Ok (inl e) => Ok (inl e)
              | Ok (inr None) => fill_struct columns fields row todo' vals
              | Ok (inr (Some x)) => fill_struct columns fields row todo' (set_by_name fields vals v x)
              | Panic why => Panic why
              | Fuel => Fuel
              end
          end
      end
  end.
Fixpoint fill_structs (order : range_order) (columns : gmap nat) (mapping : gmap bytes) (fields : list field) (i : nat)
    (data : list (list bytes)) : res (gerr + list (list gval)) :=
  match data with
  | [] => Ok (inr [])
  | row :: data' =>
      match fill_struct columns fields row (order i mapping) (map (fun f => zero_val (fd_kind f)) fields) with
      | Ok (inr vals) =>
          match fill_structs order columns mapping fields (S i) data' with
          | Ok (inr rest) => Ok (inr (vals :: rest))
          | r => r
          end
      | Ok (inl e) => Ok (inl e)
      | Panic w => Panic w
      | Fuel => Fuel
      end
  end.
(** marshal.go:150-221 after Parse: [inr None] leaves the target as it is. *)
Definition from_table (order : range_order) (fields : list field) (data : list (list bytes)) : res (gerr + option (list (list gval))) :=
  match data with
  | [] | [_] => Ok (inr None)
  | header :: data' =>
      let columns := columns_of header in
      let mapping := map_of (map (fun p => (fst p, fd_name (snd p))) (mapping_pairs columns fields)) in
      match fill_structs order columns mapping fields 0 data' with
      | Ok (inr rows) => Ok (inr (Some rows))
      | Ok (inl e) => Ok (inl e)
      | Panic w => Panic w
      | Fuel => Fuel
      end
  end.
(** marshal.go:122-222 for a pointer to a slice of structs (lines 123-144 only reject
    other targets). *)
Definition Unmarshal (n : nat) (order : range_order) (fields : list field) (s : bytes)
    : res ((csv_error + gerr) + option (list (list gval))) :=
  match Parse n s with
  | Ok (inl e) => Ok (inl (inl e))
  | Ok (inr data) => match from_table order fields data with
                     | Ok (inl e) => Ok (inl (inr e)) | Ok (inr r) => Ok (inr r) | Panic w => Panic w | Fuel => Fuel end
  | Panic w => Panic w
  | Fuel => Fuel
  end.
End Unmarshal.
