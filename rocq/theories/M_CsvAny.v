(** Model of Marshal and Unmarshal of _examples/csv/marshal.go with their arguments as interface{}
    values and with their errors as texts. *)
From Verif Require Export M_Marshal M_Quote M_Format.

(** What reflection sees of a Go value, as far as the functions look: its kind, for slices the kind
    of the elements, for pointers what they point to. *)
Inductive shape :=
| ShStruct (fields : list field)
| ShSlice (elem : shape)
| ShPtr (nil : bool) (to : shape)
| ShOther.                                       (* any other kind; also the nil interface *)
Definition bad_data : bytes := bs "Data should be slice of struct".
Definition bad_target : bytes := bs "Out parameter should be pointer to slice of struct".

(** marshal.go:46-119; [rows] are the elements if [a] is a slice of structs. *)
Definition MarshalAny (order : range_order) (cols : list bytes) (a : shape) (rows : list (list gval)) : res (bytes + bytes) :=
  match a with
  | ShSlice (ShStruct fields) =>
      match Marshal FormatFloat order cols fields rows with
      | Ok s => Ok (inr s)
      | Panic w => Panic w
      | Fuel => Fuel
      end
  | _ => Ok (inl bad_data)                                                         (* 47-59 *)
  end.

(** err.Error() for the errors of strconv that marshal.go:198, 204 and 211 return. *)
Definition row_error_text (isprint : Z -> bool) (e : gerr) : option bytes :=
  match e with ENum fn txt range => Some (num_text_all isprint fn txt range) | _ => None end.
(** marshal.go:122-222: the text of the error (None where it is not modelled), or what is assigned
    to the target.  Elem of a nil pointer is the zero Value, of kind Invalid. *)
Definition UnmarshalAny (isprint : Z -> bool) (n : nat) (order : range_order) (a : shape) (s : bytes)
    : res (option bytes + option (list (list gval))) :=
  match a with
  | ShPtr false (ShSlice (ShStruct fields)) =>
      match Unmarshal strconv_ParseFloat64 to_float32 n order fields s with
      | Ok (inl (inl e)) => Ok (inl (message (ce_err e) (ce_pos e)))
      | Ok (inl (inr e)) => Ok (inl (row_error_text isprint e))
      | Ok (inr r) => Ok (inr r)
      | Panic w => Panic w
      | Fuel => Fuel
      end
  | _ => Ok (inl (Some bad_target))                                                (* 123-144 *)
  end.
