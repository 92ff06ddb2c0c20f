(** Model of base/box.go:152-397: MapContainerReflectionBox and
    NotInitializedMapContainerReflectionBox, with the parts of package reflect they use.
    Index, MapIndex and ComplexMapIndex (239-251, 376-397) are in M_Boxes.

    One container: a non-nil Go map with the key type string or interface{} and one of
    seven element types.  Byte slices are values (the model does not see writes through
    another copy of the slice header). *)
From Verif Require Export M_Types.

(** Dynamic values; DNil is the nil interface. *)
Inductive dval := DInt (z : Z) | DUint (z : Z) | DFloat (bits : Z) | DBool (b : bool) | DStr (s : bytes) | DBytes (s : bytes) | DNil.
(** Element types int64, uint64, float64, bool, string, []byte, interface{}. *)
Inductive ety := KInt | KUint | KFloat | KBool | KStr | KBytes | KAny.
(** Keys: strings, integers, and values that cannot be map keys (slices). *)
Inductive gkey := KeyS (s : string) | KeyI (z : Z) | KeyBad.
Record container := mkMap { k_any : bool;                 (* key type interface{} rather than string *)
                            k_ety : ety; k_map : gkey -> option dval }.
Definition key_eqb (a b : gkey) : bool :=
  match a, b with KeyS s, KeyS t => String.eqb s t | KeyI x, KeyI y => Z.eqb x y | _, _ => false end.

(** reflect: [key.assignTo(tt.key)] in MapIndex and SetMapIndex, then hashing. *)
Definition check_key (m : container) (k : gkey) : option string :=
  match k with
  | KeyS _ => None
  | KeyI _ => if k_any m then None else Some "reflect: int is not assignable to type string"%string
  | KeyBad => Some "runtime error: hash of unhashable type"%string
  end.
Definition type_of (v : dval) : ety :=
  match v with DInt _ => KInt | DUint _ => KUint | DFloat _ => KFloat | DBool _ => KBool | DStr _ => KStr | DBytes _ => KBytes | DNil => KAny end.
Definition ety_eqb (a b : ety) : bool :=
  match a, b with
  | KInt, KInt | KUint, KUint | KFloat, KFloat | KBool, KBool | KStr, KStr | KBytes, KBytes | KAny, KAny => true
  | _, _ => false end.
(** reflect.Value.SetMapIndex(key, ValueOf(v)): ValueOf(nil) is the zero Value, which
    deletes the key. *)
Definition set_index (m : container) (k : gkey) (v : dval) : res container :=
  match check_key m k with
  | Some w => Panic w
  | None =>
      match v with
      | DNil => Ok (mkMap (k_any m) (k_ety m) (fun x => if key_eqb x k then None else k_map m x))
      | _ =>
          if ety_eqb (k_ety m) KAny || ety_eqb (k_ety m) (type_of v)
          then Ok (mkMap (k_any m) (k_ety m) (fun x => if key_eqb x k then Some v else k_map m x))
          else Panic "reflect: not assignable"
      end
  end.
(** reflect.Value.MapIndex(key): None is the zero Value. *)
Definition map_index (m : container) (k : gkey) : res (option dval) :=
  match check_key m k with Some w => Panic w | None => Ok (k_map m k) end.

(** The kinds of access: GetAny/SetAny, GetInt/SetInt, ... *)
Definition access := ety.
(** Value.Interface: the zero Value panics; a value of kind Interface gives what is
    inside.  Value.Int and so on: the kind must fit, and an element of a
    map[..]interface{} has kind Interface.  Value.String never panics. *)
Definition type_text (e : ety) : bytes :=
  match e with
  | KInt => bs "int64" | KUint => bs "uint64" | KFloat => bs "float64" | KBool => bs "bool"
  | KStr => bs "string" | KBytes => bs "[]uint8" | KAny => bs "interface {}"
  end.
Definition read (a : access) (e : ety) (v : option dval) : res dval :=
  match a with
  | KAny => match v with Some x => Ok x | None => Panic "reflect: call of reflect.Value.Interface on zero Value" end
  | KStr =>
      match v with
      | None => Ok (DStr (bs "<invalid Value>"))
      | Some x => if ety_eqb e KStr then Ok x else Ok (DStr (bs "<" ++ type_text e ++ bs " Value>"))
      end
  | _ =>
      match v with
      | Some x => if ety_eqb e a then Ok x else Panic "reflect: wrong kind"
      | None => Panic "reflect: call on zero Value"
      end
  end.
(** base/box.go:159-191: MapContainerReflectionBox.Get... *)
Definition map_get (m : container) (k : gkey) (a : access) : res dval :=
  match map_index m k with Ok v => read a (k_ety m) v | Panic w => Panic w | Fuel => Fuel end.
(** base/box.go:199-231: MapContainerReflectionBox.Set...; the argument of SetInt is an
    int64 and so on, so [v] has the type of the access. *)
Definition map_set (m : container) (k : gkey) (v : dval) : res container := set_index m k v.

(** NotInitializedMapContainerReflectionBox, base/box.go:255-367: a pointer to a struct
    with a key and the flag Initialized. *)
Record nbox := mkNbox { n_key : gkey; n_init : bool }.
Definition msg_not_init := "Error: Non initialized variable is referenced."%string.
Definition n_get (m : container) (b : nbox) (a : access) : res dval :=
  if n_init b then map_get m (n_key b) a else Panic msg_not_init.
(** When SetMapIndex panics, Initialized is not reached. *)
Definition n_set (m : container) (b : nbox) (v : dval) : res (container * nbox) :=
  match set_index m (n_key b) v with Ok m' => Ok (m', mkNbox (n_key b) true) | Panic w => Panic w | Fuel => Fuel end.

(** Boxes on the container: MapContainerReflectionBox with a key (stateless), or the
    i-th NotInitialized box. *)
Inductive boxref := BMap (k : gkey) | BNot (i : nat).
Record bstate := mkB { s_map : container; s_box : nat -> nbox }.
Inductive bop := OGet (b : boxref) (a : access) | OSet (b : boxref) (v : dval).
(** One operation; a panic leaves the state as it is (a recovering caller). *)
Definition bop_step (s : bstate) (o : bop) : bstate * res dval :=
  match o with
  | OGet (BMap k) a => (s, map_get (s_map s) k a)
  | OGet (BNot i) a => (s, n_get (s_map s) (s_box s i) a)
  | OSet (BMap k) v =>
      match map_set (s_map s) k v with Ok m => (mkB m (s_box s), Ok DNil) | Panic w => (s, Panic w) | Fuel => (s, Fuel) end
  | OSet (BNot i) v =>
      match n_set (s_map s) (s_box s i) v with
      | Ok (m, b) => (mkB m (fun j => if Nat.eqb j i then b else s_box s j), Ok DNil)
      | Panic w => (s, Panic w) | Fuel => (s, Fuel) end
  end.
Fixpoint bop_run (s : bstate) (l : list bop) : bstate :=
  match l with [] => s | o :: l' => bop_run (fst (bop_step s o)) l' end.
