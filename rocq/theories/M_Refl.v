(** Model of base/box.go:53-150: ReflectionBox, with the parts of package reflect (Go
    standard library, reflect/value.go) it uses.

    Types: bool, int8 to int64, uint8 to uint64, int and uint (of 64 bits), float64, string,
    interface{}, slices, arrays, maps with keys of type string or interface{}, and defined struct
    types and pointers to them, whose values are opaque.  Not modelled: float32, other defined
    types, functions and channels, and values obtained through unexported fields. *)
From Verif Require Export M_Box.

Inductive gty :=
| YBool | YInt (w : Z) | YUint (w : Z)          (* the width in bits *)
| YFloat | YString | YIface
| YSlice (t : gty) | YArray (n : nat) (t : gty)
| YMap (anykey : bool) (t : gty)                (* key type interface{} rather than string *)
| YGoInt | YGoUint                              (* int and uint *)
| YOther (name : bytes).                        (* a defined struct type, or a pointer to one *)
Fixpoint gty_eqb (a b : gty) : bool :=
  match a, b with
  | YBool, YBool | YFloat, YFloat | YString, YString | YIface, YIface | YGoInt, YGoInt | YGoUint, YGoUint => true
  | YOther n, YOther m => bytes_eqb n m
  | YInt v, YInt w | YUint v, YUint w => v =? w
  | YSlice s, YSlice t => gty_eqb s t
  | YArray n s, YArray m t => Nat.eqb n m && gty_eqb s t
  | YMap k s, YMap l t => Bool.eqb k l && gty_eqb s t
  | _, _ => false
  end.
(** Values.  Slices refer to arrays of the memory, maps to maps; a nil slice has capacity
    0. *)
Inductive gval :=
| GBool (b : bool) | GInt (z : Z) | GUint (z : Z) | GFloat (bits : Z) | GStr (s : bytes)
| GNil                                          (* the nil interface *)
| GDyn (t : gty) (v : gval)                     (* an interface holding a value *)
| GSlice (a off len cap : nat)
| GArray (l : list gval)
| GMap (m : nat)
| GNilMap                                       (* the map nil *)
| GOther (n : nat).                             (* structs and pointers *)
(** Arrays (a variable is an array with one element) and maps. *)
Record memory := mkMem { arrays : nat -> list gval; maps : nat -> gkey -> option gval }.

(** reflect.Value: the zero Value, or a type with a value (a copy, not addressable) or an
    address: array, index and, inside of array values, the indexes of the elements. *)
Inductive place := PVal (v : gval) | PRef (a i : nat) (path : list nat).
Definition rbox := option (gty * place).

Fixpoint get_path (v : gval) (path : list nat) : option gval :=
  match path with
  | [] => Some v
  | i :: r =>
      match v with
      | GArray l => match nth_error l i with Some x => get_path x r | None => None end
      | _ => None
      end
  end.
Definition upd_nth {A : Type} (l : list A) (i : nat) (x : A) : list A := firstn i l ++ x :: skipn (S i) l.
Fixpoint set_path (v : gval) (path : list nat) (x : gval) : gval :=
  match path with
  | [] => x
  | i :: r =>
      match v with
      | GArray l => match nth_error l i with Some y => GArray (upd_nth l i (set_path y r x)) | None => v end
      | _ => v
      end
  end.
Definition fetch (m : memory) (p : place) : res gval :=
  match p with
  | PVal v => Ok v
  | PRef a i path =>
      match nth_error (arrays m a) i with
      | Some v => match get_path v path with Some x => Ok x | None => Panic "invalid memory" end
      | None => Panic "invalid memory"
      end
  end.
Definition write (m : memory) (p : place) (x : gval) : res memory :=
  match p with
  | PVal _ => Panic "reflect: using unaddressable value"
  | PRef a i path =>
      match nth_error (arrays m a) i with
      | Some v => Ok (mkMem (fun b => if Nat.eqb b a then upd_nth (arrays m a) i (set_path v path x) else arrays m b) (maps m))
      | None => Panic "invalid memory"
      end
  end.
Definition wrong_kind {A : Type} : res A := Panic "reflect: call of method on wrong kind of Value".

(** base/box.go:58-60: Value.Interface; an element of type interface{} gives what is
    inside. *)
Definition r_GetAny (m : memory) (b : rbox) : res gval :=
  match b with
  | None => wrong_kind
  | Some (YIface, p) => fetch m p
  | Some (t, p) => bind (fetch m p) (fun v => Ok (GDyn t v))
  end.
(** base/box.go:63-65 *)
Definition r_GetInt (m : memory) (b : rbox) : res Z :=
  match b with
  | Some (YInt _, p) | Some (YGoInt, p) => bind (fetch m p) (fun v => match v with GInt z => Ok z | _ => Panic "invalid memory" end)
  | _ => wrong_kind
  end.
(** base/box.go:68-70 *)
Definition r_GetUint (m : memory) (b : rbox) : res Z :=
  match b with
  | Some (YUint _, p) | Some (YGoUint, p) => bind (fetch m p) (fun v => match v with GUint z => Ok z | _ => Panic "invalid memory" end)
  | _ => wrong_kind
  end.
(** base/box.go:73-75 *)
Definition r_GetFloat (m : memory) (b : rbox) : res Z :=
  match b with
  | Some (YFloat, p) => bind (fetch m p) (fun v => match v with GFloat z => Ok z | _ => Panic "invalid memory" end)
  | _ => wrong_kind
  end.
(** base/box.go:78-80 *)
Definition r_GetBool (m : memory) (b : rbox) : res bool :=
  match b with
  | Some (YBool, p) => bind (fetch m p) (fun v => match v with GBool z => Ok z | _ => Panic "invalid memory" end)
  | _ => wrong_kind
  end.
(** The text of a type, reflect.Type.String *)
Definition width_text (w : Z) : bytes := if w =? 8 then bs "8" else if w =? 16 then bs "16" else if w =? 32 then bs "32" else bs "64".
Fixpoint nat_text (fuel : nat) (n : Z) : bytes :=
  match fuel with
  | O => []
  | S k => if n <? 10 then [48 + n] else nat_text k (n / 10) ++ [48 + n mod 10]
  end.
Fixpoint gty_text (t : gty) : bytes :=
  match t with
  | YBool => bs "bool" | YInt w => bs "int" ++ width_text w
  | YUint w => bs "uint" ++ width_text w
  | YFloat => bs "float64" | YString => bs "string" | YIface => bs "interface {}"
  | YSlice t => bs "[]" ++ gty_text t
  | YArray n t => bs "[" ++ nat_text (S n) (Z.of_nat n) ++ bs "]" ++ gty_text t
  | YMap k t => bs "map[" ++ (if k then bs "interface {}" else bs "string") ++ bs "]" ++ gty_text t
  | YGoInt => bs "int" | YGoUint => bs "uint" | YOther n => n
  end.
(** base/box.go:83-85: Value.String never panics. *)
Definition r_GetString (m : memory) (b : rbox) : res bytes :=
  match b with
  | None => Ok (bs "<invalid Value>")
  | Some (YString, p) => bind (fetch m p) (fun v => match v with GStr s => Ok s | _ => Panic "invalid memory" end)
  | Some (t, _) => Ok (bs "<" ++ gty_text t ++ bs " Value>")
  end.
(** base/box.go:88-90: Value.Bytes returns the slice itself.  As in Go up to 1.18: from 1.19
    on it also accepts addressable arrays of bytes. *)
Definition r_GetBytes (m : memory) (b : rbox) : res gval :=
  match b with
  | Some (YSlice (YUint w), p) => if w =? 8 then fetch m p else wrong_kind
  | _ => wrong_kind
  end.

(** Conversion to an integer type of [w] bits, as in Value.SetInt and Value.SetUint *)
Definition wrap_s (w z : Z) : Z := (z + 2 ^ (w - 1)) mod 2 ^ w - 2 ^ (w - 1).
Definition wrap_u (w z : Z) : Z := z mod 2 ^ w.
(** mustBeAssignable comes first, then the kind. *)
Definition addressed {A : Type} (b : rbox) (k : gty -> place -> res A) : res A :=
  match b with
  | None => wrong_kind
  | Some (_, PVal _) => Panic "reflect: using unaddressable value"
  | Some (t, PRef a i path) => k t (PRef a i path)
  end.
(** base/box.go:98-100: Value.Set(ValueOf(v)); ValueOf(nil) is the zero Value. *)
Definition r_SetAny (m : memory) (b : rbox) (x : gval) : res memory :=
  addressed b (fun t p =>
    match x with
    | GDyn s v => if gty_eqb t YIface then write m p x else if gty_eqb t s then write m p v else Panic "reflect: not assignable"
    | _ => Panic "reflect: call of reflect.Value.Set on zero Value"
    end).
(** base/box.go:103-105 *)
Definition r_SetInt (m : memory) (b : rbox) (z : Z) : res memory :=
  addressed b (fun t p => match t with YInt w => write m p (GInt (wrap_s w z)) | YGoInt => write m p (GInt (wrap_s 64 z)) | _ => wrong_kind end).
(** base/box.go:108-110 *)
Definition r_SetUint (m : memory) (b : rbox) (z : Z) : res memory :=
  addressed b (fun t p => match t with YUint w => write m p (GUint (wrap_u w z)) | YGoUint => write m p (GUint (wrap_u 64 z)) | _ => wrong_kind end).
(** base/box.go:113-115 *)
Definition r_SetFloat (m : memory) (b : rbox) (z : Z) : res memory :=
  addressed b (fun t p => match t with YFloat => write m p (GFloat z) | _ => wrong_kind end).
(** base/box.go:118-120 *)
Definition r_SetBool (m : memory) (b : rbox) (x : bool) : res memory :=
  addressed b (fun t p => match t with YBool => write m p (GBool x) | _ => wrong_kind end).
(** base/box.go:123-125 *)
Definition r_SetString (m : memory) (b : rbox) (s : bytes) : res memory :=
  addressed b (fun t p => match t with YString => write m p (GStr s) | _ => wrong_kind end).
(** base/box.go:128-130; [x] is the slice given. *)
Definition r_SetBytes (m : memory) (b : rbox) (x : gval) : res memory :=
  addressed b (fun t p => match t with YSlice (YUint w) => if w =? 8 then write m p x else wrong_kind | _ => wrong_kind end).

(** base/box.go:138-140: Value.Index.  Elements of slices are addressable, those of an
    array as far as the array is, bytes of a string are copies. *)
Definition out_of_range {A : Type} : res A := Panic "reflect: index out of range".
Definition r_Index (m : memory) (b : rbox) (i : Z) : res rbox :=
  let k := Z.to_nat i in
  match b with
  | Some (YArray n t, p) =>
      if (0 <=? i) && (i <? Z.of_nat n) then
        match p with
        | PRef a j path => Ok (Some (t, PRef a j (path ++ [k])))
        | PVal v => match get_path v [k] with Some x => Ok (Some (t, PVal x)) | None => Panic "invalid memory" end
        end
      else out_of_range
  | Some (YSlice t, p) =>
      bind (fetch m p) (fun v =>
        match v with
        | GSlice a off len _ => if (0 <=? i) && (i <? Z.of_nat len) then Ok (Some (t, PRef a (off + k) [])) else out_of_range
        | _ => Panic "invalid memory"
        end)
  | Some (YString, p) =>
      bind (fetch m p) (fun v =>
        match v with
        | GStr s => if (0 <=? i) && (i <? Z.of_nat (length s)) then Ok (Some (YUint 8, PVal (GUint (nth k s 0)))) else out_of_range
        | _ => Panic "invalid memory"
        end)
  | _ => wrong_kind
  end.
(** base/box.go:143-150: Value.MapIndex; the element is a copy, a missing key gives the
    zero Value.  A key that cannot be hashed, and nil, is KeyBad. *)
Definition r_MapIndex (m : memory) (b : rbox) (k : gkey) : res rbox :=
  match b with
  | Some (YMap any t, p) =>
      bind (fetch m p) (fun v =>
        match v with
        | GMap x =>
            match check_key (mkMap any KAny (fun _ => None)) k with
            | Some w => Panic w
            | None => Ok (match maps m x k with Some e => Some (t, PVal e) | None => None end)
            end
        | GNilMap => match check_key (mkMap any KAny (fun _ => None)) k with Some w => Panic w | None => Ok None end
        | _ => Panic "invalid memory"
        end)
  | _ => wrong_kind
  end.
