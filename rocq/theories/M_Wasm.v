(** Model of wasm/main.go: the functions offered to JavaScript.  What is printed by
    println is not modelled. *)
From Verif Require Export M_Csv M_Formula M_Float.

(** Arguments, js.Value: strings (as Go sees them, in UTF-8) and values of other types,
    of which booleans and numbers are given as JavaScript would print them. *)
Inductive jsarg :=
| AString (s : bytes) | AUndefined | ANull | ABoolean (text : bytes) | ANumber (text : bytes)
| ASymbol | AObject | AFunction.
(** syscall/js, Value.String (Go standard library) *)
Definition js_String (a : jsarg) : bytes :=
  match a with
  | AString s => s
  | AUndefined => bs "<undefined>" | ANull => bs "<null>"
  | ABoolean t => bs "<boolean: " ++ t ++ bs ">" | ANumber t => bs "<number: " ++ t ++ bs ">"
  | ASymbol => bs "<symbol>" | AObject => bs "<object>" | AFunction => bs "<function>"
  end.
(** Results, as js.ValueOf converts them: int64 becomes float64, []interface{} an array. *)
Inductive jsval := JNumber (x : spec_float) | JString (s : bytes) | JArray (l : list jsval).
Definition js_int (z : Z) : res jsval :=
  match decimal_to_float (z <? 0) (Z.abs z) 0 with
  | inr x => Ok (JNumber x)
  | inl _ => Panic "unreachable"
  end.

(** wasm/main.go:14-17 and 42-45 *)
Definition js_src (args : list jsarg) : bytes := match args with a :: _ => js_String a | [] => [] end.
(** wasm/main.go:13-39; a failed Parse returns nil. *)
Definition parseCsv (n : nat) (args : list jsarg) : res jsval :=
  match Parse n (js_src args) with
  | Ok r =>
      let data := match r with inr rows => rows | inl _ => [] end in
      Ok (JArray (map (fun row => JArray (map JString row)) data))
  | Panic w => Panic w
  | Fuel => Fuel
  end.
(** wasm/main.go:41-53; a failed Parse returns 0. *)
Definition parseFormula (n : nat) (args : list jsarg) : res jsval :=
  match formula_Parse n (js_src args) with
  | Ok r => js_int (match r with inr v => v | inl _ => 0 end)
  | Panic w => Panic w
  | Fuel => Fuel
  end.
(** wasm/main.go:55-65 *)
Definition parseCsvWithTinyGo (n : nat) (src : bytes) : res (list (list bytes)) :=
  match Parse n src with
  | Ok r => Ok (match r with inr rows => rows | inl _ => [] end)
  | Panic w => Panic w
  | Fuel => Fuel
  end.
