(** reflect.DeepEqual and AstSlice.ItemEquals on memory, with shared arrays, nil slices and cycles
    (Go standard library, reflect/deepequal.go, trusted reading; base/ast.go:75-88, 247-330).
    Pointers, maps and Go arrays, which no AST of the library holds, are left out. *)
From Verif Require Export M_Equal.

(** A variable: a number, string, bool or function; an interface, with the dynamic type and the
    address of the value in it; a slice header, with array, first index and length; a struct. *)
Inductive dnode :=
| DAtom (v : value)
| DIface (o : option (nat * nat))
| DSlice (o : option (nat * nat * nat))
| DStruct (l : list dnode).
(** Memory: arrays of variables; the value in an interface is an array of one. *)
Definition dstore := list (list dnode).
(** The address of a variable: array, index, fields. *)
Definition daddr := (nat * nat * list nat)%type.
Fixpoint dfield (n : dnode) (p : list nat) : option dnode :=
  match p with
  | [] => Some n
  | k :: q => match n with
              | DStruct l => match nth_error l k with Some m => dfield m q | None => None end
              | _ => None
              end
  end.
Definition node_at (s : dstore) (x : daddr) : option dnode :=
  let '(a, i, p) := x in
  match nth_error s a with
  | Some l => match nth_error l i with Some n => dfield n p | None => None end
  | None => None
  end.
Definition dcell (a i : nat) : daddr := (a, i, []).
Definition dsub (x : daddr) (k : nat) : daddr := let '(a, i, p) := x in (a, i, p ++ [k]).
Definition daddr_eqb (x y : daddr) : bool :=
  let '(a, i, p) := x in let '(b, j, q) := y in Nat.eqb a b && Nat.eqb i j && list_eqb Nat.eqb p q.

(** deepequal.go, visited: pairs of addresses, in either order. *)
Definition visits := list (daddr * daddr).
Definition visited (seen : visits) (x y : daddr) : bool :=
  existsb (fun p => (daddr_eqb (fst p) x && daddr_eqb (snd p) y) || (daddr_eqb (fst p) y && daddr_eqb (snd p) x)) seen.
(** deepequal.go, hard: a slice or interface that is not nil. *)
Definition dhard (n : dnode) : bool := match n with DIface (Some _) | DSlice (Some _) => true | _ => false end.
Fixpoint dall (f : visits -> daddr -> daddr -> option (visits * bool)) (seen : visits) (l : list (daddr * daddr))
    : option (visits * bool) :=
  match l with
  | [] => Some (seen, true)
  | (x, y) :: l' => match f seen x y with Some (seen1, true) => dall f seen1 l' | r => r end
  end.
Definition field_pairs (x y : daddr) (n : nat) : list (daddr * daddr) := map (fun k => (dsub x k, dsub y k)) (seq 0 n).
Definition elem_pairs (a o b p n : nat) : list (daddr * daddr) := map (fun k => (dcell a (o + k), dcell b (p + k))) (seq 0 n).
(** deepequal.go, deepValueEqual, on the variables at two addresses; [None] when the fuel is used up. *)
Fixpoint deq (fuel : nat) (s : dstore) (seen : visits) (x y : daddr) : option (visits * bool) :=
  match fuel with
  | O => None
  | S f =>
      match node_at s x, node_at s y with
      | Some n, Some m =>
          if dhard n && dhard m && visited seen x y then Some (seen, true) else
          let seen1 := if dhard n && dhard m then (x, y) :: seen else seen in
          match n, m with
          | DAtom v, DAtom w => Some (seen1, deep_eqb v w)
          | DIface None, DIface None => Some (seen1, true)
          | DIface (Some (t, b)), DIface (Some (t', b')) =>
              if Nat.eqb t t' then deq f s seen1 (dcell b 0) (dcell b' 0) else Some (seen1, false)
          | DSlice None, DSlice None => Some (seen1, true)
          | DSlice (Some (a, o, l)), DSlice (Some (a', o', l')) =>
              if Nat.eqb l l' then
                if Nat.eqb a a' && Nat.eqb o o' then Some (seen1, true)
                else dall (deq f s) seen1 (elem_pairs a o a' o' l)
              else Some (seen1, false)
          | DStruct l, DStruct l' =>
              if Nat.eqb (length l) (length l') then dall (deq f s) seen1 (field_pairs x y (length l)) else Some (seen1, false)
          | _, _ => Some (seen1, false)
          end
      | _, _ => Some (seen, false)
      end
  end.
(** deepequal.go, DeepEqual, on two interface values. *)
Definition DeepEqual (fuel : nat) (s : dstore) (u v : option (nat * nat)) : res bool :=
  match u, v with
  | None, None => Ok true
  | Some (t, b), Some (t', b') =>
      if Nat.eqb t t' then match deq fuel s [] (dcell b 0) (dcell b' 0) with Some (_, r) => Ok r | None => Fuel end else Ok false
  | _, _ => Ok false
  end.

(** The dynamic types of the values of the model. *)
Definition dt_cons := 20%nat.
Definition dt_asts := 21%nat.
Definition dt_ast := 22%nat.
Definition dt_of (v : value) : nat :=
  match v with
  | VNil => 0 | VRune _ => 1 | VInt _ => 2 | VUint _ => 3 | VFloat _ => 4 | VBool _ => 5 | VStr _ => 6
  | VCons _ _ => dt_cons | VAsts _ => dt_asts | VAst _ => dt_ast
  | VSlice _ => 23 | VStrs _ => 24 | VStrss _ => 25 | VFunc _ => 7 | VOther _ => 8
  end%nat.
(** base/ast.go:22-40, the number of a type *)
Definition ty_code (t : asttype) : nat :=
  match t with
  | TNil => 0 | TRune => 1 | TInt => 2 | TUint => 3 | TFloat => 4 | TBool => 5 | TString => 6 | TAstCons => 7
  | TListOfAst => 8 | TListOfAny => 9 | TFunction => 10 | TAny => 11
  end%nat.

(** base/ast.go:292-330 on memory; the fields of Ast are those of lines 75-88. *)
Definition delems (s : dstore) (o : option (nat * nat * nat)) : list dnode :=
  match o with None => [] | Some (a, i, l) => firstn l (skipn i (nth a s [])) end.
Fixpoint eq_all (f : dnode -> dnode -> res bool) (l m : list dnode) : res bool :=
  match l, m with
  | x :: l', y :: m' => match f x y with Ok true => eq_all f l' m' | r => r end
  | _, _ => Ok true
  end.
Fixpoint mem_equals (fuel : nat) (s : dstore) (a b : dnode) : res bool :=
  match fuel with
  | O => Fuel
  | S f =>
      match a, b with
      | DStruct [_; DAtom (VStr c); DAtom (VOther t); DIface v; _; _],
        DStruct [_; DAtom (VStr c'); DAtom (VOther t'); DIface v'; _; _] =>
          if bytes_eqb c c' && Nat.eqb t t' then
            if Nat.eqb t (ty_code TAstCons) then
              match v, v' with
              | Some (k, p), Some (k', p') =>
                  if Nat.eqb k dt_cons && Nat.eqb k' dt_cons then
                    match node_at s (dcell p 0), node_at s (dcell p' 0) with
                    | Some (DStruct [x; y]), Some (DStruct [x'; y']) =>
                        match mem_equals f s x x' with Ok true => mem_equals f s y y' | r => r end
                    | _, _ => Panic "invalid memory"
                    end
                  else Panic "interface conversion"
              | _, _ => Panic "interface conversion"
              end
            else if Nat.eqb t (ty_code TListOfAst) then
              match v, v' with
              | Some (k, p), Some (k', p') =>
                  if Nat.eqb k dt_asts && Nat.eqb k' dt_asts then
                    match node_at s (dcell p 0), node_at s (dcell p' 0) with
                    | Some (DSlice o), Some (DSlice o') =>
                        if Nat.eqb (length (delems s o)) (length (delems s o')) then eq_all (mem_equals f s) (delems s o) (delems s o')
                        else Ok false
                    | _, _ => Panic "invalid memory"
                    end
                  else Panic "interface conversion"
              | _, _ => Panic "interface conversion"
              end
            else DeepEqual f s v v'
          else Ok false
      | _, _ => Panic "invalid memory"
      end
  end.
