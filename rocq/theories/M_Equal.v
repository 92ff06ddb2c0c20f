(** Model of reflect.DeepEqual on the dynamic values of the model (Go standard
    library; trusted reading) and of AstSlice.ItemEquals (base/ast.go:292-330). *)
From Verif Require Export M_Types.

(** Element-wise comparison of two slices of the same dynamic type. *)
Definition list_eqb {A} (eqb : A -> A -> bool) : list A -> list A -> bool :=
  fix go (a b : list A) : bool :=
    match a, b with
    | [], [] => true
    | x :: a', y :: b' => eqb x y && go a' b'
    | _, _ => false
    end.

Definition sp_eqb (a b : srcpos) : bool :=
  Nat.eqb (sp_pos a) (sp_pos b) && Nat.eqb (sp_len a) (sp_len b).

(** reflect.DeepEqual: same dynamic type and deeply equal; floats with [==];
    non-nil functions are never equal.  Simplification: the shortcut for two
    slices that share their backing array is left out (it differs from the
    element-wise comparison only for NaN and functions). *)
Fixpoint deep_eqb (a b : value) {struct a} : bool :=
  match a, b with
  | VNil, VNil => true
  | VRune x, VRune y => x =? y
  | VInt x, VInt y => x =? y
  | VUint x, VUint y => x =? y
  | VFloat x, VFloat y => SFeqb x y
  | VBool x, VBool y => Bool.eqb x y
  | VStr x, VStr y => bytes_eqb x y
  | VCons x1 x2, VCons y1 y2 => deep_eqb_ast x1 y1 && deep_eqb_ast x2 y2
  | VAsts x, VAsts y => list_eqb deep_eqb_ast x y
  | VAst x, VAst y => deep_eqb_ast x y
  | VSlice x, VSlice y => list_eqb deep_eqb x y
  | VStrs x, VStrs y => list_eqb bytes_eqb x y
  | VStrss x, VStrss y => list_eqb (list_eqb bytes_eqb) x y
  | VOther x, VOther y => Nat.eqb x y
  | _, _ => false
  end
with deep_eqb_ast (a b : ast) {struct a} : bool :=
  match a, b with
  | mkAst o1 c1 t1 v1 p1, mkAst o2 c2 t2 v2 p2 =>
      (o1 =? o2) && String.eqb c1 c2 && asttype_eqb t1 t2 && deep_eqb v1 v2 && sp_eqb p1 p2
  end.

(** Conjunction in [option bool] with Go's early return: [None] is a panic of the
    comparison that is reached. *)
Definition and_then (a : option bool) (b : option bool) : option bool :=
  match a with
  | None => None
  | Some false => Some false
  | Some true => b
  end.

(** The loop of base/ast.go:314-318. *)
Definition eq_loop (f : ast -> ast -> option bool) : list ast -> list ast -> option bool :=
  fix go (a b : list ast) : option bool :=
    match a, b with
    | x :: a', y :: b' => and_then (f x y) (go a' b')
    | _, _ => Some true
    end.

(** base/ast.go:292-330, AstSlice.ItemEquals on two Ast values; [None] when a
    type assertion on Value panics. *)
Fixpoint ast_equals (a b : ast) {struct a} : option bool :=
  match a, b with
  | mkAst _ c1 t1 v1 _, mkAst _ c2 t2 v2 _ =>
      if String.eqb c1 c2 && asttype_eqb t1 t2 then
        match t1 with
        | TAstCons =>
            match v1, v2 with
            | VCons a1 d1, VCons a2 d2 => and_then (ast_equals a1 a2) (ast_equals d1 d2)
            | _, _ => None
            end
        | TListOfAst =>
            match v1, v2 with
            | VAsts l1, VAsts l2 =>
                if Nat.eqb (length l1) (length l2) then eq_loop ast_equals l1 l2
                else Some false
            | _, _ => None
            end
        | _ => Some (deep_eqb v1 v2)
        end
      else Some false
  end.

(** base/ast.go:292-294: the interface values must both hold an Ast. *)
Definition item_equals (a b : value) : option bool :=
  match a, b with
  | VAst x, VAst y => ast_equals x y
  | _, _ => None
  end.

(** AstSlice as a SliceLike (base/ast.go:256-290). *)
Fixpoint unAst (l : list value) : list ast :=
  match l with
  | VAst a :: l' => a :: unAst l'
  | _ :: l' => unAst l'
  | [] => []
  end.
Definition ast_slice (l : list ast) : slicelike :=
  mkSL (map VAst l) item_equals
       (fun v => match v with VAst _ => Some v | _ => None end)
       (fun vs => VAsts (unAst vs)).
