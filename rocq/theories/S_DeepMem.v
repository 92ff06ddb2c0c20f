(** Specifications for C75. *)
From Verif Require Export M_DeepMem.

(** ** Deep equality of two variables, as a bisimulation *)
(** What [R] must give for the variables at [x] and [y]: equal numbers and strings; interfaces both nil, or
    with the same type and related values; slices both nil, or of the same length that start at the same
    address or have related elements; structs with related fields. *)
Inductive alike_at (s : dstore) (R : daddr -> daddr -> Prop) (x y : daddr) : Prop :=
| al_atom : forall v w, node_at s x = Some (DAtom v) -> node_at s y = Some (DAtom w) -> deep_eqb v w = true -> alike_at s R x y
| al_nil : node_at s x = Some (DIface None) -> node_at s y = Some (DIface None) -> alike_at s R x y
| al_iface : forall t b b', node_at s x = Some (DIface (Some (t, b))) -> node_at s y = Some (DIface (Some (t, b'))) ->
    R (b, 0%nat, []) (b', 0%nat, []) -> alike_at s R x y
| al_nils : node_at s x = Some (DSlice None) -> node_at s y = Some (DSlice None) -> alike_at s R x y
| al_slice : forall a o a' o' l, node_at s x = Some (DSlice (Some (a, o, l))) -> node_at s y = Some (DSlice (Some (a', o', l))) ->
    (a = a' /\ o = o') \/ (forall k, (k < l)%nat -> R (a, (o + k)%nat, []) (a', (o' + k)%nat, [])) -> alike_at s R x y
| al_struct : forall l l', node_at s x = Some (DStruct l) -> node_at s y = Some (DStruct l') -> length l = length l' ->
    (forall k, (k < length l)%nat -> R (dsub x k) (dsub y k)) -> alike_at s R x y.
Definition deeply_at (s : dstore) (x y : daddr) : Prop :=
  exists R : daddr -> daddr -> Prop, (forall u v, R u v -> alike_at s R u v) /\ R x y.

(** ** Memory without cycles *)
(** What a variable holds, written out; nil slices are not empty slices. *)
Inductive dtree :=
| TrAtom (v : value)
| TrIface (o : option (nat * dtree))
| TrSlice (o : option (list dtree))
| TrStruct (l : list dtree).
Inductive unfolds (s : dstore) : dnode -> dtree -> Prop :=
| uf_atom : forall v, unfolds s (DAtom v) (TrAtom v)
| uf_nil : unfolds s (DIface None) (TrIface None)
| uf_iface : forall t b n tr, node_at s (b, 0%nat, []) = Some n -> unfolds s n tr -> unfolds s (DIface (Some (t, b))) (TrIface (Some (t, tr)))
| uf_nils : unfolds s (DSlice None) (TrSlice None)
| uf_slice : forall a i l ns trs, nth_error s a = Some ns -> (i + l <= length ns)%nat -> unfolds_all s (firstn l (skipn i ns)) trs ->
    unfolds s (DSlice (Some (a, i, l))) (TrSlice (Some trs))
| uf_struct : forall l trs, unfolds_all s l trs -> unfolds s (DStruct l) (TrStruct trs)
with unfolds_all (s : dstore) : list dnode -> list dtree -> Prop :=
| ua_nil : unfolds_all s [] []
| ua_cons : forall n tr ns trs, unfolds s n tr -> unfolds_all s ns trs -> unfolds_all s (n :: ns) (tr :: trs).
(** Equal contents. *)
Inductive tree_same : dtree -> dtree -> Prop :=
| ts_atom : forall v w, deep_eqb v w = true -> tree_same (TrAtom v) (TrAtom w)
| ts_nil : tree_same (TrIface None) (TrIface None)
| ts_iface : forall t a b, tree_same a b -> tree_same (TrIface (Some (t, a))) (TrIface (Some (t, b)))
| ts_nils : tree_same (TrSlice None) (TrSlice None)
| ts_slice : forall l m, trees_same l m -> tree_same (TrSlice (Some l)) (TrSlice (Some m))
| ts_struct : forall l m, trees_same l m -> tree_same (TrStruct l) (TrStruct m)
with trees_same : list dtree -> list dtree -> Prop :=
| ts_end : trees_same [] []
| ts_next : forall a b l m, tree_same a b -> trees_same l m -> trees_same (a :: l) (b :: m).

(** The values and ASTs of the model written out as they lie in memory, with no nil slices and Address nil. *)
Fixpoint tree_of (v : value) : dtree :=
  match v with
  | VNil => TrIface None
  | VCons a d => TrIface (Some (dt_of v, TrStruct [tree_of_ast a; tree_of_ast d]))
  | VAsts l => TrIface (Some (dt_of v, TrSlice (Some (map tree_of_ast l))))
  | VAst a => TrIface (Some (dt_of v, tree_of_ast a))
  | VSlice l => TrIface (Some (dt_of v, TrSlice (Some (map tree_of l))))
  | VStrs l => TrIface (Some (dt_of v, TrSlice (Some (map (fun b => TrAtom (VStr b)) l))))
  | VStrss l => TrIface (Some (dt_of v, TrSlice (Some (map (fun r => TrSlice (Some (map (fun b => TrAtom (VStr b)) r))) l))))
  | _ => TrIface (Some (dt_of v, TrAtom v))
  end
with tree_of_ast (a : ast) : dtree :=
  match a with
  | mkAst op cls ty v p =>
      TrStruct [TrAtom (VInt op); TrAtom (VStr (bs cls)); TrAtom (VOther (ty_code ty)); tree_of v; TrIface None;
                TrStruct [TrAtom (VInt (Z.of_nat (sp_pos p))); TrAtom (VInt (Z.of_nat (sp_len p)))]]
  end.

(** Two interface values with equal contents. *)
Definition any_same (s : dstore) (u v : option (nat * nat)) : Prop :=
  match u, v with
  | None, None => True
  | Some (t, b), Some (t', b') => t = t' /\ deeply_at s (b, 0%nat, []) (b', 0%nat, [])
  | _, _ => False
  end.
(** The answer of base/ast.go:292-330 as a result: [None] is the panic of a type assertion. *)
Definition of_answer (o : option bool) : res bool := match o with Some b => Ok b | None => Panic "interface conversion" end.
