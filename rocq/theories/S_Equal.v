(** What AstSlice.ItemEquals compares (C27). *)
From Verif Require Export S_Obj.

(** Deep equality: the same dynamic type and the same contents, with all that ASTs hold.  Floats are
    compared by ==; functions equal nothing. *)
Inductive deeply : value -> value -> Prop :=
| dp_nil : deeply VNil VNil
| dp_rune : forall z, deeply (VRune z) (VRune z)
| dp_int : forall z, deeply (VInt z) (VInt z)
| dp_uint : forall z, deeply (VUint z) (VUint z)
| dp_float : forall x y, SFeqb x y = true -> deeply (VFloat x) (VFloat y)
| dp_bool : forall b, deeply (VBool b) (VBool b)
| dp_str : forall s, deeply (VStr s) (VStr s)
| dp_cons : forall a b a' b', deeply_ast a a' -> deeply_ast b b' -> deeply (VCons a b) (VCons a' b')
| dp_asts : forall l l', deeply_asts l l' -> deeply (VAsts l) (VAsts l')
| dp_ast : forall a a', deeply_ast a a' -> deeply (VAst a) (VAst a')
| dp_slice : forall l l', deeply_values l l' -> deeply (VSlice l) (VSlice l')
| dp_strs : forall l, deeply (VStrs l) (VStrs l)
| dp_strss : forall l, deeply (VStrss l) (VStrss l)
| dp_other : forall n, deeply (VOther n) (VOther n)
with deeply_ast : ast -> ast -> Prop :=
| dp_node : forall op cls ty v v' p, deeply v v' -> deeply_ast (mkAst op cls ty v p) (mkAst op cls ty v' p)
with deeply_asts : list ast -> list ast -> Prop :=
| dp_end : deeply_asts [] []
| dp_next : forall a a' l l', deeply_ast a a' -> deeply_asts l l' -> deeply_asts (a :: l) (a' :: l')
with deeply_values : list value -> list value -> Prop :=
| dp_vend : deeply_values [] []
| dp_vnext : forall v v' l l', deeply v v' -> deeply_values l l' -> deeply_values (v :: l) (v' :: l').

(** Equal ASTs: class, type and value, where the ASTs in cons cells and lists need to be equal
    only; opcodes and positions do not count. *)
Inductive same_ast : ast -> ast -> Prop :=
| sm_cons : forall o o' cls p p' a b a' b', same_ast a a' -> same_ast b b' ->
    same_ast (mkAst o cls TAstCons (VCons a b) p) (mkAst o' cls TAstCons (VCons a' b') p')
| sm_list : forall o o' cls p p' l l', Forall2 same_ast l l' ->
    same_ast (mkAst o cls TListOfAst (VAsts l) p) (mkAst o' cls TListOfAst (VAsts l') p')
| sm_other : forall o o' cls ty p p' v v', ty <> TAstCons -> ty <> TListOfAst -> deeply v v' ->
    same_ast (mkAst o cls ty v p) (mkAst o' cls ty v' p').

(** ASTs that cannot be compared: class and type are the same but a value is not of the type; or the
    comparison gets to parts like that, all before being equal. *)
Inductive bad_pair : ast -> ast -> Prop :=
| bp_cons : forall o o' cls p p' v v', ~ (exists a b a' b', v = VCons a b /\ v' = VCons a' b') ->
    bad_pair (mkAst o cls TAstCons v p) (mkAst o' cls TAstCons v' p')
| bp_list : forall o o' cls p p' v v', ~ (exists l l', v = VAsts l /\ v' = VAsts l') ->
    bad_pair (mkAst o cls TListOfAst v p) (mkAst o' cls TListOfAst v' p')
| bp_car : forall o o' cls p p' a b a' b', bad_pair a a' ->
    bad_pair (mkAst o cls TAstCons (VCons a b) p) (mkAst o' cls TAstCons (VCons a' b') p')
| bp_cdr : forall o o' cls p p' a b a' b', same_ast a a' -> bad_pair b b' ->
    bad_pair (mkAst o cls TAstCons (VCons a b) p) (mkAst o' cls TAstCons (VCons a' b') p')
| bp_item : forall o o' cls p p' l a r l' a' r', Forall2 same_ast l l' -> bad_pair a a' -> length r = length r' ->
    bad_pair (mkAst o cls TListOfAst (VAsts (l ++ a :: r)) p) (mkAst o' cls TListOfAst (VAsts (l' ++ a' :: r')) p').
