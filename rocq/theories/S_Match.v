(** Specifications for C48. *)
From Verif Require Export S_Core M_Grammar.

(** [==] on float64: NaN equals nothing, the two zeros are equal. *)
Inductive same_float : spec_float -> spec_float -> Prop :=
| sf_zero : forall a b, same_float (S754_zero a) (S754_zero b)
| sf_inf : forall a, same_float (S754_infinity a) (S754_infinity a)
| sf_fin : forall a m e, same_float (S754_finite a m e) (S754_finite a m e).

(** Deep equality of values and ASTs (reflect.DeepEqual); functions are never
    equal. *)
Inductive deep_same : value -> value -> Prop :=
| ds_nil : deep_same VNil VNil
| ds_rune : forall r, deep_same (VRune r) (VRune r)
| ds_int : forall r, deep_same (VInt r) (VInt r)
| ds_uint : forall r, deep_same (VUint r) (VUint r)
| ds_float : forall x y, same_float x y -> deep_same (VFloat x) (VFloat y)
| ds_bool : forall b, deep_same (VBool b) (VBool b)
| ds_str : forall s, deep_same (VStr s) (VStr s)
| ds_cons : forall a b a' b', ast_same a a' -> ast_same b b' -> deep_same (VCons a b) (VCons a' b')
| ds_asts : forall l l', Forall2 ast_same l l' -> deep_same (VAsts l) (VAsts l')
| ds_ast : forall a a', ast_same a a' -> deep_same (VAst a) (VAst a')
| ds_slice : forall l l', Forall2 deep_same l l' -> deep_same (VSlice l) (VSlice l')
| ds_strs : forall l, deep_same (VStrs l) (VStrs l)
| ds_strss : forall l, deep_same (VStrss l) (VStrss l)
| ds_other : forall n, deep_same (VOther n) (VOther n)
with ast_same : ast -> ast -> Prop :=
| as_mk : forall op cls ty v v' sp, deep_same v v' -> ast_same (mkAst op cls ty v sp) (mkAst op cls ty v' sp).

(** The last element of a stack has the value [v]. *)
Definition top_value (asts : list ast) (v : value) : Prop := exists l a, asts = l ++ [a] /\ a_val a = v.

(** [cs] is the first of the cases that accepts the stack. *)
Definition chosen (cases : list mcase) (stack : list ast) (cs : mcase) : Prop :=
  exists pre post, cases = pre ++ cs :: post /\ case_if cs stack = true /\
    Forall (fun x => case_if x stack = false) pre.
(** The context Match hands to its transformers. *)
Definition in_match (c : ctx) : ctx := set_st (set_len c 0) Unmatched.
