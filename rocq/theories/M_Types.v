(** Model of base/types.go and the data part of base/ast.go. *)
From Coq Require Export String Ascii List ZArith Lia Bool.
From Coq.Floats Require Export SpecFloat.
Export ListNotations.
Open Scope Z_scope.

(** ** Go strings
    A Go [string] (or [[]byte]) is a list of bytes.  Bytes are [Z]s; a real Go
    byte is in [0,256), see [is_byte]. *)
Definition bytes := list Z.
Definition is_byte (b : Z) : Prop := 0 <= b < 256.

(** Bytes of a Coq string literal; used to write the Go string literals. *)
Fixpoint bs (s : string) : bytes :=
  match s with
  | EmptyString => []
  | String c s' => Z.of_N (N_of_ascii c) :: bs s'
  end.

Fixpoint bytes_eqb (a b : bytes) : bool :=
  match a, b with
  | [], [] => true
  | x :: a', y :: b' => (x =? y) && bytes_eqb a' b'
  | _, _ => false
  end.

(** Go's [s[i:j]] with [0 <= i <= j <= len s] (the model's callers check the
    bounds where Go would panic). *)
Definition sub {A} (s : list A) (i j : nat) : list A := firstn (j - i) (skipn i s).

(** ** Match status (base/types.go:39-48).  Simplification: only the three named
    values of [MatchStatusType] exist in the model. *)
Inductive status := Matched | Unmatched | Errored.

Definition status_eqb (a b : status) : bool :=
  match a, b with
  | Matched, Matched | Unmatched, Unmatched | Errored, Errored => true
  | _, _ => false
  end.

(** ** SourcePosition (base/types.go:22-27).  Positions and lengths are [nat]:
    no exported constructor creates a negative one and the only code that
    subtracts (lookBehindBase) tests for a negative result first. *)
Record srcpos := mkSP { sp_pos : nat; sp_len : nat }.

(** ** AstType (base/ast.go:9-39) *)
Inductive asttype :=
| TNil | TRune | TInt | TUint | TFloat | TBool | TString
| TAstCons | TListOfAst | TListOfAny | TFunction | TAny.

Definition asttype_eqb (a b : asttype) : bool :=
  match a, b with
  | TNil, TNil | TRune, TRune | TInt, TInt | TUint, TUint | TFloat, TFloat
  | TBool, TBool | TString, TString | TAstCons, TAstCons
  | TListOfAst, TListOfAst | TListOfAny, TListOfAny | TFunction, TFunction
  | TAny, TAny => true
  | _, _ => false
  end.

(** ** Ast and the dynamic values it holds (base/ast.go:75-88, 247-255).
    [value] is Go's [interface{}]: one constructor per dynamic type that the
    library or the examples store.  [VSlice] is a user SliceLike, [VFunc] a
    function value, [VOther] any other comparable datum.  Simplifications:
    the field [Address Box] is left out (no parser reads it), and nil slices
    are not distinguished from empty ones. *)
Inductive value :=
| VNil
| VRune (r : Z)
| VInt (z : Z)
| VUint (z : Z)
| VFloat (f : spec_float)
| VBool (b : bool)
| VStr (s : bytes)
| VCons (car cdr : ast)
| VAsts (l : list ast)
| VAst (a : ast)
| VSlice (l : list value)
| VStrs (l : list bytes)
| VStrss (l : list (list bytes))
| VFunc (n : nat)
| VOther (n : nat)
with ast :=
| mkAst (op : Z) (cls : string) (ty : asttype) (val : value) (sp : srcpos).

Definition a_op (a : ast) : Z := let 'mkAst op _ _ _ _ := a in op.
Definition a_cls (a : ast) : string := let 'mkAst _ c _ _ _ := a in c.
Definition a_ty (a : ast) : asttype := let 'mkAst _ _ t _ _ := a in t.
Definition a_val (a : ast) : value := let 'mkAst _ _ _ v _ := a in v.
Definition a_sp (a : ast) : srcpos := let 'mkAst _ _ _ _ p := a in p.

Definition sp0 : srcpos := mkSP 0 0.

(** ** Errors.  Go [error] values; [EText] is [errors.New(msg)]. [ENum] is the
    wrapped strconv error of string/transformers.go: the name of the failing
    transformer, the offending text, and whether it was out of range. *)
Inductive gerr :=
| EText (msg : string)
| EBadType (t : asttype)              (* "Transformer:Concat: Bad source type:" *)
| ENum (who : string) (txt : bytes) (range : bool)
| EUser (n : nat).

(** ** SliceLike (base/types.go:4-19): the sources of the object parsers.
    [sl_eq] is ItemEquals ([None] = panic on a failed type assertion),
    [sl_set] the conversion done by Set ([None] = panic), [sl_mk] the dynamic
    value of a slice with the given elements. *)
Record slicelike := mkSL {
  sl_items : list value;
  sl_eq : value -> value -> option bool;
  sl_set : value -> option value;
  sl_mk : list value -> value }.

(** ** ParserContext (base/types.go:65-82).  AstStack is a list, bottom first.
    Aliasing of its backing array is the subject of M_Heap. *)
Record ctx := mkCtx {
  c_str : bytes;
  c_slice : option slicelike;
  c_sp : srcpos;
  c_qty : nat;
  c_stack : list ast;
  c_st : status;
  c_cls : string;
  c_tag : value }.

Definition c_pos (c : ctx) : nat := sp_pos (c_sp c).
Definition c_len (c : ctx) : nat := sp_len (c_sp c).

Definition set_sp (c : ctx) (p : srcpos) : ctx :=
  mkCtx (c_str c) (c_slice c) p (c_qty c) (c_stack c) (c_st c) (c_cls c) (c_tag c).
Definition set_pos (c : ctx) (p : nat) : ctx := set_sp c (mkSP p (c_len c)).
Definition set_len (c : ctx) (l : nat) : ctx := set_sp c (mkSP (c_pos c) l).
Definition set_qty (c : ctx) (q : nat) : ctx :=
  mkCtx (c_str c) (c_slice c) (c_sp c) q (c_stack c) (c_st c) (c_cls c) (c_tag c).
Definition set_stack (c : ctx) (s : list ast) : ctx :=
  mkCtx (c_str c) (c_slice c) (c_sp c) (c_qty c) s (c_st c) (c_cls c) (c_tag c).
Definition set_st (c : ctx) (s : status) : ctx :=
  mkCtx (c_str c) (c_slice c) (c_sp c) (c_qty c) (c_stack c) s (c_cls c) (c_tag c).
Definition set_cls (c : ctx) (s : string) : ctx :=
  mkCtx (c_str c) (c_slice c) (c_sp c) (c_qty c) (c_stack c) (c_st c) s (c_tag c).

(** ** Outcomes of running Go code: a result, a panic, or out of model fuel. *)
Inductive res (A : Type) :=
| Ok (a : A)
| Panic (why : string)
| Fuel.
Arguments Ok {A} a.
Arguments Panic {A} why.
Arguments Fuel {A}.

Definition bind {A B} (r : res A) (f : A -> res B) : res B :=
  match r with Ok a => f a | Panic w => Panic w | Fuel => Fuel end.

(** Function types (base/types.go:113-122).  The leading [nat] is fuel. *)
Definition out := res (ctx * option gerr).
Definition parser := nat -> ctx -> out.
Definition light_fn := ctx -> out.                            (* LightParserImplFn *)
Definition impl_fn := Z -> nat -> ctx -> out.                 (* ParserImplFn *)
Definition trans := nat -> ctx -> list ast -> res (gerr + list ast). (* TransformerFn *)

(** Times and the marker properties of BaseParser (base/types.go:84-110). *)
Record times := mkTimes { t_min : Z; t_max : Z }.
Inductive prop := PTimes (t : times) | PNegative | PThereExists | PRewind.

Record runerange := mkRR { rr_start : Z; rr_end : Z }.
