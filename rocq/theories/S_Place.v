(** Specification for C44: what SourcePosition a run leaves in the ASTs, both fields. *)
From Verif Require Export S_Str.

(** From the source position [a] to [b] the ASTs lie side by side.  Each string AST
    carries the source position current where its text starts: Position is the index of
    its text, Length whatever was left by what ran before.  After a text Length is the
    length of that text; a zero-width parser (Start, End, WordBoundary) makes it 0.
    A group carries the zero position. *)
Inductive tiled (s : bytes) : srcpos -> list ast -> srcpos -> Prop :=
| tiled_nil : forall a, tiled s a [] a
| tiled_zero : forall p len l b, tiled s (mkSP p 0) l b -> tiled s (mkSP p len) l b
| tiled_str : forall p len cls v l b t, skipn p s = v ++ t ->
    tiled s (mkSP (p + length v) (length v)) l b ->
    tiled s (mkSP p len) (mkAst 0 cls TString (VStr v) (mkSP p len) :: l) b
| tiled_group : forall a l1 a1 l b, tiled s a l1 a1 -> tiled s a1 l b ->
    tiled s a (mkAst 0 ":base:Group" TListOfAst (VAsts l1) (mkSP 0 0) :: l) b.
