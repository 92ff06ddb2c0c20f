(** Specifications for the object parsers, AST equality and production rules
    (C26-C29). *)
From Verif Require Export S_Core.

(** ** C26 *)
Definition item_at (c : ctx) (sl : slicelike) (v : value) : Prop :=
  c_slice c = Some sl /\ nth_error (sl_items sl) (c_pos c) = Some v.
Definition no_item (c : ctx) (sl : slicelike) : Prop := (length (sl_items sl) <= c_pos c)%nat.
(** One element is consumed and pushed. *)
Definition takes_item (cls : string) (ty : asttype) (v : value) (c o : ctx) : Prop :=
  c_st o = Matched /\ c_sp o = mkSP (c_pos c + 1) 1 /\
  c_stack o = c_stack c ++ [mkAst 0 cls ty v (c_sp c)].
Definition takes_no_item (c o : ctx) : Prop :=
  c_st o = Unmatched /\ c_sp o = c_sp c /\ c_stack o = c_stack c.
(** Comparing with the listed values does not panic. *)
Definition comparable (sl : slicelike) (w : value) (oc : list value) : Prop :=
  Forall (fun s => sl_eq sl w s <> None) oc.
Definition is_one_of (sl : slicelike) (w : value) (oc : list value) : Prop :=
  Exists (fun s => sl_eq sl w s = Some true) oc.

(** ** C27 *)
(** Two ASTs that differ at most in OpCodes and source positions, at the top and
    below the list and cons structure. *)
Inductive alike : ast -> ast -> Prop :=
| alike_leaf : forall o1 o2 cls ty v p1 p2, alike (mkAst o1 cls ty v p1) (mkAst o2 cls ty v p2)
| alike_cons : forall o1 o2 cls a d a' d' p1 p2, alike a a' -> alike d d' ->
    alike (mkAst o1 cls TAstCons (VCons a d) p1) (mkAst o2 cls TAstCons (VCons a' d') p2)
| alike_list : forall o1 o2 cls l l' p1 p2, Forall2 alike l l' ->
    alike (mkAst o1 cls TListOfAst (VAsts l) p1) (mkAst o2 cls TListOfAst (VAsts l') p2).
(** Values without NaN and functions. *)
Inductive plain_value : value -> Prop :=
| pv_nil : plain_value VNil
| pv_rune : forall r, plain_value (VRune r)
| pv_int : forall z, plain_value (VInt z)
| pv_uint : forall z, plain_value (VUint z)
| pv_float : forall f, f <> S754_nan -> plain_value (VFloat f)
| pv_bool : forall b, plain_value (VBool b)
| pv_str : forall s, plain_value (VStr s)
| pv_cons : forall a d, plain_value (a_val a) -> plain_value (a_val d) -> plain_value (VCons a d)
| pv_asts : forall l, Forall (fun a => plain_value (a_val a)) l -> plain_value (VAsts l)
| pv_ast : forall a, plain_value (a_val a) -> plain_value (VAst a)
| pv_slice : forall l, Forall plain_value l -> plain_value (VSlice l)
| pv_strs : forall l, plain_value (VStrs l)
| pv_strss : forall l, plain_value (VStrss l)
| pv_other : forall n, plain_value (VOther n).
(** List and cons tags are truthful. *)
Inductive well_tagged : ast -> Prop :=
| wt_cons : forall o cls a d p, well_tagged a -> well_tagged d -> well_tagged (mkAst o cls TAstCons (VCons a d) p)
| wt_list : forall o cls l p, Forall well_tagged l -> well_tagged (mkAst o cls TListOfAst (VAsts l) p)
| wt_other : forall o cls ty v p, ty <> TAstCons -> ty <> TListOfAst -> plain_value v -> well_tagged (mkAst o cls ty v p).

(** ** C28, C29 *)
(** The context a rule sees at position [p] of the list. *)
Definition at_pos (tag : value) (asts : list ast) (p : nat) : ctx :=
  set_sp (new_object_ctx (ast_slice asts) tag) (mkSP p 0).
Definition gives (f : parser) (c : ctx) (o : ctx) (err : option gerr) : Prop := exists n, f n c = Ok (o, err).
Definition misses (tag : value) (asts : list ast) (p : nat) (rule : parser) : Prop :=
  exists o, gives rule (at_pos tag asts p) o None /\ c_st o <> Matched.
Definition hits (tag : value) (asts : list ast) (p : nat) (rule : parser) (asts' : list ast) : Prop :=
  exists o, gives rule (at_pos tag asts p) o None /\ c_st o = Matched /\
    (c_pos o <= length asts)%nat /\ asts' = firstn p asts ++ c_stack o ++ skipn (c_pos o) asts.
Definition fails (tag : value) (asts : list ast) (p : nat) (rule : parser) (e : gerr) : Prop :=
  exists o, gives rule (at_pos tag asts p) o (Some e).
(** No rule of the level applies at [p]. *)
Definition quiet (tag : value) (asts : list ast) (pr : precedence) (p : nat) : Prop :=
  Forall (misses tag asts p) (pr_rules pr).
(** [q] is scanned before [p] in this level. *)
Definition scanned_before (pr : precedence) (q p : nat) : Prop :=
  if pr_rtol pr then (p < q)%nat else (q < p)%nat.
(** The first thing that happens: at the first level where any rule answers, the
    first position in scanning order, the first rule there. *)
Definition first_event (tag : value) (prs : list precedence) (asts : list ast)
    (E : nat -> parser -> Prop) : Prop :=
  exists before pr after p r1 rule r2,
    prs = before ++ pr :: after /\
    Forall (fun q => forall i, (i <= length asts)%nat -> quiet tag asts q i) before /\
    (p <= length asts)%nat /\
    (forall q, (q <= length asts)%nat -> scanned_before pr q p -> quiet tag asts pr q) /\
    pr_rules pr = r1 ++ rule :: r2 /\ Forall (misses tag asts p) r1 /\ E p rule.
Definition rewrites (tag : value) (prs : list precedence) (asts asts' : list ast) : Prop :=
  first_event tag prs asts (fun p rule => hits tag asts p rule asts').
Definition raises (tag : value) (prs : list precedence) (asts : list ast) (e : gerr) : Prop :=
  first_event tag prs asts (fun p rule => fails tag asts p rule e).
Definition normal_form (tag : value) (prs : list precedence) (asts : list ast) : Prop :=
  Forall (fun q => forall i, (i <= length asts)%nat -> quiet tag asts q i) prs.
Definition accepted (tag : value) (check : parser) (asts : list ast) : Prop :=
  exists o, gives check (new_object_ctx (ast_slice asts) tag) o None /\ c_st o = Matched.
Definition rejected (tag : value) (check : parser) (asts : list ast) : Prop :=
  exists o err, gives check (new_object_ctx (ast_slice asts) tag) o err /\ (err <> None \/ c_st o <> Matched).
(** Rewriting until the check accepts or nothing applies. *)
Inductive reduces (tag : value) (prs : list precedence) (check : parser) : list ast -> gerr + list ast -> Prop :=
| red_accept : forall asts asts', rewrites tag prs asts asts' -> accepted tag check asts' ->
    reduces tag prs check asts (inr asts')
| red_again : forall asts asts' r, rewrites tag prs asts asts' -> rejected tag check asts' ->
    reduces tag prs check asts' r -> reduces tag prs check asts r
| red_error : forall asts e, raises tag prs asts e -> reduces tag prs check asts (inl e)
| red_normal : forall asts, normal_form tag prs asts -> accepted tag check asts -> reduces tag prs check asts (inr asts)
| red_stuck : forall asts, normal_form tag prs asts -> rejected tag check asts ->
    reduces tag prs check asts (inl (EText "Production rules are not matched.")).
(** Every rule returns, and replaces what it matches by something shorter. *)
Definition shrinks (tag : value) (rule : parser) : Prop := forall asts p, (p <= length asts)%nat ->
  exists o err, gives rule (at_pos tag asts p) o err /\
    (err = None -> c_st o = Matched ->
       (p <= c_pos o <= length asts)%nat /\ (length (c_stack o) < c_pos o - p)%nat).
Definition returns_always (tag : value) (check : parser) : Prop :=
  forall asts, exists o err, gives check (new_object_ctx (ast_slice asts) tag) o err.
