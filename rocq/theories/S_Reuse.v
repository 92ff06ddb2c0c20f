(** Specification of using grammars again (C66). *)
From Verif Require Export M_Reuse.

(** The grammar with fresh variables in every call. *)
Definition plain_tr (a : vars) (t : vtr) : trans :=
  match t with VPure f => f | VPrepend j => Prepend (a j) | VPush j => Push (a j) end.
Fixpoint plain_exp (a : vars) (e : vexp) : pexp :=
  match e with
  | VLight cls fn => ELight cls fn
  | VBase cls fn props es tr => EBase cls fn props (map (plain_exp a) es) (option_map (map (plain_tr a)) tr)
  | VBehind neg mn mx es => ELookBehind neg mn mx (map (plain_exp a) es)
  | VIndirect k => EIndirect k
  end.

(** The ASTs are those given to Prepend and Push, up to the position. *)
Definition but_position (a b : ast) : Prop := exists p, b = set_asp a p.
Definition like (a v : vars) : Prop := forall j, but_position (a j) (v j).

(** A parser that leaves at least one AST on the stack when it matches. *)
Definition feeds (p : ctx -> out) : Prop := forall c o, p c = Ok (o, None) -> c_st o = Matched ->
  (length (c_stack c) < length (c_stack o))%nat.
(** A transformer that does not make a list empty. *)
Definition keeps (t : trans) : Prop := forall n c l r, l <> [] -> t n c l = Ok (inr r) -> r <> [].
Definition owns (t : vtr) : bool := match t with VPure _ => false | _ => true end.
Fixpoint lined_up (ts : list vtr) : Prop :=
  match ts with
  | [] => True
  | t :: ts' => (existsb owns ts' = true -> match t with VPure f => keeps f | _ => True end) /\ lined_up ts'
  end.
(** Every Prepend and every Push of the grammar gets at least one AST whenever it is called. *)
Fixpoint fed (env : nat -> pexp) (a : vars) (e : vexp) : Prop :=
  match e with
  | VLight _ _ | VIndirect _ => True
  | VBase cls fn props es tr =>
      fold_right and True (map (fed env a) es) /\
      match tr with
      | None => True
      | Some ts => existsb owns ts = true ->
          lined_up ts /\ f_rew (flags_of props) = false /\
          forall n, feeds (run env n (EBase cls fn props (map (plain_exp a) es) None))
      end
  | VBehind _ _ _ es => fold_right and True (map (fed env a) es)
  end.
