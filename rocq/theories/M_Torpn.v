(** Model of _examples/torpn.  The grammar (torpn.go:1-143, helper.go) is that of
    M_Formula; here are the transformers and the final part of Parse. *)
From Verif Require Export M_Formula.

(** [asts[i]] *)
Definition ast_at (l : list ast) (i : nat) : res ast :=
  match nth_error l i with None => Panic "index out of range" | Some a => Ok a end.
Definition as_int (v : value) : res Z := match v with VInt z => Ok z | _ => Panic "interface conversion" end.
Definition as_asts (v : value) : res (list ast) := match v with VAsts l => Ok l | _ => Panic "interface conversion" end.
Definition int_ast (z : Z) : ast := mkAst 0 "Number" TInt (VInt z) sp0.
Definition list_ast (l : list ast) : ast := mkAst 0 "List" TListOfAst (VAsts l) sp0.

(** torpn/precedence.go:52-80.  [append] is list concatenation here; M_TorpnMem has
    Go's slices, C65 shows that they give the same answers. *)
Definition transformUnaryOp : trans := fun _ _ asts =>
  bind (ast_at asts 1) (fun x =>
  match a_ty x with
  | TInt => bind (str_of asts 0) (fun op => bind (as_int (a_val x)) (fun z =>
      tok [int_ast (if bytes_eqb op (bs "-") then to_int64 (- z) else 0)]))
  | TListOfAst => bind (as_asts (a_val x)) (fun l => bind (ast_at asts 0) (fun op => tok [list_ast (l ++ [op])]))
  | _ => terr (EText "Cannot apply unary - operator")
  end).
(** torpn/precedence.go:86-93 and 95-102; the text of the error without the operator *)
Definition operand (a : ast) : res (gerr + list ast) :=
  match a_ty a with
  | TInt => tok [a]
  | TListOfAst => bind (as_asts (a_val a)) (fun l => tok l)
  | _ => terr (EText "Cannot apply binary operator")
  end.
(** torpn/precedence.go:82-111 *)
Definition transformBinaryOp : trans := fun _ _ asts =>
  bind (str_of asts 1) (fun _ => bind (ast_at asts 0) (fun x => bind (operand x) (fun r =>
  match r with
  | inl e => terr e
  | inr l =>
      bind (ast_at asts 2) (fun y => bind (operand y) (fun r' =>
      match r' with
      | inl e => terr e
      | inr l' => bind (ast_at asts 1) (fun op => tok [list_ast (l ++ l' ++ [op])])
      end))
  end))).
(** torpn/precedence.go:113-126 *)
Definition torpn_prod : trans := formulaProductionRules transformUnaryOp transformBinaryOp transformBinaryOp.
(** torpn.go:158-170; [inl] is the error of line 169. *)
Definition rpn_answer (a : ast) : res (gerr + list value) :=
  match a_ty a with
  | TInt => bind (as_int (a_val a)) (fun z => Ok (inr [VInt z]))
  | TListOfAst => bind (as_asts (a_val a)) (fun l => Ok (inr (map a_val l)))
  | _ => Ok (inl (EText "Unexpected: no result"))
  end.
(** torpn.go:146-179 *)
Definition torpn_Parse (n : nat) (s : bytes) : res (parse_error + (gerr + list value)) :=
  parse_with torpn_prod rpn_answer n s.
