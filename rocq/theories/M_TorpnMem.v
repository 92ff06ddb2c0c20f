(** _examples/torpn with Go's slice semantics for the lists of ASTs it builds: the
    Value of a List AST is a slice header, [append] writes in place while the
    capacity allows it.  The memory is the heap of M_Heap, [g] decides how much
    capacity a reallocation asks for. *)
From Verif Require Export M_World M_Torpn M_Heap.

(** The value of type AstSlice: an array, an offset and a length. *)
Definition hdr (s : slice) : value :=
  VSlice [VInt (Z.of_nat (s_arr s)); VInt (Z.of_nat (s_off s)); VInt (Z.of_nat (s_len s))].
Definition as_hdr (v : value) : res slice :=
  match v with
  | VSlice [VInt a; VInt o; VInt l] => Ok (mkSlice (Z.to_nat a) (Z.to_nat o) (Z.to_nat l))
  | _ => Panic "interface conversion"
  end.
(** The AST of lines 72-76 and 106-110 *)
Definition slice_ast (s : slice) : ast := mkAst 0 "List" TListOfAst (hdr s) sp0.

Section Memory.
Variable g : growth.
(** torpn/precedence.go:52-80; line 71 is the [append] to the operand's own slice. *)
Definition mem_unary : wtrans heap := fun _ _ h asts =>
  match ast_at asts 1 with
  | Ok x =>
      match a_ty x with
      | TInt => (h, bind (str_of asts 0) (fun op => bind (as_int (a_val x)) (fun z =>
          tok [int_ast (if bytes_eqb op (bs "-") then to_int64 (- z) else 0)])))
      | TListOfAst =>
          match as_hdr (a_val x) with
          | Ok s =>
              match ast_at asts 0 with
              | Ok op => let '(h1, s1) := go_append g h s [op] in (h1, tok [slice_ast s1])
              | Panic e => (h, Panic e)
              | Fuel => (h, Fuel)
              end
          | Panic e => (h, Panic e)
          | Fuel => (h, Fuel)
          end
      | _ => (h, terr (EText "Cannot apply unary - operator"))
      end
  | Panic e => (h, Panic e)
  | Fuel => (h, Fuel)
  end.
(** torpn/precedence.go:86-93 and 95-102: appending an operand to [ret] *)
Definition mem_operand (h : heap) (ret : slice) (a : ast) : heap * res (gerr + slice) :=
  match a_ty a with
  | TInt => let '(h1, s1) := go_append g h ret [a] in (h1, Ok (inr s1))
  | TListOfAst =>
      match as_hdr (a_val a) with
      | Ok s => let '(h1, s1) := go_append g h ret (elems h s) in (h1, Ok (inr s1))
      | Panic e => (h, Panic e)
      | Fuel => (h, Fuel)
      end
  | _ => (h, Ok (inl (EText "Cannot apply binary operator")))
  end.
(** torpn/precedence.go:82-111; [make(AstSlice, 0, 3)] at line 84 *)
Definition mem_binary : wtrans heap := fun _ _ h asts =>
  match str_of asts 1 with
  | Ok _ =>
      let '(h0, ret) := alloc h 3 [] in
      match ast_at asts 0 with
      | Ok x =>
          match mem_operand h0 ret x with
          | (h1, Ok (inr ret1)) =>
              match ast_at asts 2 with
              | Ok y =>
                  match mem_operand h1 ret1 y with
                  | (h2, Ok (inr ret2)) =>
                      match ast_at asts 1 with
                      | Ok op => let '(h3, ret3) := go_append g h2 ret2 [op] in (h3, tok [slice_ast ret3])
                      | Panic e => (h2, Panic e)
                      | Fuel => (h2, Fuel)
                      end
                  | (h2, Ok (inl e)) => (h2, terr e)
                  | (h2, Panic e) => (h2, Panic e)
                  | (h2, Fuel) => (h2, Fuel)
                  end
              | Panic e => (h1, Panic e)
              | Fuel => (h1, Fuel)
              end
          | (h1, Ok (inl e)) => (h1, terr e)
          | (h1, Panic e) => (h1, Panic e)
          | (h1, Fuel) => (h1, Fuel)
          end
      | Panic e => (h0, Panic e)
      | Fuel => (h0, Fuel)
      end
  | Panic e => (h, Panic e)
  | Fuel => (h, Fuel)
  end.

(** torpn/precedence.go:11-50 *)
Definition mem_level (pat : pexp) (t : wtrans heap) (rtol : bool) : wprecedence heap :=
  mkWPrec [fun n => w_run (fun _ => WPure EUnmatched) n (WTrans (WPure pat) [t])] rtol.
Definition unary_pat : pexp := EFlatGroup [isOperator "UnaryOperator" [bs "-"]; anyOperand].
Definition binary_pat (ops : list bytes) : pexp := EFlatGroup [anyOperand; isOperator "BinaryOperator" ops; anyOperand].
(** torpn/precedence.go:113-126 *)
Definition mem_prod : wtrans heap :=
  w_ProductionRule
    [mem_level unary_pat mem_unary true;
     mem_level (binary_pat [bs "*"; bs "/"]) mem_binary false;
     mem_level (binary_pat [bs "+"; bs "-"]) mem_binary false]
    (fun n => w_pure (run no_rules n prod_check)).

(** torpn.go:103-125, 128-133, 87-100, 136-143, as in M_Formula *)
Definition mem_expression : wexp heap :=
  WTrans
    (WFlatGroup [
      WPure (EZeroOrMore [unaryOperator]);
      WFirst [WPure simpleExpression; WIndirect 0; WPure (EError "Value required")];
      WRepeat qtyZeroOrMoreTimes [
        WPure binaryOperator;
        WFirst [
          WFlatGroup [WPure (EZeroOrMore [unaryOperator]); WFirst [WPure simpleExpression; WIndirect 0]];
          WPure (EError "Error in the expression after the binary operator")]]])
    [mem_prod].
Definition mem_grouped : wexp heap :=
  WFlatGroup [
    WPure (erase (SCharClass [bs "("]));
    WFirst [
      WFlatGroup [WPure (erase sp_0); mem_expression; WPure (erase (SCharClass [bs ")"])); WPure (erase sp_0)];
      WPure (EError "Error in grouped expression")]].
Definition mem_program : wexp heap := WFlatGroup [WPure EStart; WPure (erase sp_0); mem_expression; WPure SEnd].
(** torpn.go:158-170, reading the slice when the parse is over *)
Definition mem_answer (h : heap) (a : ast) : res (gerr + list value) :=
  match a_ty a with
  | TInt => bind (as_int (a_val a)) (fun z => Ok (inr [VInt z]))
  | TListOfAst => bind (as_hdr (a_val a)) (fun s => Ok (inr (map a_val (elems h s))))
  | _ => Ok (inl (EText "Unexpected: no result"))
  end.
(** torpn.go:146-179, on any memory [h0] the program has before the call *)
Definition mem_Parse (h0 : heap) (n : nat) (s : bytes) : res (parse_error + (gerr + list value)) :=
  match w_run (fun _ => mem_grouped) n mem_program h0 (new_string_ctx s) with
  | (_, Panic x) => Panic x
  | (_, Fuel) => Fuel
  | (_, Ok (o, Some e)) => parse_fail s o (Some e)
  | (h, Ok (o, None)) =>
      match c_st o with
      | Matched =>
          match c_stack o with
          | [] => Panic "index out of range"
          | a :: _ => match mem_answer h a with Ok v => Ok (inr v) | Panic x => Panic x | Fuel => Fuel end
          end
      | _ => parse_fail s o None
      end
  end.
End Memory.
