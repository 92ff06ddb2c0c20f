(** Model of the shared grammar of _examples/formula and _examples/torpn
    (formula.go:1-143 and torpn.go:1-143 are the same text, helper.go is the same
    file), of _examples/formula/precedence.go and of formula.Parse. *)
From Verif Require Export M_Extra M_Production M_LineCol M_Strconv.

(** ** helper.go *)
(** helper.go:8-10; a failed type assertion panics. *)
Definition unwrapOperandItem : trans := fun _ _ asts =>
  match asts with
  | [] => Panic "index out of range"
  | a :: _ => match a_val a with VAst b => tok [b] | _ => Panic "interface conversion" end
  end.
(** helper.go:12-26; [None] is the panic of line 18. *)
Definition makeOpMatcher (cls : string) (ops : list bytes) (v : value) : option bool :=
  match v with
  | VAst a =>
      if String.eqb (a_cls a) cls then
        match a_val a with
        | VStr s => Some (existsb (fun op => bytes_eqb op s) ops)
        | _ => None
        end
      else Some false
  | _ => Some false
  end.
(** object/parsers.go:130-151 with a predicate that may panic. *)
Definition op_class_fn (f : value -> option bool) : light_fn := fun c =>
  match match c_slice c with Some sl => nth_error (sl_items sl) (c_pos c) | None => None end with
  | Some v => match f v with
              | None => Panic "interface conversion"
              | Some b => obj_classFn_fn (fun _ => b) c
              end
  | None => obj_classFn_fn (fun _ => false) c
  end.
(** helper.go:29-31 *)
Definition anyOperand : pexp := ETrans OAny [unwrapOperandItem].
(** helper.go:34-36 *)
Definition isOperator (cls : string) (ops : list bytes) : pexp :=
  ETrans (ELight ":object:ObjClassFn" (lift (op_class_fn (makeOpMatcher cls ops)))) [unwrapOperandItem].

(** ** precedence.go: the rules with the transformers as parameters
    (formula/precedence.go:9-97, torpn/precedence.go:11-50, 112-116) *)
Definition no_rules : nat -> pexp := fun _ => EUnmatched.
Definition unary_rule (t : trans) : pexp :=
  ETrans (EFlatGroup [isOperator "UnaryOperator" [bs "-"]; anyOperand]) [t].
Definition binary_rule (ops : list bytes) (t : trans) : pexp :=
  ETrans (EFlatGroup [anyOperand; isOperator "BinaryOperator" ops; anyOperand]) [t].
Definition level (e : pexp) (rtol : bool) : precedence := mkPrec [fun n => run no_rules n e] rtol.
Definition precedences (neg mul add : trans) : list precedence :=
  [level (unary_rule neg) true;
   level (binary_rule [bs "*"; bs "/"] mul) false;
   level (binary_rule [bs "+"; bs "-"] add) false].
(** precedence.go:100-111 *)
Definition prod_check : pexp := EFlatGroup [EStart; OAny; OEnd].
Definition formulaProductionRules (neg mul add : trans) : trans :=
  ProductionRule (precedences neg mul add) (fun n => run no_rules n prod_check).

(** ** formula.go, torpn.go *)
(** formula.go:21-23, 26-28; erase is extra.go's. *)
Definition sp_0 : pexp := erase (EZeroOrMore [SWhitespace]).
(** formula.go:38-49 *)
Definition parseNumber : trans := fun _ _ asts =>
  match asts with
  | [] => Panic "index out of range"
  | a :: _ =>
      match a_val a with
      | VStr s => match parse_int s 10 with
                  | inl e => terr (ENum "ParseInt" s (match e with ErrRange => true | _ => false end))
                  | inr z => tok [mkAst 0 "Number" TInt (VInt z) sp0]
                  end
      | _ => Panic "interface conversion"
      end
  end.
(** formula.go:31-51 *)
Definition number : pexp := ETrans (EFlatGroup [IntegerNumberStr; SWordBoundary; erase sp_0]) [parseNumber].
(** formula.go:54-62 *)
Definition unaryOperator : pexp :=
  ETrans (EFlatGroup [SCharClass [bs "-"]; erase sp_0]) [ChangeClassName "UnaryOperator"].
(** formula.go:65-73 *)
Definition binaryOperator : pexp :=
  ETrans (EFlatGroup [SCharClass [bs "+"; bs "-"; bs "*"; bs "/"]; erase sp_0]) [ChangeClassName "BinaryOperator"].
(** formula.go:76-84 *)
Definition simpleExpression : pexp := EFlatGroup [number; EZeroOrMore [binaryOperator; number]].
(** formula.go:103-125; rule 0 of the environment is groupedExpresion. *)
Definition expressionInner : pexp :=
  EFlatGroup [
    EZeroOrMore [unaryOperator];
    EFirst [simpleExpression; EIndirect 0; EError "Value required"];
    EZeroOrMore [
      binaryOperator;
      EFirst [
        EFlatGroup [EZeroOrMore [unaryOperator]; EFirst [simpleExpression; EIndirect 0]];
        EError "Error in the expression after the binary operator"]]].
(** formula.go:128-133; [prod] is the result of formulaProductionRules. *)
Definition expression (prod : trans) : pexp := ETrans expressionInner [prod].
(** formula.go:87-100 *)
Definition groupedExpresion (prod : trans) : pexp :=
  EFlatGroup [
    erase (SCharClass [bs "("]);
    EFirst [
      EFlatGroup [erase sp_0; expression prod; erase (SCharClass [bs ")"]); erase sp_0];
      EError "Error in grouped expression"]].
Definition grouped_env (prod : trans) : nat -> pexp := fun _ => groupedExpresion prod.
(** formula.go:136-143 *)
Definition program (prod : trans) : pexp := EFlatGroup [EStart; erase sp_0; expression prod; SEnd].

(** An error of Parse: what went wrong (None is the text "Parse failed") and the
    reported position.  M_Err renders both into one text (lines 149-153 and
    160-164). *)
Record parse_error := mkPE { pe_err : option gerr; pe_pos : linecol }.
Definition parse_fail {A : Type} (s : bytes) (o : ctx) (err : option gerr) : res (parse_error + A) :=
  match GetLineAndColPosition s (c_pos o) 4 with
  | Ok lc => Ok (inl (mkPE err lc))
  | Panic w => Panic w
  | Fuel => Fuel
  end.
(** The common part of formula.go:146-167 and torpn.go:146-179; [answer] reads the
    first AST of the result. *)
Definition parse_with {A : Type} (prod : trans) (answer : ast -> res A) (n : nat) (s : bytes) : res (parse_error + A) :=
  match run (grouped_env prod) n (program prod) (new_string_ctx s) with
  | Panic w => Panic w
  | Fuel => Fuel
  | Ok (o, Some e) => parse_fail s o (Some e)
  | Ok (o, None) =>
      match c_st o with
      | Matched =>
          match c_stack o with
          | [] => Panic "index out of range"
          | a :: _ => match answer a with Ok v => Ok (inr v) | Panic w => Panic w | Fuel => Fuel end
          end
      | _ => parse_fail s o None
      end
  end.

(** ** formula/precedence.go *)
(** int64 arithmetic wraps around. *)
Definition to_int64 (z : Z) : Z :=
  let r := z mod two64 in if r <? two63 then r else r - two64.
(** [asts[i].Value.(int64)] and [asts[i].Value.(string)] *)
Definition int_of (l : list ast) (i : nat) : res Z :=
  match nth_error l i with
  | None => Panic "index out of range"
  | Some a => match a_val a with VInt z => Ok z | _ => Panic "interface conversion" end
  end.
Definition str_of (l : list ast) (i : nat) : res bytes :=
  match nth_error l i with
  | None => Panic "index out of range"
  | Some a => match a_val a with VStr s => Ok s | _ => Panic "interface conversion" end
  end.
(** The ASTs of lines 26-29, 57-60 and 88-91 leave Type at its zero value, Nil. *)
Definition number_ast (z : Z) : ast := mkAst 0 "Number" TNil (VInt z) sp0.
(** What happens on a division by zero: in Go a run-time panic.  A parameter,
    because the proofs also use a variant that raises an error instead. *)
Definition div_panic : res (gerr + list ast) := Panic "integer divide by zero".
(** formula/precedence.go:16-30 *)
Definition negate : trans := fun _ _ asts =>
  bind (str_of asts 0) (fun op => bind (int_of asts 1) (fun x =>
    tok [number_ast (if bytes_eqb op (bs "-") then to_int64 (- x) else 0)])).
(** formula/precedence.go:45-61; Go's division truncates. *)
Definition mulDiv (divz : res (gerr + list ast)) : trans := fun _ _ asts =>
  bind (str_of asts 1) (fun op => bind (int_of asts 0) (fun x => bind (int_of asts 2) (fun y =>
    if bytes_eqb op (bs "*") then tok [number_ast (to_int64 (x * y))]
    else if bytes_eqb op (bs "/") then
      if y =? 0 then divz else tok [number_ast (to_int64 (Z.quot x y))]
    else tok [number_ast 0]))).
(** formula/precedence.go:75-92 *)
Definition addSub : trans := fun _ _ asts =>
  bind (str_of asts 1) (fun op => bind (int_of asts 0) (fun x => bind (int_of asts 2) (fun y =>
    if bytes_eqb op (bs "+") then tok [number_ast (to_int64 (x + y))]
    else if bytes_eqb op (bs "-") then tok [number_ast (to_int64 (x - y))]
    else tok [number_ast 0]))).
Definition formula_prod (divz : res (gerr + list ast)) : trans :=
  formulaProductionRules negate (mulDiv divz) addSub.
(** formula.go:158 *)
Definition int_answer (a : ast) : res Z :=
  match a_val a with VInt z => Ok z | _ => Panic "interface conversion" end.
(** formula.go:146-167 *)
Definition formula_Parse (n : nat) (s : bytes) : res (parse_error + Z) :=
  parse_with (formula_prod div_panic) int_answer n s.
