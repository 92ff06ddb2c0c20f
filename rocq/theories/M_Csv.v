(** Model of _examples/csv/parser.go, and of toCsvRow and ToCsv of
    _examples/csv/marshal.go. *)
From Verif Require Export M_Grammar M_Trans M_StrTrans M_LineCol.

(** _examples/csv/parser.go:17-22 *)
Definition cellBreakCharacters : list bytes := bs "," :: LineBreakCharacters.
(** _examples/csv/parser.go:25-27 *)
Definition csv_erase (e : pexp) : pexp := ETrans e [Erase].
(** _examples/csv/parser.go:30-32 *)
Definition csv_sp : pexp := csv_erase (EZeroOrMore [SWhitespaceNoLineBreak]).
(** _examples/csv/parser.go:34-55; 34 is the double quote. *)
Definition quoted_segment : list pexp :=
  [csv_sp;
   csv_erase (SSeq [34]);
   EZeroOrMore [EFirst [csv_erase (SSeq [34; 34]); SCharClassN [[34]]]];
   EFirst [csv_erase (SSeq [34]); EFlatGroup [SEnd; EError "Unexpected EOF"]];
   csv_sp].
Definition quotedCell : pexp := ETrans (EOneOrMore [EFlatGroup quoted_segment]) [Concat].
(** _examples/csv/parser.go:57-62 *)
Definition cell : pexp := ETrans (EZeroOrMore [SCharClassN cellBreakCharacters]) [Trim].

(** The loop of lines 69-71; a failed type assertion panics. *)
Fixpoint string_values (l : list ast) : res (list bytes) :=
  match l with
  | [] => Ok []
  | a :: l' =>
      match a_val a with
      | VStr s => match string_values l' with Ok ss => Ok (s :: ss) | Panic w => Panic w | Fuel => Fuel end
      | _ => Panic "interface conversion"
      end
  end.
(** _examples/csv/parser.go:65-78 *)
Definition lineTransform : trans := fun _ _ asts =>
  match string_values asts with
  | Ok w => tok [mkAst 0 "*Line" TAny (VStrs w) sp0]
  | Panic w => Panic w
  | Fuel => Fuel
  end.
(** _examples/csv/parser.go:80-91 *)
Definition csv_line : pexp :=
  ETrans (EFlatGroup [EZeroOrMore [EFirst [quotedCell; cell]; csv_erase (SSeq (bs ","))];
                      EFirst [quotedCell; cell]])
         [lineTransform].

(** The loop of lines 98-100. *)
Fixpoint row_values (l : list ast) : res (list (list bytes)) :=
  match l with
  | [] => Ok []
  | a :: l' =>
      match a_val a with
      | VStrs r => match row_values l' with Ok rs => Ok (r :: rs) | Panic w => Panic w | Fuel => Fuel end
      | _ => Panic "interface conversion"
      end
  end.
(** The test of line 102. *)
Definition blank_row (r : list bytes) : bool :=
  match r with [] => true | [c] => match c with [] => true | _ => false end | _ => false end.
(** The loop of lines 101-107, from the last row backwards: [k] rows are left. *)
Fixpoint drop_blank_tail (k : nat) (w : list (list bytes)) : list (list bytes) :=
  match k with
  | O => w
  | S i => if blank_row (nth i w []) then drop_blank_tail i (firstn i w) else w
  end.
(** _examples/csv/parser.go:94-114 *)
Definition documentTransform : trans := fun _ _ asts =>
  match row_values asts with
  | Ok w => tok [mkAst 0 "*Document" TAny (VStrss (drop_blank_tail (length w) w)) sp0]
  | Panic w => Panic w
  | Fuel => Fuel
  end.
(** _examples/csv/parser.go:116-128 *)
Definition document : pexp :=
  ETrans (EFlatGroup [EZeroOrMore [csv_line; csv_erase (EOneOrMore [SLineBreak])];
                      csv_line;
                      SEnd])
         [documentTransform].

(** An error of Parse: what went wrong (None is the text "Parse failed") and the
    reported position.  M_Err renders both into one text (lines 134-138 and
    145-149). *)
Record csv_error := mkCE { ce_err : option gerr; ce_pos : linecol }.
Definition csv_fail (s : bytes) (o : ctx) (err : option gerr) : res (csv_error + list (list bytes)) :=
  match GetLineAndColPosition s (c_pos o) 4 with
  | Ok lc => Ok (inl (mkCE err lc))
  | Panic w => Panic w
  | Fuel => Fuel
  end.
(** _examples/csv/parser.go:130-151; [n] is the fuel of the parser. *)
Definition Parse (n : nat) (s : bytes) : res (csv_error + list (list bytes)) :=
  match run (fun _ => EUnmatched) n document (new_string_ctx s) with
  | Panic w => Panic w
  | Fuel => Fuel
  | Ok (o, Some e) => csv_fail s o (Some e)
  | Ok (o, None) =>
      match c_st o with
      | Matched =>
          match c_stack o with
          | [] => Panic "index out of range"
          | a :: _ => match a_val a with VStrss t => Ok (inr t) | _ => Panic "interface conversion" end
          end
      | _ => csv_fail s o None
      end
  end.

(** [0 <= strings.IndexRune(s, r)]: the UTF-8 encoding of r occurs in s. *)
Fixpoint contains (sub s : bytes) : bool :=
  bytes_eqb (firstn (length sub) s) sub || match s with [] => false | _ :: s' => contains sub s' end.
(** strings.ReplaceAll that doubles every double quote *)
Definition double_quotes (s : bytes) : bytes := flat_map (fun b => if b =? 34 then [34; 34] else [b]) s.
(** _examples/csv/marshal.go:16-27 *)
Definition needs_quotes (s : bytes) : bool :=
  contains [44] s || contains [10] s || contains [11] s || contains [12] s || contains [13] s || contains NEL s.
Definition toCsvCell (s : bytes) : bytes := if needs_quotes s then 34 :: double_quotes s ++ [34] else s.
(** _examples/csv/marshal.go:11-29: [first] is [i = 0]. *)
Fixpoint toCsvRow_from (first : bool) (row : list bytes) : bytes :=
  match row with
  | [] => []
  | c :: r => (if first then [] else [44]) ++ toCsvCell c ++ toCsvRow_from false r
  end.
Definition toCsvRow (row : list bytes) : bytes := toCsvRow_from true row.
(** _examples/csv/marshal.go:32-43 *)
Fixpoint ToCsv_from (first : bool) (a : list (list bytes)) : bytes :=
  match a with
  | [] => []
  | r :: a' => (if first then [] else [10]) ++ toCsvRow r ++ ToCsv_from false a'
  end.
Definition ToCsv (a : list (list bytes)) : bytes := ToCsv_from true a.
