(** Model of the error texts: AstType.String and MatchStatusType.String, the errors of
    the transformers, and the messages of the Parse functions of the examples. *)
From Verif Require Export M_LineCol M_Marshal.

(** base/ast.go:42-71.  AstType is a number in Go; "Unknown" is the answer for numbers
    without a name, which [asttype] does not have. *)
Definition AstType_String (t : asttype) : bytes :=
  match t with
  | TNil => bs "Nil" | TRune => bs "Rune" | TInt => bs "Int" | TUint => bs "Uint" | TFloat => bs "Float"
  | TBool => bs "Bool" | TString => bs "String" | TAstCons => bs "AstCons" | TListOfAst => bs "ListOfAst"
  | TListOfAny => bs "ListOfAny" | TFunction => bs "Function" | TAny => bs "Any"
  end.
(** base/types.go:51-62 *)
Definition MatchStatus_String (t : status) : bytes :=
  match t with Matched => bs "Matched" | Unmatched => bs "Unmatched" | Errored => bs "Error" end.

(** strconv.Quote (Go standard library) for ASCII texts; None for others, which are not
    modelled. *)
Definition hex_digit (d : Z) : Z := if d <? 10 then 48 + d else 87 + d.
Definition quote_byte (b : Z) : bytes :=
  if (b =? 34) || (b =? 92) then [92; b]
  else if (32 <=? b) && (b <? 127) then [b]
  else if b =? 7 then bs "\a" else if b =? 8 then bs "\b" else if b =? 12 then bs "\f"
  else if b =? 10 then bs "\n" else if b =? 13 then bs "\r" else if b =? 9 then bs "\t" else if b =? 11 then bs "\v"
  else bs "\x" ++ [hex_digit (b / 16); hex_digit (b mod 16)].
Definition Quote (s : bytes) : option bytes :=
  if forallb (fun b => b <? 128) s then Some ([34] ++ flat_map quote_byte s ++ [34]) else None.

(** NumError.Error of strconv (Go standard library) *)
Definition num_text (fn : string) (num : bytes) (range : bool) : option bytes :=
  match Quote num with
  | Some q => Some (bs "strconv." ++ bs fn ++ bs ": parsing " ++ q ++ bs ": " ++ (if range then bs "value out of range" else bs "invalid syntax"))
  | None => None
  end.
(** string/transformers.go:83, 117, 148 *)
Definition wrapped (who fn : string) (str num : bytes) (range : bool) : option bytes :=
  match num_text fn num range with
  | Some t => Some (bs "Transformer:" ++ bs who ++ bs ":Bad number format:" ++ str ++ bs ":" ++ t)
  | None => None
  end.
(** err.Error().  string/transformers.go:29 for EBadType.  The errors of formula and
    torpn are those of strconv.  None where the text is not modelled: errors of the
    caller, and errors other than ErrRange of the transformers with a radix, which may
    complain about the radix. *)
Definition error_text (e : gerr) : option bytes :=
  match e with
  | EText m => Some (bs m)
  | EBadType t => Some (bs "Transformer:Concat: Bad source type:" ++ AstType_String t)
  | ENum who txt range =>
      if String.eqb who "ParseInt" then num_text "ParseInt" txt range
      else if String.eqb who "ParseFloat" then wrapped who "ParseFloat" txt txt range
      else if negb range then None
      else if String.eqb who "parseIntImpl" then wrapped who "ParseInt" txt txt range
      else if String.eqb who "parseUintImpl" then wrapped who "ParseUint" txt (match txt with c :: t => if c =? 43 then t else txt | [] => [] end) range
      else None
  | EUser _ => None
  end.

(** strconv.Itoa *)
Definition Itoa (n : nat) : bytes := FormatInt (Z.of_nat n).
(** The message of a failed Parse: formula.go:146-167, torpn.go:146-179,
    csv/parser.go:130-151. *)
Definition message (e : option gerr) (lc : linecol) : option bytes :=
  match (match e with Some x => error_text x | None => Some (bs "Parse failed") end) with
  | Some t => Some (t ++ [10] ++ bs " --> Line " ++ Itoa (lc_line lc) ++ bs ", Col " ++ Itoa (lc_col lc) ++ [10] ++ lc_src lc)
  | None => None
  end.
