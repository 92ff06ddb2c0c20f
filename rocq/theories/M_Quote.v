(** Model of strconv.Quote for every text (Go standard library, strconv/quote.go:
    appendQuotedWith, appendEscapedRune; trusted reading).  Which runes IsPrint prints is
    a parameter. *)
From Verif Require Export M_Err.

(** The [n] lowest hexadecimal digits of [r]. *)
Fixpoint hexes (n : nat) (r : Z) : bytes :=
  match n with
  | O => []
  | S k => hexes k (r / 16) ++ [hex_digit (r mod 16)]
  end.
(** quote.go appendEscapedRune *)
Definition escape_rune (isprint : Z -> bool) (r : Z) : bytes :=
  if (r =? 34) || (r =? 92) then [92; r]
  else if isprint r then encode_rune r
  else if r =? 7 then bs "\a" else if r =? 8 then bs "\b" else if r =? 12 then bs "\f"
  else if r =? 10 then bs "\n" else if r =? 13 then bs "\r" else if r =? 9 then bs "\t" else if r =? 11 then bs "\v"
  else if (r <? 32) || (r =? 127) then bs "\x" ++ hexes 2 r
  else
    let r' := if valid_rune r then r else RuneError in
    if r' <? 65536 then bs "\u" ++ hexes 4 r' else bs "\U" ++ hexes 8 r'.
(** quote.go appendQuotedWith, the loop; [n] bounds the number of rounds. *)
Fixpoint quote_loop (isprint : Z -> bool) (n : nat) (s : bytes) : bytes :=
  match n, s with
  | S k, b :: _ =>
      let '(r, width) := decode_rune s in
      (if Nat.eqb width 1 && (r =? RuneError) then bs "\x" ++ hexes 2 b else escape_rune isprint r) ++
      quote_loop isprint k (skipn width s)
  | _, _ => []
  end.
Definition QuoteAll (isprint : Z -> bool) (s : bytes) : bytes := [34] ++ quote_loop isprint (length s) s ++ [34].

(** NumError.Error of strconv (Go standard library) *)
Definition num_text_all (isprint : Z -> bool) (fn : string) (num : bytes) (range : bool) : bytes :=
  bs "strconv." ++ bs fn ++ bs ": parsing " ++ QuoteAll isprint num ++ bs ": " ++ (if range then bs "value out of range" else bs "invalid syntax").
(** string/transformers.go:83, 117, 148 *)
Definition wrapped_all (isprint : Z -> bool) (who fn : string) (str num : bytes) (range : bool) : bytes :=
  bs "Transformer:" ++ bs who ++ bs ":Bad number format:" ++ str ++ bs ":" ++ num_text_all isprint fn num range.
(** err.Error() as in [error_text], for all texts.  The transformers with a radix must
    have one in 0, 2..36, or the error may be about the radix. *)
Definition error_text_all (isprint : Z -> bool) (e : gerr) : option bytes :=
  match e with
  | EText m => Some (bs m)
  | EBadType t => Some (bs "Transformer:Concat: Bad source type:" ++ AstType_String t)
  | ENum who txt range =>
      if String.eqb who "ParseInt" then Some (num_text_all isprint "ParseInt" txt range)
      else if String.eqb who "ParseFloat" then Some (wrapped_all isprint who "ParseFloat" txt txt range)
      else if String.eqb who "parseIntImpl" then Some (wrapped_all isprint who "ParseInt" txt txt range)
      else if String.eqb who "parseUintImpl" then Some (wrapped_all isprint who "ParseUint" txt (match txt with c :: t => if c =? 43 then t else txt | [] => [] end) range)
      else None
  | EUser _ => None
  end.
