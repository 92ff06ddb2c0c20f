(** Model of extra/extra.go and extra/util.go: the grammars are transcribed one
    call at a time.  [unicode.Is(table, r)] of the Go standard library is a
    parameter ([utables]). *)
From Verif Require Export M_Grammar M_Trans M_StrTrans.

(** The Unicode range tables that extra.go consults. *)
Record utables := mkUT {
  ut_L : Z -> bool; ut_Nl : Z -> bool; ut_Other_ID_Start : Z -> bool;
  ut_Mn : Z -> bool; ut_Mc : Z -> bool; ut_Nd : Z -> bool; ut_Pc : Z -> bool;
  ut_Other_ID_Continue : Z -> bool;
  ut_Pattern_Syntax : Z -> bool; ut_Pattern_White_Space : Z -> bool }.

(** extra/util.go:6-20 *)
Definition isUnicodeWord (u : utables) (r : Z) : bool :=
  (ut_L u r || ut_Nl u r || ut_Other_ID_Start u r || ut_Mn u r || ut_Mc u r || ut_Nd u r
   || ut_Pc u r || ut_Other_ID_Continue u r || (r =? 36) || (r =? 8204) || (r =? 8205))
  && negb (ut_Pattern_Syntax u r) && negb (ut_Pattern_White_Space u r).

(** One-character string literals as CharClass / Seq arguments. *)
Definition cc1 (s : string) : pexp := SCharClass [bs s].
Definition cc2 (s t : string) : pexp := SCharClass [bs s; bs t].
Definition range (a b : Z) : pexp := SCharRange [mkRR a b].

(** extra/extra.go:14-16 *)
Definition erase (e : pexp) : pexp := ETrans e [Erase].

(** extra/extra.go:19-33 *)
Definition BinaryNumberStr : pexp :=
  ETrans (EFlatGroup [range 48 49;
                      EZeroOrMore [EFirst [range 48 49; erase (cc1 "_")]]])
         [Concat; ChangeClassName ":extra:BinaryNumberStr"].
(** extra/extra.go:36-50 *)
Definition OctalNumberStr : pexp :=
  ETrans (EFlatGroup [range 48 55;
                      EZeroOrMore [EFirst [range 48 55; erase (cc1 "_")]]])
         [Concat; ChangeClassName ":extra:OctalNumberStr"].
(** extra/extra.go:53-73 *)
Definition HexNumberStr : pexp :=
  ETrans (EFlatGroup [EFirst [SNumber; range 65 70; range 97 102];
                      EZeroOrMore [EFirst [SNumber; range 65 70; range 97 102; erase (cc1 "_")]]])
         [Concat; ChangeClassName ":extra:HexNumberStr"].

(** The sub-grammars repeated in extra/extra.go: [First(FlatGroup("0", "_"...),
    FlatGroup(Number(), ...))] at lines 80-89, 115-124, 133-142 and 159-168, and
    [First(Number(), erase(CharClass("_")))]. *)
Definition dig_us : pexp := EFirst [SNumber; erase (cc1 "_")].
Definition int_part : pexp :=
  EFirst [EFlatGroup [cc1 "0"; EZeroOrMore [erase (cc1 "_")]];
          EFlatGroup [SNumber; EZeroOrMore [dig_us]]].
Definition opt_sign : pexp := EZeroOrOnce [cc2 "+" "-"].

(** extra/extra.go:76-94 *)
Definition IntegerNumberStr : pexp :=
  ETrans (EFlatGroup [opt_sign; int_part])
         [Concat; ChangeClassName ":extra:IntegerNumberStr"].
(** extra/extra.go:97-106 *)
Definition exponentStr : pexp :=
  EFlatGroup [cc2 "E" "e"; opt_sign; EFlatGroup [SNumber; EZeroOrMore [dig_us]]].
(** extra/extra.go:109-150 *)
Definition FloatNumberStr : pexp :=
  ETrans
    (EFlatGroup [opt_sign;
       EFirst [
         EFlatGroup [int_part;
                     EFlatGroup [cc1 "."; EZeroOrMore [dig_us]];
                     EZeroOrOnce [exponentStr]];
         EFlatGroup [cc1 "."; EOneOrMore [dig_us]; EZeroOrOnce [exponentStr]];
         EFlatGroup [int_part; exponentStr]]])
    [Concat; ChangeClassName ":extra:FloatNumberStr"].
(** extra/extra.go:153-180 *)
Definition NumericStr : pexp :=
  ETrans
    (EFlatGroup [opt_sign;
       EFirst [
         EFlatGroup [int_part; EZeroOrOnce [cc1 "."; EZeroOrMore [dig_us]]];
         EFlatGroup [cc1 "."; EOneOrMore [dig_us]]];
       EZeroOrOnce [exponentStr]])
    [Concat; ChangeClassName ":extra:NumericStr"].

(** extra/extra.go:183-198 *)
Definition AsciiIdentifierStr : pexp :=
  ETrans
    (EFlatGroup [EOnce [EFirst [SAlpha; cc2 "_" "$"]];
                 EZeroOrMore [EFirst [SAlnum; cc2 "_" "$"]]])
    [Concat; ChangeClassName ":extra:IdentifierStr"].

(** extra/extra.go:207-214 *)
Definition id_start_fn (u : utables) (c : Z) : bool :=
  (ut_L u c || ut_Nl u c || ut_Other_ID_Start u c)
  && negb (ut_Pattern_Syntax u c) && negb (ut_Pattern_White_Space u c).
(** extra/extra.go:219-232 *)
Definition id_continue_fn (u : utables) (c : Z) : bool :=
  (ut_L u c || ut_Nl u c || ut_Other_ID_Start u c || ut_Mn u c || ut_Mc u c || ut_Nd u c
   || ut_Pc u c || ut_Other_ID_Continue u c || (c =? 8204) || (c =? 8205))
  && negb (ut_Pattern_Syntax u c) && negb (ut_Pattern_White_Space u c).
(** extra/extra.go:201-238 *)
Definition UnicodeIdentifierStr (u : utables) : pexp :=
  ETrans
    (EFlatGroup [EOnce [EFirst [cc2 "_" "$"; SCharClassFn (id_start_fn u)]];
                 EZeroOrMore [EFirst [cc1 "$"; SCharClassFn (id_continue_fn u)]]])
    [Concat; ChangeClassName ":extra:IdentifierStr"].

(** extra/extra.go:241-285 (the body is that of string/parsers.go:WordBoundary with
    isUnicodeWord; the class name is that of the string package) *)
Definition UnicodeWordBoundary (u : utables) : pexp :=
  ELight ":string:WordBoundary" (lift (word_boundary_gen (isUnicodeWord u))).

Definition sq (s : string) : pexp := SSeq (bs s).
Definition strA (s : string) : ast := mkAst 0 "" TString (VStr (bs s)) sp0.
(** The common head of DateStr and DateTimeStr, extra/extra.go:291-298 and 313-320. *)
Definition date_part : list pexp :=
  [EZeroOrOnce [sq "-"]; ERepeat (mkTimes 4 (-1)) [SNumber]; sq "-";
   range 48 49; range 48 57; sq "-"; range 48 51; range 48 57].
(** extra/extra.go:288-303 *)
Definition DateStr : pexp :=
  ETrans (EFlatGroup date_part) [Concat; ChangeClassName ":extra:DateStr"].

(** extra/extra.go:340-345 and 400-405: [(asts[len(asts)-1].Value.(string) +
    "000000000")[0:9]]; panics on an empty list or a non-string. *)
Definition pad9 : trans := fun _ _ asts =>
  match rev asts with
  | [] => Panic "index out of range"
  | a :: _ =>
      match a_val a with
      | VStr s => tok [mkAst 0 "" TString (VStr (firstn 9 (s ++ bs "000000000"))) sp0]
      | _ => Panic "interface conversion"
      end
  end.
(** The common seconds part, extra/extra.go:327-357 and 390-420. *)
Definition seconds_part : pexp :=
  EFirst [
    EFlatGroup [sq ":"; range 48 54; range 48 57;
      EFirst [
        EFlatGroup [sq "."; ETrans (ERepeat (mkTimes 1 9) [range 48 57]) [Concat; pad9]];
        EZero [strA ".000000000"]]];
    EZero [strA ":00.000000000"]].
(** hh:mm, extra/extra.go:322-326 and 385-389 *)
Definition hm_part : list pexp := [range 48 50; range 48 57; sq ":"; range 48 53; range 48 57].
(** extra/extra.go:358-374 *)
Definition zone_part : pexp :=
  EFirst [
    EFlatGroup [erase (sq "Z"); EZero [strA "+00:00"]];
    EFlatGroup [cc2 "+" "-"; ERepeat (mkTimes 2 2) [range 48 57]; sq ":"; range 48 53; range 48 57]].
(** extra/extra.go:308-380 *)
Definition DateTimeStr : pexp :=
  ETrans (EFlatGroup (date_part ++ [sq "T"] ++ hm_part ++ [seconds_part; zone_part]))
         [Concat; ChangeClassName ":extra:DateTimeStr"].
(** extra/extra.go:383-427 *)
Definition TimeStr : pexp :=
  ETrans (EFlatGroup (hm_part ++ [seconds_part])) [Concat; ChangeClassName ":extra:TimeStr"].
