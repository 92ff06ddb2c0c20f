(** Specifications for the string leaf parsers (C15-C19, C44). *)
From Verif Require Export S_Core S_Text.

(** ** C15 *)
(** The parser takes one character of the set [P] at the start of [rest]. *)
Definition takes_char (cls : string) (P : Z -> Prop) (c o : ctx) : Prop :=
  exists r l v, next_char (skipn (c_pos c) (c_str c)) r l /\ (0 < l)%nat /\ P r /\ utf8_char r v /\
    c_st o = Matched /\ c_sp o = mkSP (c_pos c + l) l /\
    c_stack o = c_stack c ++ [mkAst 0 cls TString (VStr v) (c_sp c)].
Definition takes_nothing (c o : ctx) : Prop :=
  c_st o = Unmatched /\ c_sp o = c_sp c /\ c_stack o = c_stack c.
(** Nothing left, or a character outside the set. *)
Definition no_char (P : Z -> Prop) (c : ctx) : Prop :=
  forall r l, next_char (skipn (c_pos c) (c_str c)) r l -> l = 0%nat \/ ~ P r.

(** The documented sets. *)
Inductive char_set : pexp -> string -> (Z -> Prop) -> Prop :=
| cs_any : char_set SAny ":string:Any" (fun _ => True)
| cs_range : forall cr, char_set (SCharRange cr) ":string:CharRange"
    (fun r => exists x, In x cr /\ rr_start x <= r <= rr_end x)
| cs_rangeN : forall cr, char_set (SCharRangeN cr) ":string:CharRangeN"
    (fun r => forall x, In x cr -> ~ (rr_start x <= r <= rr_end x))
| cs_fn : forall f, char_set (SCharClassFn f) ":string:CharClassFn" (fun r => f r = true)
| cs_ws : char_set SWhitespace ":string:Whitespace"
    (fun r => In r [9; 10; 11; 12; 13; 32; 133; 160])
| cs_wsn : char_set SWhitespaceNoLineBreak ":string:WhitespaceNoLineBreak"
    (fun r => In r [9; 32; 160])
| cs_lb : char_set SLineBreak ":string:LineBreak" (fun r => In r [10; 11; 12; 13; 133])
| cs_alpha : char_set SAlpha ":string:Alpha" (fun r => 65 <= r <= 90 \/ 97 <= r <= 122)
| cs_number : char_set SNumber ":string:Number" (fun r => 48 <= r <= 57)
| cs_alnum : char_set SAlnum ":string:Alnum"
    (fun r => 65 <= r <= 90 \/ 97 <= r <= 122 \/ 48 <= r <= 57)
| cs_bin : char_set SBinNumber ":string:BinNumber" (fun r => r = 48 \/ r = 49)
| cs_oct : char_set SOctNumber ":string:OctNumber" (fun r => 48 <= r <= 55)
| cs_hex : char_set SHexNumber ":string:HexNumber"
    (fun r => 48 <= r <= 57 \/ 65 <= r <= 70 \/ 97 <= r <= 102).

(** ** C16 *)
(** The source continues with [s] at the position of [c]. *)
Definition continues (c : ctx) (s : bytes) : Prop := exists t, skipn (c_pos c) (c_str c) = s ++ t.
(** The parser consumes the text [w] and pushes it. *)
Definition takes_text (cls : string) (w : bytes) (c o : ctx) : Prop :=
  continues c w /\ c_st o = Matched /\ c_sp o = mkSP (c_pos c + length w) (length w) /\
  c_stack o = c_stack c ++ [mkAst 0 cls TString (VStr w) (c_sp c)].

(** The characters of any byte string (U+FFFD for each malformed byte). *)
Inductive chars : bytes -> list Z -> Prop :=
| ch_end : chars [] []
| ch_more : forall s r l rs, next_char s r l -> (0 < l)%nat -> chars (skipn l s) rs -> chars s (r :: rs).

(** Equal up to case: ASCII letters differ by 32, other characters by the folding
    table [fold] of the Unicode library. *)
Definition letter (r : Z) : Prop := 65 <= r <= 90 \/ 97 <= r <= 122.
Definition same_letter (fold : Z -> Z -> bool) (a b : Z) : Prop :=
  a = b \/
  (0 <= a < 128 /\ 0 <= b < 128 /\ letter a /\ letter b /\ (a = b + 32 \/ b = a + 32)) \/
  (~ (a < 128 /\ b < 128) /\ fold a b = true).

(** ** C17, C18 *)
Definition plain_fold (fold : Z -> Z -> bool) : Prop := forall r, fold 65533 r = true -> r = 65533.
(** The leaf parsers of valid-text grammars. *)
Inductive text_leaf : string -> parser -> Prop :=
| tl_error : forall msg, text_leaf ":base:Error" (lift (error_fn msg))
| tl_unmatched : text_leaf ":base:Unmatched" (lift unmatched_fn)
| tl_start : text_leaf ":base:Start" (lift start_fn)
| tl_end : text_leaf ":string:End" (lift end_fn)
| tl_wb : text_leaf ":string:WordBoundary" (lift word_boundary_fn)
| tl_any : text_leaf ":string:Any" (lift any_fn)
| tl_seq : forall s, valid_text s -> text_leaf ":string:Seq" (lift (seq_fn s))
| tl_seqi : forall fold s rs, plain_fold fold -> utf8 rs s -> ~ In 65533 rs ->
    text_leaf ":string:SeqI" (lift (seqi_fn fold s))
| tl_class : forall cc, Forall valid_text cc -> text_leaf ":string:CharClass" (lift (char_class_fn cc))
| tl_classN : forall cc, text_leaf ":string:CharClassN" (lift (char_classN_fn cc))
| tl_char : forall cls cls' test, text_leaf cls (lift (char_fn cls' test)).
(** C18 also allows Zero. *)
Inductive text_leaf0 : string -> parser -> Prop :=
| tl_zero : forall ins, text_leaf0 ":base:Zero" (lift (zero_fn ins))
| tl_text : forall cls fn, text_leaf cls fn -> text_leaf0 cls fn.
(** The text of a list of ASTs, looking into groups. *)
Inductive text_of : list ast -> bytes -> Prop :=
| to_nil : text_of [] []
| to_str : forall op cls v sp l s, text_of l s ->
    text_of (mkAst op cls TString (VStr v) sp :: l) (v ++ s)
| to_group : forall op cls l1 s1 sp l s, text_of l1 s1 -> text_of l s ->
    text_of (mkAst op cls TListOfAst (VAsts l1) sp :: l) (s1 ++ s).
(** Transformers that keep the text. *)
Definition keeps_text (t : trans) : Prop := forall n c l l' s,
  text_of l s -> t n c l = Ok (inr l') -> text_of l' s.
(** Transformers that look at nothing but source, slice, tag and position. *)
Definition plain_trans (t : trans) : Prop := mono_trans t /\ trans_ok t.
Definition text_spec : gspec := lib_spec text_leaf (fun t => keeps_text t /\ plain_trans t) anyZ.
Definition bound_spec : gspec := lib_spec text_leaf0 plain_trans anyZ.

(** ** C19 *)
Definition word_char (r : Z) : Prop :=
  48 <= r <= 57 \/ 65 <= r <= 90 \/ 97 <= r <= 122 \/ r = 95 \/ r = 36.
(** The last character before / the first character after a position. *)
Definition before_word (W : Z -> Prop) (s : bytes) (p : nat) : Prop :=
  exists t r cs, firstn p s = t ++ cs /\ utf8_char r cs /\ W r.
Definition after_word (W : Z -> Prop) (s : bytes) (p : nat) : Prop :=
  exists t r cs, skipn p s = cs ++ t /\ utf8_char r cs /\ W r.
(** The previous character is in a plane whose UTF-8 lead byte the code knows. *)
Definition known_lead (s : bytes) (p : nat) : Prop :=
  forall t r cs, firstn p s = t ++ cs -> utf8_char r cs ->
    r < 262144 \/ 786432 <= r < 1048576.

(** ** C44 *)
(** From position [p] to [q] of [s] the ASTs lie side by side: each string AST has as
    Position the index where its text stands in the source. *)
Inductive laid (s : bytes) : nat -> list ast -> nat -> Prop :=
| laid_nil : forall p, laid s p [] p
| laid_str : forall p op cls v len l q t, skipn p s = v ++ t -> laid s (p + length v) l q ->
    laid s p (mkAst op cls TString (VStr v) (mkSP p len) :: l) q
| laid_group : forall p op cls l1 sp p1 l q, laid s p l1 p1 -> laid s p1 l q ->
    laid s p (mkAst op cls TListOfAst (VAsts l1) sp :: l) q.
Definition place_spec : gspec := lib_spec text_leaf (fun _ => False) anyZ.
