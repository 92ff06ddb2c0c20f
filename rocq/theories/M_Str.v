(** Model of string/parsers.go, string/util.go, string/const.go, string/new.go. *)
From Verif Require Export M_Base M_Utf8.

(** string/new.go:8-13 and 16-22.  The capacity 1024 only matters in M_Heap.
    The zero MatchStatus is Matched. *)
Definition new_string_ctx_tag (s : bytes) (t : value) : ctx :=
  mkCtx s None sp0 0 [] Matched "" t.
Definition new_string_ctx (s : bytes) : ctx := new_string_ctx_tag s VNil.

(** string/util.go *)
Definition isWhitespace (r : Z) : bool :=                     (* 4-12 *)
  (r =? 9) || (r =? 10) || (r =? 11) || (r =? 12) || (r =? 13) || (r =? 32)
  || (r =? 133) || (r =? 160).
Definition isWhitespaceNoLineBreak (r : Z) : bool :=          (* 15-23 *)
  (r =? 9) || (r =? 32) || (r =? 160).
Definition isLineBreak (r : Z) : bool :=                      (* 26-34 *)
  (r =? 10) || (r =? 11) || (r =? 12) || (r =? 13) || (r =? 133).
Definition isWord (r : Z) : bool :=                           (* 37-43 *)
  in_rng 65 90 r || in_rng 97 122 r || in_rng 48 57 r || (r =? 95) || (r =? 36).

(** string/const.go:5-11; U+0085 and U+00A0 are two bytes in UTF-8. *)
Definition NEL : bytes := [194; 133].
Definition NBSP : bytes := [194; 160].
Definition WhitespaceCharacters : list bytes :=
  [[9]; [10]; [11]; [12]; [13]; [32]; NEL; NBSP].
Definition WhitespaceNoLineBreakCharacters : list bytes := [[9]; [32]; NBSP].
Definition LineBreakCharacters : list bytes := [[10]; [11]; [12]; [13]; NEL].

(** [ctx.Str[ctx.Position:]]; panics when Position > len. *)
Definition with_rest (c : ctx) (k : bytes -> out) : out :=
  if Nat.leb (c_pos c) (length (c_str c)) then k (skipn (c_pos c) (c_str c))
  else Panic "slice bounds out of range".

(** The common success tail of all leaf parsers, e.g. string/parsers.go:23-31:
    push one string AST with the entry SourcePosition, advance, set Length. *)
Definition push_str (cls : string) (c : ctx) (v : bytes) (length : nat) : ctx :=
  let c1 := set_stack c (c_stack c ++ [mkAst 0 cls TString (VStr v) (c_sp c)]) in
  let c2 := set_sp c1 (mkSP (c_pos c + length) length) in
  set_st c2 Matched.

Definition ret (c : ctx) : out := Ok (c, None).

(** string/parsers.go:12-35 *)
Definition any_fn : light_fn := fun c0 =>
  let c := set_st c0 Unmatched in
  with_rest c (fun rest =>
    let '(ch, l) := decode_rune rest in
    if Nat.eqb l 0 then ret c
    else ret (push_str ":string:Any" c (encode_rune ch) l)).

(** string/parsers.go:38-50 *)
Definition end_fn : light_fn := fun c0 =>
  let c := set_st c0 Unmatched in
  if Nat.eqb (c_pos c) (length (c_str c))
  then ret (set_st (set_len c 0) Matched)
  else ret c.

(** [ctx.Position+len(s) <= len(ctx.Str) && ctx.Str[Position:Position+len(s)] == s] *)
Definition has_prefix_at (str : bytes) (pos : nat) (s : bytes) : bool :=
  Nat.leb (pos + length s) (length str)
  && bytes_eqb (sub str pos (pos + length s)) s.

(** string/parsers.go:53-75 *)
Definition seq_fn (s : bytes) : light_fn := fun c0 =>
  let c := set_st c0 Unmatched in
  let l := length s in
  if Nat.leb (c_pos c + l) (length (c_str c)) then
    let w := sub (c_str c) (c_pos c) (c_pos c + l) in
    if bytes_eqb w s then ret (push_str ":string:Seq" c w l) else ret c
  else ret c.

(** strings.EqualFold (Go standard library), rune by rune.  [fold] is the
    simple-case-folding equivalence of the Unicode tables used for pairs that
    are not both ASCII (a parameter: unicode.SimpleFold orbits). *)
Definition ascii_lower (r : Z) : Z := if in_rng 65 90 r then r + 32 else r.
Definition rune_fold_eq (fold : Z -> Z -> bool) (a b : Z) : bool :=
  (a =? b)
  || (if (a <? 128) && (b <? 128) then ascii_lower a =? ascii_lower b else fold a b).
Fixpoint equal_fold (fold : Z -> Z -> bool) (n : nat) (s t : bytes) : bool :=
  match s, t with
  | [], [] => true
  | _ :: _, _ :: _ =>
      match n with
      | O => false
      | S n' =>
          let '(sr, sn) := decode_rune s in
          let '(tr, tn) := decode_rune t in
          rune_fold_eq fold sr tr && equal_fold fold n' (skipn sn s) (skipn tn t)
      end
  | _, _ => false
  end.

(** string/parsers.go:78-100 *)
Definition seqi_fn (fold : Z -> Z -> bool) (s : bytes) : light_fn := fun c0 =>
  let c := set_st c0 Unmatched in
  let l := length s in
  if Nat.leb (c_pos c + l) (length (c_str c)) then
    let w := sub (c_str c) (c_pos c) (c_pos c + l) in
    if equal_fold fold l w s then ret (push_str ":string:SeqI" c w l) else ret c
  else ret c.

Definition in_range (ch : Z) (rr : runerange) : bool :=
  (rr_start rr <=? ch) && (ch <=? rr_end rr).

(** Shape shared by the parsers that decode one character, test it and push it
    (string/parsers.go:103-130, 133-160, 227-251, 254-494: the same body with a
    different test and class name; the early return on no match and the for/break
    loops over ranges amount to the boolean [test]). *)
Definition char_fn (cls : string) (test : Z -> bool) : light_fn := fun c0 =>
  let c := set_st c0 Unmatched in
  with_rest c (fun rest =>
    let '(ch, l) := decode_rune rest in
    if Nat.eqb l 0 then ret c
    else if test ch then ret (push_str cls c (encode_rune ch) l)
    else ret c).

(** string/parsers.go:103-130 *)
Definition char_range_fn (cr : list runerange) : light_fn :=
  char_fn ":string:CharRange" (fun ch => existsb (in_range ch) cr).
(** string/parsers.go:133-160 *)
Definition char_rangeN_fn (cr : list runerange) : light_fn :=
  char_fn ":string:CharRangeN" (fun ch => negb (existsb (in_range ch) cr)).

(** string/parsers.go:163-188 *)
Fixpoint char_class_loop (cc : list bytes) (c : ctx) : ctx :=
  match cc with
  | [] => c
  | s :: cc' =>
      if has_prefix_at (c_str c) (c_pos c) s
      then push_str ":string:CharClass" c (sub (c_str c) (c_pos c) (c_pos c + length s)) (length s)
      else char_class_loop cc' c
  end.
Definition char_class_fn (cc : list bytes) : light_fn := fun c0 =>
  ret (char_class_loop cc (set_st c0 Unmatched)).

(** string/parsers.go:191-224 *)
Definition char_classN_fn (cc : list bytes) : light_fn := fun c0 =>
  let c := set_st c0 Unmatched in
  if existsb (has_prefix_at (c_str c) (c_pos c)) cc then ret c
  else
    with_rest c (fun rest =>
      let '(ch, l) := decode_rune rest in
      if Nat.eqb l 0 then ret c
      else ret (push_str ":string:CharClassN" c (encode_rune ch) l)).

Definition char_class_fn_fn (f : Z -> bool) := char_fn ":string:CharClassFn" f. (* 227-251 *)
Definition whitespace_fn := char_fn ":string:Whitespace" isWhitespace.          (* 254-278 *)
Definition whitespace_nlb_fn :=
  char_fn ":string:WhitespaceNoLineBreak" isWhitespaceNoLineBreak.              (* 281-305 *)
Definition linebreak_fn := char_fn ":string:LineBreak" isLineBreak.             (* 308-332 *)
Definition is_alpha (ch : Z) : bool := in_rng 65 90 ch || in_rng 97 122 ch.
Definition alpha_fn := char_fn ":string:Alpha" is_alpha.                        (* 335-359 *)
Definition is_digit (ch : Z) : bool := in_rng 48 57 ch.
Definition number_fn := char_fn ":string:Number" is_digit.                      (* 362-386 *)
Definition alnum_fn :=
  char_fn ":string:Alnum"
    (fun ch => in_rng 65 90 ch || in_rng 97 122 ch || in_rng 48 57 ch).         (* 389-413 *)
Definition bin_number_fn := char_fn ":string:BinNumber" (in_rng 48 49).         (* 416-440 *)
Definition oct_number_fn := char_fn ":string:OctNumber" (in_rng 48 55).         (* 443-467 *)
Definition is_hex (ch : Z) : bool :=
  in_rng 48 57 ch || in_rng 65 70 ch || in_rng 97 102 ch.
Definition hex_number_fn := char_fn ":string:HexNumber" is_hex.                 (* 470-494 *)

(** string/parsers.go:521, the (admittedly wrong, see the TODO there) test for a
    UTF-8 leading byte: F1, F2 and F4 are missing. *)
Definition wb_lead (b : Z) : bool :=
  (b <=? 127) || in_rng 194 240 b || (b =? 243).

(** string/parsers.go:515-525: scan backwards from index n-1 for a leading byte
    and decode there; (0,0) when none is found. *)
Fixpoint find_prev (str : bytes) (n : nat) : Z * nat :=
  match n with
  | O => (0, 0%nat)
  | S i =>
      if wb_lead (nth i str 0) then decode_rune (skipn i str)
      else find_prev str i
  end.

(** string/parsers.go:497-541, and extra/extra.go:241-285 which is the same code
    with another word predicate. *)
Definition word_boundary_gen (word : Z -> bool) : light_fn := fun c0 =>
  let c := set_st (set_len c0 0) Unmatched in
  with_rest c (fun rest =>
    let '(ch, l) := decode_rune rest in
    if Nat.eqb (c_pos c) 0 then
      ret (if Nat.ltb 0 l && word ch then set_st c Matched else c)
    else
      let '(pch, pl) := find_prev (c_str c) (c_pos c) in
      if Nat.eqb (c_pos c) (length (c_str c)) then
        ret (if Nat.ltb 0 pl && word pch then set_st c Matched else c)
      else if negb (Nat.eqb l 0) && negb (Nat.eqb pl 0) then
        ret (if (word pch && negb (word ch)) || (negb (word pch) && word ch)
             then set_st c Matched else c)
      else ret c).
Definition word_boundary_fn : light_fn := word_boundary_gen isWord.
