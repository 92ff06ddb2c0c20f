(** Specifications for identifiers at word boundaries (C55). *)
From Verif Require Export S_Extra S_Str.

(** The documented word characters of extra/util.go: ID_Continue, "$", ZWNJ and ZWJ
    (the latter two are in [id_continue]). *)
Definition documented_word (u : utables) (r : Z) : Prop := r = 36 \/ id_continue u r.
(** The characters of identifiers are in the planes whose lead byte the code knows (in
    Unicode: planes 0-3 and the variation selectors of plane 14), and "_" is a word
    character (in Unicode: Pc and no pattern character). *)
Definition known_planes (u : utables) : Prop :=
  forall r, id_start u r \/ id_continue u r -> r < 262144 \/ 786432 <= r < 1048576.
Definition underscore_word (u : utables) : Prop := id_continue u 95.
(** "$" is U+0024, and U+0021..U+002F are Pattern_Syntax in Unicode. *)
Definition dollar_syntax (u : utables) : Prop := in_table (ut_Pattern_Syntax u) 36.
Definition ends_in_dollar (w : bytes) : Prop := exists t, w = t ++ [36].

(** Like [token], except that words ending in "$" are refused. *)
Definition token_no_dollar (e : pexp) (cls : string) (R : tlang) : Prop :=
  forall env c, (forall k, peg_gram (env k)) -> Forall is_byte (c_str c) -> (c_pos c <= length (c_str c))%nat ->
  c_st c = Matched ->
  exists n o, run env n e c = Ok (o, None) /\
    ((exists w t a, longest R (skipn (c_pos c) (c_str c)) w t /\ ~ ends_in_dollar w /\
        c_st o = Matched /\ c_pos o = (c_pos c + length w)%nat /\ c_stack o = c_stack c ++ [a] /\
        a_cls a = cls /\ a_ty a = TString /\ a_val a = VStr t) \/
     (exists w t, longest R (skipn (c_pos c) (c_str c)) w t /\ ends_in_dollar w /\ c_st o = Unmatched) \/
     (no_word R (skipn (c_pos c) (c_str c)) /\ c_st o = Unmatched)).
