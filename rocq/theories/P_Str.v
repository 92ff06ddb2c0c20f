(** Property theorems for the string leaf parsers: C15-C19 and C44. *)
From Verif Require Import L_Text P_Core.

(** ** C15 *)
(** On any bytes and at any position, each of the character parsers either takes
    exactly one character of its set or takes nothing and there is none. *)
Theorem C15_character_parsers : forall e cls P, char_set e cls P ->
  forall env n c, Forall is_byte (c_str c) -> (c_pos c <= length (c_str c))%nat ->
  exists o, run env n e c = Ok (o, None) /\
    (takes_char cls P c o \/ (no_char P c /\ takes_nothing c o)).
Proof. exact char_sets. Qed.
Print Assumptions C15_character_parsers.

(** The specification of "the next character" is total and deterministic. *)
Theorem C15_next_char_unique : forall s r l r' l', Forall is_byte s ->
  next_char s r l -> next_char s r' l' -> r = r' /\ l = l'.
Proof. exact next_func. Qed.
Print Assumptions C15_next_char_unique.

(** The exported lists (string/const.go:6-13) hold the encodings of the same characters as
    the parsers take. *)
Theorem C15_character_lists : forall cs,
  (In cs WhitespaceCharacters <-> exists r, In r [9; 10; 11; 12; 13; 32; 133; 160] /\ utf8_char r cs) /\
  (In cs WhitespaceNoLineBreakCharacters <-> exists r, In r [9; 32; 160] /\ utf8_char r cs) /\
  (In cs LineBreakCharacters <-> exists r, In r [10; 11; 12; 13; 133] /\ utf8_char r cs).
Proof.
  assert (K : forall L R cs, Forall scalar R -> L = map encode_rune R -> (In cs L <-> exists r, In r R /\ utf8_char r cs)).
  { intros L R cs F ->. rewrite in_map_iff. split.
    - intros (r & <- & I). exists r. split; [exact I|]. apply encode_valid. exact (proj1 (Forall_forall _ _) F r I).
    - intros (r & I & U). exists r. split; [apply encode_char, U|exact I]. }
  intros cs. split; [|split]; (apply K; [repeat constructor; cbn; lia|reflexivity]).
Qed.
Print Assumptions C15_character_lists.

Example C15_example_kanji : exists o,  (* U+5B57, three bytes *)
  run no_env 1 (SCharRange [mkRR 19968 40959]) (new_string_ctx [229; 173; 151; 97]) = Ok (o, None) /\
  takes_char ":string:CharRange" (fun r => exists x, In x [mkRR 19968 40959] /\ rr_start x <= r <= rr_end x)
    (new_string_ctx [229; 173; 151; 97]) o.
Proof.
  destruct (C15_character_parsers _ _ _ (cs_range [mkRR 19968 40959]) no_env 1 (new_string_ctx [229; 173; 151; 97]))
    as (o & E & H).
  - repeat constructor; unfold is_byte; lia.
  - apply Nat.le_0_l.
  - exists o. split; auto. destruct H as [H|[_ (H & _)]]; auto. vm_compute in E. inversion E; subst. discriminate.
Qed.
(** A malformed byte is taken by Any as U+FFFD, one byte wide, and stored as its
    three-byte encoding. *)
Example C15_example_malformed : exists o,
  run no_env 1 SAny (new_string_ctx [255; 97]) = Ok (o, None) /\ c_pos o = 1%nat /\
  map a_val (c_stack o) = [VStr [239; 191; 189]].
Proof. eexists. split; [vm_compute; reflexivity|]. split; reflexivity. Qed.

(** ** C16 *)
Theorem C16_seq : forall env n s c, (c_pos c <= length (c_str c))%nat ->
  exists o, run env n (SSeq s) c = Ok (o, None) /\
    (takes_text ":string:Seq" s c o \/ (~ continues c s /\ takes_nothing c o)).
Proof. exact seq_ok. Qed.
Print Assumptions C16_seq.

Theorem C16_char_class : forall env n cc c, (c_pos c <= length (c_str c))%nat ->
  exists o, run env n (SCharClass cc) c = Ok (o, None) /\
    ((exists pre s post, cc = pre ++ s :: post /\ Forall (fun x => ~ continues c x) pre /\
        takes_text ":string:CharClass" s c o) \/
     (Forall (fun x => ~ continues c x) cc /\ takes_nothing c o)).
Proof. exact class_ok. Qed.
Print Assumptions C16_char_class.

Theorem C16_char_classN : forall env n cc c,
  Forall is_byte (c_str c) -> (c_pos c <= length (c_str c))%nat ->
  exists o, run env n (SCharClassN cc) c = Ok (o, None) /\
    ((Forall (fun x => ~ continues c x) cc /\ takes_char ":string:CharClassN" (fun _ => True) c o) \/
     ((Exists (continues c) cc \/ c_pos c = length (c_str c)) /\ takes_nothing c o)).
Proof. exact classN_ok. Qed.
Print Assumptions C16_char_classN.

Theorem C16_seqi : forall env n fold s c,
  Forall is_byte (c_str c) -> Forall is_byte s -> (c_pos c <= length (c_str c))%nat ->
  exists o, run env n (SSeqI fold s) c = Ok (o, None) /\
    ((exists w rs rt, length w = length s /\ chars w rs /\ chars s rt /\ Forall2 (same_letter fold) rs rt /\
        takes_text ":string:SeqI" w c o) \/
     ((forall w rs rt, continues c w -> length w = length s -> chars w rs -> chars s rt ->
         ~ Forall2 (same_letter fold) rs rt) /\ takes_nothing c o)).
Proof. exact seqi_ok. Qed.
Print Assumptions C16_seqi.

(** "selEcT" is taken by SeqI("Select"); the value keeps the source spelling. *)
Example C16_example : exists o,
  run no_env 1 (SSeqI (fun _ _ => false) (bs "Select")) (new_string_ctx (bs "selEcT *")) = Ok (o, None) /\
  c_st o = Matched /\ c_pos o = 6%nat /\ map a_val (c_stack o) = [VStr (bs "selEcT")].
Proof. eexists. split; [vm_compute; reflexivity|]. repeat split. Qed.
(** CharClass takes the first listed prefix, not the longest. *)
Example C16_example_first : exists o,
  run no_env 1 (SCharClass [bs "<"; bs "<="]) (new_string_ctx (bs "<=")) = Ok (o, None) /\ c_pos o = 1%nat.
Proof. eexists. split; [vm_compute; reflexivity|reflexivity]. Qed.
(** An empty literal in CharClass takes the empty text: Matched without progress. *)
Example C16_example_empty : exists o,
  run no_env 1 (SCharClass [bs "x"; []]) (new_string_ctx (bs "a")) = Ok (o, None) /\
  c_st o = Matched /\ c_pos o = 0%nat /\ length (c_stack o) = 1%nat.
Proof. eexists. split; [vm_compute; reflexivity|]. repeat split. Qed.

(** ** C17 *)
Theorem C17_no_text_lost : forall env e n c o,
  (forall k, gram text_spec (env k)) -> gram text_spec e ->
  boundary (c_str c) (c_pos c) -> c_st c = Matched ->
  run env n e c = Ok (o, None) -> c_st o = Matched ->
  (c_pos c <= c_pos o <= length (c_str c))%nat /\
  exists l, c_stack o = c_stack c ++ l /\ text_of l (sub (c_str c) (c_pos c) (c_pos o)).
Proof. exact text_run. Qed.
Print Assumptions C17_no_text_lost.

(** The transformers of the library that may occur in such grammars. *)
Theorem C17_transformers : forall t,
  In t [Concat; GroupingTransform] \/ (exists o s, t = SetOpCodeAndClassName o s) \/
  (exists o, t = SetOpCode o) \/ (exists s, t = ChangeClassName s) ->
  keeps_text t /\ plain_trans t.
Proof. exact text_trans_lib. Qed.
Print Assumptions C17_transformers.

(** A tokenizer: words or single characters, words concatenated and grouped. *)
Definition tokens : pexp :=
  EZeroOrMore [EFirst [ETrans (EOneOrMore [SAlpha]) [Concat];
                       EGroup [ELookAheadN [SSeq (bs "!")]; SAny]]].
Example C17_example : exists o l,
  gram text_spec tokens /\
  run no_env 9 tokens (new_string_ctx [97; 98; 32; 227; 129; 130; 33]) = Ok (o, None) /\
  c_st o = Matched /\ c_stack o = l /\ text_of l [97; 98; 32; 227; 129; 130] /\ length l = 3%nat.
Proof.
  eexists. eexists. split; [|split; [vm_compute; reflexivity|split; [reflexivity|split; [reflexivity|split; [|reflexivity]]]]].
  - text_tac; try (apply ascii_text; repeat constructor; lia).
  - cbn. change [97; 98; 32; 227; 129; 130] with ([97; 98] ++ ([32] ++ []) ++ ([227; 129; 130] ++ []) ++ []).
    repeat constructor.
Qed.
(** Without the restriction on SeqI the claim is false: the literal "k" U+FFFD is
    four bytes long and takes the four bytes of U+212A (Kelvin sign) and the first
    byte of what follows, ending inside a character. *)
Definition kelvin_fold (a b : Z) : bool := (a =? b) || ((a =? 8490) && (b =? 107)).
Theorem C17_seqi_mid_character_refuted : exists s o,
  valid_text s /\
  run no_env 1 (SSeqI kelvin_fold [107; 239; 191; 189]) (new_string_ctx s) = Ok (o, None) /\
  c_st o = Matched /\ ~ boundary s (c_pos o).
Proof.
  exists [226; 132; 170; 226; 130; 172]. eexists. split; [|split; [vm_compute; reflexivity|split; [reflexivity|]]].
  - exists [8490; 8364]. apply (u_cons 8490 [226; 132; 170]); [apply (u_3 2 4 42); lia|].
    apply (u_cons 8364 [226; 130; 172] [] []); [apply (u_3 2 2 44); lia|constructor].
  - intros (_ & _ & rs & H). cbn in H. inversion H as [|r cs rs' s' Hc Hs E1 E2]; subst.
    destruct (char_bytes _ _ Hc) as (b & u & -> & _ & Hb & _). cbn in E2. inversion E2; subst. lia.
Qed.
Print Assumptions C17_seqi_mid_character_refuted.

(** ** C18 *)
Theorem C18_character_boundaries : forall env e n c o,
  (forall k, gram bound_spec (env k)) -> gram bound_spec e ->
  boundary (c_str c) (c_pos c) -> c_st c = Matched ->
  run env n e c = Ok (o, None) -> c_st o = Matched ->
  boundary (c_str c) (c_pos o).
Proof. exact bound_run. Qed.
Print Assumptions C18_character_boundaries.

(** Non-vacuity, with a look-behind and a transformer that drops text. *)
Example C18_example : exists o,
  gram bound_spec (EFlatGroup [ETrans SAny [Erase]; ELookBehind false 1 3 [SAny]; EZero []; SAny]) /\
  boundary [227; 129; 130; 206; 177; 97] 0 /\
  run no_env 9 (EFlatGroup [ETrans SAny [Erase]; ELookBehind false 1 3 [SAny]; EZero []; SAny])
    (new_string_ctx [227; 129; 130; 206; 177; 97]) = Ok (o, None) /\ c_st o = Matched /\ c_pos o = 5%nat.
Proof.
  eexists. split; [|split; [|split; [vm_compute; reflexivity|split; reflexivity]]].
  - text_tac; apply Erase_good.
  - split; [simpl; lia|]. split; [exists []; constructor|]. exists [12354; 945; 97].
    apply (u_cons 12354 [227; 129; 130]); [apply (u_3 3 1 2); lia|].
    apply (u_cons 945 [206; 177]); [apply (u_2 14 49); lia|].
    apply (u_cons 97 [97] [] []); [constructor; lia|constructor].
Qed.

(** ** C19 *)
(** Holds when the previous character is none of those whose lead byte the code
    does not know (U+40000..U+BFFFF and U+100000..U+10FFFF). *)
Theorem C19_word_boundary_partial : forall env n c,
  boundary (c_str c) (c_pos c) -> known_lead (c_str c) (c_pos c) ->
  exists o, run env n SWordBoundary c = Ok (o, None) /\ c_st o <> Errored /\
    (c_st o = Matched <->
      (before_word word_char (c_str c) (c_pos c) /\ ~ after_word word_char (c_str c) (c_pos c)) \/
      (~ before_word word_char (c_str c) (c_pos c) /\ after_word word_char (c_str c) (c_pos c))).
Proof. exact (fun env n c => word_boundary_ok env n ":string:WordBoundary" isWord word_char c isWord_spec). Qed.
Print Assumptions C19_word_boundary_partial.

(** extra.UnicodeWordBoundary: the same for any set of word characters. *)
Theorem C19_unicode_word_boundary_partial : forall env n (word : Z -> bool) (W : Z -> Prop) c,
  (forall r, word r = true <-> W r) ->
  boundary (c_str c) (c_pos c) -> known_lead (c_str c) (c_pos c) ->
  exists o, run env n (ELight ":string:WordBoundary" (lift (word_boundary_gen word))) c = Ok (o, None) /\
    c_st o <> Errored /\
    (c_st o = Matched <->
      (before_word W (c_str c) (c_pos c) /\ ~ after_word W (c_str c) (c_pos c)) \/
      (~ before_word W (c_str c) (c_pos c) /\ after_word W (c_str c) (c_pos c))).
Proof. exact (fun env n word W c => word_boundary_ok env n ":string:WordBoundary" word W c). Qed.
Print Assumptions C19_unicode_word_boundary_partial.

(** "a", U+100000, "b": between the last two WordBoundary should match (only the
    next character is a word character) but the scan passes over the unknown lead
    byte and finds the "a". *)
Theorem C19_word_boundary_refuted : exists c o,
  boundary (c_str c) (c_pos c) /\
  ~ before_word word_char (c_str c) (c_pos c) /\ after_word word_char (c_str c) (c_pos c) /\
  run no_env 1 SWordBoundary c = Ok (o, None) /\ c_st o = Unmatched.
Proof.
  assert (C : utf8_char 1048576 [244; 128; 128; 128]) by (apply (u_4 4 0 0 0); lia).
  exists (set_sp (new_string_ctx [97; 244; 128; 128; 128; 98]) (mkSP 5 0)). eexists.
  split; [|split; [|split; [|split; [vm_compute; reflexivity|reflexivity]]]].
  - split; [cbn; repeat constructor|]. split.
    + exists [97; 1048576]. apply (u_cons 97 [97]); [constructor; lia|].
      apply (u_cons 1048576 [244; 128; 128; 128] [] []); [exact C|constructor].
    + exists [98]. apply (u_cons 98 [98] [] []); [constructor; lia|constructor].
  - intros H. apply (before_iff word_char _ 5 [97] 1048576 [244; 128; 128; 128]) in H; auto. unfold word_char in H. lia.
  - exists [], 98, [98]. split; [reflexivity|]. split; [constructor; lia|]. unfold word_char. lia.
Qed.
Print Assumptions C19_word_boundary_refuted.

(** Non-vacuity: both outcomes, next to a three-byte character. *)
Example C19_example : exists o o',
  run no_env 1 SWordBoundary (set_sp (new_string_ctx [227; 129; 130; 98]) (mkSP 3 0)) = Ok (o, None) /\
  c_st o = Matched /\ known_lead [227; 129; 130; 98] 3 /\
  run no_env 1 SWordBoundary (set_sp (new_string_ctx [98; 99]) (mkSP 1 0)) = Ok (o', None) /\ c_st o' = Unmatched.
Proof.
  eexists. eexists. split; [vm_compute; reflexivity|]. split; [reflexivity|]. split; [|split; [vm_compute; reflexivity|reflexivity]].
  intros t r cs E Hc. left. assert (C : utf8_char 12354 [227; 129; 130]) by (apply (u_3 3 1 2); lia).
  change (firstn 3 [227; 129; 130; 98]) with ([] ++ [227; 129; 130]) in E.
  pose proof (char_suffix _ _ _ _ _ _ C Hc E) as <-.
  destruct (char_inj _ _ [] _ _ [] C Hc eq_refl) as (<- & _). lia.
Qed.

(** ** C44 *)
(** Position: in a grammar of text leaves without transformers the produced string
    ASTs lie side by side in the source, each at its Position. *)
Theorem C44_positions_partial : forall env e n c o,
  (forall k, gram place_spec (env k)) -> gram place_spec e ->
  boundary (c_str c) (c_pos c) -> c_st c = Matched ->
  run env n e c = Ok (o, None) -> c_st o = Matched ->
  exists l, c_stack o = c_stack c ++ l /\ laid (c_str c) (c_pos c) l (c_pos o).
Proof. exact place_run. Qed.
Print Assumptions C44_positions_partial.

(** Every leaf of both libraries except Zero stores in each AST it pushes the
    SourcePosition with which it was entered: Position is where its text starts, but
    Length is the length of the text consumed BEFORE. *)
Theorem C44_entry_position_partial : forall cls fn n c o, lib_leaf cls fn -> cls <> ":base:Zero"%string ->
  fn n c = Ok (o, None) ->
  exists l, c_stack o = c_stack c ++ l /\ Forall (fun a => a_sp a = c_sp c) l.
Proof. exact leaf_tags. Qed.
Print Assumptions C44_entry_position_partial.

(** Hence Length is not the length of the text: "abc" by Seq gets Length 0, and the
    "d" after it gets Length 3. *)
Theorem C44_length_refuted : exists o a b,
  run no_env 9 (EFlatGroup [SSeq (bs "abc"); SSeq (bs "d")]) (new_string_ctx (bs "abcd")) = Ok (o, None) /\
  c_stack o = [a; b] /\ a_val a = VStr (bs "abc") /\ sp_len (a_sp a) <> 3%nat /\
  a_val b = VStr (bs "d") /\ sp_len (a_sp b) = 3%nat.
Proof.
  eexists. eexists. eexists. split; [vm_compute; reflexivity|]. split; [reflexivity|].
  repeat split; try reflexivity. discriminate.
Qed.
Print Assumptions C44_length_refuted.
(** A Group's own AST has the zero position wherever it stands. *)
Theorem C44_group_position_refuted : exists o a b,
  run no_env 9 (EFlatGroup [SSeq (bs "abc"); EGroup [SSeq (bs "d")]]) (new_string_ctx (bs "abcd")) = Ok (o, None) /\
  c_stack o = [a; b] /\ a_ty b = TListOfAst /\ a_sp b = sp0.
Proof. eexists. eexists. eexists. split; [vm_compute; reflexivity|]. repeat split. Qed.
Print Assumptions C44_group_position_refuted.

Example C44_example : exists o,
  gram place_spec (EFlatGroup [SSeq (bs "ab"); EGroup [SAny; SNumber]]) /\
  run no_env 9 (EFlatGroup [SSeq (bs "ab"); EGroup [SAny; SNumber]]) (new_string_ctx (bs "abx1")) = Ok (o, None) /\
  c_st o = Matched /\ laid (bs "abx1") 0 (c_stack o) 4.
Proof.
  eexists. split; [|split; [vm_compute; reflexivity|split; [reflexivity|]]].
  - text_tac; try (apply ascii_text; repeat constructor; lia).
  - cbn. eapply laid_str; [reflexivity|]. cbn. eapply laid_group; [|constructor].
    eapply laid_str; [reflexivity|]. eapply laid_str; [reflexivity|]. constructor.
Qed.
