(** Property theorems for identifiers at word boundaries: C55. *)
From Verif Require Import S_Ident L_Extra L_Text L_Ident.

Definition no_env : nat -> pexp := fun _ => EUnmatched.


(** An ASCII identifier always ends at a word boundary: with WordBoundary() behind it
    the same words are read as without. *)
Theorem C55_ascii : token (EFlatGroup [AsciiIdentifierStr; SWordBoundary]) ":extra:IdentifierStr" (outL verbatim ascii_ident).
Proof. exact ascii_boundary. Qed.
Print Assumptions C55_ascii.

(** A Unicode identifier does so unless it ends in "$".  Missing: those that do. *)
Theorem C55_unicode_partial : forall u, ~ id_start u 65533 -> ~ id_continue u 65533 -> known_planes u -> underscore_word u -> dollar_syntax u ->
  token_no_dollar (EFlatGroup [UnicodeIdentifierStr u; UnicodeWordBoundary u]) ":extra:IdentifierStr" (outL verbatim (unicode_ident u)).
Proof. exact unicode_boundary. Qed.
Print Assumptions C55_unicode_partial.

(** The word characters of UnicodeWordBoundary. *)
Theorem C55_word_characters : forall u r, isUnicodeWord u r = true <->
  documented_word u r /\ ~ in_table (ut_Pattern_Syntax u) r /\ ~ in_table (ut_Pattern_White_Space u) r.
Proof. exact unicode_word_spec. Qed.
Print Assumptions C55_word_characters.

(** The tables of the letters, digits and pattern characters of ASCII. *)
Definition ascii_tables : utables :=
  let no := fun _ : Z => false in
  mkUT (fun r => ((65 <=? r) && (r <=? 90)) || ((97 <=? r) && (r <=? 122)))
       no no no no (fun r => (48 <=? r) && (r <=? 57)) (fun r => r =? 95) no
       (fun r => ((33 <=? r) && (r <=? 47)) || ((58 <=? r) && (r <=? 64)) || ((91 <=? r) && (r <=? 94)) || (r =? 96) || ((123 <=? r) && (r <=? 126)))
       (fun r => ((9 <=? r) && (r <=? 13)) || (r =? 32)).

(** "$" is a documented word character but is none, so the identifier "a$" is read
    by UnicodeIdentifierStr but does not end at a UnicodeWordBoundary. *)
Theorem C55_unicode_refuted :
  dollar_syntax ascii_tables /\ documented_word ascii_tables 36 /\ isUnicodeWord ascii_tables 36 = false /\
  (exists o, run no_env 99 (UnicodeIdentifierStr ascii_tables) (new_string_ctx (bs "a$")) = Ok (o, None) /\ c_st o = Matched /\ c_pos o = 2%nat) /\
  (exists o, run no_env 99 (EFlatGroup [UnicodeIdentifierStr ascii_tables; UnicodeWordBoundary ascii_tables]) (new_string_ctx (bs "a$")) = Ok (o, None) /\
     c_st o = Unmatched).
Proof.
  split; [reflexivity|]. split; [left; reflexivity|]. split; [reflexivity|]. split; eexists; (split; [vm_compute; reflexivity|]); auto.
Qed.
Print Assumptions C55_unicode_refuted.

Example C55_tables : ~ id_start ascii_tables 65533 /\ ~ id_continue ascii_tables 65533 /\ known_planes ascii_tables /\
  underscore_word ascii_tables /\ dollar_syntax ascii_tables.
Proof.
  split; [intros [H _]; cbn in H; intuition discriminate|]. split; [intros [H _]; cbn in H; intuition discriminate|].
  split; [|split; [|reflexivity]].
  - intros r H. left. assert (A : r < 128 \/ r = 8204 \/ r = 8205); [|lia].
    unfold id_start, id_continue, in_table in H. cbn in H.
    repeat match goal with H : _ \/ _ |- _ => destruct H | H : _ /\ _ |- _ => destruct H end; try discriminate; lia.
  - unfold underscore_word, id_continue, in_table. cbn. split; [tauto|]. split; discriminate.
Qed.
Example C55_example :
  (exists o, run no_env 99 (EFlatGroup [UnicodeIdentifierStr ascii_tables; UnicodeWordBoundary ascii_tables]) (new_string_ctx (bs "a$b.c")) = Ok (o, None) /\
     c_st o = Matched /\ c_pos o = 3%nat) /\
  (exists o, run no_env 99 (EFlatGroup [AsciiIdentifierStr; SWordBoundary]) (new_string_ctx (bs "a$")) = Ok (o, None) /\
     c_st o = Matched /\ c_pos o = 2%nat).
Proof. split; eexists; (split; [vm_compute; reflexivity|]); auto. Qed.
