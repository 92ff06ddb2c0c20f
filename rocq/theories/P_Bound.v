(** Property theorems for the exact behaviour of WordBoundary: C19. *)
From Verif Require Import L_Text L_Bound.

Definition no_env : nat -> pexp := fun _ => EUnmatched.

(** On every valid source: WordBoundary compares the next character with the last one in
    front that is not in U+40000..U+BFFFF or U+100000..U+10FFFF, and does not match at all
    where all characters in front are. *)
Theorem C19_word_boundary_exact : forall env n c, boundary (c_str c) (c_pos c) ->
  exists o, run env n SWordBoundary c = Ok (o, None) /\ c_st o <> Errored /\
    (c_st o = Matched <->
      (c_pos c = 0%nat /\ after_word word_char (c_str c) (c_pos c)) \/
      (exists r, seen_before (c_str c) (c_pos c) r /\
         ((word_char r /\ ~ after_word word_char (c_str c) (c_pos c)) \/ (~ word_char r /\ after_word word_char (c_str c) (c_pos c))))).
Proof. exact (fun env n c => word_boundary_exact env n ":string:WordBoundary" isWord word_char c isWord_spec). Qed.
Print Assumptions C19_word_boundary_exact.
(** The same for extra.UnicodeWordBoundary. *)
Theorem C19_unicode_word_boundary_exact : forall env n (word : Z -> bool) (W : Z -> Prop) c, (forall r, word r = true <-> W r) ->
  boundary (c_str c) (c_pos c) ->
  exists o, run env n (ELight ":string:WordBoundary" (lift (word_boundary_gen word))) c = Ok (o, None) /\ c_st o <> Errored /\
    (c_st o = Matched <->
      (c_pos c = 0%nat /\ after_word W (c_str c) (c_pos c)) \/
      (exists r, seen_before (c_str c) (c_pos c) r /\
         ((W r /\ ~ after_word W (c_str c) (c_pos c)) \/ (~ W r /\ after_word W (c_str c) (c_pos c))))).
Proof. exact (fun env n word W c => word_boundary_exact env n ":string:WordBoundary" word W c). Qed.
Print Assumptions C19_unicode_word_boundary_exact.

(** Behind "a", U+100000 the "a" is seen; behind U+100000 alone nothing is. *)
Example C19_exact_example : seen_before [97; 244; 128; 128; 128; 98] 5 97 /\ (forall r, ~ seen_before [244; 128; 128; 128; 98] 4 r) /\
  boundary [97; 244; 128; 128; 128; 98] 5 /\
  exists o, run no_env 1 SWordBoundary (set_sp (new_string_ctx [244; 128; 128; 128; 98]) (mkSP 4 0)) = Ok (o, None) /\ c_st o = Unmatched.
Proof.
  assert (C : utf8_char 1048576 [244; 128; 128; 128]) by (apply (u_4 4 0 0 0); lia).
  split; [|split; [|split]].
  - exists [], [97], [244; 128; 128; 128], [1048576]. split; [reflexivity|]. split; [constructor; lia|]. unfold passed_over. split; [lia|].
    split; [apply (u_cons 1048576 [244; 128; 128; 128] [] []); [exact C|constructor]|repeat constructor; unfold passed_over; lia].
  - intros r S. apply seen_find in S; [|simpl; lia]. destruct S as (l & L & E). vm_compute in E. injection E as _ <-. congruence.
  - split; [cbn; repeat constructor|]. split.
    + exists [97; 1048576]. apply (u_cons 97 [97]); [constructor; lia|]. apply (u_cons 1048576 [244; 128; 128; 128] [] []); [exact C|constructor].
    + exists [98]. apply (u_cons 98 [98] [] []); [constructor; lia|constructor].
  - eexists. split; [vm_compute; reflexivity|reflexivity].
Qed.
