(** C79: what a parse can know of the text around it. *)
From Verif Require Import L_ReachUse M_Torpn.

(** Marking how far a run looks does not change its answer. *)
Theorem C79_same : forall env n e k c, snd (rrun env n e k c) = run env n e c.
Proof. exact rrun_same. Qed.
Print Assumptions C79_same.

(** If no parser looks at more than [K] bytes from its position on, a run depends only on the text up to [K] bytes after the
    furthest position at which it calls a parser, and not on texts [u] before its own. *)
Theorem C79_view : forall K u env e, (forall j, near_exp K u (env j)) -> near_exp K u e ->
  forall n c d, view (furthest env n e c + K) u c d -> alike u (run env n e c) (run env n e d).
Proof. intros K u env e Hv He n c d V. eapply vout_alike. eapply run_view; eauto. Qed.
Print Assumptions C79_view.
(** Texts: the same beginning, the same answer, be the rest another text, none at all, or cut off. *)
Theorem C79_after : forall K env e, (forall j, near_exp K [] (env j)) -> near_exp K [] e ->
  forall n s t, let m := (furthest env n e (new_string_ctx s) + K)%nat in firstn m s = firstn m t ->
  alike [] (run env n e (new_string_ctx s)) (run env n e (new_string_ctx t)).
Proof. intros K env e Hv He n s t m E. apply (C79_view K [] env e Hv He). apply text_view. exact E. Qed.
Print Assumptions C79_after.
(** A run that has not looked at the end of its text does not notice what is appended. *)
Theorem C79_append : forall K env e, (forall j, near_exp K [] (env j)) -> near_exp K [] e ->
  forall n s x, (furthest env n e (new_string_ctx s) + K <= length s)%nat ->
  alike [] (run env n e (new_string_ctx s)) (run env n e (new_string_ctx (s ++ x))).
Proof.
  intros K env e Hv He n s x L. apply (C79_after K env e Hv He). rewrite firstn_app. replace (_ - length s)%nat with 0%nat by lia. cbn [firstn]. rewrite app_nil_r. reflexivity.
Qed.
Print Assumptions C79_append.
(** A text is parsed in the middle of another as on its own, if no parser looks back. *)
Theorem C79_before : forall K u env e, (forall j, near_exp K u (env j)) -> near_exp K u e ->
  forall n s, alike u (run env n e (new_string_ctx s)) (run env n e (set_pos (new_string_ctx (u ++ s)) (length u))).
Proof.
  intros K u env e Hv He n s. apply (C79_view K u env e Hv He). unfold view. split; [exists s; auto|]. cbn. rewrite Nat.add_0_r. repeat split; auto.
Qed.
Print Assumptions C79_before.
Definition blank_env : nat -> pexp := fun _ => EUnmatched.
Lemma blank_near K u j : near_exp K u (blank_env j).
Proof. eapply near_mono; [|apply (library_near false 0); [constructor|discriminate]]. lia. Qed.
(** digits, then a letter that is not consumed *)
Definition count_word : pexp := EFlatGroup [EOneOrMore [SNumber]; ELookAhead [SAlpha]].
Example C79_append_example : near_exp 4 [] count_word /\ furthest blank_env 20 count_word (new_string_ctx (bs "12ab++")) = 2%nat /\
  (exists o, run blank_env 20 count_word (new_string_ctx (bs "12ab++")) = Ok (o, None) /\ c_st o = Matched /\ c_pos o = 2%nat /\ length (c_stack o) = 2%nat) /\
  alike [] (run blank_env 20 count_word (new_string_ctx (bs "12ab++"))) (run blank_env 20 count_word (new_string_ctx (bs "12ab++ and more"))).
Proof.
  assert (N : forall u, near_exp 4 u count_word) by (intros u; cbn; near_tac).
  split; [apply N|]. split; [vm_compute; reflexivity|]. split; [eexists; split; [vm_compute; reflexivity|repeat split]|].
  apply (C79_append 4 blank_env count_word (blank_near 4 []) (N []) 20 (bs "12ab++") (bs " and more")). vm_compute. lia.
Qed.
Example C79_before_example : alike (bs "x=") (run blank_env 20 count_word (new_string_ctx (bs "12ab"))) (run blank_env 20 count_word (set_pos (new_string_ctx (bs "x=12ab")) 2)) /\
  exists o, run blank_env 20 count_word (set_pos (new_string_ctx (bs "x=12ab")) 2) = Ok (o, None) /\ c_st o = Matched /\ c_pos o = 4%nat.
Proof.
  split; [|eexists; split; [vm_compute; reflexivity|repeat split]].
  apply (C79_before 4 (bs "x=") blank_env count_word (blank_near 4 _)). cbn. near_tac.
Qed.

(** What the parsers of the library look at: how many bytes, and whether at those before. *)
Theorem C79_leaves : forall b K p, library_reads b K p -> forall u, (b = true -> u = []) -> near K u p.
Proof. exact library_near. Qed.
Print Assumptions C79_leaves.
Theorem C79_transformers : forall t, library_tr t -> far_tr t.
Proof. exact tr_far. Qed.
Print Assumptions C79_transformers.
Example C79_leaves_example : near 3 (bs "x") (lift (seq_fn (bs "let"))) /\ near 4 [] (lift (word_boundary_gen isWord)) /\ far_tr Concat.
Proof.
  split; [apply (C79_leaves false 3); [exact (lr_seq (bs "let"))|discriminate]|]. split; [apply (C79_leaves true 4); [constructor|auto]|apply C79_transformers; constructor].
Qed.

(** The tokens of extra/ and the csv grammar look at no more than four bytes, and never back; the grammars of formula and torpn
    look back at word boundaries and the start of the text. *)
Theorem C79_uses : forall v,
  (forall u, Forall (near_exp 4 u) [BinaryNumberStr; OctalNumberStr; HexNumberStr; IntegerNumberStr; FloatNumberStr; NumericStr; AsciiIdentifierStr;
    UnicodeIdentifierStr v; DateStr; DateTimeStr; TimeStr; document]) /\ near_exp 4 [] (UnicodeWordBoundary v) /\
  forall divz prod, prod = formula_prod divz \/ prod = torpn_prod -> near_exp 4 [] (program prod) /\ forall k, near_exp 4 [] (grouped_env prod k).
Proof.
  intros v. split; [|split].
  - intros u. pose proof (tokens_near u v) as E. do 11 (destruct E as [? E]; apply Forall_cons; [assumption|]). apply Forall_cons; [apply csv_near_all|constructor].
  - pose proof (extra_near v) as E. apply E.
  - intros z p [-> | ->]; apply formula_near, rules_far; auto with blindness.
Qed.
Print Assumptions C79_uses.

(** ** Where it fails *)
(** One byte less than [K] is not enough: Any looks at four bytes. *)
Theorem C79_fewer_bytes_refuted : exists s t, let m := (furthest blank_env 9 SAny (new_string_ctx s) + 3)%nat in firstn m s = firstn m t /\
  ~ alike [] (run blank_env 9 SAny (new_string_ctx s)) (run blank_env 9 SAny (new_string_ctx t)).
Proof.
  exists [240; 159; 146; 150], [240; 159; 146]. split; [vm_compute; reflexivity|]. vm_compute. intros (_ & H & _). discriminate.
Qed.
Print Assumptions C79_fewer_bytes_refuted.
(** WordBoundary, Start and look-behinds depend on what comes before. *)
Theorem C79_look_back_refuted : forall e, In e [SWordBoundary; EStart; ELookBehind false 1 1 [SAlpha]] -> exists u s,
  ~ alike u (run blank_env 9 e (new_string_ctx s)) (run blank_env 9 e (set_pos (new_string_ctx (u ++ s)) (length u))).
Proof.
  intros e H. exists (bs "a"), (bs "b"). cbn in H. destruct H as [<-|[<-|[<-|[]]]]; vm_compute; intros (H & _); discriminate.
Qed.
Print Assumptions C79_look_back_refuted.
