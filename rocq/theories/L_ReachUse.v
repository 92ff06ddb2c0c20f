(** Lemmas for C79: the grammars of extra/ and of the examples, and counting positions changes nothing. *)
From Verif Require Export L_ReachLib L_CountW.

Ltac near_leaf := match goal with |- near ?k ?u ?p =>
  first [eapply (near_mono 4 k); [lia|apply (library_near false); [exact (lr_char _ _)|discriminate]]
        |eapply near_mono; [|eapply (library_near false); [constructor; fail|discriminate]]; cbn; lia
        |eapply near_mono; [|eapply (library_near true); [constructor; fail|auto; fail]]; cbn; lia] end.
Ltac near_far := first [apply tr_far; constructor; fail|apply far_of; [solve [auto with blindness nocore]|reflexivity]|assumption].
Ltac near_tac := repeat match goal with
  | |- _ /\ _ => split
  | |- True => exact I
  | |- @eq bytes _ _ => reflexivity
  | |- Forall _ [] => constructor
  | |- Forall _ (_ :: _) => constructor
  | |- near _ _ _ => near_leaf
  | |- far_tr _ => near_far
  end.
Lemma extra_near v : each (near_exp 4 []) [BinaryNumberStr; OctalNumberStr; HexNumberStr; IntegerNumberStr; FloatNumberStr; NumericStr; AsciiIdentifierStr; UnicodeIdentifierStr v; UnicodeWordBoundary v; DateStr; DateTimeStr; TimeStr].
Proof. cbn. near_tac. Qed.
Lemma csv_near : near_exp 4 [] document.
Proof. cbn. near_tac. Qed.
Lemma formula_near prod : far_tr prod -> near_exp 4 [] (program prod) /\ forall k, near_exp 4 [] (grouped_env prod k).
Proof. intros H. cbn. split; [|intros _]; near_tac; auto. Qed.
Lemma tokens_near u v : each (near_exp 4 u) [BinaryNumberStr; OctalNumberStr; HexNumberStr; IntegerNumberStr; FloatNumberStr; NumericStr; AsciiIdentifierStr; UnicodeIdentifierStr v; DateStr; DateTimeStr; TimeStr].
Proof. cbn. near_tac. Qed.
Lemma csv_near_all u : near_exp 4 u document.
Proof. cbn. near_tac. Qed.

(** ** The answers *)
Lemma csim_mark p : csim (mark p) p.
Proof. apply csim_eq. reflexivity. Qed.
Lemma rdenote_same e : forall rho rho' n, (forall j, csim (rho j) (rho' j)) -> csim (rdenote rho n e) (denote rho' n e).
Proof.
  induction e using pexp_ind'; intros rho rho' nn Hr;
    try (assert (Hcs : Forall2 csim (map (rdenote rho nn) es) (map (denote rho' nn) es)) by
      (clear -H Hr; induction H; cbn; constructor; auto));
    cbn [rdenote denote]; unfold FlatGroup, Group, First, LookAhead, LookAheadN, Repeat, Trans, Indirect.
  - apply csim_mark.
  - apply (csim_base _ _ _ _ _ None); auto.
  - apply (csim_base _ _ _ _ _ (Some [GroupingTransform])); auto.
  - apply (csim_base _ _ _ _ _ None); auto.
  - apply (csim_base _ _ _ _ _ None); auto.
  - apply (csim_base _ _ _ _ _ None); auto.
  - intros k c J. unfold look_behind_base. apply esim_behind; [|exact I]. apply (csim_base _ _ _ _ _ None); auto.
  - apply (csim_base _ _ _ _ _ None); auto.
  - apply csim_base. constructor; auto.
  - apply esim_light. auto.
  - apply csim_base; auto.
Qed.
Lemma rrun_same env n e k c : snd (rrun env n e k c) = run env n e c.
Proof.
  assert (H : csim (rrun env n e) (run env n e)); [|apply csim_eq; exact H].
  unfold rrun, run. apply rdenote_same. intros j. revert j. induction n as [|m IH]; intros j.
  - apply csim_eq. reflexivity.
  - apply csim_eq. intros k' c'. cbn [rrun_env run_env]. revert k' c'. apply csim_eq. apply rdenote_same. exact IH.
Qed.
Lemma vout_alike m u x y : vout m u x y -> alike u x y.
Proof.
  destruct x as [[c e]|p|], y as [[d f]|q|]; cbn; auto. intros [(_ & _ & _ & P & L & _ & S & T & _) ->]. auto.
Qed.
Lemma run_view K u env e m n c d : (forall j, near_exp K u (env j)) -> near_exp K u e -> (furthest env n e c + K <= m)%nat -> view m u c d ->
  vout m u (run env n e c) (run env n e d).
Proof. intros Hv He L V. destruct (rrun_sim K m u env e Hv He n 0%nat c) as [_ H]. specialize (H d L V). rewrite rrun_same in H. exact H. Qed.
Lemma text_view m s t : firstn m s = firstn m t -> view m [] (new_string_ctx s) (new_string_ctx t).
Proof. intros E. unfold view. cbn. split; [exists t; auto|]. repeat split; auto. Qed.
