(** Property theorems: recursive grammars (C56). *)
From Verif Require Import S_Rec L_Rec M_Formula.

(** Without left recursion every parse comes to an end, on every input. *)
Theorem C56_recursion_terminates : forall sz eat layer rank env e c,
  ranked sz eat layer rank env -> guarded sz eat anyI anyI anyI e -> in_bounds sz c ->
  exists n a, a <> Fuel /\ forall m, (n <= m)%nat -> run env m e c = a.
Proof. exact recursion_terminates. Qed.
Print Assumptions C56_recursion_terminates.
(** A rule that gets back to itself without consuming never comes to an end. *)
Theorem C56_left_recursion_diverges : forall w (X : nat -> srcpos -> Prop) e cur k to, peg_env w ->
  (forall k cur, X k cur -> exists k' cur', opens w (w_env w k) cur k' cur' /\ X k' cur') ->
  peg_gram e -> opens w e cur k to -> X k to ->
  forall n c, in_world w c -> c_sp c = cur -> run (w_env w) n e c = Fuel.
Proof. exact left_recursion_diverges. Qed.
Print Assumptions C56_left_recursion_diverges.
Theorem C56_library_leaves : forall sz fn, hungry fn -> eats_leaf sz fn.
Proof. exact hungry_eats. Qed.
Print Assumptions C56_library_leaves.

(** ** Deciding the conditions for a given grammar *)
Lemma simple_trans (f : list ast -> res (gerr + list ast)) : (forall l, f l <> Fuel) ->
  total_trans (fun _ _ l => f l) /\ mono_trans (fun _ _ l => f l).
Proof. intros H. split; [intros c l; exists 0%nat; apply H|intros n m c l _; right; reflexivity]. Qed.
Lemma concat_loop_total l : concat_loop l <> Fuel.
Proof.
  induction l as [|a l IH]; cbn [concat_loop]; [discriminate|]. destruct (asttype_eqb _ _); [|discriminate]. destruct (a_val a); cbn; try discriminate.
  destruct (concat_loop l) as [[? | ?]| ? |]; congruence.
Qed.
Lemma concat_total l : concat_asts l <> Fuel.
Proof.
  unfold concat_asts. destruct l; [discriminate|]. pose proof (concat_loop_total (a :: l)). destruct (concat_loop _) as [[? | ?]| ? |]; first [discriminate|congruence].
Qed.
Lemma Concat_total : total_trans Concat /\ mono_trans Concat.
Proof. apply simple_trans. exact concat_total. Qed.
Lemma Erase_total : total_trans Erase /\ mono_trans Erase.
Proof. apply simple_trans. discriminate. Qed.
Lemma ChangeClassName_total cls : total_trans (ChangeClassName cls) /\ mono_trans (ChangeClassName cls).
Proof. apply simple_trans. discriminate. Qed.
Lemma parseNumber_total : total_trans parseNumber /\ mono_trans parseNumber.
Proof.
  apply simple_trans. intros [|a l]; [discriminate|]. destruct (a_val a); try discriminate. destruct (parse_int s 10); discriminate.
Qed.
Ltac hungry_tac := first [apply h_char | apply h_any | apply h_seq; discriminate | apply h_seqi; discriminate
  | apply h_class; repeat (apply Forall_cons; [discriminate|]); apply Forall_nil | apply h_classN | apply h_oany | apply h_oseq; discriminate
  | apply h_oclass | apply h_oclassN | apply h_oclassFn | apply h_error | apply h_unmatched].
Ltac hnf_goal := match goal with
  | |- eats ?sz ?t ?e => let e1 := eval hnf in e in change (eats sz t e1)
  | |- guarded ?sz ?t ?b ?h ?l ?e => let e1 := eval hnf in e in change (guarded sz t b h l e1)
  end.
Ltac eats_tac := hnf_goal; lazymatch goal with
  | |- eats _ _ (ELight _ _) => apply eat_leaf; apply hungry_eats; hungry_tac
  | |- eats _ _ (EFlatGroup ?es) => some_eats es ltac:(fun x => apply eat_flat with x)
  | |- eats _ _ (EGroup ?es) => some_eats es ltac:(fun x => apply eat_group with x)
  | |- eats _ _ (EFirst ?es) => apply eat_first; [discriminate|all_eats]
  | |- eats _ _ (ERepeat ?t ?es) => some_eats es ltac:(fun x => apply eat_repeat with x; [vm_compute; discriminate| |])
  | |- eats _ _ (ETrans _ _) => apply eat_trans; eats_tac
  | |- eats _ _ (EIndirect _) => apply eat_rule; cbv; solve [auto]
  end
with some_eats es k := lazymatch es with
  | ?x :: ?xs => first [solve [k x; [in_tac|eats_tac]] | some_eats xs k]
  end
with in_tac := cbn [In]; repeat (first [left; reflexivity | right])
with all_eats := let e := fresh in let H := fresh in intros e H; cbn [In] in H;
   repeat (destruct H as [H|H]; [rewrite <- H; clear H; eats_tac|]); destruct H.
Ltac gd_tac := hnf_goal; lazymatch goal with
  | |- guarded _ _ _ _ _ (ELight ?c ?f) => let H := fresh in assert (H : string_leaf anyA c f) by string_leaf_tac;
      apply string_total in H; apply gd_leaf; apply H
  | |- guarded _ _ _ _ _ (EFlatGroup _) => apply gd_flat; gds_tac
  | |- guarded _ _ _ _ _ (EGroup _) => apply gd_group; gds_tac
  | |- guarded _ _ _ _ _ (ELookAhead _) => apply gd_ahead; gds_tac
  | |- guarded _ _ _ _ _ (ELookAheadN _) => apply gd_aheadN; gds_tac
  | |- guarded _ _ _ _ _ (EFirst _) => apply gd_first; gda_tac
  | |- guarded _ _ _ _ _ (ELookBehind _ _ _ _) => apply gd_behind; [lia|gds_tac]
  | |- guarded _ _ _ _ _ (ERepeat ?t ?es) => apply gd_repeat; [gds_tac|first [solve [let X := fresh in intros X; exfalso; cbv in X; discriminate X] | intros _; body_eats es]]
  | |- guarded _ _ _ _ _ (ETrans _ _) => apply gd_trans; [gd_tac|trans_tac]
  | |- guarded _ _ _ _ _ (EIndirect _) => apply gd_rule; cbn; try exact I; try lia
  end
with gds_tac := lazymatch goal with
  | |- guarded_seq _ _ _ _ _ (_ :: _) => first [apply gs_eat; [|solve [eats_tac]|] | apply gs_keep]; [gd_tac|gds_tac]
  | |- guarded_seq _ _ _ _ _ [] => apply gs_nil
  end
with gda_tac := lazymatch goal with
  | |- guarded_all _ _ _ _ _ (_ :: _) => apply ga_cons; [gd_tac|gda_tac]
  | |- guarded_all _ _ _ _ _ [] => apply ga_nil
  end
with body_eats es := lazymatch es with ?x :: ?xs => first [solve [exists x; split; [in_tac|eats_tac]] | body_eats xs] end
with trans_tac := repeat lazymatch goal with
  | |- allP _ [] => exact I
  | |- allP _ (_ :: _) => split
  | |- total_trans _ /\ mono_trans _ =>
      first [split; assumption | apply Concat_total | apply Erase_total | apply parseNumber_total | apply ChangeClassName_total]
  end.
(** ** Examples *)
(** Nested parentheses around letters: rule 0 calls itself behind the opening one. *)
Definition paren_env : nat -> pexp := fun _ =>
  EFirst [EFlatGroup [SSeq (bs "("); EZeroOrMore [EIndirect 0]; SSeq (bs ")")]; SAlpha].
Lemma paren_ranked : ranked str_size anyI (fun _ => 0%nat) (fun _ => 0%nat) paren_env.
Proof. split; intros k; [intros _; eats_tac|]. unfold paren_env. gd_tac. Qed.
Example C56_example : in_bounds str_size (new_string_ctx (bs "((a)b)")) /\
  ranked str_size anyI (fun _ => 0%nat) (fun _ => 0%nat) paren_env /\
  guarded str_size anyI anyI anyI anyI (EFlatGroup [EIndirect 0; SEnd]) /\
  exists o, run paren_env 30 (EFlatGroup [EIndirect 0; SEnd]) (new_string_ctx (bs "((a)b)")) = Ok (o, None) /\ c_st o = Matched /\ c_pos o = 6%nat.
Proof.
  split; [unfold in_bounds, c_pos; cbn; lia|]. split; [exact paren_ranked|]. split; [gd_tac|].
  eexists. split; [vm_compute; reflexivity|]. split; reflexivity.
Qed.

(** The grammar of the formula and torpn examples (formula.go:87-143) calls itself inside
    parentheses.  It comes to an end on every input, whatever total production rule is
    applied to the expressions. *)
Lemma formula_ranked prod : total_trans prod -> mono_trans prod ->
  ranked str_size anyI (fun _ => 0%nat) (fun _ => 0%nat) (grouped_env prod).
Proof. intros Ht Hm. split; intros k; [intros _; eats_tac|]. unfold grouped_env. gd_tac. Qed.
Theorem C56_formula_grammar : forall prod s, total_trans prod -> mono_trans prod ->
  exists n a, a <> Fuel /\ forall m, (n <= m)%nat -> run (grouped_env prod) m (program prod) (new_string_ctx s) = a.
Proof.
  intros prod s Ht Hm. refine (recursion_terminates _ _ _ _ _ _ _ (formula_ranked prod Ht Hm) _ _).
  - gd_tac.
  - unfold in_bounds, c_pos; cbn; lia.
Qed.
Print Assumptions C56_formula_grammar.
Example C56_formula_example : total_trans Erase /\ mono_trans Erase /\
  exists o, run (grouped_env Erase) 60 (program Erase) (new_string_ctx (bs "((1)+2)")) = Ok (o, None) /\ c_st o = Matched.
Proof. repeat split; try apply Erase_total. eexists. split; [vm_compute; reflexivity|]. reflexivity. Qed.

(** Left recursion, a := a x | y, never ends, whatever the input. *)
Definition left_env : nat -> pexp := fun _ => EFirst [EFlatGroup [EIndirect 0; SSeq (bs "x")]; SSeq (bs "y")].
Definition wd (s : bytes) (env : nat -> pexp) : world := mkW s None VNil env.
Example C56_example_left : forall s n, run left_env n (EIndirect 0) (new_string_ctx s) = Fuel.
Proof.
  intros s n. refine (C56_left_recursion_diverges (wd s left_env) (fun k cur => k = 0%nat /\ cur = mkSP 0 0)
    (EIndirect 0) (mkSP 0 0) 0 (mkSP 0 0) _ _ I _ _ n _ _ _); auto.
  - intros k. cbn. unfold left_env. gram_tac.
  - intros k cur [-> ->]. exists 0%nat, (mkSP 0 0). split; auto.
    apply (op_first _ []); [constructor|]. apply op_flat with (pre := []) (cur1 := mkSP 0 0) (l := []); constructor.
  - constructor.
  - repeat split.
Qed.
(** Recursion through a parser that may match nothing: with leading blanks the rule starts
    over behind them, and there it is caught. *)
Definition hidden_env : nat -> pexp := fun _ => EFlatGroup [EZeroOrMore [SSeq (bs " ")]; EIndirect 0; SSeq (bs "x")].
Example C56_example_hidden : forall n, run hidden_env n (EIndirect 0) (new_string_ctx (bs "x")) = Fuel.
Proof.
  intros n. refine (C56_left_recursion_diverges (wd (bs "x") hidden_env) (fun k cur => k = 0%nat /\ sp_pos cur = 0%nat)
    (EIndirect 0) (mkSP 0 0) 0 (mkSP 0 0) _ _ I _ _ n _ _ _); auto.
  - intros k. cbn. unfold hidden_env, EZeroOrMore. gram_tac.
  - intros k [p l] [-> Hp]. cbn in Hp. subst p. exists 0%nat, (mkSP 0 l). split; auto.
    apply op_flat with (pre := [EZeroOrMore [SSeq (bs " ")]]) (cur1 := mkSP 0 l) (l := []); [|constructor].
    rewrite <- (app_nil_r (@nil ast)). econstructor; [|constructor].
    eapply peg_rep_ok with (k := 0%nat); [|vm_compute; discriminate].
    apply rep_stop; [left; reflexivity|]. apply seq_fail.
    exact (peg_leaf (wd (bs "x") hidden_env) ":string:Seq" (lift (seq_fn (bs " "))) 0 (mkSP 0 l) _ None eq_refl).
  - constructor.
  - repeat split.
Qed.
(** A rule may not look for itself behind the position it has reached either: what it
    consumes, the look-behind gives back. *)
Definition behind_env : nat -> pexp := fun _ => EFlatGroup [SSeq (bs "x"); ELookBehind false 1 1 [EIndirect 0]].
Example C56_example_behind : forall n, run behind_env n (EIndirect 0) (new_string_ctx (bs "x")) = Fuel.
Proof.
  intros n. refine (C56_left_recursion_diverges (wd (bs "x") behind_env) (fun k cur => k = 0%nat /\ sp_pos cur = 0%nat)
    (EIndirect 0) (mkSP 0 0) 0 (mkSP 0 0) _ _ I _ _ n _ _ _); auto.
  - intros k. cbn. unfold behind_env. gram_tac.
  - intros k [p l] [-> Hp]. cbn in Hp. subst p. exists 0%nat, (mkSP 0 1). split; auto.
    eapply op_flat with (pre := [SSeq (bs "x")]) (cur1 := mkSP 1 1).
    + econstructor; [|constructor].
      exact (peg_leaf (wd (bs "x") behind_env) ":string:Seq" (lift (seq_fn (bs "x"))) 0 (mkSP 0 l) _ None eq_refl).
    + eapply op_behind with (pre := []) (before := []) (p := mkSP 0 1) (cur1 := mkSP 0 1); [reflexivity|constructor|constructor|constructor].
  - constructor.
  - repeat split.
Qed.
