(** Property theorem for C44: both fields of the source positions of a run. *)
From Verif Require Import L_Place L_Text P_Core.

(** In a grammar of text leaves without transformers every string AST of a run carries
    its own index as Position; its Length is not its own length but the length of the
    text before it, or 0 at the beginning and after Start, End or WordBoundary; a group
    carries the zero position. *)
Theorem C44_both_fields_partial : forall env e n c o,
  (forall k, gram place_spec (env k)) -> gram place_spec e ->
  boundary (c_str c) (c_pos c) -> c_st c = Matched ->
  run env n e c = Ok (o, None) -> c_st o = Matched ->
  exists l, c_stack o = c_stack c ++ l /\ tiled (c_str c) (c_sp c) l (c_sp o).
Proof. exact tiles_run. Qed.
Print Assumptions C44_both_fields_partial.

(** "ab", then a word boundary inside a group, then "-", then ":" : the Lengths are 0
    (beginning), 0 (after the boundary) and 1 (after "-"). *)
Example C44_example_fields : exists o,
  gram place_spec (EFlatGroup [SSeq (bs "ab"); EGroup [SWordBoundary; SAny]; SSeq (bs ":")]) /\
  run no_env 9 (EFlatGroup [SSeq (bs "ab"); EGroup [SWordBoundary; SAny]; SSeq (bs ":")]) (new_string_ctx (bs "ab-:")) = Ok (o, None) /\
  c_st o = Matched /\
  c_stack o = [mkAst 0 ":string:Seq" TString (VStr (bs "ab")) (mkSP 0 0);
    mkAst 0 ":base:Group" TListOfAst (VAsts [mkAst 0 ":string:Any" TString (VStr (bs "-")) (mkSP 2 0)]) (mkSP 0 0);
    mkAst 0 ":string:Seq" TString (VStr (bs ":")) (mkSP 3 1)] /\
  c_sp o = mkSP 4 1.
Proof.
  eexists. split; [|split; [vm_compute; reflexivity|split; [reflexivity|split; reflexivity]]].
  text_tac; try (apply ascii_text; repeat constructor; lia).
Qed.
(** The relation says no less: with the wrong Length for ":" it does not hold. *)
Example C44_example_wrong : ~ tiled (bs "ab:") (mkSP 0 0)
  [mkAst 0 ":string:Seq" TString (VStr (bs "ab")) (mkSP 0 0); mkAst 0 ":string:Seq" TString (VStr (bs ":")) (mkSP 2 1)] (mkSP 3 1).
Proof.
  assert (K : forall p l b, tiled (bs "ab:") (mkSP p l) [mkAst 0 ":string:Seq" TString (VStr (bs ":")) (mkSP 2 1)] b -> l <> 1%nat -> False).
  { intros p l b H. remember (mkSP p l) as a. remember [_] as x. revert p l Heqa. induction H; intros; subst; try discriminate.
    - inversion Heqa; subst. eapply IHtiled; eauto.
    - inversion Heqa; inversion Heqx; subst. congruence. }
  intros H. remember (mkSP 0 0) as a in H at 1. remember [_; _] as x. revert Heqa. induction H; intros; subst; try discriminate.
  - inversion Heqa; subst. auto.
  - inversion Heqa; inversion Heqx; subst. eapply K; [eassumption|discriminate].
Qed.
