(** How deep the parser calls of the formula examples nest (C80). *)
From Verif Require Export L_Depth L_FormulaParse.

Lemma dw_sim_trans f f' t t' n : dsim f f' -> (forall c w l, snd (t n c w l) = t' n c l) ->
  dsim (w_base ":base:Trans" None [] [f] (variadic [t]) n) (base_parser ":base:Trans" None [] [f'] (variadic [t']) n).
Proof.
  intros Hf Ht. apply esim_base; [constructor; auto|]. cbn. intros c0 w l _ _. right. split; [|exact I].
  specialize (Ht (set_cls c0 ":base:Trans") w l). destruct (t n _ w l) as [w1 r]. cbn [snd] in Ht. rewrite <- Ht. destruct r as [[e|r]|x|]; reflexivity.
Qed.
(** ** Production rules *)
Section Table.
Variables (env : nat -> pexp) (check : pexp).
Lemma drules_sim n es : rules_esim frames any_frames no_panic n (map (fun e m => drun env m e) es) (map (fun e m => run env m e) es).
Proof. induction es as [|e es IH]; constructor; [apply drun_sim|exact IH]. Qed.
Definition d_table (prs : prod_table) := map (fun l => mkWPrec (map (fun e n => drun env n e) (fst l)) (snd l)) prs.
Definition t_table (prs : prod_table) := map (fun l => mkPrec (map (fun e n => run env n e) (fst l)) (snd l)) prs.
Lemma dtable_sim n prs : Forall2 (prec_esim frames any_frames no_panic n) (d_table prs) (t_table prs).
Proof. induction prs as [|l prs IH]; constructor; [split; [apply drules_sim|reflexivity]|exact IH]. Qed.
Lemma dprod_same prs n c w l : snd (dprod env prs check n c w l) = table_prod env prs check n c l.
Proof.
  destruct (esim_production frames any_frames no_panic n _ _ (fun m => drun env m check) (fun m => run env m check) (c_tag c) (dtable_sim n prs) (drun_sim env n check) n w l I) as [(x & [] & _)|[E _]]. exact E.
Qed.
Lemma dprod_upto B prs n c w l : Forall (fun lv => Forall (fun e => rule_free e /\ (height e <= B)%nat) (fst lv)) prs -> rule_free check -> (height check <= B)%nat ->
  upto B w (fst (dprod env prs check n c w l)).
Proof.
  intros H C L. unfold dprod, w_ProductionRule. apply keeps_production; [apply upto_refl|apply upto_trans| |].
  - apply Forall_map. eapply Forall_impl; [|exact H]. intros [rs b] Hl. cbn [wpr_rules fst] in *. unfold all_keep. apply Forall_map.
    eapply Forall_impl; [|exact Hl]. intros e [A1 A2]. apply keeps_weak with (B := height e) (P := fun _ => True); auto. apply static_upto. exact A1.
  - apply keeps_weak with (B := height check) (P := fun _ => True); auto. apply static_upto. exact C.
Qed.
End Table.

Section Formula.
Variables (negT mulT addT : trans).
Notation prod := (formulaProductionRules negT mulT addT).
Notation dp := (d_rules negT mulT addT).
Notation genv := (grouped_env prod).
Notation denv := (fun _ : nat => d_grouped dp).
Lemma dp_same n c w l : snd (dp n c w l) = prod n c l.
Proof. exact (dprod_same no_rules prod_check (formula_table negT mulT addT) n c w l). Qed.
Lemma dp_upto n c w l : upto 4 w (fst (dp n c w l)).
Proof. apply dprod_upto; cbn; [|auto|lia]. repeat constructor; cbn; auto; lia. Qed.
(** ** The same answers *)
Ltac kids := first [apply Forall2_nil|apply Forall2_cons; [first [refine (ddenote_same _ _ _ _ _); assumption|idtac]|kids]].
Ltac flat_sim := apply dsim_stack; apply (dsim_base _ _ _ _ _ None); kids.
Section Sim.
Variables (rho : nat -> wfn frames) (rho' : nat -> ctx -> out) (n : nat).
Hypothesis Hr : forall j, dsim (rho j) (rho' j).
Lemma d_indirect_sim : dsim (dw_denote rho n (WIndirect 0)) (denote rho' n (EIndirect 0)).
Proof. apply dsim_stack. apply L_Exact.esim_light. apply Hr. Qed.
Lemma d_first_sim : dsim (dw_denote rho n (WFirst [WPure simpleExpression; WIndirect 0; WPure (EError "Value required")]))
  (denote rho' n (EFirst [simpleExpression; EIndirect 0; EError "Value required"])).
Proof. cbn [dw_denote denote map]. flat_sim; try apply d_indirect_sim. Qed.
Lemma d_later_sim : dsim (dw_denote rho n (WFirst [WPure simpleExpression; WIndirect 0])) (denote rho' n (EFirst [simpleExpression; EIndirect 0])).
Proof. cbn [dw_denote denote map]. flat_sim; try apply d_indirect_sim. Qed.
Definition d_after : wexp frames := WFlatGroup [WPure (EZeroOrMore [unaryOperator]); WFirst [WPure simpleExpression; WIndirect 0]].
Definition e_after : pexp := EFlatGroup [EZeroOrMore [unaryOperator]; EFirst [simpleExpression; EIndirect 0]].
Lemma d_after_sim : dsim (dw_denote rho n d_after) (denote rho' n e_after).
Proof. unfold d_after, e_after. cbn [dw_denote denote map]. flat_sim; try exact d_later_sim. Qed.
Definition d_alt : wexp frames := WFirst [d_after; WPure (EError "Error in the expression after the binary operator")].
Definition e_alt : pexp := EFirst [e_after; EError "Error in the expression after the binary operator"].
Lemma d_alt_sim : dsim (dw_denote rho n d_alt) (denote rho' n e_alt).
Proof. unfold d_alt, e_alt. cbn [dw_denote denote map]. flat_sim; try exact d_after_sim. Qed.
Definition d_more : wexp frames := WRepeat qtyZeroOrMoreTimes [WPure binaryOperator; d_alt].
Definition e_more : pexp := EZeroOrMore [binaryOperator; e_alt].
Lemma d_more_sim : dsim (dw_denote rho n d_more) (denote rho' n e_more).
Proof. unfold d_more, e_more, EZeroOrMore. cbn [dw_denote denote map]. flat_sim; try exact d_alt_sim. Qed.
Definition d_inner : wexp frames := WFlatGroup [WPure (EZeroOrMore [unaryOperator]); WFirst [WPure simpleExpression; WIndirect 0; WPure (EError "Value required")]; d_more].
Lemma d_inner_sim : dsim (dw_denote rho n d_inner) (denote rho' n expressionInner).
Proof. unfold d_inner, expressionInner. cbn [dw_denote denote map]. flat_sim; try exact d_first_sim; try exact d_more_sim. Qed.
Lemma d_expression_sim : dsim (dw_denote rho n (d_expression dp)) (denote rho' n (expression prod)).
Proof. change (d_expression dp) with (WTrans d_inner [dp]). unfold expression. cbn [dw_denote denote]. apply dsim_stack. apply dw_sim_trans; [exact d_inner_sim|intros; apply dp_same]. Qed.
Definition d_body : wexp frames := WFlatGroup [WPure (erase sp_0); d_expression dp; WPure (erase (SCharClass [bs ")"])); WPure (erase sp_0)].
Definition e_body : pexp := EFlatGroup [erase sp_0; expression prod; erase (SCharClass [bs ")"]); erase sp_0].
Lemma d_body_sim : dsim (dw_denote rho n d_body) (denote rho' n e_body).
Proof. unfold d_body, e_body. cbn [dw_denote denote map]. flat_sim; try exact d_expression_sim. Qed.
Definition d_try : wexp frames := WFirst [d_body; WPure (EError "Error in grouped expression")].
Definition e_try : pexp := EFirst [e_body; EError "Error in grouped expression"].
Lemma d_try_sim : dsim (dw_denote rho n d_try) (denote rho' n e_try).
Proof. unfold d_try, e_try. cbn [dw_denote denote map]. flat_sim; try exact d_body_sim. Qed.
Lemma d_grouped_sim : dsim (dw_denote rho n (d_grouped dp)) (denote rho' n (groupedExpresion prod)).
Proof. change (d_grouped dp) with (WFlatGroup [WPure (erase (SCharClass [bs "("])); d_try]). unfold groupedExpresion. cbn [dw_denote denote map]. flat_sim; try exact d_try_sim. Qed.
Lemma d_program_sim : dsim (dw_denote rho n (d_program dp)) (denote rho' n (program prod)).
Proof. unfold d_program, program. cbn [dw_denote denote map]. flat_sim; try exact d_expression_sim. Qed.
End Sim.
Lemma d_env_sim n : forall j, dsim (dw_run_env denv n j) (run_env genv n j).
Proof.
  induction n as [|n IH]; intros j; apply dsim_eq; [reflexivity|]. intros k c. cbn [dw_run_env run_env]. revert k c. apply dsim_eq. exact (d_grouped_sim _ _ n IH).
Qed.
Lemma formula_depth_same n w c : snd (dw_run denv n (d_program dp) w c) = run genv n (program prod) c.
Proof. revert w c. apply dsim_eq. exact (d_program_sim _ _ n (d_env_sim n)). Qed.

(** ** At most seven levels for every byte *)
Ltac pos_tac := apply (string_pos anyT); unfold e_try, e_body, e_more, e_alt, e_after; formula_unfold; lib_tac.
Section Upper.
Variables (s : bytes) (n : nat).
Notation sz := str_size.
Notation dom := (dom sz s None).
Notation N := (length s).
Notation rho := (dw_run_env denv n).
Notation D e := (dw_denote rho n e).
Definition rule_levels (p : nat) : nat := (7 * (N - p) + 11)%nat.
Hypothesis IHr : forall p, keeps (upto (rule_levels p)) (dom p) (rho 0%nat).
Lemma pure_keeps e p B : rule_free e -> (height e <= B)%nat -> keeps (upto B) (dom p) (D (WPure e)).
Proof. intros H L. apply keeps_weak with (B := height e) (P := fun _ => True); auto. apply static_upto. exact H. Qed.
Lemma pos_ok e : gram (pos_spec sz) e -> okf (pos_inv sz) (run genv n e).
Proof. intros H. apply run_okf; [intros k; apply grouped_pos|exact H]. Qed.
Lemma char_hungry cs : Forall (fun s => s <> []) cs -> eats sz anyI (SCharClass cs).
Proof. intros H. apply eat_leaf. apply hungry_eats. apply h_class. exact H. Qed.
Lemma group_eats k : eats sz anyI (genv k).
Proof. apply eat_flat with (erase (SCharClass [bs "("])); [left; reflexivity|]. apply eat_trans. apply char_hungry. repeat constructor; discriminate. Qed.
Lemma pos_strict e : gram (pos_spec sz) e -> eats sz anyI e -> strict sz (run genv n e).
Proof. intros H E. apply eats_run with anyI; [intros k; apply grouped_pos|intros k _; apply group_eats|exact E|exact H]. Qed.
Lemma void p B F : (N < p)%nat -> keeps (upto B) (dom p) F.
Proof. intros L w c (_ & _ & A & C). unfold str_size in C. lia. Qed.
Lemma indirect_keeps p B : (1 + rule_levels p <= B)%nat -> keeps (upto B) (dom p) (D (WIndirect 0)).
Proof. intros L. eapply keeps_weak with (P := dom p); [exact L|auto|]. apply stack_upto. apply keeps_light. apply IHr. Qed.
Notation R := (run genv n).
Ltac pure := apply pure_keeps; [cbn; tauto|apply Nat.leb_le; cbn; try reflexivity].
Definition tri (B p : nat) (d : wexp frames) (e : pexp) : Prop := dsim (D d) (R e) /\ keeps (upto B) (dom p) (D d) /\ okf (pos_inv sz) (R e).
Lemma pure_tri e B p : rule_free e -> gram (pos_spec sz) e -> (height e <= B)%nat -> tri B p (WPure e) e.
Proof. intros H G L. split; [|split; [apply pure_keeps; auto|apply pos_ok; exact G]]. apply ddenote_same. apply d_env_sim. Qed.
Lemma tri_seq1 B p d e Fs fs : tri B p d e -> seqb sz s None B p Fs fs -> seqb sz s None B p (D d :: Fs) (R e :: fs).
Proof. intros (A1 & A2 & A3). apply sb_keep; assumption. Qed.
Lemma tri_seq2 B p d e Fs fs : tri B p d e -> strict sz (R e) -> seqb sz s None B (S p) Fs fs -> seqb sz s None B p (D d :: Fs) (R e :: fs).
Proof. intros (A1 & A2 & A3). apply sb_eat; assumption. Qed.
Lemma tri_all B p ds es : Forall2 (tri B p) ds es -> kids_keep (upto B) (dom p) true (map (fun d => D d) ds).
Proof. intros H. apply allb_kids with (fs := map R es). induction H; cbn [map]; constructor; auto. Qed.
Lemma simple_tri B p : (12 <= B)%nat -> tri B p (WPure simpleExpression) simpleExpression.
Proof. intros L. apply pure_tri; [cbn; tauto|pos_tac|exact L]. Qed.
Lemma unary_tri B p : (7 <= B)%nat -> tri B p (WPure (EZeroOrMore [unaryOperator])) (EZeroOrMore [unaryOperator]).
Proof. intros L. apply pure_tri; [cbn; tauto|pos_tac|exact L]. Qed.
Lemma indirect_tri B p : (1 + rule_levels p <= B)%nat -> tri B p (WIndirect 0) (EIndirect 0).
Proof. intros L. split; [apply d_indirect_sim; apply d_env_sim|]. split; [apply indirect_keeps; exact L|apply pos_ok; exact I]. Qed.
Lemma error_tri B p m : (1 <= B)%nat -> tri B p (WPure (EError m)) (EError m).
Proof. intros L. apply pure_tri; [exact I|pos_tac|exact L]. Qed.
Lemma first_tri B p : (13 <= B)%nat -> (2 + rule_levels p <= B)%nat -> tri B p (WFirst [WPure simpleExpression; WIndirect 0; WPure (EError "Value required")]) (EFirst [simpleExpression; EIndirect 0; EError "Value required"]).
Proof.
  intros L1 L2. split; [apply d_first_sim; apply d_env_sim|]. split; [|apply pos_ok; pos_tac]. destruct B as [|B]; [lia|]. apply base_upto; [|exact I].
  apply (tri_all B p [WPure simpleExpression; WIndirect 0; WPure (EError "Value required")] [simpleExpression; EIndirect 0; EError "Value required"]).
  constructor; [|constructor; [|constructor; [|constructor]]]; [apply simple_tri; lia|apply indirect_tri; lia|apply error_tri; lia].
Qed.
Lemma after_tri B p : (14 <= B)%nat -> (3 + rule_levels p <= B)%nat -> tri B p d_after e_after.
Proof.
  intros L1 L2. split; [apply d_after_sim; apply d_env_sim|]. split; [|apply pos_ok; pos_tac]. destruct B as [|[|B]]; [lia|lia|]. apply base_upto; [|exact I].
  eapply seqb_kids. apply (tri_seq1 _ _ (WPure (EZeroOrMore [unaryOperator])) (EZeroOrMore [unaryOperator])); [apply unary_tri; lia|]. apply (tri_seq1 _ _ (WFirst [WPure simpleExpression; WIndirect 0]) (EFirst [simpleExpression; EIndirect 0])); [|apply sb_nil].
  split; [apply d_later_sim; apply d_env_sim|]. split; [|apply pos_ok; pos_tac]. apply base_upto; [|exact I].
  apply (tri_all B p [WPure simpleExpression; WIndirect 0] [simpleExpression; EIndirect 0]).
  constructor; [|constructor; [|constructor]]; [apply simple_tri; lia|apply indirect_tri; lia].
Qed.
Lemma alt_tri B p : (15 <= B)%nat -> (4 + rule_levels p <= B)%nat -> tri B p d_alt e_alt.
Proof.
  intros L1 L2. split; [apply d_alt_sim; apply d_env_sim|]. split; [|apply pos_ok; pos_tac]. destruct B as [|B]; [lia|]. apply base_upto; [|exact I].
  apply (tri_all B p [d_after; WPure (EError "Error in the expression after the binary operator")] [e_after; EError "Error in the expression after the binary operator"]).
  constructor; [|constructor; [|constructor]]; [apply after_tri; lia|apply error_tri; lia].
Qed.
Lemma binary_tri B p : (6 <= B)%nat -> tri B p (WPure binaryOperator) binaryOperator.
Proof. intros L. apply pure_tri; [cbn; tauto|pos_tac|exact L]. Qed.
Lemma binary_strict : strict sz (R binaryOperator).
Proof.
  apply pos_strict; [pos_tac|]. apply eat_trans. apply eat_flat with (SCharClass [bs "+"; bs "-"; bs "*"; bs "/"]); [left; reflexivity|]. apply char_hungry. repeat constructor; discriminate.
Qed.
Lemma sim_strict B p d e : tri B p d e -> (N < S p)%nat -> tri B (S p) d e.
Proof. intros (A1 & _ & A3) L. split; [exact A1|]. split; [apply void; exact L|exact A3]. Qed.
Lemma more_tri B p : (7 * (N - p) + 9 <= B)%nat -> tri B p d_more e_more.
Proof.
  intros L. split; [apply d_more_sim; apply d_env_sim|]. split; [|apply pos_ok; pos_tac]. destruct B as [|B]; [lia|]. apply base_upto; [|exact I].
  eapply seqb_kids. apply (tri_seq2 _ _ (WPure binaryOperator) binaryOperator); [apply binary_tri; lia|apply binary_strict|]. apply (tri_seq1 _ _ d_alt e_alt); [|apply sb_nil].
  destruct (Nat.lt_ge_cases N (S p)) as [L2|L2].
  - split; [apply d_alt_sim; apply d_env_sim|]. split; [apply void; exact L2|apply pos_ok; pos_tac].
  - apply alt_tri; [lia|]. unfold rule_levels. lia.
Qed.
Lemma simple_eats : eats sz anyI simpleExpression.
Proof.
  assert (Nb : eats sz anyI SNumber) by (apply eat_leaf; apply hungry_eats; apply h_char).
  apply eat_flat with number; [left; reflexivity|]. apply eat_trans. apply eat_flat with IntegerNumberStr; [left; reflexivity|]. apply eat_trans.
  apply eat_flat with int_part; [right; left; reflexivity|]. apply eat_first; [discriminate|]. intros e [<-|[<-|[]]].
  - apply eat_flat with (cc1 "0"); [left; reflexivity|]. apply char_hungry. repeat constructor; discriminate.
  - apply eat_flat with SNumber; [left; reflexivity|exact Nb].
Qed.
Lemma first_strict : strict sz (R (EFirst [simpleExpression; EIndirect 0; EError "Value required"])).
Proof.
  apply pos_strict; [pos_tac|]. apply eat_first; [discriminate|]. intros e [<-|[<-|[<-|[]]]].
  - exact simple_eats.
  - apply eat_rule. exact I.
  - apply eat_leaf. apply hungry_eats. apply h_error.
Qed.
Lemma inner_tri B p : (7 * (N - p) + 14 <= B)%nat -> tri B p d_inner expressionInner.
Proof.
  intros L. split; [apply d_inner_sim; apply d_env_sim|]. split; [|apply pos_ok; pos_tac]. destruct B as [|B]; [lia|]. apply base_upto; [|exact I].
  eapply seqb_kids. apply (tri_seq1 _ _ (WPure (EZeroOrMore [unaryOperator])) (EZeroOrMore [unaryOperator])); [apply unary_tri; lia|]. apply (tri_seq2 _ _ (WFirst [WPure simpleExpression; WIndirect 0; WPure (EError "Value required")]) (EFirst [simpleExpression; EIndirect 0; EError "Value required"])).
  - apply first_tri; unfold rule_levels; lia.
  - apply first_strict.
  - apply (tri_seq1 _ _ d_more e_more); [|apply sb_nil]. apply more_tri. lia.
Qed.
Lemma expression_tri B p : (7 * (N - p) + 15 <= B)%nat -> tri B p (d_expression dp) (expression prod).
Proof.
  intros L. split; [apply d_expression_sim; apply d_env_sim|]. split; [|apply pos_ok; pos_tac]. destruct B as [|B]; [lia|].
  change (d_expression dp) with (WTrans d_inner [dp]). cbn [dw_denote]. apply base_upto.
  - eapply seqb_kids. apply (tri_seq1 _ _ d_inner expressionInner); [apply inner_tri; lia|apply sb_nil].
  - cbn. constructor; [|constructor]. intros c w l. eapply upto_weak; [|apply dp_upto]. lia.
Qed.
Lemma sp_tri B p : (4 <= B)%nat -> tri B p (WPure (erase sp_0)) (erase sp_0).
Proof. intros L. apply pure_tri; [cbn; tauto|pos_tac|exact L]. Qed.
Lemma body_tri B p : (7 * (N - p) + 16 <= B)%nat -> tri B p d_body e_body.
Proof.
  intros L. split; [apply d_body_sim; apply d_env_sim|]. split; [|apply pos_ok; pos_tac]. destruct B as [|B]; [lia|]. apply base_upto; [|exact I].
  eapply seqb_kids. apply (tri_seq1 _ _ (WPure (erase sp_0)) (erase sp_0)); [apply sp_tri; lia|]. apply (tri_seq1 _ _ (d_expression dp) (expression prod)); [apply expression_tri; lia|].
  apply (tri_seq1 _ _ (WPure (erase (SCharClass [bs ")"]))) (erase (SCharClass [bs ")"]))); [apply pure_tri; [cbn; tauto|pos_tac|cbn; lia]|]. apply (tri_seq1 _ _ (WPure (erase sp_0)) (erase sp_0)); [apply sp_tri; lia|apply sb_nil].
Qed.
Lemma try_tri B p : (7 * (N - p) + 17 <= B)%nat -> tri B p d_try e_try.
Proof.
  intros L. split; [apply d_try_sim; apply d_env_sim|]. split; [|apply pos_ok; pos_tac]. destruct B as [|B]; [lia|]. apply base_upto; [|exact I].
  apply (tri_all B p [d_body; WPure (EError "Error in grouped expression")] [e_body; EError "Error in grouped expression"]).
  constructor; [|constructor; [|constructor]]; [apply body_tri; lia|apply error_tri; lia].
Qed.
Lemma grouped_keeps p : keeps (upto (rule_levels p)) (dom p) (D (d_grouped dp)).
Proof.
  change (d_grouped dp) with (WFlatGroup [WPure (erase (SCharClass [bs "("])); d_try]). unfold rule_levels. replace (7 * (N - p) + 11)%nat with (S (7 * (N - p) + 10)) by lia.
  apply base_upto; [|exact I]. eapply seqb_kids. apply (tri_seq2 _ _ (WPure (erase (SCharClass [bs "("]))) (erase (SCharClass [bs "("]))); [apply pure_tri; [cbn; tauto|pos_tac|cbn; lia]| |].
  - apply pos_strict; [pos_tac|]. apply eat_trans. apply char_hungry. repeat constructor; discriminate.
  - apply (tri_seq1 _ _ d_try e_try); [|apply sb_nil]. destruct (Nat.lt_ge_cases N (S p)) as [L2|L2].
    + split; [apply d_try_sim; apply d_env_sim|]. split; [apply void; exact L2|apply pos_ok; pos_tac].
    + apply try_tri. lia.
Qed.
Lemma program_keeps : keeps (upto (7 * N + 16)) (dom 0) (D (d_program dp)).
Proof.
  replace (7 * N + 16)%nat with (S (7 * N + 15)) by lia. apply base_upto; [|exact I]. eapply seqb_kids. cbn [map].
  apply (tri_seq1 _ _ (WPure EStart) EStart); [apply pure_tri; [exact I|pos_tac|cbn; lia]|]. apply (tri_seq1 _ _ (WPure (erase sp_0)) (erase sp_0)); [apply sp_tri; lia|].
  apply (tri_seq1 _ _ (d_expression dp) (expression prod)); [apply expression_tri; lia|]. apply (tri_seq1 _ _ (WPure SEnd) SEnd); [apply pure_tri; [exact I|pos_tac|cbn; lia]|apply sb_nil].
Qed.
End Upper.
Lemma rule_keeps s n : forall j p, keeps (upto (rule_levels s p)) (dom str_size s None p) (dw_run_env denv n j).
Proof.
  induction n as [|n IH]; intros j p; [intros w c _; apply upto_refl|]. exact (grouped_keeps s n (IH 0%nat) p).
Qed.
Lemma formula_upto n s : (formula_nesting negT mulT addT n s <= 7 * length s + 16)%nat.
Proof.
  assert (Hd : dom str_size s None 0 (new_string_ctx s)) by (unfold dom, c_pos; cbn; repeat split; lia).
  destruct (program_keeps s n (rule_keeps s n 0%nat) (0, 0)%nat (new_string_ctx s) Hd) as (_ & _ & A). cbn [fst snd] in A. unfold formula_nesting, dw_run. lia.
Qed.
End Formula.
