(** Property theorems for the object parsers, AST equality and production rules:
    C26-C29. *)
From Verif Require Import L_Obj P_Core.

(** ** C26 *)
Theorem C26_any : forall env n c sl, c_slice c = Some sl ->
  exists o, run env n OAny c = Ok (o, None) /\
    ((exists v, item_at c sl v /\ takes_item ":object:Any" TAny v c o) \/ (no_item c sl /\ takes_no_item c o)).
Proof. exact obj_any_ok. Qed.
Print Assumptions C26_any.
Theorem C26_obj_class : forall env n oc c sl, c_slice c = Some sl ->
  (forall v, item_at c sl v -> comparable sl v oc) ->
  exists o, run env n (OClass oc) c = Ok (o, None) /\
    ((exists v, item_at c sl v /\ is_one_of sl v oc /\ takes_item ":object:ObjClass" TAny v c o) \/
     ((no_item c sl \/ exists v, item_at c sl v /\ ~ is_one_of sl v oc) /\ takes_no_item c o)).
Proof. exact obj_class_ok. Qed.
Print Assumptions C26_obj_class.
Theorem C26_obj_classN : forall env n oc c sl, c_slice c = Some sl ->
  (forall v, item_at c sl v -> comparable sl v oc) ->
  exists o, run env n (OClassN oc) c = Ok (o, None) /\
    ((exists v, item_at c sl v /\ ~ is_one_of sl v oc /\ takes_item ":object:ObjClassN" TString v c o) \/
     ((no_item c sl \/ exists v, item_at c sl v /\ is_one_of sl v oc) /\ takes_no_item c o)).
Proof. exact obj_classN_ok. Qed.
Print Assumptions C26_obj_classN.
Theorem C26_obj_classFn : forall env n f c sl, c_slice c = Some sl ->
  exists o, run env n (OClassFn f) c = Ok (o, None) /\
    ((exists v, item_at c sl v /\ f v = true /\ takes_item ":object:ObjClassFn" TAny v c o) \/
     ((no_item c sl \/ exists v, item_at c sl v /\ f v = false) /\ takes_no_item c o)).
Proof. exact obj_classFn_ok. Qed.
Print Assumptions C26_obj_classFn.
Theorem C26_end : forall env n c sl, c_slice c = Some sl ->
  exists o, run env n OEnd c = Ok (o, None) /\ c_stack o = c_stack c /\ c_pos o = c_pos c /\
    ((c_pos c = length (sl_items sl) /\ c_st o = Matched) \/ (c_pos c <> length (sl_items sl) /\ c_st o = Unmatched)).
Proof. exact obj_end_ok. Qed.
Print Assumptions C26_end.
(** The two cases of each theorem above exclude each other. *)
Theorem C26_exclusive : forall c sl v, item_at c sl v -> ~ no_item c sl.
Proof. exact item_not_end. Qed.
Print Assumptions C26_exclusive.
(** Seq does not compare: it matches exactly when enough elements remain. *)
Theorem C26_seq_partial : forall env n seq c sl, c_slice c = Some sl ->
  (forall x y, In y seq -> sl_eq sl x y <> None) ->
  exists o, run env n (OSeq seq) c = Ok (o, None) /\
    (((c_pos c + length seq <= length (sl_items sl))%nat /\ c_st o = Matched /\
       c_sp o = mkSP (c_pos c + length seq) (length seq) /\
       c_stack o = c_stack c ++ [mkAst 0 ":object:Seq" TListOfAny
          (sl_mk sl (firstn (length seq) (skipn (c_pos c) (sl_items sl)))) (c_sp c)]) \/
     ((length (sl_items sl) < c_pos c + length seq)%nat /\ takes_no_item c o)).
Proof. exact obj_seq_ok. Qed.
Print Assumptions C26_seq_partial.

Definition val_slice (l : list value) : slicelike :=
  mkSL l (fun a b => Some (deep_eqb a b)) (fun v => Some v) VSlice.
Definition ints (l : list Z) : ctx := new_object_ctx (val_slice (map VInt l)) VNil.
Theorem C26_seq_refuted : exists o,
  run no_env 9 (OSeq [VInt 7; VInt 8]) (ints [1; 2; 3]) = Ok (o, None) /\ c_st o = Matched /\ c_pos o = 2%nat.
Proof. eexists. split; [vm_compute; reflexivity|repeat split]. Qed.
Print Assumptions C26_seq_refuted.
Example C26_example :
  (forall v, item_at (ints [1; 2; 3]) (val_slice (map VInt [1; 2; 3])) v ->
     comparable (val_slice (map VInt [1; 2; 3])) v [VInt 4; VInt 1]) /\
  (exists o, run no_env 9%nat (OClass [VInt 4; VInt 1]) (ints [1; 2; 3]) = Ok (o, None) /\ c_st o = Matched /\ c_pos o = 1%nat) /\
  (exists o, run no_env 9%nat (OClassN [VInt 4; VInt 1]) (ints [1; 2; 3]) = Ok (o, None) /\ c_st o = Unmatched) /\
  (exists o, run no_env 9%nat (EFlatGroup [OAny; OAny; OAny; OEnd]) (ints [1; 2; 3]) = Ok (o, None) /\ c_st o = Matched).
Proof.
  split. { intros v _. repeat constructor; discriminate. }
  repeat split; eexists; (split; [vm_compute; reflexivity|repeat split]).
Qed.

(** ** C27 *)
Theorem C27_symmetric : forall a b, ast_equals a b = ast_equals b a.
Proof. exact equals_sym. Qed.
Print Assumptions C27_symmetric.
Theorem C27_transitive : forall a b c, ast_equals a b = Some true -> ast_equals b c = Some true -> ast_equals a c = Some true.
Proof. exact equals_trans. Qed.
Print Assumptions C27_transitive.
Theorem C27_reflexive : forall a, well_tagged a -> ast_equals a a = Some true.
Proof. exact equals_refl. Qed.
Print Assumptions C27_reflexive.
Theorem C27_ignores_positions : forall a a' b b', alike a a' -> alike b b' -> ast_equals a b = ast_equals a' b'.
Proof. exact alike_equals. Qed.
Print Assumptions C27_ignores_positions.

Definition leaf (o : Z) (z : Z) (p : nat) : ast := mkAst o "n" TInt (VInt z) (mkSP p 1).
Definition node (o : Z) (l : list ast) (p : nat) : ast := mkAst o "l" TListOfAst (VAsts l) (mkSP p 0).
Example C27_example :
  well_tagged (node 1 [leaf 2 5 3; node 0 [] 4] 2) /\
  alike (node 1 [leaf 2 5 3; node 0 [] 4] 2) (node 7 [leaf 0 5 0; node 9 [] 9] 9) /\
  ast_equals (node 1 [leaf 2 5 3; node 0 [] 4] 2) (node 7 [leaf 0 5 0; node 9 [] 9] 9) = Some true /\
  ast_equals (node 1 [leaf 2 5 3; node 0 [] 4] 2) (node 1 [leaf 2 6 3; node 0 [] 4] 2) = Some false /\
  ast_equals (node 1 [leaf 2 5 3] 2) (node 1 [leaf 2 5 3; leaf 2 5 3] 2) = Some false.
Proof.
  repeat split; try (vm_compute; reflexivity).
  - apply wt_list. constructor; [apply wt_other; try discriminate; constructor|].
    constructor; [|constructor]. apply wt_list. constructor.
  - apply alike_list. constructor; [apply alike_leaf|]. constructor; [|constructor]. apply alike_list. constructor.
Qed.
(** Why the hypothesis of reflexivity is needed: NaN, functions, lying tags. *)
Example C27_not_reflexive :
  let a v := mkAst 0 "x" TFloat v sp0 in
  ast_equals (a (VFloat S754_nan)) (a (VFloat S754_nan)) = Some false /\
  ast_equals (a (VFunc 0)) (a (VFunc 0)) = Some false /\
  ast_equals (mkAst 0 "x" TAstCons (VInt 1) sp0) (mkAst 0 "x" TAstCons (VInt 1) sp0) = None.
Proof. repeat split; vm_compute; reflexivity. Qed.

(** ** C28 *)
(** ProductionRule returns [r] iff rewriting by the declarative strategy ends in [r]. *)
Theorem C28_production_rule : forall prs check c asts r, allP mono_prec prs -> mono_parser check ->
  ((exists n, ProductionRule prs check n c asts = Ok r) <-> reduces (c_tag c) prs check asts r).
Proof. exact production_iff. Qed.
Print Assumptions C28_production_rule.
Theorem C28_deterministic : forall prs check c asts r r', allP mono_prec prs -> mono_parser check ->
  reduces (c_tag c) prs check asts r -> reduces (c_tag c) prs check asts r' -> r = r'.
Proof. exact reduces_det. Qed.
Print Assumptions C28_deterministic.
Theorem C28_result_checked : forall prs check n c asts r,
  ProductionRule prs check n c asts = Ok (inr r) ->
  exists o, gives check (new_object_ctx (ast_slice r) (c_tag c)) o None /\ c_st o = Matched.
Proof. exact (fun prs check n c asts r H => reduces_checked _ _ _ _ _ (production_sound n prs check (c_tag c) n asts _ H)). Qed.
Print Assumptions C28_result_checked.
(** Rules and checks written as grammars are fuel-monotone. *)
Theorem C28_grammar_rules : forall env es rtol, (forall k, mono_gram (env k)) -> Forall mono_gram es ->
  mono_prec (mkPrec (map (fun e n => run env n e) es) rtol).
Proof.
  exact (fun env es rtol He H => Forall_ind (fun l => mono_prec (mkPrec (map (fun e n => run env n e) l) rtol))
    I (fun e l Hx _ IH => conj (gram_mono env e He Hx) IH) H).
Qed.
Print Assumptions C28_grammar_rules.

(** "x - y" of numbers, written as an operator AST between integer ASTs. *)
Definition is_num (v : value) : bool := match v with VAst (mkAst _ _ TInt _ _) => true | _ => false end.
Definition is_op (v : value) : bool := match v with VAst (mkAst _ _ TString _ _) => true | _ => false end.
Definition num_of (a : ast) : Z := match a_val a with VAst b => match a_val b with VInt z => z | _ => 0 end | _ => 0 end.
Definition subtract : trans := fun _ _ l =>
  match l with [x; _; y] => tok [mkAst 0 "n" TInt (VInt (num_of x - num_of y)) sp0] | _ => terr (EText "bad") end.
Definition sub_rule : pexp := ETrans (EFlatGroup [OClassFn is_num; OClassFn is_op; OClassFn is_num]) [subtract].
Definition one_num : pexp := EFlatGroup [OClassFn is_num; OEnd].
Definition sub_table (rtol : bool) : list precedence := [mkPrec [fun n => run no_env n sub_rule] rtol].
Definition num (z : Z) : ast := mkAst 0 "n" TInt (VInt z) sp0.
Definition minus : ast := mkAst 0 "op" TString (VStr (bs "-")) sp0.

Lemma sub_rule_mono : mono_gram sub_rule /\ mono_gram one_num.
Proof.
  split; [|apply peg_gram_mono; unfold one_num, OClassFn, OEnd; gram_tac].
  unfold sub_rule. split; [apply peg_gram_mono; unfold OClassFn; gram_tac|].
  split; [|exact I]. intros n m c l _. right. reflexivity.
Qed.
Lemma no_env_mono : forall k, mono_gram (no_env k).
Proof. intros k. apply peg_gram_mono. apply no_env_peg. Qed.
Example C28_example :
  allP mono_prec (sub_table true) /\ mono_parser (fun n => run no_env n one_num) /\
  ProductionRule (sub_table false) (fun n => run no_env n one_num) 9%nat (new_string_ctx [])
    [num 10; minus; num 4; minus; num 3] = Ok (inr [num 3]) /\
  ProductionRule (sub_table true) (fun n => run no_env n one_num) 9%nat (new_string_ctx [])
    [num 10; minus; num 4; minus; num 3] = Ok (inr [num 9]) /\
  ProductionRule (sub_table true) (fun n => run no_env n one_num) 9%nat (new_string_ctx [])
    [num 10; minus; minus; num 3] = Ok (inl (EText "Production rules are not matched.")).
Proof.
  split. { split; [|exact I]. split; [|exact I]. apply gram_mono; [apply no_env_mono|apply sub_rule_mono]. }
  split. { apply gram_mono; [apply no_env_mono|apply sub_rule_mono]. }
  repeat split; vm_compute; reflexivity.
Qed.

(** ** C29 *)
Theorem C29_shrinking_terminates : forall prs check c asts, allP mono_prec prs -> mono_parser check ->
  Forall (fun pr => Forall (shrinks (c_tag c)) (pr_rules pr)) prs -> returns_always (c_tag c) check ->
  exists n r, ProductionRule prs check n c asts = Ok r.
Proof. exact production_returns. Qed.
Print Assumptions C29_shrinking_terminates.

(** The subtraction table meets the hypotheses. *)
Lemma sub_rule_gram : peg_gram sub_rule /\ peg_gram one_num.
Proof.
  split; [|unfold one_num, OClassFn, OEnd; gram_tac].
  unfold sub_rule. split; [unfold OClassFn; gram_tac|]. split; [|exact I]. split.
  - intros n m c l _. right. reflexivity.
  - intros n c c' l _ _ _ _. reflexivity.
Qed.
Example C29_example : forall tag,
  Forall (fun pr => Forall (shrinks tag) (pr_rules pr)) (sub_table true) /\
  returns_always tag (fun n => run no_env n one_num).
Proof.
  intros tag. split.
  - constructor; [|constructor]. constructor; [|constructor].
    apply shrinks_peg; [apply no_env_peg|apply sub_rule_gram|]. intros asts p Hp.
    pose proof (classFn_peg no_env is_num asts tag (mkSP p 0) no_env_peg) as P1.
    pose proof (classFn_peg no_env is_op asts tag (mkSP (p + 1) 1) no_env_peg) as P2.
    pose proof (classFn_peg no_env is_num asts tag (mkSP (p + 1 + 1) 1) no_env_peg) as P3.
    cbn [sp_pos] in P1, P2, P3.
    assert (F : peg (ow asts tag no_env) (EFlatGroup [OClassFn is_num; OClassFn is_op; OClassFn is_num]) (mkSP p 0) RFail ->
      exists r, peg (ow asts tag no_env) sub_rule (mkSP p 0) r /\
       match r with RSucc cur l => (p <= sp_pos cur <= length asts)%nat /\ (length l < sp_pos cur - p)%nat | _ => True end).
    { intros F. exists RFail. split; auto. apply peg_trans_fail. exact F. }
    destruct (nth_error asts p) as [x|] eqn:E1; [|apply F, peg_flat, seq_fail; exact P1].
    destruct (is_num (VAst x)); [|apply F, peg_flat, seq_fail; exact P1].
    destruct (nth_error asts (p + 1)) as [y|] eqn:E2; [|eapply F, peg_flat, seq_fail_later; [exact P1|apply seq_fail; exact P2]].
    destruct (is_op (VAst y)); [|eapply F, peg_flat, seq_fail_later; [exact P1|apply seq_fail; exact P2]].
    destruct (nth_error asts (p + 1 + 1)) as [z|] eqn:E3;
      [|eapply F, peg_flat, seq_fail_later; [exact P1|eapply seq_fail_later; [exact P2|apply seq_fail; exact P3]]].
    destruct (is_num (VAst z));
      [|eapply F, peg_flat, seq_fail_later; [exact P1|eapply seq_fail_later; [exact P2|apply seq_fail; exact P3]]].
    eexists. split.
    + eapply peg_trans_ok.
      * apply peg_flat. eapply seq_ok; [exact P1|]. eapply seq_ok; [exact P2|]. eapply seq_ok; [exact P3|]. apply seq_nil.
      * eapply (pl_ok _ 0%nat); [reflexivity|]. apply pl_nil.
    + cbn. assert (L : (p + 1 + 1 < length asts)%nat) by (apply nth_error_Some; congruence). lia.
  - apply returns_peg; [apply no_env_peg|apply sub_rule_gram|]. intros asts.
    pose proof (classFn_peg no_env is_num asts tag sp0 no_env_peg) as P1.
    pose proof (oend_peg no_env asts tag (mkSP 1 1) no_env_peg) as P2.
    assert (F : peg (ow asts tag no_env) (OClassFn is_num) sp0 RFail -> exists r, peg (ow asts tag no_env) one_num sp0 r).
    { intros F. exists RFail. apply peg_flat, seq_fail. exact F. }
    destruct (nth_error asts (sp_pos sp0)) as [x|]; [|auto]. destruct (is_num (VAst x)); [|auto].
    cbn [sp_pos] in P2. destruct (Nat.eqb 1 (length asts)).
    + eexists. apply peg_flat. eapply seq_ok; [exact P1|]. eapply seq_ok; [exact P2|]. apply seq_nil.
    + eexists. apply peg_flat. eapply seq_fail_later; [exact P1|]. apply seq_fail. exact P2.
Qed.
(** Without the hypothesis it need not return: a rule that matches nothing and
    replaces it by nothing. *)
Example C29_needs_shrinking : forall n,
  ProductionRule [mkPrec [fun n => run no_env n (EZero [])] false] (fun n => run no_env n OAny) n (new_string_ctx []) [] = Fuel.
Proof.
  intros n. unfold ProductionRule. generalize n at 1 as m. intros m. revert m. 
  induction n as [|n IH]; intros m; [reflexivity|]. cbn -[production_loop]. 
  change (production_loop m (S n) ?prs ?check ?tag ?asts) with (production_loop m n prs check tag asts). apply IH.
Qed.
