(** C74: the rules of ProductionRule read the slice they rewrite. *)
From Verif Require Import L_Heap L_HeapUse L_Live L_LeafInv L_FormulaProd M_Formula.

(** A grammar whose parts write to the array of their stack and to new arrays only sees the slice it
    parses as it was when the parse began, even if every part looks at the cells anew. *)
Theorem C74_live_source : forall g henv, (forall k, framed_exp (henv k)) -> forall e, framed_exp e ->
  forall src n h x, source_at src h x -> live_run g henv src n e h x = h_run g henv n e h x.
Proof. intros g henv H e F src n h x S. exact (live_run_same g henv src H n e F h x S). Qed.
Print Assumptions C74_live_source.
(** The slice it has parsed is what it was. *)
Theorem C74_source_survives : forall g henv, (forall k, framed_exp (henv k)) -> forall e, framed_exp e ->
  forall src n h x h' x' err, source_at src h x -> live_run g henv src n e h x = Ok (h', x', err) ->
  valid h' src /\ elems h' src = elems h src.
Proof.
  intros g henv H e F src n h x h' x' err S E. rewrite (live_run_same g henv src H n e F h x S) in E.
  pose proof (run_framed g henv H n e F h x (source_valid _ _ _ S)) as A. rewrite E in A. destruct A as [(A & _) _].
  destruct S as (V & _ & D & _). split; [eapply kept_valid; eauto|]. eapply kept_elems; eauto.
Qed.
Print Assumptions C74_source_survives.
(** The parts of the library are of this kind: leaves that leave ctx.Slice alone, Zero, Match with such
    transformers, the transformers of C13, and ProductionRule itself. *)
Theorem C74_library : forall g,
  (forall cls fn, lib_leaf cls fn -> forall n, framed (h_leaf g fn n)) /\ (forall ins n, framed (h_zero g ins n)) /\
  (forall k cases n, Forall (fun cs => Forall framed_trans (hcase_let cs)) cases -> framed (h_match g k cases n)) /\
  (forall ht t, faithful ht t -> framed_trans ht) /\
  (forall henv prs check, (forall k, framed_exp (henv k)) -> Forall (fun p => Forall framed_exp (gpr_rules p)) prs ->
     framed_exp check -> framed_trans (live_production g henv prs check)).
Proof.
  intros g. split; [|split; [apply zero_framed|split; [apply match_framed|split; [apply faithful_framed|]]]].
  - intros cls fn L n. apply leaf_framed. intros c o e E. apply lib_leaf_tame in L. destruct L as (sz & b & f & -> & T).
    apply (tame_source _ _ _ _ T n c o e E).
  - intros henv prs check He Fp Fc n c h s V. rewrite (live_production_same g henv prs check He Fp Fc n c h s V).
    exact (snapshot_framed g henv prs check He Fp Fc n c h s V).
Qed.
Print Assumptions C74_library.
(** So ProductionRule on memory, with rules that read the slice it rewrites, does what ProductionRule
    over lists does. *)
Theorem C74_production : forall g henv env hprs prs hcheck check,
  (forall k, implements g (henv k) (env k) /\ gram source_spec (env k)) ->
  Forall2 (fun hp p => gpr_rtol hp = snd p /\ Forall2 (fun he e => implements g he e /\ gram source_spec e) (gpr_rules hp) (fst p)) hprs prs ->
  implements g hcheck check -> gram source_spec check ->
  faithful (live_production g henv hprs hcheck)
    (ProductionRule (map (fun p => mkPrec (map (fun e m => run env m e) (fst p)) (snd p)) prs) (fun m => run env m check)).
Proof. exact live_faithful. Qed.
Print Assumptions C74_production.

(** The rules of _examples/formula (precedence.go:9-111) on memory. *)
Definition live_leaf g cls f := HLight cls (h_leaf g (lift f)).
Definition live_operand g := HTrans (live_leaf g ":object:Any" obj_any_fn) [h_fresh unwrapOperandItem].
Definition live_operator g cls ops :=
  HTrans (live_leaf g ":object:ObjClassFn" (op_class_fn (makeOpMatcher cls ops))) [h_fresh unwrapOperandItem].
Definition live_levels g (neg mul add : htrans) : list gprec :=
  [mkGPrec [HTrans (HFlatGroup [live_operator g "UnaryOperator" [bs "-"]; live_operand g]) [neg]] true;
   mkGPrec [HTrans (HFlatGroup [live_operand g; live_operator g "BinaryOperator" [bs "*"; bs "/"]; live_operand g]) [mul]] false;
   mkGPrec [HTrans (HFlatGroup [live_operand g; live_operator g "BinaryOperator" [bs "+"; bs "-"]; live_operand g]) [add]] false].
Definition live_check g := HFlatGroup [live_leaf g ":base:Start" start_fn; live_leaf g ":object:Any" obj_any_fn; live_leaf g ":object:End" obj_end_fn].
Definition live_none g : nat -> hexp := fun _ => live_leaf g ":base:Unmatched" unmatched_fn.
Lemma op_class_source f : source_leaf (lift (op_class_fn f)).
Proof.
  intros n c o e E. unfold lift, op_class_fn in E.
  destruct (match c_slice c with Some sl => nth_error (sl_items sl) (c_pos c) | None => None end) as [v|].
  - destruct (f v) as [b|]; [|discriminate]. exact (tame_source _ _ _ _ (tame_obj_classFn (fun _ => b)) n c o e E).
  - exact (tame_source _ _ _ _ (tame_obj_classFn (fun _ => false)) n c o e E).
Qed.
Lemma op_class_appends f : appends (lift (op_class_fn f)).
Proof.
  intros n c o e E. unfold lift, op_class_fn in E.
  destruct (match c_slice c with Some sl => nth_error (sl_items sl) (c_pos c) | None => None end) as [v|].
  - destruct (f v) as [b|]; [|discriminate]. exact (lib_appends _ _ (or_intror (ol_classFn anyA (fun _ => b))) n c o e E).
  - exact (lib_appends _ _ (or_intror (ol_classFn anyA (fun _ => false))) n c o e E).
Qed.
Ltac live_tac := repeat first
  [ apply i_flat | apply i_cons | apply i_nil | apply i_trans | apply i_leaf; apply op_class_appends
  | apply i_leaf; eapply lib_appends; first [right; apply ol_any | right; apply ol_end | right; apply ol_base; constructor]
  | apply Forall2_cons | apply Forall2_nil | apply fresh_faithful | assumption ].
Lemma live_rule g he e : implements g he e -> gram source_spec e -> implements g he e /\ gram source_spec e.
Proof. auto. Qed.
Lemma source_operand : gram source_spec anyOperand.
Proof. apply (lib_source anyT anyZ). unfold anyOperand. lib_tac. Qed.
Lemma source_operator cls ops : gram source_spec (isOperator cls ops).
Proof. split; [apply op_class_source|cbn; auto]. Qed.
Theorem C74_formula : forall g hneg hmul hadd neg mul add, faithful hneg neg -> faithful hmul mul -> faithful hadd add ->
  faithful (live_production g (live_none g) (live_levels g hneg hmul hadd) (live_check g)) (formulaProductionRules neg mul add).
Proof.
  intros g hneg hmul hadd neg mul add Hn Hm Ha.
  apply (C74_production g (live_none g) no_rules (live_levels g hneg hmul hadd)
    [([unary_rule neg], true); ([binary_rule [bs "*"; bs "/"] mul], false); ([binary_rule [bs "+"; bs "-"] add], false)] (live_check g) prod_check).
  - intros k. split; [live_tac|]. unfold no_rules. apply (lib_source anyT anyZ). unfold EUnmatched. lib_tac.
  - apply Forall2_cons; [|apply Forall2_cons; [|apply Forall2_cons; [|apply Forall2_nil]]];
      (split; [reflexivity|]); (apply Forall2_cons; [|apply Forall2_nil]); (split; [live_tac|]);
      (split; [split; [|split]|]); try apply source_operand; try apply source_operator; cbn; auto using source_operand, source_operator.
    all: exact (conj source_operand I).
  - live_tac.
  - apply (lib_source anyT anyZ). unfold prod_check. lib_tac.
Qed.
Print Assumptions C74_formula.

(** 2 + 3 * 4 with the transformers of formula: one Number is left, its value is 14. *)
Definition live_num (z : Z) : ast := mkAst 0 "Number" TInt (VInt z) sp0.
Definition live_op (b : bytes) : ast := mkAst 0 "BinaryOperator" TString (VStr b) sp0.
Definition live_source : list ast := [live_num 2; live_op (bs "+"); live_num 3; live_op (bs "*"); live_num 4].
Example C74_example :
  (forall g, framed_exp (live_check g) /\ (forall k, framed_exp (live_none g k))) /\
  (let h := fst (h_new [live_source] (new_object_ctx (ast_slice live_source) VNil)) in
   let x := snd (h_new [live_source] (new_object_ctx (ast_slice live_source) VNil)) in source_at (mkSlice 0 0 5) h x) /\
  faithful (h_fresh negate) negate /\
  match live_production (fun _ need => need) (live_none (fun _ need => need))
      (live_levels (fun _ need => need) (h_fresh negate) (h_fresh (mulDiv (Panic "integer divide by zero"))) (h_fresh addSub)) (live_check (fun _ need => need))
      20%nat (new_string_ctx []) [live_source] (mkSlice 0 0 5) with
  | Ok (h', inr s') => elems h' s' = [number_ast 14] /\ s_arr s' <> 0%nat /\ cells h' 0 = live_source
  | _ => False
  end.
Proof.
  split.
  { intros g. split.
    - apply (proj1 (implements_framed g) (live_check g) prod_check); [live_tac|]. apply (lib_source anyT anyZ). unfold prod_check. lib_tac.
    - intros k. apply (proj1 (implements_framed g) (live_none g k) EUnmatched); [live_tac|]. apply (lib_source anyT anyZ). unfold EUnmatched. lib_tac. }
  split; [vm_compute; repeat split; lia|]. split; [apply fresh_faithful|]. vm_compute. split; [reflexivity|]. split; [discriminate|reflexivity].
Qed.

(** The hypothesis on the parts is needed.  A transformer that assigns to ctx.Slice.(AstSlice)[1], as
    Go lets it, changes what the parser after it reads: the rule that takes the number 2 after the
    number 1 does not match, though the slice was [1, 2] when ProductionRule was called. *)
Definition live_writer : htrans := fun _ _ h s =>
  Ok (go_update h (mkSlice 0 0 2) 1 (fun _ => live_num 3), inr s).
Definition live_is (z : Z) (v : value) : bool :=
  match v with VAst a => match a_val a with VInt y => y =? z | _ => false end | _ => false end.
Definition live_pair g (t : htrans) : hexp :=
  HTrans (HFlatGroup [HTrans (live_leaf g ":object:ObjClassFn" (obj_classFn_fn (live_is 1))) [t];
                      live_leaf g ":object:ObjClassFn" (obj_classFn_fn (live_is 2))]) [h_fresh (fun _ _ _ => tok [live_num 12])].
Theorem C74_writer_refuted : ~ (forall g e src n h x, source_at src h x ->
  live_run g (live_none g) src n e h x = h_run g (live_none g) n e h x).
Proof.
  intros H. specialize (H (fun _ need => need) (live_pair (fun _ need => need) live_writer) (mkSlice 0 0 2) 9%nat
    [[live_num 1; live_num 2]; [zero_ast]] (mkH (new_object_ctx (ast_slice [live_num 1; live_num 2]) VNil) (mkSlice 1 0 0))).
  assert (S : source_at (mkSlice 0 0 2) [[live_num 1; live_num 2]; [zero_ast]] (mkH (new_object_ctx (ast_slice [live_num 1; live_num 2]) VNil) (mkSlice 1 0 0)))
    by (vm_compute; repeat split; lia).
  specialize (H S). vm_compute in H. discriminate H.
Qed.
Print Assumptions C74_writer_refuted.
Example C74_writer_example :
  let run t := live_production (fun _ need => need) (live_none (fun _ need => need)) [mkGPrec [live_pair (fun _ need => need) t] false]
      (live_check (fun _ need => need)) 20%nat (new_string_ctx []) [[live_num 1; live_num 2]] (mkSlice 0 0 2) in
  (exists h s, run h_roll = Ok (h, inr s) /\ elems h s = [live_num 12]) /\ (exists h, run live_writer = Ok (h, inl prod_err)).
Proof. split; [eexists; eexists; split; [vm_compute; reflexivity|vm_compute; reflexivity]|eexists; vm_compute; reflexivity]. Qed.
