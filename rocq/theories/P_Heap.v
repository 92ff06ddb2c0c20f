(** C13, C14: the AST stack as Go slices over shared arrays. *)
From Verif Require Import L_HeapUse.

(** ** C13 *)

(** Running a grammar over shared arrays gives the outcome, the error, the context
    and the ASTs of the run over lists, where every context has its own copy of the
    stack.  [implements] says that the grammar over the heap is the same grammar,
    with leaves that append to the stack and faithful transformers. *)
Theorem C13_copy_semantics : forall g henv env, (forall k, implements g (henv k) (env k)) ->
  forall he e, implements g he e -> forall n h x, valid h (h_stk x) ->
  match h_run g henv n he h x, run env n e (view h x) with
  | Ok (h', x', err'), Ok (o, err) =>
      err' = err /\ set_stack (h_ctx x') [] = set_stack o [] /\
      (err = None -> c_st o <> Errored -> view h' x' = o)
  | Panic w', Panic w => w' = w
  | Fuel, Fuel => True
  | _, _ => False
  end.
Proof.
  intros g henv env H he e He n h x V. pose proof (copy_sound g henv env H n he e He h x V) as A. unfold answers in A.
  destruct (h_run g henv n he h x) as [[[h' x'] err']|w'|], (run env n e (view h x)) as [[o err]|w|]; auto.
  destruct A as (A1 & A2 & A3). split; [exact A1|]. split; [exact A2|]. intros -> Hs.
  destruct (c_st o); [apply A3|apply A3; lia|contradiction].
Qed.
Print Assumptions C13_copy_semantics.

(** The same from a fresh context, as an application starts a parse: the final ASTs
    are those of the copy semantics, for every growth policy of [append]. *)
Theorem C13_whole_parse : forall g henv env, (forall k, implements g (henv k) (env k)) ->
  forall he e, implements g he e -> forall n h c o, c_stack c = [] ->
  run env n e c = Ok (o, None) -> c_st o <> Errored ->
  exists h' x', h_run g henv n he (fst (h_new h c)) (snd (h_new h c)) = Ok (h', x', None) /\
    elems h' (h_stk x') = c_stack o /\ set_stack (h_ctx x') (c_stack o) = o.
Proof.
  intros g henv env H he e He n h c o Hc E Hs. unfold h_new. destruct (alloc h 1024 []) as [h1 s] eqn:E0. cbn [fst snd].
  apply alloc_spec in E0. destruct E0 as (Z1 & Z2 & _).
  assert (Ev : view h1 (mkH c s) = c). { unfold view. cbn [h_stk h_ctx]. rewrite Z1. destruct c; cbn in *; subst; reflexivity. }
  pose proof (C13_copy_semantics g henv env H he e He n h1 (mkH c s) Z2) as A. rewrite Ev, E in A.
  destruct (h_run g henv n he h1 (mkH c s)) as [[[h' x'] err']|w'|]; try contradiction.
  destruct A as (-> & _ & A). specialize (A eq_refl Hs). exists h', x'. split; [reflexivity|].
  rewrite <- A. split; reflexivity.
Qed.
Print Assumptions C13_whole_parse.

(** What a rollback sees: after any sub-parser has run without an error, every slice
    that existed before it and does not reach above the stack the sub-parser was
    given holds the same ASTs as before; so does every saved context. *)
Theorem C13_saved_stacks_survive : forall g henv env, (forall k, implements g (henv k) (env k)) ->
  forall he e, implements g he e -> forall n h x h' x', valid h (h_stk x) ->
  h_run g henv n he h x = Ok (h', x', None) ->
  forall s, valid h s -> s_arr s <> s_arr (h_stk x) \/ (s_off s + s_len s <= s_off (h_stk x) + s_len (h_stk x))%nat ->
  valid h' s /\ elems h' s = elems h s.
Proof.
  intros g henv env H he e He n h x h' x' V E s Vs Hs. pose proof (copy_sound g henv env H n he e He h x V) as A. rewrite E in A. unfold answers in A.
  destruct (run env n e (view h x)) as [[o err]|w|]; try contradiction. destruct A as (<- & _ & A).
  assert (K : kept h h' (s_arr (h_stk x)) (cut (h_stk x) 0)).
  { destruct (c_st o); [apply A|apply A|exact A]. }
  rewrite cut_top in K. split; [eapply kept_valid; eauto|]. eapply kept_elems; eauto.
Qed.
Print Assumptions C13_saved_stacks_survive.

(** All leaf parsers of the library append. *)
Theorem C13_library_leaves : forall cls fn, lib_leaf cls fn -> appends fn.
Proof. exact lib_appends. Qed.
Print Assumptions C13_library_leaves.

(** The transformers of base/transformers.go, with their slice operations, are
    faithful; so is a transformer that only reads its argument and returns a new
    slice, and one that assigns to the elements of its argument. *)
Theorem C13_library_transformers : forall g,
  faithful h_erase Erase /\ faithful h_pop Pop /\ (forall k, faithful h_roll (Roll k)) /\
  (forall op, faithful (h_upd_first g (fun a => mkAst op (a_cls a) (a_ty a) (a_val a) (a_sp a))) (SetOpCode op)) /\
  (forall name, faithful (h_upd_first g (fun a => mkAst (a_op a) name (a_ty a) (a_val a) (a_sp a))) (ChangeClassName name)) /\
  (forall op name, faithful (h_upd_first g (fun a => mkAst op name (a_ty a) (a_val a) (a_sp a))) (SetOpCodeAndClassName op name)) /\
  (forall ty v, faithful (h_upd_first g (fun a => mkAst (a_op a) (a_cls a) ty v (a_sp a))) (SetValue ty v)) /\
  (forall a, faithful (h_push g a) (Push a)) /\ (forall a, faithful (h_prepend g a) (Prepend a)) /\
  (forall t, faithful (h_fresh t) t) /\
  (forall f, faithful (h_in_place f) (fun _ _ l => tok (map f l))).
Proof.
  intros g. split; [apply erase_faithful|]. split; [apply pop_faithful|]. split; [apply roll_faithful|].
  split; [apply set_op_faithful|]. split; [apply set_class_faithful|]. split; [apply set_op_class_faithful|].
  split; [apply set_value_faithful|]. split; [apply push_faithful|]. split; [apply prepend_faithful|].
  split; [apply fresh_faithful|apply in_place_faithful].
Qed.
Print Assumptions C13_library_transformers.

(** ProductionRule is faithful when its rules and its check agree with those over
    lists.  (They run on stacks of their own, so they may even contain any Match.) *)
Theorem C13_production_rule : forall g hprs prs hcheck check,
  Forall2 (fun hpr pr => hpr_rtol hpr = pr_rtol pr /\
    Forall2 (fun hr r => forall n, exists rs rf p, agrees (hr n) (r n) rs rf p) (hpr_rules hpr) (pr_rules pr)) hprs prs ->
  (forall n, exists rs rf p, agrees (hcheck n) (check n) rs rf p) ->
  faithful (h_production g hprs hcheck) (ProductionRule prs check).
Proof. exact production_faithful. Qed.
Print Assumptions C13_production_rule.

(** Backtracking over a branch that has pushed two ASTs, with arrays that grow by
    need from capacity 1: the second branch overwrites the first one's cells. *)
Definition exact_growth : growth := fun _ need => need.
Definition leaf_ab : parser := lift (seq_fn [97; 98]).
Definition leaf_a : parser := lift (seq_fn [97]).
Definition leaf_b : parser := lift (seq_fn [98]).
Definition leaf_c : parser := lift (seq_fn [99]).
Definition ex_list : pexp := EFlatGroup [ELight "" leaf_a;
  EFirst [EFlatGroup [ELight "" leaf_b; EZero [zero_ast]; ELight "" leaf_b]; EGroup [ELight "" leaf_b; ELight "" leaf_c]]].
Definition ex_heap (g : growth) : hexp := HFlatGroup [HLight "" (h_leaf g leaf_a);
  HFirst [HFlatGroup [HLight "" (h_leaf g leaf_b); HLight ":base:Zero" (h_zero g [zero_ast]); HLight "" (h_leaf g leaf_b)];
          HGroup [HLight "" (h_leaf g leaf_b); HLight "" (h_leaf g leaf_c)]]].
Example C13_example :
  (forall g, implements g (ex_heap g) ex_list) /\
  (let h := [[zero_ast]] in let x := mkH (new_string_ctx [97; 98; 99]) (mkSlice 0 0 0) in
   valid h (h_stk x) /\
   match h_run exact_growth (fun _ => ex_heap exact_growth) 10 (ex_heap exact_growth) h x,
         run (fun _ => ex_list) 10 ex_list (new_string_ctx [97; 98; 99]) with
   | Ok (h', x', None), Ok (o, None) =>
       length h' = 6%nat /\ c_st o = Matched /\ map a_ty (c_stack o) = [TString; TListOfAst] /\
       elems h' (h_stk x') = c_stack o
   | _, _ => False
   end).
Proof.
  split.
  - intros g. assert (L : forall s, appends (lift (seq_fn s))) by (intros s; apply (lib_appends ":string:Seq"); left; apply sl_seq).
    apply i_flat. apply i_cons; [apply i_leaf, L|]. apply i_cons; [|apply i_nil]. apply i_first.
    apply i_cons; [|apply i_cons; [|apply i_nil]].
    + apply i_flat. apply i_cons; [apply i_leaf, L|]. apply i_cons; [apply i_zero|]. apply i_cons; [apply i_leaf, L|apply i_nil].
    + apply i_group. apply i_cons; [apply i_leaf, L|]. apply i_cons; [apply i_leaf, L|apply i_nil].
  - split; [split; cbn; lia|]. vm_compute. repeat split.
Qed.

(** ** C14 *)

(** Refutation.  The stack holds one AST; the first alternative rewrites it with
    Match(1) and then fails; the second alternative pushes nothing.  First answers
    with a stack whose old AST is the rewritten one, although the second
    alternative, run alone, leaves it as it was. *)
Definition rewrite_op (g : growth) : hcase :=
  mkHCase TopIsAny [h_upd_first g (fun a => mkAst 7 (a_cls a) (a_ty a) (a_val a) (a_sp a))].
Definition bad_alt (g : growth) : hexp :=
  HFlatGroup [HLight "Match" (h_match g 1 [rewrite_op g]); HLight ":base:Unmatched" (h_leaf g (lift unmatched_fn))].
Definition good_alt (g : growth) : hexp := HLight ":base:Zero" (h_zero g []).
Theorem C14_match_backtracking_refuted : forall g, exists h x h1 x1 h2 x2 h3 x3,
  valid h (h_stk x) /\
  h_run g (fun _ => good_alt g) 10 (bad_alt g) h x = Ok (h1, x1, None) /\ hst x1 = Unmatched /\
  h_run g (fun _ => good_alt g) 10 (good_alt g) h x = Ok (h2, x2, None) /\ hst x2 = Matched /\
  h_run g (fun _ => good_alt g) 10 (HFirst [bad_alt g; good_alt g]) h x = Ok (h3, x3, None) /\ hst x3 = Matched /\
  map a_op (elems h2 (h_stk x2)) = [0] /\ map a_op (elems h3 (h_stk x3)) = [7].
Proof.
  intros g. exists [[zero_ast]], (mkH (new_string_ctx []) (mkSlice 0 0 1)).
  do 6 eexists. split; [split; cbn; lia|]. split; [vm_compute; reflexivity|]. split; [reflexivity|].
  split; [vm_compute; reflexivity|]. split; [reflexivity|]. split; [vm_compute; reflexivity|]. repeat split.
Qed.
Print Assumptions C14_match_backtracking_refuted.

(** The same grammar over lists answers with the AST as it was: the parsers differ
    from the copy semantics. *)
Theorem C14_copy_semantics_refuted : forall g, exists h x h' x' o,
  valid h (h_stk x) /\
  h_run g (fun _ => good_alt g) 10 (HFirst [bad_alt g; good_alt g]) h x = Ok (h', x', None) /\ hst x' = Matched /\
  run (fun _ => EUnmatched) 10
    (EFirst [EFlatGroup [EMatch 1 [mkCase TopIsAny [SetOpCode 7]]; EUnmatched]; EZero []]) (view h x) = Ok (o, None) /\
  c_st o = Matched /\ elems h' (h_stk x') <> c_stack o.
Proof.
  intros g. exists [[zero_ast]], (mkH (new_string_ctx []) (mkSlice 0 0 1)).
  do 3 eexists. split; [split; cbn; lia|]. split; [vm_compute; reflexivity|]. split; [reflexivity|].
  split; [vm_compute; reflexivity|]. split; [reflexivity|]. vm_compute. discriminate.
Qed.
Print Assumptions C14_copy_semantics_refuted.

(** When it is safe: [reach] bounds how many of the ASTs that were on the stack
    before it a parser may rewrite (and demands that it be none where a combinator
    goes on after the parser has failed).  For such grammars the run over shared
    arrays agrees with the copy semantics, also with Match.  Missing: the other
    grammars, for which this is false. *)
Theorem C14_match_reach_partial : forall g sg henv env,
  (forall k, reach g sg (henv k) (env k) (fst (fst (sg k))) (snd (fst (sg k))) (snd (sg k))) ->
  forall he e rs rf p, reach g sg he e rs rf p -> forall n h x, valid h (h_stk x) ->
  match h_run g henv n he h x, run env n e (view h x) with
  | Ok (h', x', err'), Ok (o, err) =>
      err' = err /\ set_stack (h_ctx x') [] = set_stack o [] /\
      (err = None -> c_st o = Matched -> view h' x' = o /\ Z.of_nat (s_len (h_stk x)) + p <= Z.of_nat (s_len (h_stk x'))) /\
      (err = None -> c_st o = Unmatched -> forall s, valid h s ->
         s_arr s <> s_arr (h_stk x) \/ (s_off s + s_len s <= s_off (h_stk x) + (s_len (h_stk x) - Z.to_nat rf))%nat ->
         elems h' s = elems h s)
  | Panic w', Panic w => w' = w
  | Fuel, Fuel => True
  | _, _ => False
  end.
Proof.
  intros g sg henv env H he e rs rf p He n h x V.
  pose proof (heap_run_sound g sg henv env H n he e rs rf p He h x V) as A. unfold answers in A.
  destruct (h_run g henv n he h x) as [[[h' x'] err']|w'|], (run env n e (view h x)) as [[o err]|w|]; auto.
  destruct A as (A1 & A2 & A3). split; [exact A1|]. split; [exact A2|]. split.
  - intros -> Hs. rewrite Hs in A3. destruct A3 as (B1 & _ & _ & _ & B2). split; [exact B1|exact B2].
  - intros -> Hs s Vs. rewrite Hs in A3. intros K. eapply kept_elems; [apply A3|exact Vs|exact K].
Qed.
Print Assumptions C14_match_reach_partial.

(** A Match that rewrites what its own alternative has pushed is safe under
    backtracking: here the first alternative fails after the Match. *)
Definition safe_list : pexp := EFirst
  [EFlatGroup [ELight "" leaf_a; EMatch 1 [mkCase TopIsAny [SetOpCode 7]]; ELight "" leaf_b];
   EFlatGroup [ELight "" leaf_a; ELight "" leaf_c]].
Definition safe_heap (g : growth) : hexp := HFirst
  [HFlatGroup [HLight "" (h_leaf g leaf_a); HLight "Match" (h_match g 1 [rewrite_op g]); HLight "" (h_leaf g leaf_b)];
   HFlatGroup [HLight "" (h_leaf g leaf_a); HLight "" (h_leaf g leaf_c)]].
Lemma seq_reach g sg s : reach g sg (HLight "" (h_leaf g (lift (seq_fn s)))) (ELight "" (lift (seq_fn s))) 0 0 1.
Proof.
  apply re_leaf; [apply (lib_appends ":string:Seq"); left; apply sl_seq|].
  intros n c o E Hm. unfold lift, seq_fn in E. destruct c as [str sl [pos len] q stk st0 cls0 tag]. cbn in *.
  repeat match type of E with (if ?b then _ else _) = _ => destruct b | match ?b with _ => _ end = _ => destruct b end;
    try discriminate; injection E as <-; try discriminate Hm. cbn. rewrite app_length. cbn. lia.
Qed.
Example C14_reach_example : (forall g sg, reach g sg (safe_heap g) safe_list 0 0 1) /\
  match h_run exact_growth (fun _ => safe_heap exact_growth) 10 (safe_heap exact_growth)
          [[zero_ast; zero_ast; zero_ast]] (mkH (new_string_ctx [97; 99]) (mkSlice 0 0 1)) with
  | Ok (h', x', None) => hst x' = Matched /\ map a_op (elems h' (h_stk x')) = [0; 0; 0]
  | _ => False
  end.
Proof.
  split; [|vm_compute; auto]. intros g sg. apply re_first; [|lia|discriminate].
  apply ia_cons; [|apply ia_cons; [|apply ia_nil]].
  - apply re_flat. eapply (is_cons g sg _ _ _ _ 0 0 1 1 1 1); [apply seq_reach| | | | | | | |]; try lia.
    eapply (is_cons g sg _ _ _ _ 1 0 0 0 0 1); [| | | | | | | |]; try lia.
    + apply re_match with (k := 1); [lia| |].
      * apply cm_cons; [|apply cm_nil]. constructor; [apply set_op_faithful|constructor].
      * constructor; [|constructor]. intros n c l l' Hl E. cbn in E. destruct l as [|a l]; cbn in *; [lia|].
        injection E as <-. cbn. lia.
    + eapply (is_cons g sg _ _ _ _ 0 0 1 0 0 0); [apply seq_reach|apply is_nil| | | | | | |]; lia.
  - apply re_flat. eapply (is_cons g sg _ _ _ _ 0 0 1 0 0 1); [apply seq_reach| | | | | | | |]; try lia.
    eapply (is_cons g sg _ _ _ _ 0 0 1 0 0 0); [apply seq_reach|apply is_nil| | | | | | |]; lia.
Qed.
