(** Property theorems for the core: C01-C12 and C25. *)
From Verif Require Import L_PegComp L_LeafInv L_Core L_Core2.

(** ** Concrete grammars used in the examples *)

(** S <- '(' S* ')' *)
Definition parens : pexp :=
  EFlatGroup [SSeq (bs "("); EZeroOrMore [EIndirect 0]; SSeq (bs ")")].
Definition parens_env : nat -> pexp := fun _ => parens.
Definition no_env : nat -> pexp := fun _ => EUnmatched.
(** number <- digit+ converted to an integer *)
Definition digits_int : pexp := ETrans (EOneOrMore [SNumber]) [Concat; ParseInt].

Lemma parens_gram : forall k, peg_gram (parens_env k).
Proof. intros k. unfold parens_env, parens, SSeq, EZeroOrMore. gram_tac. Qed.
Lemma no_env_gram g : (forall c, g_leaf g c (lift unmatched_fn)) -> forall k, gram g (no_env k).
Proof. intros H k. apply H. Qed.
Lemma no_env_peg : forall k, peg_gram (no_env k).
Proof. intros k. unfold no_env, EUnmatched. gram_tac. Qed.
Lemma digits_gram : peg_gram digits_int.
Proof. unfold digits_int, EOneOrMore, SNumber, ParseInt. gram_tac. Qed.
Definition wd (s : bytes) (env : nat -> pexp) : world := mkW s None VNil env.

(** ** C01 *)
Theorem C01_peg_semantics : forall w e c,
  peg_env w -> peg_gram e -> in_world w c -> c_st c = Matched ->
  forall r, peg w e (c_sp c) r <->
    exists n o err, run (w_env w) n e c = Ok (o, err) /\ returns (c_stack c) o err r.
Proof. exact peg_adequate. Qed.
Print Assumptions C01_peg_semantics.

Theorem C01_unique_answer : forall w e cur r r',
  peg_env w -> peg_gram e -> peg w e cur r -> peg w e cur r' -> r = r'.
Proof. exact peg_det. Qed.
Print Assumptions C01_unique_answer.

(** The recursive grammar derives the whole of "(()())". *)
Example C01_example : exists l,
  peg (wd (bs "(()())") parens_env) parens sp0 (RSucc (mkSP 6 1) l) /\ length l = 6%nat.
Proof.
  eexists. split.
  - apply (C01_peg_semantics (wd (bs "(()())") parens_env) parens (new_string_ctx (bs "(()())"))
             parens_gram (parens_gram 0) (conj eq_refl (conj eq_refl eq_refl)) eq_refl).
    exists 20%nat. eexists. eexists. split; [vm_compute; reflexivity|]. repeat split.
  - reflexivity.
Qed.
(** A failure is derived for "(()" although a prefix was consumed. *)
Example C01_example_fail : peg (wd (bs "(()") parens_env) parens sp0 RFail.
Proof.
  apply (C01_peg_semantics (wd (bs "(()") parens_env) parens (new_string_ctx (bs "(()"))
           parens_gram (parens_gram 0) (conj eq_refl (conj eq_refl eq_refl)) eq_refl).
  exists 20%nat. eexists. eexists. split; [vm_compute; reflexivity|]. split; reflexivity.
Qed.

(** ** C02 *)
Theorem C02_repeat_counts : forall env t es n c o err,
  run env n (ERepeat t es) c = Ok (o, err) -> c_st o <> Errored ->
  err = None /\ exists k c1,
    iters (map (run env n) es) k (enter ":base:Repeat" c) c1 /\
    (t_max t < 0 \/ Z.of_nat k <= t_max t) /\
    (Z.of_nat k = t_max t \/ seq_fails (map (run env n) es) c1) /\
    (c_st o = Matched <-> t_min t <= Z.of_nat k) /\
    (c_st o = Matched -> c_qty o = k) /\ c_sp o = c_sp c1 /\ c_stack o = c_stack c1.
Proof.
  exact (fun env t es n c o err H He => repeat_only_if' t (map (run env n) es) n c o err H He).
Qed.
Print Assumptions C02_repeat_counts.

Theorem C02_repeat_runs : forall env t es n c k c1,
  iters (map (run env n) es) k (enter ":base:Repeat" c) c1 -> (k < n)%nat ->
  (Z.of_nat k = t_max t \/ ((t_max t < 0 \/ Z.of_nat k < t_max t) /\ seq_fails (map (run env n) es) c1)) ->
  exists o, run env n (ERepeat t es) c = Ok (o, None) /\
    (c_st o = Matched <-> t_min t <= Z.of_nat k) /\ c_st o <> Errored /\
    (c_st o = Matched -> c_qty o = k).
Proof. exact (fun env t es n c k c1 => repeat_if' t (map (run env n) es) n c k c1). Qed.
Print Assumptions C02_repeat_runs.

Example C02_example : exists o,
  run no_env 9 (ERepeat (mkTimes 2 3) [SNumber]) (new_string_ctx (bs "1234")) = Ok (o, None) /\
  c_st o = Matched /\ c_qty o = 3%nat /\ c_pos o = 3%nat.
Proof. eexists. split; [vm_compute; reflexivity|repeat split]. Qed.
Example C02_example_few : exists o,
  run no_env 9 (ERepeat (mkTimes 2 3) [SNumber]) (new_string_ctx (bs "1x34")) = Ok (o, None) /\
  c_st o = Unmatched.
Proof. eexists. split; [vm_compute; reflexivity|repeat split]. Qed.

(** ** C03 *)
Theorem C03_lookahead : forall env es n c o,
  run env n (ELookAhead es) c = Ok (o, None) -> c_st o = Matched ->
  c_sp o = c_sp c /\ c_stack o = c_stack c.
Proof. exact (fun env es n c o => lookahead_zero (map (run env n) es) n c o). Qed.
Print Assumptions C03_lookahead.
Theorem C03_lookaheadN : forall env es n c o,
  run env n (ELookAheadN es) c = Ok (o, None) -> c_st o = Matched ->
  c_sp o = c_sp c /\ c_stack o = c_stack c.
Proof. exact (fun env es n c o => lookaheadN_zero (map (run env n) es) n c o). Qed.
Print Assumptions C03_lookaheadN.
Theorem C03_lookbehind : forall env neg mn mx es n c o,
  run env n (ELookBehind neg mn mx es) c = Ok (o, None) -> c_st o = Matched ->
  c_sp o = c_sp c /\ c_stack o = c_stack c.
Proof.
  exact (fun env neg mn mx es n c o => behind_zero neg _ c _ mn o).
Qed.
Print Assumptions C03_lookbehind.
Theorem C03_leaves : forall env n c o e,
  e = EStart \/ e = SEnd \/ e = SWordBoundary ->
  run env n e c = Ok (o, None) -> c_st o = Matched ->
  c_pos o = c_pos c /\ c_stack o = c_stack c.
Proof. exact zero_leaves. Qed.
Print Assumptions C03_leaves.
Theorem C03_zero : forall env n ins c, exists o,
  run env n (EZero ins) c = Ok (o, None) /\ c_st o = Matched /\ c_pos o = c_pos c /\
  c_stack o = c_stack c ++ map (fun a => mkAst (a_op a) (a_cls a) (a_ty a) (a_val a) (c_sp c)) ins.
Proof. exact zero_zero. Qed.
Print Assumptions C03_zero.

(** An inner parser that consumes and pushes. *)
Example C03_example : exists o,
  run no_env 9 (EFlatGroup [SAny; ELookAhead [SAny; SSeq (bs "c")]; ELookBehind false 1 2 [SSeq (bs "a")]])
    (new_string_ctx (bs "abc")) = Ok (o, None) /\
  c_st o = Matched /\ c_pos o = 1%nat /\ length (c_stack o) = 1%nat.
Proof. eexists. split; [vm_compute; reflexivity|repeat split]. Qed.
Example C03_example_word : exists o,
  run no_env 9 (EFlatGroup [EStart; SAny; SWordBoundary; SAny; SEnd]) (new_string_ctx (bs "a ")) = Ok (o, None) /\
  c_st o = Matched /\ c_pos o = 2%nat.
Proof. eexists. split; [vm_compute; reflexivity|repeat split]. Qed.

(** ** C04 *)
Theorem C04_failed_alternatives : forall env pre post n c,
  Forall (fun e => skipped (run env n e) (enter ":base:First" c)) pre -> post <> [] ->
  run env n (EFirst (pre ++ post)) c = run env n (EFirst post) c.
Proof. exact first_skip_run. Qed.
Print Assumptions C04_failed_alternatives.
Theorem C04_first_match_wins : forall env e es n c o,
  run env n e (enter ":base:First" c) = Ok (o, None) -> c_st o = Matched -> (0 < n)%nat ->
  run env n (EFirst (e :: es)) c = Ok (set_qty o 1, None).
Proof. exact (fun env e es n c o => first_hit (run env n e) (map (run env n) es) n c o). Qed.
Print Assumptions C04_first_match_wins.
Theorem C04_no_alternative : forall env es n c,
  Forall (fun e => skipped (run env n e) (enter ":base:First" c)) es -> es <> [] -> (0 < n)%nat ->
  exists o, run env n (EFirst es) c = Ok (o, None) /\ c_st o = Unmatched /\
    c_sp o = c_sp c /\ c_stack o = c_stack c.
Proof. exact first_none_run. Qed.
Print Assumptions C04_no_alternative.
Theorem C04_sequence_rolls_back : forall env es n c,
  seq_fails (map (run env n) es) (enter ":base:FlatGroup" c) -> (0 < n)%nat ->
  exists o, run env n (EFlatGroup es) c = Ok (o, None) /\ c_st o = Unmatched /\
    c_sp o = c_sp c /\ c_stack o = c_stack c.
Proof. exact seq_rollback_run. Qed.
Print Assumptions C04_sequence_rolls_back.

(** The first alternative consumes and pushes "ab" before it fails. *)
Example C04_example :
  run no_env 9 (EFirst [EFlatGroup [SSeq (bs "ab"); SSeq (bs "x")]; SSeq (bs "abc")]) (new_string_ctx (bs "abc")) =
  run no_env 9 (EFirst [SSeq (bs "abc")]) (new_string_ctx (bs "abc")).
Proof.
  apply (C04_failed_alternatives no_env [EFlatGroup [SSeq (bs "ab"); SSeq (bs "x")]]).
  - constructor; [|constructor]. eexists. split; [vm_compute; reflexivity|reflexivity].
  - discriminate.
Qed.
(** The third iteration fails midway: the answer is the state after the second. *)
Example C04_example_iteration : exists o,
  run no_env 9 (EZeroOrMore [SNumber; SSeq (bs ",")]) (new_string_ctx (bs "1,2,3")) = Ok (o, None) /\
  c_st o = Matched /\ c_pos o = 4%nat /\ length (c_stack o) = 4%nat.
Proof. eexists. split; [vm_compute; reflexivity|repeat split]. Qed.

(** ** C05 *)
Theorem C05_errors_cut : forall env n e c m e' c',
  reaches env n e c m e' c' -> forall o x, run env m e' c' = Ok (o, Some x) ->
  exists o', run env n e c = Ok (o', Some x) /\ c_st o' = Errored /\ c_sp o' = c_sp o.
Proof. exact reaches_err'. Qed.
Print Assumptions C05_errors_cut.

(** Four combinators around an Error; the First has a matching second alternative. *)
Definition cut_inner : pexp := EFlatGroup [SSeq (bs "a"); EError "boom"].
Definition cut_outer : pexp := EFirst [ELookAheadN [EZeroOrMore [cut_inner]]; SSeq (bs "a")].
Example C05_example : exists c',
  reaches no_env 9 cut_outer (new_string_ctx (bs "ab")) 9 (EError "boom") c' /\
  exists o, run no_env 9 (EError "boom") c' = Ok (o, Some (EText "boom")) /\
  exists o', run no_env 9 cut_outer (new_string_ctx (bs "ab")) = Ok (o', Some (EText "boom")) /\ c_pos o' = 1%nat.
Proof.
  eexists. split.
  - eapply reach_step; [apply (call_first no_env 9 [] (ELookAheadN [EZeroOrMore [cut_inner]]) [SSeq (bs "a")]);
                        [constructor|lia]|].
    eapply reach_step; [eapply (call_aheadN no_env 9 [] (EZeroOrMore [cut_inner]) []); [constructor|lia]|].
    eapply reach_step; [eapply (call_repeat no_env 9 qtyZeroOrMoreTimes [] cut_inner []);
                        [constructor|left; reflexivity|lia|constructor]|].
    eapply reach_step; [eapply (call_flat no_env 9 [SSeq (bs "a")] (EError "boom") []);
                        [econstructor; [vm_compute; reflexivity|reflexivity|constructor]|lia]|].
    apply reach_here.
  - eexists. split; [vm_compute; reflexivity|]. eexists. split; [vm_compute; reflexivity|reflexivity].
Qed.

(** ** C06 *)
Theorem C06_status_iff_error : forall env e n c o err,
  (forall k, gram honest_spec (env k)) -> gram honest_spec e -> c_st c = Matched ->
  run env n e c = Ok (o, err) -> (c_st o = Errored <-> err <> None).
Proof. exact status_iff_error. Qed.
Print Assumptions C06_status_iff_error.
(** Every grammar of library leaf parsers and exported combinators qualifies. *)
Theorem C06_library_grammars : forall e, gram (lib_spec lib_leaf anyT anyZ) e -> gram honest_spec e.
Proof. exact (lib_honest anyT anyZ). Qed.
Print Assumptions C06_library_grammars.
(** BaseParser used directly: an error of the final call fn(ctx,...,-1,...) is lost. *)
Definition late_error : impl_fn := fun num _ c =>
  if num <? 0 then Ok (c, Some (EText "late")) else Ok (c, None).
Theorem C06_base_parser_refuted :
  exists c o, c_st c = Matched /\
    run no_env 9 (EBase "cls" (Some late_error) [] [SAny] None) c = Ok (o, None) /\ c_st o = Errored.
Proof. exists (new_string_ctx (bs "a")). eexists. repeat split. Qed.
Print Assumptions C06_base_parser_refuted.

Example C06_example : gram (lib_spec lib_leaf anyT anyZ) cut_outer /\ exists o,
  run no_env 9 cut_outer (new_string_ctx (bs "ab")) = Ok (o, Some (EText "boom")) /\ c_st o = Errored.
Proof.
  split; [lib_tac|].
  eexists. split; [vm_compute; reflexivity|reflexivity].
Qed.

(** ** C07 *)
Theorem C07_source_unchanged : forall env e n c o err,
  (forall k, gram source_spec (env k)) -> gram source_spec e ->
  run env n e c = Ok (o, err) -> c_str o = c_str c /\ c_slice o = c_slice c /\ c_tag o = c_tag c.
Proof. exact source_kept. Qed.
Print Assumptions C07_source_unchanged.
Theorem C07_library_grammars : forall T e, gram (lib_spec lib_leaf T anyZ) e -> gram source_spec e.
Proof. exact (fun T => lib_source T anyZ). Qed.
Print Assumptions C07_library_grammars.
Example C07_example : gram source_spec digits_int /\ gram source_spec cut_outer.
Proof.
  split; apply (C07_library_grammars anyT); lib_tac.
Qed.

(** ** C08 *)
Theorem C08_position_in_bounds : forall sz env e n c o err,
  (forall k, gram (pos_spec sz) (env k)) -> gram (pos_spec sz) e -> in_bounds sz c ->
  run env n e c = Ok (o, err) ->
  in_bounds sz o /\ (err = None -> c_st o = Matched -> (c_pos c <= c_pos o)%nat).
Proof. exact pos_kept. Qed.
Print Assumptions C08_position_in_bounds.
Theorem C08_string_grammars : forall T e,
  gram (lib_spec (string_leaf anyA) T forwardB) e -> gram (pos_spec str_size) e.
Proof. exact string_pos. Qed.
Print Assumptions C08_string_grammars.
Theorem C08_object_grammars : forall T e,
  gram (lib_spec (object_leaf anyA) T forwardB) e -> gram (pos_spec obj_size) e.
Proof. exact object_pos. Qed.
Print Assumptions C08_object_grammars.
(** With a negative distance a look-behind can read beyond the end. *)
Example C08_negative_distance :
  run no_env 9 (ELookBehind false (-2) (-2) [SAny]) (new_string_ctx (bs "a")) = Panic "slice bounds out of range".
Proof. vm_compute. reflexivity. Qed.
Definition behind_any : pexp := EFlatGroup [SAny; ELookBehind true 0 2 [SSeq (bs "b")]; EZeroOrMore [SAny]].
Example C08_example : gram (pos_spec str_size) behind_any /\ in_bounds str_size (new_string_ctx [255; 97; 195]) /\
  exists o, run no_env 9 behind_any (new_string_ctx [255; 97; 195]) = Ok (o, None) /\ c_pos o = 3%nat.
Proof.
  split; [apply (C08_string_grammars anyT); lib_tac|].
  split; [unfold in_bounds, c_pos; simpl; lia|]. eexists. split; [vm_compute; reflexivity|reflexivity].
Qed.

(** ** C09 *)
Theorem C09_match_only_pushes : forall env e n c o,
  (forall k, gram push_spec (env k)) -> gram push_spec e ->
  run env n e c = Ok (o, None) -> c_st o = Matched -> exists l, c_stack o = c_stack c ++ l.
Proof. exact push_kept. Qed.
Print Assumptions C09_match_only_pushes.
Theorem C09_library_grammars : forall T e, gram (lib_spec lib_leaf T anyZ) e -> gram push_spec e.
Proof. exact (fun T => lib_push T anyZ). Qed.
Print Assumptions C09_library_grammars.
(** With a transformer that drops everything, the earlier ASTs survive. *)
Example C09_example : gram push_spec (ETrans behind_any [Erase]) /\
  exists o, run no_env 9 (EFlatGroup [SAny; ETrans behind_any [Erase]]) (new_string_ctx (bs "xac")) = Ok (o, None) /\
    c_st o = Matched /\ length (c_stack o) = 1%nat.
Proof.
  split; [apply (C09_library_grammars anyT); lib_tac|].
  eexists. split; [vm_compute; reflexivity|repeat split].
Qed.

(** ** C10 *)
Theorem C10_no_panic : forall sz env e n c why,
  (forall k, gram (calm_spec sz) (env k)) -> gram (calm_spec sz) e -> in_bounds sz c ->
  run env n e c <> Panic why.
Proof. exact calm_kept. Qed.
Print Assumptions C10_no_panic.
Theorem C10_string_grammars : forall e,
  gram (lib_spec (string_leaf (Forall typed)) calm_trans forwardB) e -> gram (calm_spec str_size) e.
Proof. exact string_calm. Qed.
Print Assumptions C10_string_grammars.
Theorem C10_transformers : forall s op name a k base pf,
  typed a ->
  calm_trans Erase /\ calm_trans (TransformError s) /\ calm_trans GroupingTransform /\
  calm_trans (SetOpCodeAndClassName op name) /\ calm_trans (SetOpCode op) /\
  calm_trans (ChangeClassName name) /\ calm_trans (Prepend a) /\ calm_trans (Push a) /\
  calm_trans Pop /\ calm_trans (Roll k) /\ calm_trans Concat /\ calm_trans Trim /\
  calm_trans TrimStart /\ calm_trans TrimEnd /\ calm_trans (ParseIntRadix base) /\
  calm_trans (ParseFloat pf).
Proof. exact library_calm. Qed.
Print Assumptions C10_transformers.
(** The excluded transformers do panic. *)
Example C10_exchange_panics :
  run no_env 9 (ETrans (ERepeat (mkTimes 2 2) [SAny]) [Exchange]) (new_string_ctx (bs "ab")) = Panic "index out of range".
Proof. vm_compute. reflexivity. Qed.
Example C10_parseuint_panics :
  run no_env 9 (ETrans (EZeroOrMore [SNumber]) [ParseUint]) (new_string_ctx (bs "x")) = Panic "index out of range".
Proof. vm_compute. reflexivity. Qed.
Example C10_example : gram (calm_spec str_size) digits_int /\
  (forall k, gram (calm_spec str_size) (no_env k)) /\ in_bounds str_size (new_string_ctx [49; 50; 255; 128]) /\
  exists o, run no_env 9 digits_int (new_string_ctx [49; 50; 255; 128]) = Ok (o, None) /\
    map a_val (c_stack o) = [VInt 12].
Proof.
  split; [apply C10_string_grammars; lib_tac; auto using calm_Concat, calm_ParseInt|].
  split; [intros k; apply C10_string_grammars; lib_tac|].
  split; [unfold in_bounds, c_pos; simpl; lia|]. eexists. split; [vm_compute; reflexivity|reflexivity].
Qed.

(** ** C11 *)
Theorem C11_terminates : forall sz env r e c,
  (forall k, (k < r)%nat -> gram (total_spec sz env k) (env k)) -> gram (total_spec sz env r) e ->
  in_bounds sz c -> exists n a, a <> Fuel /\ forall m, (n <= m)%nat -> run env m e c = a.
Proof. exact terminates. Qed.
Print Assumptions C11_terminates.
Theorem C11_library_leaves : forall cls fn,
  string_leaf anyA cls fn -> pos_leaf str_size fn /\ total_leaf fn /\ mono_parser fn.
Proof. exact string_total. Qed.
Print Assumptions C11_library_leaves.
Theorem C11_zero_width_diverges : forall w t es p len,
  peg_env w -> Forall peg_gram es -> t_max t < 0 ->
  (forall len, exists len' l, pegs w es (mkSP p len) (RSucc (mkSP p len') l)) ->
  forall n c, in_world w c -> c_sp c = mkSP p len -> run (w_env w) n (ERepeat t es) c = Fuel.
Proof. exact zero_width_diverges. Qed.
Print Assumptions C11_zero_width_diverges.

Example C11_example : gram (total_spec str_size no_env 0) (EZeroOrMore [SNumber]).
Proof.
  split; [|split; [eapply C11_library_leaves; string_leaf_tac|exact I]].
  intros _ n c c' _ H. apply one_seq in H. destruct H as [E Hm]. eapply char_consumes; [exact E|exact Hm].
Qed.
Example C11_example_diverges : forall n,
  run no_env n (EZeroOrMore [EZeroOrMore [SNumber]]) (new_string_ctx (bs "x")) = Fuel.
Proof.
  intros n.
  refine (C11_zero_width_diverges (wd (bs "x") no_env) _ _ 0%nat 0%nat _ _ _ _ n _ _ _).
  - exact no_env_peg.
  - constructor; [|constructor]. unfold EZeroOrMore, SNumber. gram_tac.
  - reflexivity.
  - intros len. exists len, []. rewrite <- (app_nil_r (@nil ast)). econstructor; [|constructor].
    eapply peg_rep_ok with (k := 0%nat); [|vm_compute; discriminate].
    apply rep_stop; [left; reflexivity|]. apply seq_fail.
    exact (peg_leaf (wd (bs "x") no_env) ":string:Number" (lift number_fn) 0 (mkSP 0 len) _ None eq_refl).
  - repeat split.
  - reflexivity.
Qed.

(** ** C12 *)
Theorem C12_past_is_irrelevant : forall env e n c c',
  (forall k, peg_gram (env k)) -> peg_gram e -> same_view c c' ->
  same_outcome (c_stack c) (c_stack c') (run env n e c) (run env n e c').
Proof. exact past_irrelevant. Qed.
Print Assumptions C12_past_is_irrelevant.
(** Two contexts with different stacks, Quantity and class names. *)
Example C12_example :
  let c := new_string_ctx (bs "42") in
  let c' := set_cls (set_qty (set_stack c [mkAst 7 "junk" TNil VNil sp0]) 5) "other" in
  same_view c c' /\
  match run no_env 9 digits_int c, run no_env 9 digits_int c' with
  | Ok (o, None), Ok (o', None) => c_stack o' = mkAst 7 "junk" TNil VNil sp0 :: c_stack o /\ length (c_stack o) = 1%nat
  | _, _ => False
  end.
Proof. split; [repeat split|vm_compute; repeat split]. Qed.

(** ** C25 *)
Theorem C25_group_flatgroup : forall env es n c,
  (forall k, peg_gram (env k)) -> Forall peg_gram es -> c_st c = Matched ->
  match run env n (EFlatGroup es) c, run env n (EGroup es) c with
  | Ok (o, e), Ok (o', e') =>
      e = e' /\ c_st o = c_st o' /\ c_sp o = c_sp o' /\
      (c_st o = Matched -> exists l, c_stack o = c_stack c ++ l /\
         c_stack o' = c_stack c ++ [mkAst 0 ":base:Group" TListOfAst (VAsts l) sp0])
  | Panic x, Panic y => x = y
  | Fuel, Fuel => True
  | _, _ => False
  end.
Proof. exact group_flat. Qed.
Print Assumptions C25_group_flatgroup.
Example C25_example : exists o,
  run no_env 9 (EGroup [SAny; EGroup [SAny; SAny]]) (new_string_ctx (bs "abc")) = Ok (o, None) /\
  match c_stack o with [mkAst _ _ TListOfAst (VAsts [_; mkAst _ _ TListOfAst (VAsts [_; _]) _]) _] => True | _ => False end.
Proof. eexists. split; [vm_compute; reflexivity|exact I]. Qed.
