(** C48: Match and its case matchers. *)
From Verif Require Import L_Match.

(** Match takes the first case that accepts the whole stack and replaces the top [m]
    ASTs by what the case's transformers make of them; nothing is consumed. *)
Theorem C48_rewrites_top : forall env n m cases cs c low top asts,
  chosen cases (c_stack c) cs -> c_stack c = low ++ top -> Z.of_nat (length top) = m ->
  run_trans n (in_match c) (case_let cs) top = Ok (inr asts) ->
  exists o, run env n (EMatch m cases) c = Ok (o, None) /\ c_st o = Matched /\ c_stack o = low ++ asts /\
    c_pos o = c_pos c /\ sp_len (c_sp o) = 0%nat /\ same_source c o.
Proof.
  intros env n m cases cs c low top asts H E <- T. rewrite run_match, (chosen_find _ _ _ H), E, app_length.
  replace ((Z.of_nat (length low + length top) - Z.of_nat (length top) <? 0) || (Z.of_nat (length low + length top) <? Z.of_nat (length low + length top) - Z.of_nat (length top))) with false
    by (symmetry; apply orb_false_iff; split; apply Z.ltb_ge; lia).
  replace (Z.to_nat (Z.of_nat (length low + length top) - Z.of_nat (length top))) with (length low) by lia. cbn zeta.
  rewrite skipn_app, skipn_all, Nat.sub_diag, firstn_app, firstn_all, Nat.sub_diag. cbn [skipn firstn app]. rewrite app_nil_r, T.
  eexists. repeat split.
Qed.
Print Assumptions C48_rewrites_top.

(** No case accepts: Match does not match and leaves everything in place. *)
Theorem C48_no_case : forall env n m cases c, Forall (fun x => case_if x (c_stack c) = false) cases ->
  exists o, run env n (EMatch m cases) c = Ok (o, None) /\ c_st o = Unmatched /\ c_stack o = c_stack c /\
    c_pos o = c_pos c /\ same_source c o.
Proof.
  intros env n m cases c F. rewrite run_match. pose proof (find_chosen cases (c_stack c)) as G.
  destruct (find (fun cs => case_if cs (c_stack c)) cases) as [cs|] eqn:E.
  - apply find_some in E. destruct E as [E1 E2]. rewrite Forall_forall in F. rewrite (F _ E1) in E2. discriminate.
  - eexists. repeat split.
Qed.
Print Assumptions C48_no_case.

(** It answers in no other way: it matches only by a chosen case, raises only the
    error of a transformer of that case, and panics only if such a transformer does or
    if [m] is negative or larger than the stack. *)
Theorem C48_inversion : forall env n m cases c,
  match run env n (EMatch m cases) c with
  | Ok (o, None) =>
      (c_st o = Unmatched /\ Forall (fun x => case_if x (c_stack c) = false) cases) \/
      (c_st o = Matched /\ exists cs low top asts, chosen cases (c_stack c) cs /\ c_stack c = low ++ top /\
         Z.of_nat (length top) = m /\ run_trans n (in_match c) (case_let cs) top = Ok (inr asts))
  | Ok (o, Some e) => c_st o = Errored /\ c_stack o = c_stack c /\ exists cs low top, chosen cases (c_stack c) cs /\
      c_stack c = low ++ top /\ Z.of_nat (length top) = m /\ run_trans n (in_match c) (case_let cs) top = Ok (inl e)
  | Panic w => exists cs, chosen cases (c_stack c) cs /\
      ((m < 0 \/ Z.of_nat (length (c_stack c)) < m) \/
       exists low top, c_stack c = low ++ top /\ Z.of_nat (length top) = m /\ run_trans n (in_match c) (case_let cs) top = Panic w)
  | Fuel => exists cs top, chosen cases (c_stack c) cs /\ run_trans n (in_match c) (case_let cs) top = Fuel
  end.
Proof.
  intros env n m cases c. rewrite run_match. pose proof (find_chosen cases (c_stack c)) as G.
  destruct (find (fun cs => case_if cs (c_stack c)) cases) as [cs|]; [|left; split; [reflexivity|exact G]].
  set (st := c_stack c) in *.
  destruct ((Z.of_nat (length st) - m <? 0) || (Z.of_nat (length st) <? Z.of_nat (length st) - m)) eqn:B.
  - exists cs. split; [exact G|]. left. apply orb_true_iff in B. rewrite !Z.ltb_lt in B. lia.
  - apply orb_false_iff in B. rewrite !Z.ltb_ge in B. cbn zeta. set (k := Z.to_nat (Z.of_nat (length st) - m)).
    assert (E : st = firstn k st ++ skipn k st) by (symmetry; apply firstn_skipn).
    assert (L : Z.of_nat (length (skipn k st)) = m) by (rewrite skipn_length; unfold k; lia).
    destruct (run_trans n (in_match c) (case_let cs) (skipn k st)) as [[e|asts]|w|] eqn:T.
    + split; [reflexivity|]. split; [reflexivity|]. exists cs, (firstn k st), (skipn k st). auto.
    + right. split; [reflexivity|]. exists cs, (firstn k st), (skipn k st), asts. auto.
    + exists cs. split; [exact G|]. right. exists (firstn k st), (skipn k st). auto.
    + exists cs, (skipn k st). auto.
Qed.
Print Assumptions C48_inversion.

(** With a stack of fewer than [m] ASTs (or a negative [m]) Match panics as soon as a
    case accepts. *)
Theorem C48_short_stack_panics : forall env n m cases c cs, chosen cases (c_stack c) cs ->
  m < 0 \/ Z.of_nat (length (c_stack c)) < m -> exists w, run env n (EMatch m cases) c = Panic w.
Proof.
  intros env n m cases c cs H B. rewrite run_match, (chosen_find _ _ _ H).
  replace ((Z.of_nat (length (c_stack c)) - m <? 0) || (Z.of_nat (length (c_stack c)) <? Z.of_nat (length (c_stack c)) - m)) with true
    by (symmetry; apply orb_true_iff; rewrite !Z.ltb_lt; lia).
  eexists. reflexivity.
Qed.
Print Assumptions C48_short_stack_panics.

(** The case matchers: the top AST's value has the dynamic type and is one of the
    given values; an empty stack has no top. *)
Theorem C48_case_matchers :
  (forall v l, TopIsRune v l = true <-> exists x, top_value l (VRune x) /\ In x v) /\
  (forall v l, TopIsInt v l = true <-> exists x, top_value l (VInt x) /\ In x v) /\
  (forall v l, TopIsUint v l = true <-> exists x, top_value l (VUint x) /\ In x v) /\
  (forall v l, TopIsFloat v l = true <-> exists x y, top_value l (VFloat x) /\ In y v /\ same_float x y) /\
  (forall v l, TopIsBool v l = true <-> exists x, top_value l (VBool x) /\ In x v) /\
  (forall v l, TopIsStr v l = true <-> exists x, top_value l (VStr x) /\ In x v) /\
  (forall v l, TopIs v l = true <-> exists x y, top_value l x /\ In y v /\ deep_same x y) /\
  (forall l, TopIsAny l = true).
Proof.
  assert (W : forall X (P Q : X -> Prop), (exists x y, P x /\ Q y /\ x = y) <-> exists x, P x /\ Q x).
  { intros X P Q. split; [intros (x & y & H1 & H2 & ->); eauto|intros (x & H1 & H2); eauto]. }
  split; [intros; rewrite top_rune; apply W|]. split; [intros; rewrite top_int; apply W|].
  split; [intros; rewrite top_uint; apply W|]. split; [apply top_float|]. split; [intros; rewrite top_bool; apply W|].
  split; [intros; rewrite top_str; apply W|]. split; [apply top_deep|reflexivity].
Qed.
Print Assumptions C48_case_matchers.

(** So TopIsFloat never accepts NaN, and TopIs never accepts a function. *)
Theorem C48_never_equal : (forall x, ~ same_float S754_nan x) /\ (forall n v, ~ deep_same (VFunc n) v).
Proof. split; [intros x H|intros n v H]; inversion H. Qed.
Print Assumptions C48_never_equal.

Example C48_example :
  let a v := mkAst 0 "" TString (VStr v) sp0 in
  let cases := [mkCase (TopIsStr [[97]]) [Erase]; mkCase (TopIsStr [[98]; [99]]) [Pop; SetOpCode 5]; mkCase TopIsAny [Erase]] in
  let c := set_stack (new_string_ctx []) [a [97]; a [98]; a [99]] in
  chosen cases (c_stack c) (mkCase (TopIsStr [[98]; [99]]) [Pop; SetOpCode 5]) /\
  (exists o, run (fun _ => EUnmatched) 1 (EMatch 2 cases) c = Ok (o, None) /\ map a_op (c_stack o) = [0; 5]) /\
  run (fun _ => EUnmatched) 1 (EMatch 4 cases) c = Panic "slice bounds out of range" /\
  TopIsFloat [S754_zero true] [mkAst 0 "" TFloat (VFloat (S754_zero false)) sp0] = true.
Proof.
  cbn zeta. split; [|split; [|split; vm_compute; reflexivity]].
  - exists [mkCase (TopIsStr [[97]]) [Erase]], [mkCase TopIsAny [Erase]]. repeat split. repeat constructor.
  - eexists. split; vm_compute; reflexivity.
Qed.
