(** The library's leaf parsers and transformers meet the contracts. *)
From Verif Require Export L_PegComp.

Lemma lift_mono f : mono_parser (lift f).
Proof. intros n m c _. right. reflexivity. Qed.

Definition good_leaf (fn : parser) : Prop := mono_parser fn /\ leaf_ok fn.

Ltac leaf_split :=
  repeat match goal with
  | |- context [match ?x with _ => _ end] =>
      lazymatch x with
      | context [match _ with _ => _ end] => fail
      | _ => destruct x eqn:?
      end
  end.
Ltac leaf_tac :=
  split; [apply lift_mono|];
  let n := fresh in let c := fresh in let Hst := fresh in
  intros n c Hst; destruct c as [str sl [pos len] q stk st0 cls0 tag]; simpl in Hst; subst st0;
  unfold lift; cbn;
  repeat (leaf_split; cbn);
  (split; [cbn; repeat split; auto; try discriminate; try congruence; rewrite ?app_nil_r; auto
          |let H := fresh in intros ? ? H; inversion H; subst; cbn; auto]).

Lemma char_fn_good cls test : good_leaf (lift (char_fn cls test)).
Proof. unfold char_fn, with_rest, ret, push_str. leaf_tac. Qed.
Lemma any_good : good_leaf (lift any_fn).
Proof. unfold any_fn, with_rest, ret, push_str. leaf_tac. Qed.
Lemma end_good : good_leaf (lift end_fn).
Proof. unfold end_fn, ret. leaf_tac. Qed.
Lemma seq_good s : good_leaf (lift (seq_fn s)).
Proof. unfold seq_fn, ret, push_str. leaf_tac. Qed.
Lemma seqi_good fold s : good_leaf (lift (seqi_fn fold s)).
Proof. unfold seqi_fn, ret, push_str. leaf_tac. Qed.
Lemma char_classN_good cc : good_leaf (lift (char_classN_fn cc)).
Proof. unfold char_classN_fn, with_rest, ret, push_str. leaf_tac. Qed.

Lemma char_class_loop_spec cc : forall c,
  char_class_loop cc c =
  match find (has_prefix_at (c_str c) (c_pos c)) cc with
  | None => c
  | Some s => push_str ":string:CharClass" c (sub (c_str c) (c_pos c) (c_pos c + length s)) (length s)
  end.
Proof. induction cc as [|s cc IH]; intros c; simpl; auto. destruct (has_prefix_at _ _ s); auto. Qed.
Lemma char_class_good cc : good_leaf (lift (char_class_fn cc)).
Proof.
  unfold char_class_fn, ret.
  split; [apply lift_mono|]. intros n c Hst. unfold lift. rewrite !char_class_loop_spec.
  destruct c as [str sl [pos len] q stk st cls tag]; simpl in Hst; subst st. cbn.
  destruct (find (has_prefix_at str pos) cc); cbn;
  (split; [cbn; repeat split; auto; try discriminate
          |intros ? ? H; inversion H; subst; cbn; auto]).
Qed.
Lemma word_boundary_good word : good_leaf (lift (word_boundary_gen word)).
Proof. unfold word_boundary_gen, with_rest, ret. leaf_tac. Qed.

Lemma error_good msg : good_leaf (lift (error_fn msg)).
Proof. unfold error_fn. leaf_tac. Qed.
Lemma unmatched_good : good_leaf (lift unmatched_fn).
Proof. unfold unmatched_fn. leaf_tac. Qed.
Lemma start_good : good_leaf (lift start_fn).
Proof. unfold start_fn. leaf_tac. Qed.
Lemma zero_good ins : good_leaf (lift (zero_fn ins)).
Proof. unfold zero_fn. leaf_tac. Qed.

Lemma obj_any_good : good_leaf (lift obj_any_fn).
Proof. unfold obj_any_fn, with_slice, push_val. leaf_tac. Qed.
Lemma obj_end_good : good_leaf (lift obj_end_fn).
Proof. unfold obj_end_fn, with_slice. leaf_tac. Qed.
Lemma obj_seq_good seq : good_leaf (lift (obj_seq_fn seq)).
Proof. unfold obj_seq_fn, with_slice, push_val. leaf_tac. Qed.
Lemma obj_class_good oc : good_leaf (lift (obj_class_fn oc)).
Proof. unfold obj_class_fn, with_slice, push_val. leaf_tac. Qed.
Lemma obj_classN_good oc : good_leaf (lift (obj_classN_fn oc)).
Proof. unfold obj_classN_fn, with_slice, push_val. leaf_tac. Qed.
Lemma obj_classFn_good f : good_leaf (lift (obj_classFn_fn f)).
Proof. unfold obj_classFn_fn, with_slice, push_val. leaf_tac. Qed.

(** ** Transformers *)
Definition good_trans (t : trans) : Prop := mono_trans t /\ trans_ok t.

(** A transformer that ignores fuel and context. *)
Definition const_trans (t : trans) : Prop := forall n c n' c' l, t n c l = t n' c' l.
Lemma const_good t : const_trans t -> good_trans t.
Proof. intros H. split. - intros n m c l _. right. apply H. - intros n c c' l _ _ _ _. apply H. Qed.

Ltac const_tac := apply const_good; intros ? ? ? ? ?; reflexivity.
Lemma Erase_good : good_trans Erase. Proof. const_tac. Qed.
Lemma TransformError_good s : good_trans (TransformError s). Proof. const_tac. Qed.
Lemma Grouping_good : good_trans GroupingTransform. Proof. const_tac. Qed.
Lemma SetOpCodeAndClassName_good o s : good_trans (SetOpCodeAndClassName o s). Proof. const_tac. Qed.
Lemma SetOpCode_good o : good_trans (SetOpCode o). Proof. const_tac. Qed.
Lemma ChangeClassName_good s : good_trans (ChangeClassName s). Proof. const_tac. Qed.
Lemma SetValue_good ty v : good_trans (SetValue ty v). Proof. const_tac. Qed.
Lemma Prepend_good a : good_trans (Prepend a). Proof. const_tac. Qed.
Lemma Push_good a : good_trans (Push a). Proof. const_tac. Qed.
Lemma Pop_good : good_trans Pop. Proof. const_tac. Qed.
Lemma Exchange_good : good_trans Exchange. Proof. const_tac. Qed.
Lemma Roll_good n : good_trans (Roll n). Proof. const_tac. Qed.
Lemma Concat_good : good_trans Concat. Proof. const_tac. Qed.
Lemma Trim_good : good_trans Trim. Proof. const_tac. Qed.
Lemma TrimStart_good : good_trans TrimStart. Proof. const_tac. Qed.
Lemma TrimEnd_good : good_trans TrimEnd. Proof. const_tac. Qed.
Lemma ParseIntRadix_good b : good_trans (ParseIntRadix b). Proof. const_tac. Qed.
Lemma ParseUintRadix_good b : good_trans (ParseUintRadix b). Proof. const_tac. Qed.
Lemma ParseFloat_good f : good_trans (ParseFloat f). Proof. const_tac. Qed.
Lemma RuneFromInt_good : good_trans RuneFromInt. Proof. const_tac. Qed.
Lemma IntFromRune_good : good_trans IntFromRune. Proof. const_tac. Qed.
Lemma StringFromInt_good : good_trans StringFromInt. Proof. const_tac. Qed.
Lemma StringFromRune_good : good_trans StringFromRune. Proof. const_tac. Qed.
Lemma ToSlice_good : good_trans ToSlice.
Proof.
  split.
  - intros n m c l _. right. reflexivity.
  - intros n c c' l H1 H2 H3 H4. unfold ToSlice. rewrite H2. reflexivity.
Qed.

(** ** Production rules *)
Lemma try_rules_mono rules : allP mono_parser rules -> forall n m astc asts p, (n <= m)%nat ->
  try_rules n rules astc asts p = SFuel \/ try_rules m rules astc asts p = try_rules n rules astc asts p.
Proof.
  induction rules as [|r rules IH]; simpl; intros H n m astc asts p Hnm; [auto|].
  destruct H as [Hr H]. destruct (Hr n m (set_pos astc p) Hnm) as [E|E]; rewrite E; [auto|].
  destruct (r n (set_pos astc p)) as [[o [e|]]|why|]; auto.
  destruct (c_st o); auto.
Qed.
Lemma try_positions_mono pr : allP mono_parser (pr_rules pr) -> forall n m astc asts k i, (n <= m)%nat ->
  try_positions n pr astc asts i k = SFuel \/ try_positions m pr astc asts i k = try_positions n pr astc asts i k.
Proof.
  intros H n m astc asts k i Hnm. revert i. induction k; simpl; intros i; [auto|].
  match goal with |- context [try_rules n _ _ _ ?p] => destruct (try_rules_mono (pr_rules pr) H n m astc asts p Hnm) as [E|E] end;
    rewrite E; auto.
  destruct (try_rules n _ _ _ _); auto.
Qed.
Definition mono_prec (pr : precedence) := allP mono_parser (pr_rules pr).
Lemma try_precedences_mono prs : allP mono_prec prs -> forall n m tag asts, (n <= m)%nat ->
  try_precedences n prs tag asts = SFuel \/ try_precedences m prs tag asts = try_precedences n prs tag asts.
Proof.
  induction prs as [|pr prs IH]; cbn [allP fold_right try_precedences]; intros H n m tag asts Hnm; [auto|].
  destruct H as [Hp H].
  destruct (try_positions_mono pr Hp n m (new_object_ctx (ast_slice asts) tag) asts (S (length asts)) 0%nat Hnm) as [E|E]; rewrite E; [auto|].
  destruct (try_positions n pr _ asts 0 _); auto.
Qed.
Lemma production_mono prs check : allP mono_prec prs -> mono_parser check ->
  forall n m k k' tag asts, (n <= m)%nat -> (k <= k')%nat ->
  le_out (production_loop n k prs check tag asts) (production_loop m k' prs check tag asts).
Proof.
  intros Hp Hc n m k. induction k; intros k' tag asts Hnm Hk; [left; reflexivity|].
  destruct k'; [lia|]. simpl.
  destruct (try_precedences_mono prs Hp n m tag asts Hnm) as [E|E]; rewrite E; [left; reflexivity|].
  destruct (try_precedences n prs tag asts) as [e|why| |asts1|]; try (right; reflexivity).
  - destruct (Hc n m (new_object_ctx (ast_slice asts1) tag) Hnm) as [E2|E2]; rewrite E2; [left; reflexivity|].
    destruct (check n _) as [[o [e|]]|why|]; try (right; reflexivity).
    + apply IHk; lia.
    + destruct (c_st o); try (right; reflexivity); apply IHk; lia.
  - destruct (Hc n m (new_object_ctx (ast_slice asts) tag) Hnm) as [E2|E2]; rewrite E2; [left|right]; reflexivity.
Qed.
Lemma ProductionRule_good prs check : allP mono_prec prs -> mono_parser check ->
  good_trans (ProductionRule prs check).
Proof.
  intros Hp Hc. split.
  - intros n m c l Hnm. apply production_mono; auto.
  - intros n c c' l _ _ H _. unfold ProductionRule. rewrite H. reflexivity.
Qed.

(** A grammar used as a rule or check parser is fuel-monotone. *)
Lemma gram_mono env e : (forall k, mono_gram (env k)) -> mono_gram e -> mono_parser (fun n => run env n e).
Proof. intros H1 H2 n m c Hnm. destruct (run_mono env e n m H1 H2 Hnm c); auto. Qed.

Lemma gram_weaken (g g' : gspec) e :
  (forall cls fn, g_leaf g cls fn -> g_leaf g' cls fn) ->
  (forall t, g_trans g t -> g_trans g' t) ->
  (forall a b, g_behind g a b -> g_behind g' a b) ->
  (forall t es, g_repeat g t es -> g_repeat g' t es) ->
  (forall k, g_indirect g k -> g_indirect g' k) ->
  (forall a b c d, g_base g a b c d -> g_base g' a b c d) ->
  gram g e -> gram g' e.
Proof.
  intros H1 H2 H3 H4 H5 H6. induction e using pexp_ind'; simpl; rewrite ?fold_and_Forall; intros Hg; auto;
    try (eapply Forall_mp; [exact H|exact Hg]); try (destruct Hg as [Hg1 Hg2]; split; auto);
    try (eapply Forall_mp; [exact H|exact Hg2]).
  eapply allP_impl; [|exact Hg2]; auto.
Qed.
Lemma peg_gram_mono e : peg_gram e -> mono_gram e.
Proof. apply gram_weaken; simpl; auto; try tauto. unfold noBase; tauto. Qed.

(** The exported parsers, as hints for [peg_gram] goals. *)
Create HintDb leafs.
#[export] Hint Resolve char_fn_good any_good end_good seq_good seqi_good char_classN_good
  char_class_good word_boundary_good error_good unmatched_good start_good zero_good
  obj_any_good obj_end_good obj_seq_good obj_class_good obj_classN_good obj_classFn_good
  Erase_good TransformError_good Grouping_good SetOpCodeAndClassName_good SetOpCode_good
  ChangeClassName_good SetValue_good Prepend_good Push_good Pop_good Exchange_good Roll_good
  Concat_good Trim_good TrimStart_good TrimEnd_good ParseIntRadix_good ParseUintRadix_good
  ParseFloat_good RuneFromInt_good IntFromRune_good StringFromInt_good StringFromRune_good
  ToSlice_good ProductionRule_good : leafs.

Ltac gram_tac :=
  unfold peg_gram;
  repeat match goal with
  | |- gram _ ?e => progress cbn [gram map fold_right allP peg_spec g_leaf g_trans g_behind g_repeat g_indirect g_base]
  | |- mono_parser ?f /\ leaf_ok ?f => change (good_leaf f); first [solve [auto with leafs] | apply char_fn_good]
  | |- mono_trans ?f /\ trans_ok ?f => change (good_trans f); solve [auto with leafs]
  | |- _ /\ _ => split
  | |- True => exact I
  | |- anyZ _ _ => exact I
  | |- anyR _ _ => exact I
  | |- anyI _ => exact I
  end.

(** ** Adequacy *)
Lemma returns_det s o err r r' : returns s o err r -> returns s o err r' -> r = r'.
Proof.
  destruct r as [cur l| |cur x], r' as [cur' l'| |cur' x']; simpl; intros Hr Hr';
    decompose [and] Hr; decompose [and] Hr'; try congruence.
  assert (l = l') by (apply (app_inv_head s); congruence). congruence.
Qed.

Lemma peg_adequate w e c : peg_env w -> peg_gram e -> in_world w c -> c_st c = Matched ->
  forall r, peg w e (c_sp c) r <->
    exists n o err, run (w_env w) n e c = Ok (o, err) /\ returns (c_stack c) o err r.
Proof.
  intros He Hg Hw Hst r. split.
  - intros Hp. destruct (proj1 (peg_complete_all w He) e (c_sp c) r Hp Hg) as [n H].
    destruct (H n (le_n n) c (conj Hw Hst) eq_refl) as (o & err & E & Hr & _). eauto.
  - intros (n & o & err & E & Hr).
    destruct (run_sound w e n c o err He Hg (conj Hw Hst) E) as (r' & Hp & Hr' & _).
    replace r with r'; auto. eapply returns_det; eauto.
Qed.

Lemma peg_det w e cur r r' : peg_env w -> peg_gram e -> peg w e cur r -> peg w e cur r' -> r = r'.
Proof.
  intros He Hg H1 H2.
  destruct (proj1 (peg_complete_all w He) e cur r H1 Hg) as [n Hn].
  destruct (proj1 (peg_complete_all w He) e cur r' H2 Hg) as [m Hm].
  assert (Ho : okc w (fresh w cur)) by (split; [repeat split|reflexivity]).
  destruct (Hn (Nat.max n m) ltac:(lia) _ Ho eq_refl) as (o & err & E & Hr & _).
  destruct (Hm (Nat.max n m) ltac:(lia) _ Ho eq_refl) as (o' & err' & E' & Hr' & _).
  rewrite E in E'. inversion E'; subst. eapply returns_det; eauto.
Qed.

Lemma pegs_det w es cur r r' : peg_env w -> Forall peg_gram es -> pegs w es cur r -> pegs w es cur r' -> r = r'.
Proof.
  intros He Hg H1 H2. apply (peg_det w (EFlatGroup es) cur); auto; try (constructor; auto).
  unfold peg_gram. simpl. rewrite fold_and_Forall. auto.
Qed.
