(** Lemmas for C69: the grammars of extra/ and of the examples do not look at positions. *)
From Verif Require Export L_Shared M_Torpn M_Csv.

Lemma nth_ast_same l m i : lsame l m -> match nth_error l i, nth_error m i with Some a, Some b => blur a = blur b | None, None => True | _, _ => False end.
Proof.
  revert m i. induction l as [|x l IH]; intros [|y m] i H; try discriminate; destruct i; cbn; auto; injection H as A B; auto. apply (IH m i B).
Qed.
Ltac values V := apply vsame_cases in V as [->|[(?&?&?&?&->&->)|[(?&?&->&->)|[(?&?&->&->)|(?&?&->&->&?)]]]].
Lemma str_of_same l m i : lsame l m -> str_of l i = str_of m i.
Proof.
  intros H. unfold str_of. pose proof (nth_ast_same l m i H) as N. destruct (nth_error l i), (nth_error m i); try contradiction; auto.
  destruct (blur_parts _ _ N) as (_ & _ & _ & V). values V; reflexivity.
Qed.
Lemma int_of_same l m i : lsame l m -> int_of l i = int_of m i.
Proof.
  intros H. unfold int_of. pose proof (nth_ast_same l m i H) as N. destruct (nth_error l i), (nth_error m i); try contradiction; auto.
  destruct (blur_parts _ _ N) as (_ & _ & _ & V). values V; reflexivity.
Qed.
Lemma tsame_refl x : tsame x x.
Proof. destruct x as [[e|l]|p|]; cbn; auto. reflexivity. Qed.
Lemma negate_blind : blind_tr negate.
Proof. intros n c d l m _ H. unfold negate. rewrite (str_of_same l m 0 H), (int_of_same l m 1 H). apply tsame_refl. Qed.
Lemma mulDiv_blind z : blind_tr (mulDiv z).
Proof. intros n c d l m _ H. unfold mulDiv. rewrite (str_of_same l m 1 H), (int_of_same l m 0 H), (int_of_same l m 2 H). apply tsame_refl. Qed.
Lemma addSub_blind : blind_tr addSub.
Proof. intros n c d l m _ H. unfold addSub. rewrite (str_of_same l m 1 H), (int_of_same l m 0 H), (int_of_same l m 2 H). apply tsame_refl. Qed.
Lemma bind_same {A} (x y : res A) k k' : x = y -> (forall a, tsame (k a) (k' a)) -> tsame (bind x k) (bind y k').
Proof. intros -> H. destruct y; cbn; auto. Qed.
Lemma ast_at_cases l m i : lsame l m -> (exists p, ast_at l i = Panic p /\ ast_at m i = Panic p) \/ exists a b, ast_at l i = Ok a /\ ast_at m i = Ok b /\ blur a = blur b.
Proof.
  intros H. unfold ast_at. pose proof (nth_ast_same l m i H) as N. destruct (nth_error l i), (nth_error m i); try contradiction; eauto 8.
Qed.
Lemma as_asts_cases v w : vsame v w -> (exists p, as_asts v = Panic p /\ as_asts w = Panic p) \/ exists l m, as_asts v = Ok l /\ as_asts w = Ok m /\ lsame l m.
Proof. intros V. unfold vsame in V. destruct v, w; cbn in *; try discriminate; eauto. injection V as V. right. eauto. Qed.
Lemma as_int_same v w : vsame v w -> as_int v = as_int w.
Proof. intros V. values V; reflexivity. Qed.
Lemma list_ast_same l m : lsame l m -> lsame [list_ast l] [list_ast m].
Proof. unfold lsame. intros H. cbn. rewrite H. reflexivity. Qed.
Lemma cons_same a b : blur a = blur b -> lsame [a] [b].
Proof. intros H. unfold lsame. cbn. rewrite H. reflexivity. Qed.
Lemma unary_blind : blind_tr transformUnaryOp.
Proof.
  intros n c d l m _ H. unfold transformUnaryOp. destruct (ast_at_cases l m 1 H) as [(p & -> & ->)|(a & b & -> & -> & E)]; [exact eq_refl|]. cbn [bind].
  destruct (blur_parts _ _ E) as (_ & _ & -> & V). destruct (a_ty b); try exact eq_refl.
  - rewrite (str_of_same l m 0 H), (as_int_same _ _ V). apply tsame_refl.
  - destruct (as_asts_cases _ _ V) as [(p & -> & ->)|(x & y & -> & -> & F)]; [exact eq_refl|]. cbn [bind].
    destruct (ast_at_cases l m 0 H) as [(p & -> & ->)|(u & v & -> & -> & G)]; [exact eq_refl|]. cbn [bind tok tsame].
    apply list_ast_same, lsame_app, cons_same; auto.
Qed.
Lemma operand_same a b : blur a = blur b -> tsame (operand a) (operand b).
Proof.
  intros E. unfold operand. destruct (blur_parts _ _ E) as (_ & _ & -> & V). destruct (a_ty b); try exact eq_refl.
  - apply cons_same; auto.
  - destruct (as_asts_cases _ _ V) as [(p & -> & ->)|(x & y & -> & -> & F)]; [exact eq_refl|]. exact F.
Qed.
Lemma binary_blind : blind_tr transformBinaryOp.
Proof.
  intros n c d l m _ H. unfold transformBinaryOp. apply bind_same; [apply str_of_same; auto|]. intros _.
  destruct (ast_at_cases l m 0 H) as [(p & -> & ->)|(a & b & -> & -> & E)]; [exact eq_refl|]. cbn [bind].
  pose proof (operand_same _ _ E) as Q. destruct (operand a) as [[e|x]|p|], (operand b) as [[e'|y]|q|]; cbn in Q; try contradiction; cbn [bind]; auto.
  destruct (ast_at_cases l m 2 H) as [(p & -> & ->)|(a2 & b2 & -> & -> & E2)]; [exact eq_refl|]. cbn [bind].
  pose proof (operand_same _ _ E2) as Q2. destruct (operand a2) as [[e|x2]|p|], (operand b2) as [[e'|y2]|q|]; cbn in Q2; try contradiction; cbn [bind]; auto.
  destruct (ast_at_cases l m 1 H) as [(p & -> & ->)|(u & v & -> & -> & G)]; [exact eq_refl|]. cbn [bind tok tsame].
  apply list_ast_same, lsame_app, lsame_app, cons_same; auto.
Qed.
Lemma unwrap_blind : blind_tr unwrapOperandItem.
Proof.
  intros n c d l m _ H. apply lsame_cases in H as [(-> & ->)|(a & b & l' & m' & -> & -> & A & _)]; [exact eq_refl|]. cbn [unwrapOperandItem].
  destruct (blur_parts _ _ A) as (_ & _ & _ & V). unfold vsame in V. destruct (a_val a), (a_val b); cbn in V; try discriminate; try exact eq_refl.
  injection V as V. apply cons_same; auto.
Qed.
Lemma matcher_blind cls ops v w : vsame v w -> makeOpMatcher cls ops v = makeOpMatcher cls ops w.
Proof.
  intros V. unfold vsame in V. destruct v, w; cbn in V; try discriminate; auto. injection V as V. cbn [makeOpMatcher].
  destruct (blur_parts _ _ V) as (_ & -> & _ & U). destruct (String.eqb _ _); auto. values U; reflexivity.
Qed.
Lemma op_class_blind f : (forall v w, vsame v w -> f v = f w) -> blind (lift (op_class_fn f)).
Proof.
  intros H n c d K. unfold lift, op_class_fn. pose proof K as K'. destruct K' as (_ & S & _). rewrite (c_pos_same _ _ K).
  assert (N : match (match c_slice c with Some sl => nth_error (sl_items sl) (c_pos d) | None => None end), (match c_slice d with Some sl => nth_error (sl_items sl) (c_pos d) | None => None end) with
    | Some x, Some y => vsame x y | None, None => True | _, _ => False end).
  { destruct (c_slice c), (c_slice d); cbn in S; try contradiction; auto. apply nth_same. apply S. }
  destruct (match c_slice c with Some sl => nth_error (sl_items sl) (c_pos d) | None => None end), (match c_slice d with Some sl => nth_error (sl_items sl) (c_pos d) | None => None end); try contradiction.
  - rewrite (H _ _ N). destruct (f _) as [b|]; [|exact eq_refl]. apply (oclassfn_blind (fun _ => b) (fun _ _ _ => eq_refl) n c d K).
  - apply (oclassfn_blind (fun _ => false) (fun _ _ _ => eq_refl) n c d K).
Qed.
Lemma parseNumber_blind : blind_tr parseNumber.
Proof.
  intros n c d l m _ H. apply lsame_cases in H as [(-> & ->)|(a & b & l' & m' & -> & -> & A & _)]; [exact eq_refl|]. cbn [parseNumber].
  destruct (blur_parts _ _ A) as (_ & _ & _ & V). values V; try exact eq_refl. apply tsame_refl.
Qed.
Lemma string_values_same l m : lsame l m -> string_values l = string_values m.
Proof.
  revert m. induction l as [|a l IH]; intros [|b m] H; try discriminate; auto. injection H as A B. cbn [string_values].
  destruct (blur_parts _ _ A) as (_ & _ & _ & V). rewrite (IH m B). values V; reflexivity.
Qed.
Lemma row_values_same l m : lsame l m -> row_values l = row_values m.
Proof.
  revert m. induction l as [|a l IH]; intros [|b m] H; try discriminate; auto. injection H as A B. cbn [row_values].
  destruct (blur_parts _ _ A) as (_ & _ & _ & V). rewrite (IH m B). values V; reflexivity.
Qed.
Lemma line_blind : blind_tr lineTransform.
Proof. intros n c d l m _ H. unfold lineTransform. rewrite (string_values_same _ _ H). apply tsame_refl. Qed.
Lemma document_blind : blind_tr documentTransform.
Proof. intros n c d l m _ H. unfold documentTransform. rewrite (row_values_same _ _ H). apply tsame_refl. Qed.

Global Hint Resolve leaf_blind negate_blind mulDiv_blind addSub_blind unary_blind binary_blind unwrap_blind parseNumber_blind line_blind document_blind : blindness.
Ltac leaf := apply leaf_blind; (exact (ll_char _ _) || constructor).
Ltac piece := repeat match goal with
  | |- _ /\ _ => split
  | |- True => exact I
  | |- Forall _ [] => constructor
  | |- Forall _ (_ :: _) => constructor
  | |- blind _ => leaf
  | |- blind_tr _ => solve [auto with blindness nocore | apply tr_blind; constructor]
  end.
Ltac pieces := repeat match goal with
  | |- _ /\ _ => split
  | |- True => exact I
  | |- Forall _ [] => constructor
  | |- Forall _ (_ :: _) => constructor
  | |- blind _ => leaf
  end; auto with blindness nocore.
Lemma extra_blind u : each blind_exp [BinaryNumberStr; OctalNumberStr; HexNumberStr; IntegerNumberStr; FloatNumberStr; NumericStr; AsciiIdentifierStr; UnicodeIdentifierStr u; UnicodeWordBoundary u; DateStr; DateTimeStr; TimeStr].
Proof. cbn. piece. Qed.
Lemma csv_blind : blind_exp document.
Proof. cbn. piece. Qed.
Lemma level_blind e r : blind_exp e -> blind_prec (level e r).
Proof. intros H. constructor; [|constructor]. intros n c d K. apply run_blind; auto. intros k. apply leaf_blind. constructor. Qed.
Lemma rules_blind neg mul add : blind_tr neg -> blind_tr mul -> blind_tr add -> blind_tr (formulaProductionRules neg mul add).
Proof.
  intros A B C. apply prod_blind.
  - unfold precedences. apply Forall_cons; [|apply Forall_cons; [|apply Forall_cons; [|apply Forall_nil]]]; apply level_blind; cbn; pieces; auto; apply op_class_blind; intros v w; apply matcher_blind.
  - intros n c d K. apply run_blind; auto; [intros k; apply leaf_blind; constructor|]. cbn. piece.
Qed.
Lemma formula_blind prod : blind_tr prod -> blind_exp (program prod) /\ forall k, blind_exp (grouped_env prod k).
Proof. intros H. cbn. split; [|intros _]; piece; auto. Qed.
