(** The production rules of the formula grammar reduce a chain of operands and operators
    to the tree that precedence gives it. *)
From Verif Require Export M_Formula L_FormulaTree L_Obj.

Lemma op_class_good f : good_leaf (lift (op_class_fn f)).
Proof. unfold op_class_fn, obj_classFn_fn, with_slice, push_val. leaf_tac. Qed.
Lemma unwrap_good : good_trans unwrapOperandItem. Proof. const_tac. Qed.
#[export] Hint Resolve op_class_good unwrap_good : leafs.

(** ** One token at a position *)
Definition nr := no_rules.
Lemma nr_gram : forall k, peg_gram (nr k).
Proof. intros k. unfold nr, no_rules, EUnmatched. gram_tac. Qed.
Lemma unwrap_pipe c cls ty a sp : pipeline c [unwrapOperandItem] [mkAst 0 cls ty (VAst a) sp] (inr [a]).
Proof. eapply (pl_ok _ 0%nat); [reflexivity|constructor]. Qed.
Lemma any_peg asts tag cur :
  peg (ow asts tag nr) anyOperand cur
    match nth_error asts (sp_pos cur) with Some a => RSucc (mkSP (sp_pos cur + 1) 1) [a] | None => RFail end.
Proof.
  assert (P : peg (ow asts tag nr) OAny cur
    match nth_error asts (sp_pos cur) with Some a => RSucc (mkSP (sp_pos cur + 1) 1) [mkAst 0 ":object:Any" TAny (VAst a) cur] | None => RFail end).
  { pose proof (peg_leaf (ow asts tag nr) ":object:Any" (lift obj_any_fn) 0 cur) as P. unfold lift, obj_any_fn, with_slice in P. cbv zeta in P.
    change (c_slice (set_st (fresh (ow asts tag nr) cur) Unmatched)) with (Some (ast_slice asts)) in P.
    change (c_pos (set_st (fresh (ow asts tag nr) cur) Unmatched)) with (sp_pos cur) in P.
    cbn [ast_slice sl_items] in P. destruct (nth_error asts (sp_pos cur)) as [a|] eqn:E.
    - rewrite (map_nth_error VAst _ _ E) in P. exact (P _ _ eq_refl).
    - assert (N : nth_error (map VAst asts) (sp_pos cur) = None) by (apply nth_error_None; rewrite map_length; apply nth_error_None; auto).
      rewrite N in P. exact (P _ _ eq_refl). }
  unfold anyOperand. destruct (nth_error asts (sp_pos cur)) as [a|]; [eapply peg_trans_ok; [exact P|apply unwrap_pipe]|apply peg_trans_fail; exact P].
Qed.
Lemma op_peg cls ops asts tag cur b :
  (forall a, nth_error asts (sp_pos cur) = Some a -> makeOpMatcher cls ops (VAst a) = Some b) ->
  peg (ow asts tag nr) (isOperator cls ops) cur
    match nth_error asts (sp_pos cur) with Some a => if b then RSucc (mkSP (sp_pos cur + 1) 1) [a] else RFail | None => RFail end.
Proof.
  intros H.
  assert (P : peg (ow asts tag nr) (ELight ":object:ObjClassFn" (lift (op_class_fn (makeOpMatcher cls ops)))) cur
    match nth_error asts (sp_pos cur) with Some a => if b then RSucc (mkSP (sp_pos cur + 1) 1) [mkAst 0 ":object:ObjClassFn" TAny (VAst a) cur] else RFail | None => RFail end).
  { pose proof (peg_leaf (ow asts tag nr) ":object:ObjClassFn" (lift (op_class_fn (makeOpMatcher cls ops))) 0 cur) as P.
    unfold lift, op_class_fn, obj_classFn_fn, with_slice in P. cbv zeta in P.
    change (c_slice (fresh (ow asts tag nr) cur)) with (Some (ast_slice asts)) in P.
    change (c_slice (set_st (fresh (ow asts tag nr) cur) Unmatched)) with (Some (ast_slice asts)) in P.
    change (c_pos (set_st (fresh (ow asts tag nr) cur) Unmatched)) with (sp_pos cur) in P.
    change (c_pos (fresh (ow asts tag nr) cur)) with (sp_pos cur) in P.
    cbn [ast_slice sl_items] in P. destruct (nth_error asts (sp_pos cur)) as [a|] eqn:E.
    - rewrite (map_nth_error VAst _ _ E) in P. rewrite (H a eq_refl) in P. destruct b; exact (P _ _ eq_refl).
    - assert (N : nth_error (map VAst asts) (sp_pos cur) = None) by (apply nth_error_None; rewrite map_length; apply nth_error_None; auto).
      rewrite N in P. exact (P _ _ eq_refl). }
  unfold isOperator. destruct (nth_error asts (sp_pos cur)) as [a|]; [|apply peg_trans_fail; exact P].
  destruct b; [eapply peg_trans_ok; [exact P|apply unwrap_pipe]|apply peg_trans_fail; exact P].
Qed.

Lemma firstn_mid {A} (l r : list A) : firstn (length l) (l ++ r) = l.
Proof. rewrite firstn_app, firstn_all, Nat.sub_diag, app_nil_r. reflexivity. Qed.
Lemma skipn_mid {A} (l r : list A) k : skipn (length l + k) (l ++ r) = skipn k r.
Proof. induction l; simpl; auto. Qed.
Lemma nth_mid {A} (l r : list A) k : nth_error (l ++ r) (length l + k) = nth_error r k.
Proof. induction l; simpl; auto. Qed.

(** ** Token lists *)
Section Production.
Variables (denotes : ast -> arith -> Prop) (bad : arith -> Prop) (stop : gerr).
Variables (negT mulT addT : trans).
Hypothesis denotes_cls : forall a f, denotes a f -> a_cls a <> "UnaryOperator"%string /\ a_cls a <> "BinaryOperator"%string.
Hypothesis bad_spreads : spreads bad.

Inductive tk := TUn | TBin (o : fop) | TOp (f : arith).
Definition istk (t : tk) (a : ast) : Prop :=
  match t with
  | TUn => a_cls a = "UnaryOperator"%string /\ a_val a = VStr [45]
  | TBin o => a_cls a = "BinaryOperator"%string /\ a_val a = VStr [op_byte o]
  | TOp f => denotes a f
  end.
Hypothesis neg_ok : forall n c u a f, istk TUn u -> denotes a f -> exists a', negT n c [u; a] = tok [a'] /\ denotes a' (FNeg f).
Definition bin_ok (t : trans) (o : fop) : Prop := forall c a s b f g, denotes a f -> istk (TBin o) s -> denotes b g ->
  (exists a', (forall n, t n c [a; s; b] = tok [a']) /\ denotes a' (FBin o f g)) \/
  ((forall n, t n c [a; s; b] = terr stop) /\ bad (FBin o f g)).
Hypothesis mul_ok : forall o, is_mul o = true -> bin_ok mulT o.
Hypothesis add_ok : forall o, is_mul o = false -> bin_ok addT o.
Hypothesis neg_good : good_trans negT.
Hypothesis mul_good : good_trans mulT.
Hypothesis add_good : good_trans addT.

Definition mul_ops := [bs "*"; bs "/"].
Definition add_ops := [bs "+"; bs "-"].
Lemma un_gram : peg_gram (unary_rule negT).
Proof. unfold unary_rule, isOperator, anyOperand, OAny. gram_tac. Qed.
Lemma bin_gram ops t : good_trans t -> peg_gram (binary_rule ops t).
Proof. intros H. unfold binary_rule, isOperator, anyOperand, OAny. gram_tac. Qed.
Lemma check_gram : peg_gram prod_check.
Proof. unfold prod_check, EStart, OAny, OEnd. gram_tac. Qed.

Definition is_un (t : tk) : bool := match t with TUn => true | _ => false end.
Definition is_op (m : bool) (t : tk) : bool := match t with TBin o => Bool.eqb (is_mul o) m | _ => false end.
Lemma un_matcher t a : istk t a -> makeOpMatcher "UnaryOperator" [bs "-"] (VAst a) = Some (is_un t).
Proof.
  destruct t as [|o|f]; simpl; intros H.
  - destruct H as [-> ->]. reflexivity.
  - destruct H as [-> ->]. reflexivity.
  - apply denotes_cls in H. destruct H as [H _]. apply String.eqb_neq in H. rewrite H. reflexivity.
Qed.
Lemma bin_matcher t a (m : bool) : istk t a -> makeOpMatcher "BinaryOperator" (if m then mul_ops else add_ops) (VAst a) = Some (is_op m t).
Proof.
  destruct t as [|o|f]; simpl; intros H.
  - destruct H as [-> ->]. reflexivity.
  - destruct H as [-> ->]. destruct o, m; reflexivity.
  - apply denotes_cls in H. destruct H as [_ H]. apply String.eqb_neq in H. rewrite H. reflexivity.
Qed.
Definition toks (ts : list tk) (asts : list ast) : Prop := Forall2 istk ts asts.
Lemma toks_nth ts asts p a : toks ts asts -> nth_error asts p = Some a -> exists t, nth_error ts p = Some t /\ istk t a.
Proof.
  intros H. revert p. induction H; intros [|p] E; simpl in *; try discriminate; eauto. inversion E; subst. eauto.
Qed.
Lemma toks_nth' ts asts p t : toks ts asts -> nth_error ts p = Some t -> exists a, nth_error asts p = Some a /\ istk t a.
Proof.
  intros H. revert p. induction H; intros [|p] E; simpl in *; try discriminate; eauto. inversion E; subst. eauto.
Qed.
Definition un_rule : parser := fun n => run no_rules n (unary_rule negT).
Definition mt (m : bool) : trans := if m then mulT else addT.
Definition bin_rule (m : bool) : parser := fun n => run no_rules n (binary_rule (if m then mul_ops else add_ops) (mt m)).
Lemma mt_good m : good_trans (mt m). Proof. destruct m; auto. Qed.

Lemma miss_of tag asts p e : peg_gram e -> peg (ow asts tag nr) e (mkSP p 0) RFail -> misses tag asts p (fun n => run no_rules n e).
Proof.
  intros Hg P. destruct (rule_peg no_rules e asts tag p RFail nr_gram Hg P) as (o & err & G & -> & R). exists o. split; auto. congruence.
Qed.
Lemma hit_of tag asts p e q a' : peg_gram e -> (q <= length asts)%nat -> (exists len, peg (ow asts tag nr) e (mkSP p 0) (RSucc (mkSP q len) [a'])) ->
  hits tag asts p (fun n => run no_rules n e) (firstn p asts ++ a' :: skipn q asts).
Proof.
  intros Hg Hq (len & P). destruct (rule_peg no_rules e asts tag p _ nr_gram Hg P) as (o & err & G & -> & R1 & R2 & R3).
  exists o. split; auto. split; auto. unfold c_pos. rewrite R2, R3. split; auto.
Qed.
Lemma fail_of tag asts p e cur x : peg_gram e -> peg (ow asts tag nr) e (mkSP p 0) (RErr cur x) -> fails tag asts p (fun n => run no_rules n e) x.
Proof.
  intros Hg P. destruct (rule_peg no_rules e asts tag p _ nr_gram Hg P) as (o & err & G & -> & R). exists o. exact G.
Qed.

Lemma un_miss ts asts tag p : toks ts asts -> (forall t, nth_error ts p = Some t -> is_un t = false) -> misses tag asts p un_rule.
Proof.
  intros T H. apply miss_of; [apply un_gram|]. apply peg_trans_fail. constructor. apply seq_fail.
  pose proof (op_peg "UnaryOperator" [bs "-"] asts tag (mkSP p 0) false) as P. cbn [sp_pos] in P.
  destruct (nth_error asts p) as [a|] eqn:E.
  - apply P. intros a' E'. inversion E'; subst. destruct (toks_nth _ _ _ _ T E) as (t & Et & It). rewrite (un_matcher _ _ It), (H t Et). reflexivity.
  - apply P. discriminate.
Qed.
Lemma un_hit la ra u a f tag : istk TUn u -> denotes a f ->
  exists a', denotes a' (FNeg f) /\ hits tag (la ++ u :: a :: ra) (length la) un_rule (la ++ a' :: ra).
Proof.
  intros Hu Ha. destruct (neg_ok 0 (fresh (ow (la ++ u :: a :: ra) tag nr) (mkSP (length la) 0)) u a f Hu Ha) as (a' & E & D). exists a'. split; auto.
  replace (la ++ a' :: ra) with (firstn (length la) (la ++ u :: a :: ra) ++ a' :: skipn (length la + 2) (la ++ u :: a :: ra)).
  2:{ rewrite firstn_mid, skipn_mid. reflexivity. }
  apply hit_of; [apply un_gram|rewrite app_length; simpl; lia|]. exists 1%nat.
  assert (E1 : nth_error (la ++ u :: a :: ra) (length la) = Some u) by (rewrite <- (Nat.add_0_r (length la)), nth_mid; auto).
  assert (E2 : nth_error (la ++ u :: a :: ra) (length la + 1) = Some a) by (rewrite nth_mid; auto).
  pose proof (op_peg "UnaryOperator" [bs "-"] (la ++ u :: a :: ra) tag (mkSP (length la) 0) true) as P1. cbn [sp_pos] in P1. rewrite E1 in P1.
  specialize (P1 ltac:(intros x Ex; inversion Ex; subst; apply (un_matcher TUn); auto)).
  pose proof (any_peg (la ++ u :: a :: ra) tag (mkSP (length la + 1) 1)) as P2. cbn [sp_pos] in P2. rewrite E2 in P2.
  replace (length la + 1 + 1)%nat with (length la + 2)%nat in P2 by lia.
  eapply peg_trans_ok; [constructor; eapply S_Peg.seq_ok; [exact P1|eapply S_Peg.seq_ok; [exact P2|constructor]]|].
  eapply (pl_ok _ 0%nat); [exact E|constructor].
Qed.

(** The binary rules. *)
Lemma bin_miss ts asts tag m p : toks ts asts -> (forall t, nth_error ts (p + 1) = Some t -> is_op m t = false) -> misses tag asts p (bin_rule m).
Proof.
  intros T H. apply miss_of; [apply bin_gram, mt_good|]. apply peg_trans_fail. constructor.
  pose proof (any_peg asts tag (mkSP p 0)) as P1. cbn [sp_pos] in P1.
  destruct (nth_error asts p) as [a|] eqn:E1; [|apply seq_fail; exact P1].
  eapply seq_fail_later; [exact P1|]. apply seq_fail.
  pose proof (op_peg "BinaryOperator" (if m then mul_ops else add_ops) asts tag (mkSP (p + 1) 1) false) as P. cbn [sp_pos] in P.
  destruct (nth_error asts (p + 1)) as [b|] eqn:E.
  - apply P. intros a' E'. inversion E'; subst. destruct (toks_nth _ _ _ _ T E) as (t & Et & It). rewrite (bin_matcher _ _ m It), (H t Et). reflexivity.
  - apply P. discriminate.
Qed.
Lemma bin_reads la ra a o s b tag m : istk (TBin o) s -> is_mul o = m ->
  exists len, peg (ow (la ++ a :: s :: b :: ra) tag nr) (EFlatGroup [anyOperand; isOperator "BinaryOperator" (if m then mul_ops else add_ops); anyOperand])
    (mkSP (length la) 0) (RSucc (mkSP (length la + 3) len) [a; s; b]).
Proof.
  intros Hs Hm. set (asts := la ++ a :: s :: b :: ra). exists 1%nat.
  assert (E1 : nth_error asts (length la) = Some a) by (rewrite <- (Nat.add_0_r (length la)); unfold asts; rewrite nth_mid; auto).
  assert (E2 : nth_error asts (length la + 1) = Some s) by (unfold asts; rewrite nth_mid; auto).
  assert (E3 : nth_error asts (length la + 1 + 1) = Some b) by (rewrite <- Nat.add_assoc; unfold asts; rewrite nth_mid; auto).
  pose proof (any_peg asts tag (mkSP (length la) 0)) as P1. cbn [sp_pos] in P1. rewrite E1 in P1.
  pose proof (op_peg "BinaryOperator" (if m then mul_ops else add_ops) asts tag (mkSP (length la + 1) 1) true) as P2. cbn [sp_pos] in P2. rewrite E2 in P2.
  specialize (P2 ltac:(intros x Ex; inversion Ex; subst; rewrite (bin_matcher (TBin o) _ (is_mul o)) by auto; simpl; rewrite Bool.eqb_reflx; auto)).
  pose proof (any_peg asts tag (mkSP (length la + 1 + 1) 1)) as P3. cbn [sp_pos] in P3. rewrite E3 in P3.
  replace (length la + 1 + 1 + 1)%nat with (length la + 3)%nat in P3 by lia.
  constructor. eapply S_Peg.seq_ok with (l := [a]); [exact P1|]. eapply S_Peg.seq_ok with (l := [s]); [exact P2|].
  eapply S_Peg.seq_ok with (l := [b]); [exact P3|constructor].
Qed.
Lemma bin_event la ra a o s b f g tag : denotes a f -> istk (TBin o) s -> denotes b g ->
  (exists a', denotes a' (FBin o f g) /\ hits tag (la ++ a :: s :: b :: ra) (length la) (bin_rule (is_mul o)) (la ++ a' :: ra)) \/
  (bad (FBin o f g) /\ fails tag (la ++ a :: s :: b :: ra) (length la) (bin_rule (is_mul o)) stop).
Proof.
  intros Ha Hs Hb. destruct (bin_reads la ra a o s b tag (is_mul o) Hs eq_refl) as (len & P).
  set (c := fresh (ow (la ++ a :: s :: b :: ra) tag nr) (mkSP (length la) 0)).
  assert (K : bin_ok (mt (is_mul o)) o) by (destruct (is_mul o) eqn:E; simpl; auto).
  destruct (K c a s b f g Ha Hs Hb) as [(a' & E & D)|[E B]].
  - left. exists a'. split; auto.
    replace (la ++ a' :: ra) with (firstn (length la) (la ++ a :: s :: b :: ra) ++ a' :: skipn (length la + 3) (la ++ a :: s :: b :: ra))
      by (rewrite firstn_mid, skipn_mid; reflexivity).
    apply hit_of; [apply bin_gram, mt_good|rewrite app_length; simpl; lia|]. exists len. eapply peg_trans_ok; [exact P|].
    eapply (pl_ok _ 0%nat); [apply E|constructor].
  - right. split; auto. eapply fail_of; [apply bin_gram, mt_good|]. eapply peg_trans_bad; [exact P|]. eapply (pl_err _ 0%nat). apply E.
Qed.

(** The check. *)
Lemma check_yes a tag : accepted tag (fun n => run no_rules n prod_check) [a].
Proof.
  assert (P : peg (ow [a] tag nr) prod_check sp0 (RSucc (mkSP 1 0) ([] ++ [mkAst 0 ":object:Any" TAny (VAst a) (mkSP 0 0)] ++ [] ++ []))).
  { constructor. eapply S_Peg.seq_ok; [exact (peg_leaf (ow [a] tag nr) ":base:Start" (lift start_fn) 0 sp0 _ _ eq_refl)|].
    eapply S_Peg.seq_ok; [exact (peg_leaf (ow [a] tag nr) ":object:Any" (lift obj_any_fn) 0 (mkSP 0 0) _ _ eq_refl)|].
    eapply S_Peg.seq_ok; [exact (peg_leaf (ow [a] tag nr) ":object:End" (lift obj_end_fn) 0 (mkSP 1 1) _ _ eq_refl)|constructor]. }
  destruct (rule_peg no_rules prod_check [a] tag 0 _ nr_gram check_gram P) as (o & err & G & -> & R & _). exists o. split; auto.
Qed.
Lemma check_no a b l tag : rejected tag (fun n => run no_rules n prod_check) (a :: b :: l).
Proof.
  assert (P : peg (ow (a :: b :: l) tag nr) prod_check sp0 RFail).
  { constructor. eapply seq_fail_later; [exact (peg_leaf (ow (a :: b :: l) tag nr) ":base:Start" (lift start_fn) 0 sp0 _ _ eq_refl)|].
    eapply seq_fail_later; [exact (peg_leaf (ow (a :: b :: l) tag nr) ":object:Any" (lift obj_any_fn) 0 (mkSP 0 0) _ _ eq_refl)|].
    apply seq_fail. exact (oend_peg nr (a :: b :: l) tag (mkSP 1 1) nr_gram). }
  destruct (rule_peg no_rules prod_check _ tag 0 _ nr_gram check_gram P) as (o & err & G & -> & R). exists o, None. split; auto. right. congruence.
Qed.

(** ** Rewriting steps *)
Definition prs := precedences negT mulT addT.
Definition check : parser := fun n => run no_rules n prod_check.
Lemma prs_mono : allP mono_prec prs.
Proof.
  repeat split; unfold level, no_rules; apply gram_mono; intros; apply peg_gram_mono; try (unfold EUnmatched; gram_tac; fail);
    [apply un_gram|apply (bin_gram mul_ops); auto|apply (bin_gram add_ops); auto].
Qed.
Lemma check_mono : mono_parser check.
Proof. apply gram_mono; intros; apply peg_gram_mono; [unfold no_rules, EUnmatched; gram_tac|apply check_gram]. Qed.
Definition none (P : tk -> bool) (ts : list tk) : Prop := Forall (fun t => P t = false) ts.
Lemma none_nth P ts p t : none P ts -> nth_error ts p = Some t -> P t = false.
Proof. intros H E. eapply Forall_forall in H; [exact H|]. eapply nth_error_In; eauto. Qed.
Lemma un_quiet ts asts tag p : toks ts asts -> none is_un ts -> quiet tag asts (level (unary_rule negT) true) p.
Proof. intros T N. repeat constructor. eapply un_miss; [exact T|]. intros t. apply none_nth. auto. Qed.
Lemma bin_quiet ts asts tag m p : toks ts asts -> (forall t, nth_error ts (p + 1) = Some t -> is_op m t = false) ->
  quiet tag asts (level (binary_rule (if m then mul_ops else add_ops) (mt m)) false) p.
Proof. intros T N. repeat constructor. eapply bin_miss; eauto. Qed.

Lemma un_step l f r asts tag : toks (l ++ TUn :: TOp f :: r) asts -> none is_un r ->
  exists asts', toks (l ++ TOp (FNeg f) :: r) asts' /\ rewrites tag prs asts asts'.
Proof.
  intros T N. pose proof T as T0. apply Forall2_app_inv_l in T. destruct T as (la & ra & Tl & Tr & ->).
  inversion Tr as [|? u ? ra1 Hu Tr1]; subst. inversion Tr1 as [|? a ? ra2 Ha Tr2]; subst.
  destruct (un_hit la ra2 u a f tag Hu Ha) as (a' & D & H). exists (la ++ a' :: ra2).
  split; [apply Forall2_app; auto; constructor; auto|].
  exists [], (level (unary_rule negT) true), [level (binary_rule mul_ops mulT) false; level (binary_rule add_ops addT) false], (length la), [], un_rule, [].
  split; [reflexivity|]. split; [constructor|]. split; [rewrite app_length; lia|]. split; [|repeat split; auto].
  intros q Hq Hs. cbn in Hs. repeat constructor. eapply un_miss; [exact T0|]. intros t E.
  assert (L : length l = length la) by (eapply Forall2_len; eauto). replace q with (length l + (q - length l))%nat in E by lia.
  rewrite nth_mid in E. destruct (q - length l)%nat as [|k] eqn:Ek; [lia|]. destruct k as [|k]; simpl in E.
  - inversion E. reflexivity.
  - eapply none_nth; eauto.
Qed.
(** [m]: multiplication or addition. *)
Lemma bin_step l f o g r asts tag : toks (l ++ TOp f :: TBin o :: TOp g :: r) asts -> none is_un (l ++ TOp f :: TBin o :: TOp g :: r) ->
  (is_mul o = false -> none (is_op true) (l ++ TOp f :: TBin o :: TOp g :: r)) -> none (is_op (is_mul o)) l ->
  (exists asts', toks (l ++ TOp (FBin o f g) :: r) asts' /\ rewrites tag prs asts asts') \/
  (bad (FBin o f g) /\ raises tag prs asts stop).
Proof.
  intros T Nu Nm Nl. pose proof T as T0. apply Forall2_app_inv_l in T. destruct T as (la & ra & Tl & Tr & ->).
  inversion Tr as [|? a ? ra1 Ha Tr1]; subst. inversion Tr1 as [|? s ? ra2 Hs Tr2]; subst. inversion Tr2 as [|? b ? ra3 Hb Tr3]; subst.
  assert (L : length l = length la) by (eapply Forall2_len; eauto).
  set (asts := la ++ a :: s :: b :: ra3) in *.
  assert (Q : forall E : nat -> parser -> Prop, E (length la) (bin_rule (is_mul o)) -> first_event tag prs asts E).
  { intros E HE.
    assert (Qb : forall q, (q <= length asts)%nat -> (q < length la)%nat -> quiet tag asts (level (binary_rule (if is_mul o then mul_ops else add_ops) (mt (is_mul o))) false) q).
    { intros q _ Hq. eapply bin_quiet; [exact T0|]. intros t Et.
      replace (l ++ TOp f :: TBin o :: TOp g :: r) with ((l ++ [TOp f]) ++ TBin o :: TOp g :: r) in Et by (rewrite <- app_assoc; auto).
      rewrite nth_error_app1 in Et by (rewrite app_length; simpl; lia). eapply none_nth; [|exact Et].
      apply Forall_app. split; auto. }
    destruct (is_mul o) eqn:Eo.
    - exists [level (unary_rule negT) true], (level (binary_rule mul_ops mulT) false), [level (binary_rule add_ops addT) false], (length la), [], (bin_rule true), [].
      split; [reflexivity|]. split; [constructor; [|constructor]; intros; eapply un_quiet; eauto|]. split; [unfold asts; rewrite app_length; lia|].
      split; [exact Qb|]. repeat split; auto.
    - exists [level (unary_rule negT) true; level (binary_rule mul_ops mulT) false], (level (binary_rule add_ops addT) false), [], (length la), [], (bin_rule false), [].
      split; [reflexivity|]. split; [constructor; [intros; eapply un_quiet; eauto|constructor; [|constructor]]|].
      + intros q _. eapply (bin_quiet _ _ _ true); [exact T0|]. intros t Et. eapply none_nth; [|exact Et]. auto.
      + split; [unfold asts; rewrite app_length; lia|]. split; [exact Qb|]. repeat split; auto. }
  destruct (bin_event la ra3 a o s b f g tag Ha Hs Hb) as [(a' & D & H)|[B H]].
  - left. exists (la ++ a' :: ra3). split; [apply Forall2_app; auto; constructor; auto|]. apply Q. exact H.
  - right. split; auto. apply Q. exact H.
Qed.
Lemma single_reduces a f tag : toks [TOp f] [a] -> reduces tag prs check [a] (inr [a]).
Proof.
  intros T. apply red_normal; [|apply check_yes]. repeat constructor; intros.
  - eapply un_miss; [exact T|]. intros t E. destruct i as [|[|i]]; inversion E. reflexivity.
  - eapply (bin_miss [TOp f] [a] tag true); [exact T|]. intros t E. rewrite Nat.add_comm in E. destruct i; discriminate E.
  - eapply (bin_miss [TOp f] [a] tag false); [exact T|]. intros t E. rewrite Nat.add_comm in E. destruct i; discriminate E.
Qed.
(** What the rules make of a token list. *)
Definition outcome (tag : value) (asts : list ast) (f : arith) : Prop :=
  (exists a, reduces tag prs check asts (inr [a]) /\ denotes a f) \/ (reduces tag prs check asts (inl stop) /\ bad f).
Lemma outcome_step tag asts asts' ts f : rewrites tag prs asts asts' -> toks ts asts' ->
  match ts with [] => False | [TOp g] => g = f | [_] => False | _ => True end -> outcome tag asts' f -> outcome tag asts f.
Proof.
  intros R T H O. destruct asts' as [|a [|b l]].
  - inversion T; subst. destruct H.
  - inversion T as [|t ? ts' ? It T']; subst. inversion T'; subst. destruct t; try (destruct H; fail). subst. left. exists a. split; auto.
    apply red_accept; auto. apply check_yes.
  - destruct O as [(x & O & D)|[O B]]; [left; exists x; split; auto|right; split; auto]; eapply red_again; eauto; apply check_no.
Qed.

(** ** Chains without unary operators *)
Definition tail_flat (l : list (fop * arith)) : list tk := flat_map (fun x => [TBin (fst x); TOp (snd x)]) l.
Definition flat (f0 : arith) (l : list (fop * arith)) : list tk := TOp f0 :: tail_flat l.
Lemma flat_no_un f0 l : none is_un (flat f0 l).
Proof. constructor; auto. induction l; simpl; repeat constructor; auto. Qed.
Lemma flat_no_mul f0 l : all_add l -> none (is_op true) (flat f0 l).
Proof. intros H. constructor; auto. induction H as [|[o x] l H1 H IH]; simpl in *; repeat constructor; auto. simpl. rewrite H1. reflexivity. Qed.
Lemma tail_flat_app l m : tail_flat (l ++ m) = tail_flat l ++ tail_flat m.
Proof. apply flat_map_app. Qed.
Lemma leftmost_mul l : all_add l \/ exists l1 o y l2, l = l1 ++ (o, y) :: l2 /\ all_add l1 /\ is_mul o = true.
Proof.
  induction l as [|[o y] l IH]; [left; constructor|]. destruct (is_mul o) eqn:E.
  - right. exists [], o, y, l. repeat split; auto. constructor.
  - destruct IH as [IH|(l1 & o' & y' & l2 & -> & A & M)]; [left; constructor; auto|]. right. exists ((o, y) :: l1), o', y', l2. repeat split; auto. constructor; auto.
Qed.
Lemma flat_single f0 l : match flat f0 l with [] => False | [TOp g] => g = ptree None f0 l | [_] => False | _ => True end.
Proof. unfold flat. destruct l as [|[o x] l]; simpl; auto. Qed.
Lemma flat_reduces n : forall l f0 asts tag, (length l <= n)%nat -> toks (flat f0 l) asts -> outcome tag asts (ptree None f0 l).
Proof.
  induction n as [|n IH]; intros l f0 asts tag Hn T.
  { destruct l; [|simpl in Hn; lia]. inversion T as [|? a ? ? Ha T']; subst. inversion T'; subst. left. exists a. split; auto. eapply single_reduces; eauto. }
  destruct (leftmost_mul l) as [A|(l1 & o & y & l2 & -> & A & M)].
  - destruct l as [|[o y] l]. { apply IH; auto. simpl. lia. }
    inversion A as [|? ? A1 A2]; subst. simpl in A1. rewrite ptree_leftmost_add by auto.
    destruct (bin_step [] f0 o y (tail_flat l) asts tag T) as [(asts' & T' & R)|[B R]].
    + apply (flat_no_un f0 ((o, y) :: l)).
    + intros _. apply (flat_no_mul f0 ((o, y) :: l)). auto.
    + constructor.
    + eapply outcome_step; [exact R|exact T'|apply (flat_single (FBin o f0 y) l)|]. apply IH; auto. simpl in Hn. lia.
    + right. split; [apply red_error; auto|]. apply spreads_tree; auto.
  - rewrite app_length in Hn. simpl in Hn. destruct l1 as [|[o' x] l1 _] using rev_ind.
    + rewrite app_nil_l in *. replace (ptree None f0 ((o, y) :: l2)) with (ptree None (FBin o f0 y) l2) by (simpl; rewrite M; auto).
      destruct (bin_step [] f0 o y (tail_flat l2) asts tag T) as [(asts' & T' & R)|[B R]].
      * apply (flat_no_un f0 ((o, y) :: l2)).
      * congruence.
      * constructor.
      * eapply outcome_step; [exact R|exact T'|apply (flat_single (FBin o f0 y) l2)|]. apply IH; auto. simpl in Hn. lia.
      * right. split; [apply red_error; auto|]. apply spreads_tree; auto.
    + apply Forall_app in A. destruct A as [A1 A2]. inversion A2 as [|? ? A3 _]; subst. simpl in A3.
      assert (E : flat f0 ((l1 ++ [(o', x)]) ++ (o, y) :: l2) = (flat f0 l1 ++ [TBin o']) ++ TOp x :: TBin o :: TOp y :: tail_flat l2).
      { unfold flat. rewrite <- !app_assoc. simpl. rewrite tail_flat_app. reflexivity. }
      assert (E' : flat f0 (l1 ++ (o', FBin o x y) :: l2) = (flat f0 l1 ++ [TBin o']) ++ TOp (FBin o x y) :: tail_flat l2).
      { unfold flat. rewrite <- !app_assoc. simpl. rewrite tail_flat_app. reflexivity. }
      pose proof (flat_no_un f0 ((l1 ++ [(o', x)]) ++ (o, y) :: l2)) as Nu. rewrite E in Nu, T.
      rewrite <- app_assoc. simpl. rewrite (ptree_leftmost_mul l1 o' x o y l2 M), A3.
      destruct (bin_step _ x o y _ asts tag T Nu) as [(asts' & T' & R)|[B R]].
      * congruence.
      * rewrite M. apply Forall_app. split; [apply flat_no_mul; auto|]. repeat constructor. simpl. rewrite A3. reflexivity.
      * rewrite <- E' in T'. eapply outcome_step; [exact R|exact T'|apply flat_single|]. apply IH; auto. rewrite !app_length in *. simpl in *. lia.
      * right. split; [apply red_error; auto|]. apply spreads_tree; auto. right. right. apply Exists_app. right. left. auto.
Qed.

(** ** Chains with unary operators *)
Definition item := (nat * arith)%type.
Definition item_tree (x : item) : arith := negs (fst x) (snd x).
Definition item_toks (x : item) : list tk := repeat TUn (fst x) ++ [TOp (snd x)].
Definition chain_toks (x : item) (l : list (fop * item)) : list tk :=
  item_toks x ++ flat_map (fun y => TBin (fst y) :: item_toks (snd y)) l.
Definition chain_tree (x : item) (l : list (fop * item)) : arith :=
  ptree None (item_tree x) (map (fun y => (fst y, item_tree (snd y))) l).
Definition plain (l : list (fop * item)) : Prop := Forall (fun y => fst (snd y) = 0%nat) l.
Definition minuses (x : item) (l : list (fop * item)) : nat := (fst x + list_sum (map (fun y => fst (snd y)) l))%nat.
Lemma item_toks_S k f : item_toks (S k, f) = repeat TUn k ++ [TUn; TOp f].
Proof. unfold item_toks. simpl. induction k; simpl; auto. rewrite <- IHk. reflexivity. Qed.
Lemma negs_S k f : negs k (FNeg f) = negs (S k) f.
Proof. induction k as [|k IH]; [reflexivity|]. change (FNeg (negs k (FNeg f)) = FNeg (negs (S k) f)). rewrite IH. reflexivity. Qed.
Lemma plain_no_un l : plain l -> none is_un (flat_map (fun y => TBin (fst y) :: item_toks (snd y)) l).
Proof.
  induction 1 as [|[o [k f]] l H P IH]; [constructor|]. simpl in *. subst k. constructor; auto. constructor; auto.
Qed.
Lemma plain_flat (x : item) (l : list (fop * item)) : fst x = 0%nat -> plain l -> chain_toks x l = flat (snd x) (map (fun y : fop * item => (fst y, snd (snd y))) l) /\
  chain_tree x l = ptree None (snd x) (map (fun y : fop * item => (fst y, snd (snd y))) l).
Proof.
  destruct x as [k f]. simpl. intros -> P. unfold chain_toks, chain_tree, flat. simpl.
  assert (H : flat_map (fun y : fop * item => TBin (fst y) :: item_toks (snd y)) l = tail_flat (map (fun y : fop * item => (fst y, snd (snd y))) l) /\
    map (fun y : fop * item => (fst y, item_tree (snd y))) l = map (fun y : fop * item => (fst y, snd (snd y))) l).
  { induction P as [|[o [k g]] l H P [IH1 IH2]]; [auto|]. simpl in *. subst k. rewrite IH1, IH2. auto. }
  destruct H as [-> ->]. auto.
Qed.
Lemma last_minus (x : item) (l : list (fop * item)) : (plain l /\ fst x = 0%nat) \/ (plain l /\ exists k, fst x = S k) \/
  exists l1 o k f l2, l = l1 ++ (o, (S k, f)) :: l2 /\ plain l2.
Proof.
  assert (H : plain l \/ exists l1 o k f l2, l = l1 ++ (o, (S k, f)) :: l2 /\ plain l2).
  { induction l as [|[o [k f]] l IH]; [left; constructor|]. destruct IH as [IH|(l1 & o' & k' & f' & l2 & -> & P)].
    - destruct k; [left; constructor; auto|]. right. exists [], o, k, f, l. auto.
    - right. exists ((o, (k, f)) :: l1), o', k', f', l2. auto. }
  destruct H as [H|H]; auto. destruct (fst x) eqn:E; eauto.
Qed.
Lemma chain_single x l : match chain_toks x l with [] => False | [TOp g] => g = chain_tree x l | [_] => False | _ => True end.
Proof.
  destruct x as [k f]. unfold chain_toks, item_toks, chain_tree. simpl. destruct k as [|k]; simpl.
  - destruct l as [|[o y] l]; simpl; auto.
  - destruct k; simpl; auto.
Qed.
(** The production rules turn a chain of operands, minus signs and operators into its tree, or stop. *)
Theorem chain_reduces tag : forall n x l asts, (minuses x l <= n)%nat -> toks (chain_toks x l) asts -> outcome tag asts (chain_tree x l).
Proof.
  assert (Base : forall x l asts, plain l /\ fst x = 0%nat -> toks (chain_toks x l) asts -> outcome tag asts (chain_tree x l)).
  { intros x l asts [P E] T. destruct (plain_flat x l E P) as [E1 E2]. rewrite E1 in T. rewrite E2. eapply flat_reduces; eauto. }
  induction n as [|n IH]; intros x l asts Hn T; destruct (last_minus x l) as [B|[(P & k & E)|(l1 & o & k & f & l2 & -> & P)]]; auto.
  - unfold minuses in Hn. lia.
  - unfold minuses in Hn. rewrite map_app, list_sum_app in Hn. simpl in Hn. lia.
  - destruct x as [k' f]. simpl in E. subst k'. unfold chain_toks in T. rewrite item_toks_S in T. rewrite <- app_assoc in T. simpl in T.
    destruct (un_step _ _ _ _ tag T (plain_no_un l P)) as (asts' & T' & R).
    assert (T2 : toks (chain_toks (k, FNeg f) l) asts') by (unfold chain_toks, item_toks; simpl; rewrite <- app_assoc; exact T').
    assert (Et : chain_tree (k, FNeg f) l = chain_tree (S k, f) l) by (unfold chain_tree, item_tree; simpl fst; simpl snd; rewrite negs_S; reflexivity).
    eapply outcome_step; [exact R|exact T2| |]; rewrite <- Et; [apply chain_single|]. apply IH; auto. unfold minuses in *. simpl in *. lia.
  - unfold chain_toks in T. rewrite flat_map_app in T. cbn [flat_map fst snd] in T. rewrite item_toks_S in T.
    assert (T1 : toks ((item_toks x ++ flat_map (fun y => TBin (fst y) :: item_toks (snd y)) l1 ++ TBin o :: repeat TUn k) ++ TUn :: TOp f ::
      flat_map (fun y => TBin (fst y) :: item_toks (snd y)) l2) asts).
    { rewrite <- !app_assoc. rewrite <- !app_comm_cons in *. rewrite <- !app_assoc in *. exact T. }
    destruct (un_step _ _ _ _ tag T1 (plain_no_un l2 P)) as (asts' & T' & R).
    assert (T2 : toks (chain_toks x (l1 ++ (o, (k, FNeg f)) :: l2)) asts').
    { unfold chain_toks. rewrite flat_map_app. cbn [flat_map fst snd]. unfold item_toks at 3. cbn [fst snd]. rewrite <- !app_assoc in *. rewrite <- !app_comm_cons in *. rewrite <- !app_assoc in *. exact T'. }
    assert (Et : chain_tree x (l1 ++ (o, (k, FNeg f)) :: l2) = chain_tree x (l1 ++ (o, (S k, f)) :: l2)).
    { unfold chain_tree. rewrite !map_app. simpl map. unfold item_tree at 3 6. simpl fst. simpl snd. rewrite negs_S. reflexivity. }
    eapply outcome_step; [exact R|exact T2| |]; rewrite <- Et; [apply chain_single|]. apply IH; auto.
    unfold minuses in *. rewrite map_app, list_sum_app in *. simpl in *. lia.
Qed.
Definition prod_ok (prod : trans) : Prop := forall c x l asts, toks (chain_toks x l) asts ->
  (exists a, pipeline c [prod] asts (inr [a]) /\ denotes a (chain_tree x l)) \/ (pipeline c [prod] asts (inl stop) /\ bad (chain_tree x l)).
Theorem rules_ok : prod_ok (formulaProductionRules negT mulT addT).
Proof.
  intros c x l asts T. destruct (chain_reduces (c_tag c) _ x l asts (le_n _) T) as [(a & R & D)|[R B]].
  - left. exists a. split; auto. apply (production_iff prs check c asts _ prs_mono check_mono) in R. destruct R as [n R]. eapply (pl_ok _ n); [exact R|constructor].
  - right. split; auto. apply (production_iff prs check c asts _ prs_mono check_mono) in R. destruct R as [n R]. eapply (pl_err _ n). exact R.
Qed.
Lemma rules_good : good_trans (formulaProductionRules negT mulT addT).
Proof. apply ProductionRule_good; [apply prs_mono|apply check_mono]. Qed.
End Production.
