(** From the meaning of the formula grammar to the answers of Parse; shared by
    _examples/formula and _examples/torpn. *)
From Verif Require Export L_FormulaText L_Swap L_LineCol L_Err.

Ltac formula_unfold := cbv delta [program groupedExpresion grouped_env expression expressionInner simpleExpression binaryOperator unaryOperator
  number sp_0 erase IntegerNumberStr opt_sign int_part dig_us cc1 cc2 range EZeroOrMore EOneOrMore EZeroOrOnce
  SCharClass SCharRange SNumber SEnd EStart EError SWhitespace SWordBoundary] beta iota zeta.
Lemma parseNumber_good : good_trans parseNumber. Proof. const_tac. Qed.
Lemma word_boundary_good : good_leaf (lift word_boundary_fn). Proof. unfold word_boundary_fn, word_boundary_gen, with_rest, ret. leaf_tac. Qed.
#[export] Hint Resolve parseNumber_good word_boundary_good : leafs.

(** With enough fuel, and then always, [f] returns [r]. *)
Definition finally {A : Type} (f : nat -> A) (r : A) : Prop := exists n0, forall n, (n0 <= n)%nat -> f n = r.

Section Parse.
Variables (prod : trans) (prodG : good_trans prod).
Definition f_world (s : bytes) : world := mkW s None VNil (grouped_env prod).
Lemma program_gram : peg_gram (program prod).
Proof. formula_unfold. gram_tac. all: try exact (proj1 prodG); try exact (proj2 prodG); auto. Qed.
Lemma grouped_gram k : peg_gram (grouped_env prod k).
Proof. formula_unfold. gram_tac. all: try exact (proj1 prodG); try exact (proj2 prodG); auto. Qed.
Lemma program_pos : gram (pos_spec str_size) (program prod).
Proof. apply (string_pos anyT). formula_unfold. lib_tac. Qed.
Lemma grouped_pos k : gram (pos_spec str_size) (grouped_env prod k).
Proof. apply (string_pos anyT). formula_unfold. lib_tac. Qed.
Lemma program_source : gram source_spec (program prod).
Proof. apply (lib_source anyT anyZ). formula_unfold. lib_tac. Qed.
Lemma grouped_source k : gram source_spec (grouped_env prod k).
Proof. apply (lib_source anyT anyZ). formula_unfold. lib_tac. Qed.
Lemma f_pos n s o err : run (grouped_env prod) n (program prod) (new_string_ctx s) = Ok (o, err) -> (c_pos o <= length s)%nat.
Proof.
  intros E. assert (B : in_bounds str_size (new_string_ctx s)) by (unfold in_bounds, c_pos; simpl; lia).
  destruct (pos_kept str_size _ (program prod) n _ o err grouped_pos program_pos B E) as [H _]. unfold in_bounds in H.
  destruct (source_kept _ _ _ _ _ _ grouped_source program_source E) as [Hs _].
  unfold str_size in H. rewrite Hs in H. exact H.
Qed.
Lemma f_stable n s r : run (grouped_env prod) n (program prod) (new_string_ctx s) = r -> r <> Fuel ->
  forall m, (n <= m)%nat -> run (grouped_env prod) m (program prod) (new_string_ctx s) = r.
Proof.
  intros E N m Hm. destruct (gram_mono (grouped_env prod) (program prod) (fun k => peg_gram_mono _ (grouped_gram k)) (peg_gram_mono _ program_gram) n m (new_string_ctx s) Hm) as [F|F]; congruence.
Qed.
Lemma f_run s r : peg (f_world s) (program prod) sp0 r ->
  exists n o err, returns [] o err r /\ forall m, (n <= m)%nat -> run (grouped_env prod) m (program prod) (new_string_ctx s) = Ok (o, err).
Proof.
  intros P. destruct (proj1 (peg_adequate (f_world s) (program prod) (new_string_ctx s) grouped_gram program_gram ltac:(repeat split) eq_refl r) P) as (n & o & err & E & R).
  exists n, o, err. split; auto. apply f_stable; [exact E|discriminate].
Qed.
Context {A : Type} (answer : ast -> res A).
Lemma parse_good s cur a v : peg (f_world s) (program prod) sp0 (RSucc cur [a]) -> answer a = Ok v ->
  finally (fun n => parse_with prod answer n s) (Ok (inr v)).
Proof.
  intros P Ha. destruct (f_run s _ P) as (n & o & err & (-> & Hs & _ & Hst) & E). exists n. intros m Hm. unfold parse_with.
  rewrite (E m Hm), Hs, Hst. simpl. rewrite Ha. reflexivity.
Qed.
Lemma parse_unmatched s : peg (f_world s) (program prod) sp0 RFail ->
  exists lc, GetLineAndColPosition s 0 4 = Ok lc /\ finally (fun n => parse_with prod answer n s) (Ok (inl (mkPE None lc))).
Proof.
  intros P. destruct (f_run s _ P) as (n & o & err & (-> & Hs) & E).
  destruct (gives_up_pos (grouped_env prod) n (program prod) (new_string_ctx s) o None I eq_refl (E n (le_n n)) Hs) as [Hp _].
  destruct (proj2 (linecol_panics s 0 4) ltac:(lia)) as (lc & El). exists lc. split; auto. exists n. intros m Hm. unfold parse_with.
  rewrite (E m Hm), Hs. unfold parse_fail, c_pos. rewrite Hp. change (sp_pos (c_sp (new_string_ctx s))) with 0%nat. rewrite El. reflexivity.
Qed.
Lemma parse_raised s cur e : peg (f_world s) (program prod) sp0 (RErr cur e) ->
  exists lc, GetLineAndColPosition s (sp_pos cur) 4 = Ok lc /\ finally (fun n => parse_with prod answer n s) (Ok (inl (mkPE (Some e) lc))).
Proof.
  intros P. destruct (f_run s _ P) as (n & o & err & (-> & Hs & Hp) & E).
  pose proof (f_pos n s o _ (E n (le_n n))) as L. unfold c_pos in L. rewrite Hp in L.
  destruct (proj2 (linecol_panics s (sp_pos cur) 4) ltac:(lia)) as (lc & El). exists lc. split; auto. exists n. intros m Hm. unfold parse_with.
  rewrite (E m Hm). unfold parse_fail, c_pos. rewrite Hp, El. reflexivity.
Qed.
Lemma explains_fail s lc : GetLineAndColPosition s 0 4 = Ok lc ->
  (exists t r f, s = t ++ r /\ formula t f /\ r <> [] /\ ~ op_start r) -> explains s None lc.
Proof.
  intros El (t & r & f & Es & F & N & No). left. split; auto. split; auto. exists t, r, f. split; auto. split; auto. split; auto.
  intros o [u Eu]. apply No. exists o, u. exact Eu.
Qed.
Lemma explains_raised s cur x lc : GetLineAndColPosition s (sp_pos cur) 4 = Ok lc -> spot (f_world s) x cur -> explains s (Some x) lc.
Proof.
  intros El (q & [[_ G] E] & B). right. exists (before (f_world s) cur), q, x. split; auto. unfold before, rest_of, f_world in *. cbn [w_str] in *. split.
  - rewrite <- E. symmetry. apply firstn_skipn.
  - split; auto. rewrite firstn_length, Nat.min_l by lia. exact El.
Qed.
(** Parse with enough fuel for an answer keeps it. *)
Lemma parse_stable n s r : parse_with prod answer n s = r -> r <> Fuel -> finally (fun m => parse_with prod answer m s) r.
Proof.
  intros E N. exists n. intros m Hm. unfold parse_with in *.
  destruct (run (grouped_env prod) n (program prod) (new_string_ctx s)) as [[o err]|w|] eqn:F; try congruence.
  - rewrite (f_stable n s _ F ltac:(discriminate) m Hm). exact E.
  - rewrite (f_stable n s _ F ltac:(discriminate) m Hm). exact E.
Qed.
End Parse.
