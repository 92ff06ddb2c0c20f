(** The torpn example answers with the postfix form. *)
From Verif Require Export L_Formula S_Torpn M_Torpn.

(** ** Postfix forms *)
Lemma signed_det f : forall x y, signed f x -> signed f y -> x = y.
Proof.
  induction f as [z|f IH|o f _ g _]; intros x y H H'; inversion H; subst; inversion H'; subst; auto.
  match goal with A : signed f ?a, B : signed f ?b |- _ => pose proof (IH _ _ A B); subst end. eapply wraps_det; eauto.
Qed.
Lemma signed_simple f z : signed f z -> ~ compound f.
Proof. induction 1; intros C; inversion C; subst; auto. Qed.
Lemma signed_or_compound f : (exists z, signed f z) \/ compound f.
Proof.
  induction f as [z|f [(z & H)|H]|o f _ g _]; [left; eauto using sg_lit|left|right; constructor; auto|right; constructor].
  exists (to_int64 (- z)). econstructor; eauto. apply to_int64_wraps.
Qed.
Lemma postfix_det f : forall l m, postfix f l -> postfix f m -> l = m.
Proof.
  induction f as [z|f IH|o f IHf g IHg]; intros l m H H'; inversion H; subst; inversion H'; subst;
    try match goal with A : signed (FBin _ _ _) _ |- _ => inversion A end.
  - f_equal. f_equal. eapply signed_det; eauto.
  - f_equal. f_equal. eapply signed_det; eauto.
  - match goal with A : signed (FNeg f) _ |- _ => inversion A; subst end. exfalso. eapply signed_simple; eauto.
  - match goal with A : signed (FNeg f) _ |- _ => inversion A; subst end. exfalso. eapply signed_simple; eauto.
  - f_equal. eauto.
  - f_equal; eauto. f_equal. eauto.
Qed.
Lemma postfix_total f : exists l, postfix f l.
Proof.
  induction f as [z|f (l & IH)|o f (l & IHf) g (m & IHg)].
  - exists [VInt z]. apply pf_num. constructor.
  - destruct (signed_or_compound f) as [(z & H)|H].
    + exists [VInt (to_int64 (- z))]. apply pf_num. econstructor; eauto. apply to_int64_wraps.
    + eexists. apply pf_neg; eauto.
  - eexists. apply pf_bin; eauto.
Qed.
Lemma signed_evals f z : signed f z -> evals f z.
Proof. induction 1; econstructor; eauto. Qed.
Lemma plain_neg f : plainly_signed (FNeg f) -> exists z, signed f z.
Proof. intros [_ N]. destruct (signed_or_compound f) as [H|H]; [auto|contradiction]. Qed.
Lemma bin_evals o f g r : evals (FBin o f g) r -> exists x y, evals f x /\ evals g y /\ operates o x y r.
Proof. intros H. inversion H; subst; do 2 eexists; (split; [eassumption|split; [eassumption|]]); econstructor; eauto. Qed.
Lemma machine_app l f v : postfix f l -> plainly_signed f -> evals f v -> forall m st st', machine m (v :: st) st' -> machine (l ++ m) st st'.
Proof.
  intros H. revert v. induction H as [f z Hs|f l Hc H IH|o f g l m H IHf H' IHg]; intros v Pl E k st st' Hm.
  - cbn [app]. constructor. rewrite (evals_det f z v (signed_evals f z Hs) E). exact Hm.
  - destruct Pl as [_ N]. contradiction.
  - destruct Pl as [Pf Pg]. destruct (bin_evals o f g v E) as (x & y & Ex & Ey & Op). rewrite <- app_assoc. apply (IHf x Pf Ex). rewrite <- app_assoc. apply (IHg y Pg Ey).
    cbn [app]. econstructor; eauto.
Qed.
Lemma machine_value l f v : postfix f l -> plainly_signed f -> evals f v -> machine l [] [v].
Proof. intros H P E. rewrite <- (app_nil_r l). eapply machine_app; eauto. constructor. Qed.
Lemma operates_det o x y r r' : operates o x y r -> operates o x y r' -> r = r'.
Proof.
  intros H H'. inversion H; subst; inversion H'; subst; try (eapply wraps_det; eassumption).
  match goal with A : trunc_quot _ _ ?a, B : trunc_quot _ _ ?b |- _ => pose proof (trunc_det _ _ _ _ A B); subst end. eapply wraps_det; eassumption.
Qed.
Lemma op_byte_inj o o' : op_byte o = op_byte o' -> o = o'.
Proof. destruct o, o'; simpl; congruence. Qed.
Lemma machine_det l st a : machine l st a -> forall b, machine l st b -> a = b.
Proof.
  induction 1 as [st|z l st st' H IH|o x y r l st st' Ho H IH]; intros b Hb.
  - inversion Hb; auto.
  - inversion Hb; subst; auto.
  - inversion Hb; subst. match goal with E : op_byte _ = op_byte _ |- _ => apply op_byte_inj in E; subst end.
    match goal with A : operates o x y ?r1, B : machine l (?r1 :: st) _ |- _ => rewrite (operates_det _ _ _ _ _ A Ho) in B; auto end.
Qed.
(** What the machine computes from the postfix form is the value. *)
Lemma machine_back f : forall l, postfix f l -> plainly_signed f -> forall m st st', machine (l ++ m) st st' -> exists v, evals f v /\ machine m (v :: st) st'.
Proof.
  intros l H. induction H as [f z Hs|f l Hc H IH|o f g l m H IHf H' IHg]; intros Pl k st st' Hm.
  - cbn [app] in Hm. inversion Hm; subst. exists z. split; auto using signed_evals.
  - destruct Pl as [_ N]. contradiction.
  - destruct Pl as [Pf Pg]. rewrite <- app_assoc in Hm. destruct (IHf Pf _ _ _ Hm) as (x & Ex & Hm1). rewrite <- app_assoc in Hm1. destruct (IHg Pg _ _ _ Hm1) as (y & Ey & Hm2).
    cbn [app] in Hm2. inversion Hm2; subst. match goal with E : op_byte _ = op_byte _ |- _ => apply op_byte_inj in E; subst end.
    match goal with A : operates o x y ?r1 |- _ => exists r1; split; auto; inversion A; subst end; [eapply ev_add|eapply ev_sub|eapply ev_mul|eapply ev_div]; eauto.
Qed.
Lemma machine_evals f l v : postfix f l -> plainly_signed f -> machine l [] [v] -> evals f v.
Proof.
  intros H P M. rewrite <- (app_nil_r l) in M. destruct (machine_back f l H P [] [] [v] M) as (x & E & Mx). inversion Mx; subst. exact E.
Qed.

(** ** The production rules *)
Definition posted (a : ast) (f : arith) : Prop :=
  (a_cls a = "Number"%string /\ a_ty a = TInt /\ exists z, a_val a = VInt z /\ signed f z) \/
  (a_cls a = "List"%string /\ a_ty a = TListOfAst /\ compound f /\ exists l, a_val a = VAsts l /\ postfix f (map a_val l)).
Definition never (_ : arith) : Prop := False.
Definition e1 : gerr := EUser 1.
Lemma posted_cls a f : posted a f -> a_cls a <> "UnaryOperator"%string /\ a_cls a <> "BinaryOperator"%string.
Proof. intros [(-> & _)|(-> & _)]; split; discriminate. Qed.
Lemma never_spreads : spreads never.
Proof. split; unfold never; intros; tauto. Qed.
Lemma unary_ok n c u a f : istk posted TUn u -> posted a f -> exists a', transformUnaryOp n c [u; a] = tok [a'] /\ posted a' (FNeg f).
Proof.
  intros [_ V] [(C & T & z & Vz & S1)|(C & T & Cf & l & Vl & Pf)]; unfold transformUnaryOp, ast_at, str_of; simpl; rewrite T.
  - rewrite V, Vz. simpl. eexists. split; [reflexivity|]. left. split; [reflexivity|]. split; [reflexivity|]. eexists. split; [reflexivity|].
    econstructor; eauto. apply to_int64_wraps.
  - rewrite Vl. simpl. eexists. split; [reflexivity|]. right. split; [reflexivity|]. split; [reflexivity|]. split; [constructor; auto|].
    exists (l ++ [u]). split; [reflexivity|]. rewrite map_app. simpl. rewrite V. apply pf_neg; auto.
Qed.
Lemma operand_ok a f : posted a f -> exists l, operand a = tok l /\ postfix f (map a_val l).
Proof.
  intros [(C & T & z & Vz & S1)|(C & T & Cf & l & Vl & Pf)]; unfold operand; rewrite T.
  - exists [a]. split; [reflexivity|]. simpl. rewrite Vz. apply pf_num. auto.
  - rewrite Vl. exists l. auto.
Qed.
Lemma binary_ok o : bin_ok posted never e1 transformBinaryOp o.
Proof.
  intros c a s b f g Da [_ V] Db. left. destruct (operand_ok a f Da) as (l & La & Pa), (operand_ok b g Db) as (m & Lb & Pb).
  exists (list_ast (l ++ m ++ [s])). split.
  - intros n. unfold transformBinaryOp, str_of, ast_at. cbn [nth_error bind]. rewrite V. cbn [bind]. rewrite La. unfold tok. cbn [bind]. rewrite Lb. reflexivity.
  - right. split; [reflexivity|]. split; [reflexivity|]. split; [constructor|]. eexists. split; [reflexivity|]. rewrite !map_app. simpl. rewrite V. apply pf_bin; auto.
Qed.
Lemma unary_good : good_trans transformUnaryOp. Proof. unfold transformUnaryOp, ast_at, str_of, as_int, as_asts. const_tac. Qed.
Lemma binary_good : good_trans transformBinaryOp. Proof. unfold transformBinaryOp, operand, ast_at, str_of, as_asts. const_tac. Qed.
Lemma torpn_ok : prod_ok posted never e1 torpn_prod.
Proof.
  apply rules_ok; [exact posted_cls|exact never_spreads|exact unary_ok|intros o _; apply binary_ok|intros o _; apply binary_ok|exact unary_good|exact binary_good|exact binary_good].
Qed.
Lemma torpn_good : good_trans torpn_prod.
Proof. apply rules_good; [exact unary_good|exact binary_good|exact binary_good]. Qed.
Lemma lit_p z : 0 <= z < 2 ^ 63 -> posted (num z) (FLit z).
Proof. intros H. left. split; [reflexivity|]. split; [reflexivity|]. exists z. split; [reflexivity|constructor]. Qed.
Lemma neg_lit_p z : 0 <= z <= 2 ^ 63 -> posted (num (- z)) (FNeg (FLit z)).
Proof. intros H. left. split; [reflexivity|]. split; [reflexivity|]. exists (- z). split; [reflexivity|]. econstructor; [constructor|]. apply wraps_self. unfold int64. lia. Qed.
Lemma posted_answer a f : posted a f -> exists l, rpn_answer a = Ok (inr l) /\ postfix f l.
Proof.
  intros [(C & T & z & Vz & S1)|(C & T & Cf & l & Vl & Pf)]; unfold rpn_answer; rewrite T.
  - rewrite Vz. eexists. split; [reflexivity|]. apply pf_num. auto.
  - rewrite Vl. eexists. split; [reflexivity|]. auto.
Qed.
Lemma e1_text t : e1 <> EText t. Proof. discriminate. Qed.
Lemma e1_num a b c : e1 <> ENum a b c. Proof. discriminate. Qed.

(** ** Parse *)
Definition torpn_answers (s : bytes) (r : parse_error + (gerr + list value)) : Prop := finally (fun n => torpn_Parse n s) (Ok r).
Lemma torpn_postfix s f l : Forall is_byte s -> formula s f -> literals in64 f -> postfix f l -> torpn_answers s (inr (inr l)).
Proof.
  intros Hb F L P.
  destruct (program_complete posted never e1 torpn_prod (f_world torpn_prod s) torpn_ok never_spreads lit_p neg_lit_p e1_num eq_refl s f sp0 eq_refl Hb eq_refl F L)
    as [(cur & a & Pg & D)|(cur & _ & [])].
  destruct (posted_answer a f D) as (m & A & Pm). rewrite (postfix_det f l m P Pm). eapply parse_good; [exact torpn_good|exact Pg|exact A].
Qed.
Lemma torpn_total s : Forall is_byte s ->
  (exists f l, formula s f /\ literals max64 f /\ postfix f l /\ torpn_answers s (inr (inr l))) \/ (exists x lc, torpn_answers s (inl (mkPE x lc)) /\ explains s x lc).
Proof.
  intros Hb.
  destruct (program_total posted never e1 torpn_prod (f_world torpn_prod s) torpn_ok lit_p neg_lit_p e1_text e1_num eq_refl s sp0 eq_refl Hb eq_refl)
    as [(cur & a & f & Pg & F & L & D)|[[Pg Pf]|(cur & e & Pg & Fe)]].
  - left. destruct (posted_answer a f D) as (l & A & Pl). exists f, l. split; auto. split; auto. split; auto. eapply parse_good; [exact torpn_good|exact Pg|exact A].
  - right. destruct (parse_unmatched torpn_prod torpn_good rpn_answer s Pg) as (lc & El & H). exists None, lc. split; [exact H|apply explains_fail; auto].
  - right. destruct (parse_raised torpn_prod torpn_good rpn_answer s cur e Pg) as (lc & El & H). exists (Some e), lc. split; [exact H|]. eapply explains_raised; [exact El|]. apply (proj2 Fe).
    intros ->. destruct (proj1 Fe eq_refl) as (? & ? & ? & ? & _ & _ & []).
Qed.
Lemma torpn_only s r n : Forall is_byte s -> torpn_Parse n s = Ok (inr r) -> exists f l, r = inr l /\ formula s f /\ literals max64 f /\ postfix f l.
Proof.
  intros Hb E. apply parse_stable in E; [|exact torpn_good|discriminate]. change (torpn_answers s (inr r)) in E.
  destruct (torpn_total s Hb) as [(f & l & F & L & P & A)|(x & lc & A & _)]; pose proof (finally_det _ _ _ E A) as K; [|discriminate].
  injection K as ->. exists f, l. auto.
Qed.
Lemma torpn_explains s x lc n : Forall is_byte s -> torpn_Parse n s = Ok (inl (mkPE x lc)) -> explains s x lc.
Proof.
  intros Hb E. apply parse_stable in E; [|exact torpn_good|discriminate]. change (torpn_answers s (inl (mkPE x lc))) in E.
  destruct (torpn_total s Hb) as [(f & l & F & L & P & A)|(x' & lc' & A & Ex)]; pose proof (finally_det _ _ _ E A) as K; [discriminate|].
  inversion K; subst. exact Ex.
Qed.
