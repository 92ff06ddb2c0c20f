(** The production rules of the formula example: how many parser calls they make. *)
From Verif Require Export L_CountRule L_FormulaProd.

Lemma rule_counts n e asts tag p o err : peg_gram e -> run no_rules n e (at_pos tag asts p) = Ok (o, err) ->
  exists r, pegk (ow asts tag nr) e (mkSP p 0) r (cost no_rules n e (at_pos tag asts p)) /\ returns [] o err r.
Proof. intros Hg E. exact (cost_counts no_rules e n (at_pos tag asts p) o err nr_gram Hg eq_refl E). Qed.
Lemma rule_exact n e asts tag p o err r d : peg_gram e -> run no_rules n e (at_pos tag asts p) = Ok (o, err) -> pegk (ow asts tag nr) e (mkSP p 0) r d ->
  cost no_rules n e (at_pos tag asts p) = d /\ returns [] o err r.
Proof.
  intros Hg E P. destruct (rule_counts n e asts tag p o err Hg E) as (r' & P' & R).
  rewrite <- (peg_det (ow asts tag nr) _ _ _ _ nr_gram Hg (pegk_peg _ _ _ _ _ P') (pegk_peg _ _ _ _ _ P)). split; [|exact R].
  exact (proj1 (pegk_det_all (ow asts tag nr) nr_gram) e _ _ _ P' Hg _ _ P).
Qed.
(** ** At most eight calls per rule *)
Lemma token_two w cls fn tr cur r d : pegk w (ETrans (ELight cls fn) tr) cur r d -> d = 2%nat.
Proof.
  intros H. inversion H; subst. match goal with X : weighs _ _ _ _ ?x |- _ => apply weighs_no in X; subst x end.
  match goal with P : L_CountW.pegk _ _ (ELight _ _) _ _ _ |- _ => inversion P; subst end. reflexivity.
Qed.
Lemma leaf_one w cls fn cur r d : pegk w (ELight cls fn) cur r d -> d = 1%nat.
Proof. intros H. inversion H; reflexivity. Qed.
Lemma flat_most w es K cur r d : (forall e, In e es -> forall cur r d, pegk w e cur r d -> (d <= K)%nat) -> pegks w es cur r d -> (d <= K * length es)%nat.
Proof.
  revert cur r d. induction es as [|e es IH]; intros cur r d H P; inversion P; subst; cbn [length]; rewrite ?Nat.mul_succ_r; [lia|..];
    match goal with Q : L_CountW.pegk _ _ e _ _ _ |- _ => pose proof (H e (or_introl eq_refl) _ _ _ Q) as A end; try lia.
  match goal with Q : L_CountW.pegks _ _ es _ _ _ |- _ => pose proof (IH _ _ _ (fun e I => H e (or_intror I)) Q) end. lia.
Qed.
Lemma trans_flat w es t cur r d : pegk w (ETrans (EFlatGroup es) [t]) cur r d -> exists d0 r0, d = S (S d0) /\ pegks w es cur r0 d0 /\
  match r with RSucc cur1 l1 => exists l, r0 = RSucc cur1 l /\ pipeline (fresh w cur) [t] l (inr l1) | RFail => r0 = RFail | _ => True end.
Proof.
  intros H. inversion H; subst. match goal with X : weighs _ _ _ _ ?x |- _ => apply weighs_no in X; subst x end.
  match goal with P : L_CountW.pegk _ _ (EFlatGroup _) _ _ _ |- _ => inversion P; subst end.
  match goal with P : L_CountW.pegks _ _ es _ _ ?d, T : through _ _ ?r0 _ |- _ => exists d, r0; split; [lia|split; [exact P|]]; inversion T; subst; eauto end.
Qed.
Lemma one_pipe c t l l1 : to_one t -> pipeline c [t] l (inr l1) -> length l1 = 1%nat.
Proof.
  intros H P. inversion P; subst. match goal with Q : pipeline _ [] _ _ |- _ => inversion Q; subst end. eapply H; eauto.
Qed.
(** A token takes one item. *)
Lemma any_step w cur cur1 l : peg w anyOperand cur (RSucc cur1 l) -> sp_pos cur1 = S (sp_pos cur).
Proof.
  intros H. inversion H; subst. match goal with P : peg _ _ _ _ |- _ => inversion P; subst end. unfold lift, obj_any_fn, with_slice in *. cbv zeta in *.
  match goal with E : match ?x with _ => _ end = _ |- _ => destruct x; [|discriminate] end.
  match goal with E : match ?x with _ => _ end = _ |- _ => destruct x end;
  match goal with E : Ok _ = Ok _ |- _ => injection E as <- <- end; cbn in *; [|discriminate].
  match goal with E : RSucc _ _ = RSucc _ _ |- _ => injection E as <- <- end. cbn. unfold c_pos. cbn. lia.
Qed.
Lemma op_step w cls ops cur cur1 l : peg w (isOperator cls ops) cur (RSucc cur1 l) -> sp_pos cur1 = S (sp_pos cur).
Proof.
  intros H. inversion H; subst. match goal with P : peg _ _ _ _ |- _ => inversion P; subst end. unfold lift, op_class_fn, obj_classFn_fn, with_slice in *. cbv zeta in *.
  cbn [c_slice fresh set_st] in *.
  destruct (w_slice w) as [sl|]; [|discriminate]. 
  repeat match goal with E : match ?x with _ => _ end = Ok _ |- _ => destruct x; try discriminate end;
  match goal with E : Ok _ = Ok _ |- _ => injection E as <- <- end; cbn in *; try discriminate;
  match goal with E : RSucc _ _ = RSucc _ _ |- _ => injection E as <- <- end; cbn; unfold c_pos; cbn; lia.
Qed.
Section Rules.
Variables (negT mulT addT : trans).
Hypothesis neg_good : good_trans negT.
Hypothesis mul_good : good_trans mulT.
Hypothesis add_good : good_trans addT.
Hypothesis neg_one : to_one negT.
Hypothesis mul_one : to_one mulT.
Hypothesis add_one : to_one addT.
Lemma rule_two w e cur r d : e = anyOperand \/ (exists cls ops, e = isOperator cls ops) -> pegk w e cur r d -> d = 2%nat.
Proof. intros [->|(cls & ops & ->)]; apply token_two. Qed.
Lemma unary_calls tag : rule_calls no_rules tag 8 (unary_rule negT).
Proof.
  intros n asts p o err _ E. destruct (rule_counts n _ asts tag p o err (un_gram negT neg_good) E) as (r & P & _).
  apply trans_flat in P. destruct P as (d0 & r0 & -> & P & _). apply (flat_most _ _ 2) in P; [cbn in P; lia|].
  intros e I cur r1 d Q. apply (rule_two _ e) in Q; [lia|]. cbn in I. destruct I as [<-|[<-|[]]]; eauto.
Qed.
Lemma binary_calls ops t tag : good_trans t -> rule_calls no_rules tag 8 (binary_rule ops t).
Proof.
  intros Hg n asts p o err _ E. destruct (rule_counts n _ asts tag p o err (bin_gram ops t Hg) E) as (r & P & _).
  apply trans_flat in P. destruct P as (d0 & r0 & -> & P & _). apply (flat_most _ _ 2) in P; [cbn in P; lia|].
  intros e I cur r1 d Q. apply (rule_two _ e) in Q; [lia|]. cbn in I. destruct I as [<-|[<-|[<-|[]]]]; eauto.
Qed.
Lemma check_calls tag : rule_calls no_rules tag 8 prod_check.
Proof.
  intros n asts p o err _ E. destruct (rule_counts n _ asts tag p o err check_gram E) as (r & P & _).
  inversion P as [|? ? ? d Q| | | | | | | | |]; subst. apply (flat_most _ _ 1) in Q; [cbn in Q; lia|].
  intros e I cur r1 d1 R. cbn in I. destruct I as [<-|[<-|[<-|[]]]]; apply leaf_one in R; lia.
Qed.
Lemma unary_short tag : shortens no_rules tag (unary_rule negT).
Proof.
  intros n asts p o _ E Hst. destruct (rule_counts n _ asts tag p o None (un_gram negT neg_good) E) as (r & P & R).
  apply trans_flat in P. destruct P as (d0 & r0 & _ & P & H). apply pegks_pegs in P. destruct r as [cur1 l1| |cur1 x]; cbn [returns] in R; [|destruct R; congruence|destruct R; discriminate].
  destruct H as (l & -> & H). destruct R as (_ & _ & <- & ->). cbn [app]. apply (one_pipe _ _ _ _ neg_one) in H. rewrite H.
  inversion P as [|? ? ? ? ? ? ? A B| | | |]; subst. inversion B as [|? ? ? ? ? ? ? A' B'| | | |]; subst. inversion B'; subst.
  apply op_step in A. apply any_step in A'. cbn [sp_pos] in A. unfold c_pos. lia.
Qed.
Lemma binary_short ops t tag : good_trans t -> to_one t -> shortens no_rules tag (binary_rule ops t).
Proof.
  intros Hg H1 n asts p o _ E Hst. destruct (rule_counts n _ asts tag p o None (bin_gram ops t Hg) E) as (r & P & R).
  apply trans_flat in P. destruct P as (d0 & r0 & _ & P & H). apply pegks_pegs in P. destruct r as [cur1 l1| |cur1 x]; cbn [returns] in R; [|destruct R; congruence|destruct R; discriminate].
  destruct H as (l & -> & H). destruct R as (_ & _ & <- & ->). cbn [app]. apply (one_pipe _ _ _ _ H1) in H. rewrite H.
  inversion P as [|? ? ? ? ? ? ? A B| | | |]; subst. inversion B as [|? ? ? ? ? ? ? A' B'| | | |]; subst. inversion B' as [|? ? ? ? ? ? ? A2 B2| | | |]; subst. inversion B2; subst.
  apply any_step in A, A2. apply op_step in A'. cbn [sp_pos] in A. unfold c_pos. lia.
Qed.
Notation tbl := (formula_table negT mulT addT).
Lemma table_calls tag e : e = prod_check \/ In e (flat_map fst tbl) -> rule_calls no_rules tag 8 e.
Proof.
  intros [->|[<-|[<-|[<-|[]]]]]; [apply check_calls|apply unary_calls|apply binary_calls; auto..].
Qed.
Lemma table_shorter tag e : In e (flat_map fst tbl) -> shortens no_rules tag e.
Proof. intros [<-|[<-|[<-|[]]]]; [apply unary_short|apply binary_short; auto..]. Qed.
Lemma table_is : table_prod no_rules tbl prod_check = formulaProductionRules negT mulT addT.
Proof. reflexivity. Qed.
(** Eight calls for each of three rules at each position, and the check. *)
Lemma table_most n c k l a : snd (k_rules negT mulT addT n c k l) = Ok a ->
  (fst (k_rules negT mulT addT n c k l) <= k + (length l + 1) * (12 * length l + 32))%nat.
Proof.
  intros E. pose proof (production_most no_rules prod_check (c_tag c) 8 tbl (table_calls (c_tag c)) (table_shorter (c_tag c)) n n k l (ex_intro _ a E)) as H. cbv zeta in H.
  pose proof (rounds_closed 8 tbl (length l)) as C. change (width tbl) with 3%nat in C. unfold k_rules, kprod, w_ProductionRule.
  etransitivity; [exact H|]. clear -C. nia.
Qed.
(** What passes the check is one item. *)
Lemma check_one n asts tag o : run no_rules n prod_check (new_object_ctx (ast_slice asts) tag) = Ok (o, None) -> c_st o = Matched -> length asts = 1%nat.
Proof.
  intros E Hst. assert (X : forall o', run no_rules n prod_check (new_object_ctx (ast_slice asts) tag) = Ok (o', None) -> c_st o' = Matched -> ~ rejected tag (fun n => run no_rules n prod_check) asts).
  { intros o' E' Hst' (o1 & err1 & (m & E1) & R).
    assert (D : Ok (o', None) = Ok (o1, err1)).
    { rewrite <- E', <- E1. apply run_det; [intros k; apply peg_gram_mono, nr_gram|apply peg_gram_mono, check_gram|rewrite E'; discriminate|rewrite E1; discriminate]. }
    injection D as -> <-. destruct R; congruence. }
  destruct asts as [|a [|b l]]; [|reflexivity|exfalso; eapply X; eauto; apply check_no].
  exfalso. eapply X; eauto. assert (P : peg (ow [] tag nr) prod_check sp0 RFail).
  { constructor. eapply seq_fail_later; [exact (peg_leaf (ow [] tag nr) ":base:Start" (lift start_fn) 0 sp0 _ _ eq_refl)|].
    apply seq_fail. exact (peg_leaf (ow [] tag nr) ":object:Any" (lift obj_any_fn) 0 (mkSP 0 0) _ _ eq_refl). }
  destruct (rule_peg no_rules prod_check _ tag 0 _ nr_gram check_gram P) as (o' & err & G & -> & R). exists o', None. split; auto. right. congruence.
Qed.
Lemma loop_one n tag prs : forall j l l1, production_loop n j prs (fun m => run no_rules m prod_check) tag l = Ok (inr l1) -> length l1 = 1%nat.
Proof.
  induction j as [|j IH]; intros l l1 E; cbn [production_loop] in E; [discriminate|]. cbv zeta in E.
  assert (G : forall a next, (next = Ok (inr l1) -> length l1 = 1%nat) ->
    match run no_rules n prod_check (new_object_ctx (ast_slice a) tag) with
    | Ok (o, None) => match c_st o with Matched => tok a | _ => next end
    | Ok (o, Some _) => next | Panic w => Panic w | Fuel => Fuel end = Ok (inr l1) -> length l1 = 1%nat).
  { intros a next Hn. destruct (run no_rules n prod_check (new_object_ctx (ast_slice a) tag)) as [[o [x|]]|x|] eqn:R; auto; try discriminate.
    destruct (c_st o) eqn:S1; auto. intros T. injection T as <-. eapply check_one; eauto. }
  destruct (try_precedences n prs tag l) as [x|x| |a|]; try discriminate.
  - eapply G; [|exact E]. apply IH.
  - eapply G; [|exact E]. discriminate.
Qed.
Lemma prod_one c l l1 : pipeline c [formulaProductionRules negT mulT addT] l (inr l1) -> length l1 = 1%nat.
Proof. apply one_pipe. intros n c0 l0 l2 E. eapply loop_one. exact E. Qed.

(** ** Sums: exactly so many calls *)
Lemma token_lift w cls fn tr cur r : peg w (ETrans (ELight cls fn) tr) cur r -> pegk w (ETrans (ELight cls fn) tr) cur r 2.
Proof.
  intros H. inversion H; subst; (eapply pk_trans; [apply leaf_counts; eassumption|econstructor; eassumption]).
Qed.
Lemma kseq1 w e es cur d : pegk w e cur RFail d -> pegks w (e :: es) cur RFail d.
Proof. apply sk_fail. Qed.
Lemma kseq2 w e es cur cur1 l d d2 : pegk w e cur (RSucc cur1 l) d -> pegks w es cur1 RFail d2 -> pegks w (e :: es) cur RFail (d + d2).
Proof. intros A B. exact (sk_ok w e es cur cur1 l d RFail d2 A B). Qed.
Lemma kseq3 w e es cur cur1 cur2 l l2 d d2 : pegk w e cur (RSucc cur1 l) d -> pegks w es cur1 (RSucc cur2 l2) d2 -> pegks w (e :: es) cur (RSucc cur2 (l ++ l2)) (d + d2).
Proof. intros A B. exact (sk_ok w e es cur cur1 l d (RSucc cur2 l2) d2 A B). Qed.
Definition plain_item (a : ast) : Prop := is_number a \/ is_plus a.
Lemma additions_items k l : additions k l -> Forall plain_item l.
Proof. unfold plain_item. induction 1; constructor; auto. Qed.
Lemma additions_length k l : additions k l -> length l = (2 * k + 1)%nat.
Proof. induction 1; cbn [length]; lia. Qed.
Lemma nth_item k l p a : additions k l -> nth_error l p = Some a -> plain_item a.
Proof. intros H E. apply additions_items in H. apply nth_error_In in E. eapply Forall_forall in H; eauto. Qed.
Lemma no_minus a : plain_item a -> makeOpMatcher "UnaryOperator" [bs "-"] (VAst a) = Some false.
Proof. intros [[E _]|[E _]]; cbn [makeOpMatcher]; rewrite E; reflexivity. Qed.
Lemma no_times a : plain_item a -> makeOpMatcher "BinaryOperator" [bs "*"; bs "/"] (VAst a) = Some false.
Proof. intros [[E _]|[E V]]; cbn [makeOpMatcher]; rewrite E; [reflexivity|]. rewrite V. reflexivity. Qed.
Lemma yes_plus a : is_plus a -> makeOpMatcher "BinaryOperator" [bs "+"; bs "-"] (VAst a) = Some true.
Proof. intros [E V]; cbn [makeOpMatcher]; rewrite E, V. reflexivity. Qed.
Lemma unary_miss k l tag p : additions k l -> pegk (ow l tag nr) (unary_rule negT) (mkSP p 0) RFail 4.
Proof.
  intros H. apply (pk_trans _ _ _ _ RFail _ 3); [|constructor]. apply pk_flat. apply kseq1. apply token_lift.
  pose proof (op_peg "UnaryOperator" [bs "-"] l tag (mkSP p 0) false) as P. cbn [sp_pos] in P.
  destruct (nth_error l p) as [a|] eqn:E; apply P; intros a' E'; inversion E'; subst. apply no_minus. eapply nth_item; eauto.
Qed.
Definition times_calls (l : list ast) (p : nat) : nat := if (p <? length l)%nat then 6 else 4.
Lemma times_miss k l tag p : additions k l -> pegk (ow l tag nr) (binary_rule [bs "*"; bs "/"] mulT) (mkSP p 0) RFail (times_calls l p).
Proof.
  intros H. unfold times_calls. pose proof (any_peg l tag (mkSP p 0)) as A. cbn [sp_pos] in A.
  destruct (Nat.ltb_spec p (length l)) as [L|L].
  - destruct (nth_error l p) as [a|] eqn:E; [|apply nth_error_None in E; lia].
    apply (pk_trans _ _ _ _ RFail _ 5); [|constructor]. apply pk_flat. apply (kseq2 _ _ _ _ (mkSP (p + 1) 1) [a] 2 2); [apply token_lift; exact A|]. apply kseq1. apply token_lift.
    pose proof (op_peg "BinaryOperator" [bs "*"; bs "/"] l tag (mkSP (p + 1) 1) false) as P. cbn [sp_pos] in P.
    destruct (nth_error l (p + 1)) as [b|] eqn:E2; apply P; intros a' E'; inversion E'; subst. apply no_times. eapply nth_item; eauto.
  - rewrite (proj2 (nth_error_None l p) L) in A. apply (pk_trans _ _ _ _ RFail _ 3); [|constructor]. apply pk_flat. apply kseq1. apply token_lift. exact A.
Qed.
Hypothesis add_sum : forall n c a s b, is_number a -> is_plus s -> is_number b -> exists a', addT n c [a; s; b] = tok [a'] /\ is_number a'.
Lemma plus_hit k a s b l tag : additions (S k) (a :: s :: b :: l) -> exists a' len, is_number a' /\
  pegk (ow (a :: s :: b :: l) tag nr) (binary_rule [bs "+"; bs "-"] addT) (mkSP 0 0) (RSucc (mkSP 3 len) [a']) 8.
Proof.
  intros H. inversion H as [|? ? ? ? Ha Hs Hl]; subst. assert (Hb : is_number b) by (inversion Hl; assumption).
  set (w := ow (a :: s :: b :: l) tag nr).
  destruct (add_sum 0%nat (fresh w (mkSP 0 0)) a s b Ha Hs Hb) as (a' & E & Na'). exists a', 1%nat. split; auto.
  apply (pk_trans _ _ _ _ (RSucc (mkSP 3 1) ([a] ++ [s] ++ [b] ++ [])) _ 7).
  - apply pk_flat. apply (kseq3 _ _ _ _ (mkSP 1 1) _ _ _ 2 4); [apply token_lift; exact (any_peg (a :: s :: b :: l) tag (mkSP 0 0))|].
    apply (kseq3 _ _ _ _ (mkSP 2 1) _ _ _ 2 2); [apply token_lift; refine (op_peg "BinaryOperator" [bs "+"; bs "-"] (a :: s :: b :: l) tag (mkSP 1 1) true _)|].
    + intros x X. injection X as <-. apply yes_plus. exact Hs.
    + apply (kseq3 _ _ _ _ (mkSP 3 1) _ _ _ 2 0); [apply token_lift; exact (any_peg (a :: s :: b :: l) tag (mkSP 2 1))|constructor].
  - constructor. eapply (pl_ok _ 0%nat); [exact E|constructor].
Qed.
Lemma check_four a l tag : pegk (ow (a :: l) tag nr) prod_check (mkSP 0 0) (match l with [] => RSucc (mkSP 1 0) [mkAst 0 ":object:Any" TAny (VAst a) (mkSP 0 0)] | _ => RFail end) 4.
Proof.
  set (w := ow (a :: l) tag nr).
  assert (A : pegk w EStart (mkSP 0 0) (RSucc (mkSP 0 0) []) 1) by (apply leaf_counts; exact (peg_leaf w ":base:Start" (lift start_fn) 0 sp0 _ _ eq_refl)).
  assert (B : pegk w OAny (mkSP 0 0) (RSucc (mkSP 1 1) [mkAst 0 ":object:Any" TAny (VAst a) (mkSP 0 0)]) 1)
    by (apply leaf_counts; exact (peg_leaf w ":object:Any" (lift obj_any_fn) 0 (mkSP 0 0) _ _ eq_refl)).
  pose proof (leaf_counts _ _ _ _ _ (oend_peg nr (a :: l) tag (mkSP 1 1) nr_gram)) as C. cbn [sp_pos length] in C.
  apply pk_flat. destruct l as [|b l].
  - apply (kseq3 _ _ _ _ _ _ _ _ 1 2 A). apply (kseq3 _ _ _ _ _ _ _ _ 1 1 B). apply (kseq3 _ _ _ _ _ _ _ _ 1 0 C). constructor.
  - apply (kseq2 _ _ _ _ _ _ 1 2 A). apply (kseq2 _ _ _ _ _ _ 1 1 B). apply kseq1. exact C.
Qed.
(** A level without a match: all its positions. *)
Fixpoint scan_sum (f : nat -> nat) (b : bool) (m i j : nat) : nat :=
  match j with O => O | S j' => f (if b then m - i else i) + scan_sum f b m (S i) j' end%nat.
Lemma positions_exact n e b l tag f : peg_gram e -> (forall p, (p <= length l)%nat -> pegk (ow l tag nr) e (mkSP p 0) RFail (f p)) ->
  forall j i k, (i + j <= S (length l))%nat ->
  let r := w_try_positions n (mkWPrec [fun m => krun no_rules m e] b) (new_object_ctx (ast_slice l) tag) k l i j in
  scan_ok (snd r) -> r = ((k + scan_sum f b (length l) i j)%nat, SNone).
Proof.
  intros Hg Hf. induction j as [|j IH]; intros i k Hj; cbn [w_try_positions wpr_rules wpr_rtol w_try_rules scan_sum]; cbv zeta; [rewrite Nat.add_0_r; reflexivity|].
  set (p := if b then (length l - i)%nat else i). assert (Hp : (p <= length l)%nat) by (subst p; destruct b; lia).
  change (set_pos (new_object_ctx (ast_slice l) tag) p) with (at_pos tag l p). rewrite krun_at.
  destruct (run no_rules n e (at_pos tag l p)) as [[o err]|x|] eqn:E; cbn [snd scan_ok]; try tauto.
  destruct (rule_exact n e l tag p o err _ _ Hg E (Hf p Hp)) as [-> [-> Hst]]. rewrite Hst. intros B.
  specialize (IH (S i) (k + f p)%nat ltac:(lia)). cbv zeta in IH. rewrite (IH B). f_equal. lia.
Qed.
Lemma scan_const x b m : forall j i, scan_sum (fun _ => x) b m i j = (j * x)%nat.
Proof. induction j as [|j IH]; intros i; cbn [scan_sum]; [reflexivity|]. rewrite IH. reflexivity. Qed.
Lemma scan_times l : forall j i, (i + j = S (length l))%nat -> (1 <= j)%nat -> scan_sum (times_calls l) false (length l) i j = (6 * j - 2)%nat.
Proof.
  induction j as [|j IH]; intros i Hj L; [lia|]. cbn [scan_sum]. destruct j as [|j].
  - cbn [scan_sum]. unfold times_calls. destruct (Nat.ltb_spec i (length l)); lia.
  - rewrite (IH (S i)) by lia. unfold times_calls. destruct (Nat.ltb_spec i (length l)); lia.
Qed.
Lemma additions_cost n tag : forall j k l i a, additions (S k) l ->
  let r := w_production n j (w_table no_rules tbl) (fun m => krun no_rules m prod_check) tag i l in
  snd r = Ok a -> fst r = (i + 10 * (S k * S k) + 40 * S k)%nat.
Proof.
  induction j as [|j IH]; intros k l i a H; cbn [w_production]; cbv zeta; [discriminate|].
  pose proof (additions_length _ _ H) as Hl.
  assert (Hl' : exists a s b t, l = a :: s :: b :: t /\ is_number a).
  { inversion H as [|? x s t Hx Hs Ht]; subst. destruct t; [inversion Ht|]. eauto 8. }
  destruct Hl' as (x & s & b & t & -> & Hx). set (l := x :: s :: b :: t) in *.
  unfold w_table, formula_table. cbn [map fst snd w_try_precedences]. cbv zeta.
  pose proof (positions_exact n (unary_rule negT) true l tag (fun _ => 4%nat) (un_gram negT neg_good) (fun p _ => unary_miss _ l tag p H) (S (length l)) 0%nat i (Nat.le_refl _)) as P1. cbv zeta in P1.
  destruct (w_try_positions n _ _ i l 0 _) as [i1 r1]. cbn [snd] in P1.
  destruct r1 as [e|e| |e|]; cbn [scan_ok snd] in *; try (specialize (P1 I); discriminate P1); try discriminate.
  specialize (P1 I). apply (f_equal fst) in P1. cbn [fst] in P1. subst i1. rewrite scan_const.
  pose proof (positions_exact n (binary_rule [bs "*"; bs "/"] mulT) false l tag (times_calls l) (bin_gram _ mulT mul_good) (fun p _ => times_miss _ l tag p H) (S (length l)) 0%nat (i + S (length l) * 4)%nat (Nat.le_refl _)) as P2. cbv zeta in P2.
  destruct (w_try_positions n _ _ (i + S (length l) * 4)%nat l 0 _) as [i2 r2]. cbn [snd] in P2.
  destruct r2 as [e|e| |e|]; cbn [scan_ok snd] in *; try (specialize (P2 I); discriminate P2); try discriminate.
  specialize (P2 I). apply (f_equal fst) in P2. cbn [fst] in P2. subst i2. rewrite scan_times by lia.
  destruct (plus_hit k x s b t tag H) as (a' & len & Na' & P3). cbn [w_try_positions wpr_rules wpr_rtol w_try_rules]. cbv zeta.
  change (set_pos (new_object_ctx (ast_slice l) tag) 0) with (at_pos tag l 0). rewrite krun_at.
  destruct (run no_rules n (binary_rule [bs "+"; bs "-"] addT) (at_pos tag l 0)) as [[o err]|e|] eqn:E3; try discriminate.
  destruct (rule_exact n _ l tag 0%nat o err _ _ (bin_gram _ addT add_good) E3 P3) as [-> (-> & Hst & Hsp & Hsk)]. rewrite Hst.
  assert (Hp3 : c_pos o = 3%nat) by (unfold c_pos; rewrite Hsp; reflexivity). rewrite Hp3, Hsk.
  change ((0 <=? length l)%nat && (3 <=? length l)%nat) with true. cbn [fst snd firstn app skipn l].
  assert (Hn : additions k (a' :: t)).
  { inversion H as [|? ? ? ? _ _ Ht]; subst. inversion Ht; subst; constructor; auto. }
  rewrite krun_at. destruct (run no_rules n prod_check (new_object_ctx (ast_slice (a' :: t)) tag)) as [[o1 err]|e|] eqn:E4; try discriminate.
  destruct (rule_exact n prod_check (a' :: t) tag 0%nat o1 err _ _ check_gram E4 (check_four a' t tag)) as [C4 R4].
  change (at_pos tag (a' :: t) 0) with (new_object_ctx (ast_slice (a' :: t)) tag) in C4. rewrite C4.
  destruct k as [|k].
  - inversion Hn; subst. destruct R4 as (-> & -> & _). cbn [fst snd length l] in *. intros _. lia.
  - assert (Ht : exists u v, t = u :: v) by (inversion Hn; eauto). destruct Ht as (u & v & ->). destruct R4 as (-> & ->). intros B.
    specialize (IH k (a' :: u :: v) _ _ Hn B). cbv zeta in IH. etransitivity; [exact IH|]. clear -Hl. revert Hl. generalize (length l). intros m ->. lia.
Qed.
Lemma additions_step tag k l : additions (S k) l -> exists a' t, is_number a' /\ additions k (a' :: t) /\ rewrites tag (precedences negT mulT addT) l (a' :: t).
Proof.
  intros H.
  assert (Hl' : exists a s b t, l = a :: s :: b :: t) by (inversion H as [|? x s t Hx Hs Ht]; subst; destruct t; [inversion Ht|]; eauto 8).
  destruct Hl' as (x & s & b & t & ->). destruct (plus_hit _ x s b t tag H) as (a' & len & Na' & P3). exists a', t. split; [exact Na'|]. split.
  - inversion H as [|? ? ? ? _ _ Ht]; subst. inversion Ht; subst; constructor; auto.
  - exists [level (unary_rule negT) true; level (binary_rule [bs "*"; bs "/"] mulT) false], (level (binary_rule [bs "+"; bs "-"] addT) false), [], 0%nat, [], (fun n => run no_rules n (binary_rule [bs "+"; bs "-"] addT)), [].
    split; [reflexivity|]. split; [|split; [lia|split; [unfold scanned_before; cbn; lia|split; [reflexivity|split; [constructor|]]]]].
    + apply Forall_cons; [|apply Forall_cons; [|apply Forall_nil]]; intros i Hi; apply Forall_cons; try apply Forall_nil.
      * apply miss_of; [apply un_gram; auto|]. eapply pegk_peg. eapply unary_miss. eauto.
      * apply miss_of; [apply bin_gram; auto|]. eapply pegk_peg. eapply times_miss. eauto.
    + exact (hit_of tag (x :: s :: b :: t) 0 _ 3 a' (bin_gram _ addT add_good) ltac:(cbn; lia) (ex_intro _ len (pegk_peg _ _ _ _ _ P3))).
Qed.
Lemma additions_reduce tag : forall k l, additions (S k) l -> exists a, is_number a /\
  reduces tag (precedences negT mulT addT) (fun n => run no_rules n prod_check) l (inr [a]).
Proof.
  induction k as [|k IH]; intros l H; destruct (additions_step tag _ l H) as (a' & t & Na' & Hn & R).
  - inversion Hn; subst. exists a'. split; [exact Na'|]. eapply red_accept; [exact R|]. apply check_yes.
  - destruct (IH _ Hn) as (a & Ha & Hr). exists a. split; [exact Ha|]. eapply red_again; [exact R| |exact Hr].
    assert (Ht : exists u v, t = u :: v) by (inversion Hn; eauto). destruct Ht as (u & v & ->). apply check_no.
Qed.
Lemma sum_calls k l c : additions (S k) l -> exists n0 a, is_number a /\ forall n, (n0 <= n)%nat ->
  table_prod no_rules tbl prod_check n c l = Ok (inr [a]) /\ prod_cost no_rules tbl prod_check n c l = (10 * (S k * S k) + 40 * S k)%nat.
Proof.
  intros H. destruct (additions_reduce (c_tag c) k l H) as (a & Ha & R).
  apply (production_complete _ _ (c_tag c) (prs_mono negT mulT addT neg_good mul_good add_good) check_mono) in R. destruct R as (n0 & V). exists n0, a. split; [exact Ha|].
  intros n Hn. specialize (V n n Hn Hn). split; [exact V|].
  pose proof (additions_cost n (c_tag c) n k l 0%nat (inr [a]) H) as C. cbv zeta in C. apply C.
  pose proof (kprod_same no_rules prod_check tbl n c 0%nat l) as E. etransitivity; [exact E|exact V].
Qed.
End Rules.
