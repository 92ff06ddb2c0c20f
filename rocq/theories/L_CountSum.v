(** The transformers of the formula examples return one AST; sums in the formula example. *)
From Verif Require Export L_CountUnits L_Formula L_Torpn M_Torpn.

Ltac one_tac := repeat match goal with
  | |- (match ?x with _ => _ end) = Ok (inr _) -> _ => destruct x; try discriminate
  | |- Ok (inr _) = Ok (inr _) -> _ => let E := fresh in intros E; injection E as <-; reflexivity
  end.
Lemma negate_one : to_one negate.
Proof. intros n c l l1. unfold negate, str_of, int_of, bind, tok. one_tac. Qed.
Lemma mulDiv_one : to_one (mulDiv div_panic).
Proof. intros n c l l1. unfold mulDiv, div_panic, str_of, int_of, bind, tok. one_tac. Qed.
Lemma addSub_one : to_one addSub.
Proof. intros n c l l1. unfold addSub, str_of, int_of, bind, tok. one_tac. Qed.
Lemma rpn_unary_one : to_one transformUnaryOp.
Proof. intros n c l l1. unfold transformUnaryOp, ast_at, str_of, as_int, as_asts, terr, bind, tok. one_tac. Qed.
Lemma rpn_binary_one : to_one transformBinaryOp.
Proof. intros n c l l1. unfold transformBinaryOp, operand, ast_at, str_of, as_asts, terr, bind, tok. one_tac. Qed.
Lemma addSub_sum n c a s b : is_number a -> is_plus s -> is_number b -> exists a', addSub n c [a; s; b] = tok [a'] /\ is_number a'.
Proof.
  intros [_ (x & Vx)] [_ V] [_ (y & Vy)]. unfold addSub, str_of, int_of. cbn. rewrite V, Vx, Vy. cbn. eexists. split; [reflexivity|]. split; [reflexivity|]. eexists. reflexivity.
Qed.

(** ** Sums as text *)
Lemma plus_ones_solid k : solid (plus_ones k).
Proof. destruct k; [apply solid_nil|]. apply solid_head. cbn. lia. Qed.
Lemma one_yes w cur k : at_rest w cur (sum_text k) -> exists cur', peg w number cur (RSucc cur' [num 1]) /\ at_rest w cur' (plus_ones k).
Proof.

  intros A. assert (T : numberT (sum_text k) [49] [] (plus_ones k)).
  { split; [reflexivity|]. split; [exists [], [49]; split; [reflexivity|]; split; [left; reflexivity|right; exists 49, []; repeat split; [lia|lia|constructor]]|]. split; [constructor|]. split; [apply plus_ones_solid|]. destruct k; reflexivity. }
  destruct (number_total w cur _ A) as [[_ N]|(wd & b & v & z & T' & Z' & H)]; [destruct (N _ _ _ T)|].
  destruct (numberT_func _ _ _ _ _ _ _ T T') as (<- & <- & <-).
  assert (z = 1) by (apply (int_numeral_func (strip [49]) z 1 Z'); left; split; [discriminate|]; exists [1]; split; [apply Forall2_cons; [apply (d_num 10 1); lia|apply Forall2_nil]|reflexivity]). subst z.
  destruct H as [[_ H]|[N _]]; [exact H|]. exfalso. apply N. unfold int64. lia.
Qed.
Lemma plus_yes w cur k : at_rest w cur (plus_ones (S k)) -> exists cur' a, peg w binaryOperator cur (RSucc cur' [a]) /\ is_plus a /\ at_rest w cur' (sum_text k).
Proof.
  intros A. destruct (bin_yes w cur OAdd [] (sum_text k)) as (cur' & a & P & A' & C & V); [constructor|apply solid_head; cbn; lia|exact A|].
  exists cur', a. split; [exact P|]. split; [split; assumption|exact A'].
Qed.
Lemma ones_rounds w k : forall i cur, at_rest w cur (plus_ones k) -> exists cur' l j, pegr w qtyZeroOrMoreTimes [binaryOperator; number] i cur (inr (cur', l, j)) /\
  (forall a, is_number a -> additions k (a :: l)) /\ at_rest w cur' [].
Proof.
  induction k as [|k IH]; intros i cur A.
  - exists cur, [], i. split; [|split; [intros a Ha; constructor; exact Ha|exact A]]. apply rep_stop; [left; reflexivity|]. apply seq_fail. eapply bin_no; [|exact A]. intros (o & t & E). discriminate.
  - destruct (plus_yes w cur k A) as (c1 & a & P1 & Ha & A1). destruct (one_yes w c1 k A1) as (c2 & P2 & A2). destruct (IH (S i) c2 A2) as (c3 & l & j & R & D & A3).
    exists c3, ([a] ++ [num 1] ++ [] ++ l), j. split; [|split; [|exact A3]].
    + replace ([a] ++ [num 1] ++ [] ++ l) with (([a] ++ [num 1] ++ []) ++ l) by reflexivity. eapply rep_more; [left; reflexivity| |exact R].
      eapply S_Peg.seq_ok; [exact P1|]. eapply S_Peg.seq_ok; [exact P2|constructor].
    + intros b Hb. cbn. constructor; auto. apply D. split; [reflexivity|]. eexists. reflexivity.
Qed.
Lemma sum_inner w cur k : at_rest w cur (sum_text k) -> exists cur' l, peg w expressionInner cur (RSucc cur' l) /\ additions k l /\ at_rest w cur' [].
Proof.
  intros A. destruct (one_yes w cur k A) as (c1 & P1 & A1). destruct (ones_rounds w k 0%nat c1 A1) as (c2 & l & j & R & D & A2).
  exists c2, ([] ++ ([num 1] ++ l ++ []) ++ [] ++ []). split; [|split; [|exact A2]].
  - constructor. eapply S_Peg.seq_ok; [|eapply S_Peg.seq_ok; [|eapply S_Peg.seq_ok; [|constructor]]].
    + eapply peg_rep_ok with (k := 0%nat); [|cbn; lia]. apply rep_stop; [left; reflexivity|]. apply seq_fail. eapply un_no; [|exact A]. intros (t & E). discriminate.
    + constructor. apply ch_ok. constructor. eapply S_Peg.seq_ok; [exact P1|]. eapply S_Peg.seq_ok; [|constructor]. eapply peg_rep_ok; [exact R|]. cbn. lia.
    + eapply peg_rep_ok with (k := 0%nat); [|cbn; lia]. apply rep_stop; [left; reflexivity|]. apply seq_fail. eapply bin_no; [|exact A2]. intros (o & t & E). discriminate.
  - cbn. rewrite !app_nil_r. apply D. split; [reflexivity|]. eexists. reflexivity.
Qed.

Lemma plus_ones_bytes k : Forall is_byte (plus_ones k).
Proof. induction k; cbn [plus_ones]; repeat (constructor; [unfold is_byte; lia|]); auto. Qed.

(** ** What the parser counts on sums *)
Section Sum.
Variables (negT mulT addT : trans).
Hypothesis neg_good : good_trans negT.
Hypothesis mul_good : good_trans mulT.
Hypothesis add_good : good_trans addT.
Hypothesis add_sum : forall n c a s b, is_number a -> is_plus s -> is_number b -> exists a', addT n c [a; s; b] = tok [a'] /\ is_number a'.
Notation prod := (formulaProductionRules negT mulT addT).
Notation kp := (k_rules negT mulT addT).
Notation tbl := (formula_table negT mulT addT).
(** Exactly what the production rules count *)
Definition exactly (tr : list trans) (c : ctx) (l : list ast) (x : nat) : Prop :=
  (allP (fun t => t <> prod) tr /\ x = 0%nat) \/
  (tr = [prod] /\ exists c' n a, table_prod no_rules tbl prod_check n c' l = Ok a /\ x = prod_cost no_rules tbl prod_check n c' l).
Lemma exactly_kp fuel c c0 : tr_counts c fuel (fun l y => exactly [prod] c0 l y) (Some [prod]) (Some [kp]).
Proof.
  intros k l. cbn [w_run_trans run_trans]. cbv zeta. pose proof (kp_same negT mulT addT fuel c k l) as E.
  pose proof (kprod_at no_rules prod_check tbl fuel c k l) as A.
  unfold k_rules in *. rewrite A in *. cbn [fst snd] in *. rewrite <- E in *.
  destruct (table_prod no_rules tbl prod_check fuel c l) as [[x|l1]|x|] eqn:T; cbn [fst snd]; split; auto;
    (eexists; split; [|reflexivity]; right; split; [reflexivity|]; exists c, fuel; eexists; split; [exact T|reflexivity]).
Qed.
Lemma pegks_step wt0 w e es cur r d cur1 l : peg_env w -> peg_gram e -> peg w e cur (RSucc cur1 l) -> L_CountW.pegks wt0 w (e :: es) cur r d ->
  exists d1 d2 r2, L_CountW.pegk wt0 w e cur (RSucc cur1 l) d1 /\ L_CountW.pegks wt0 w es cur1 r2 d2 /\ d = (d1 + d2)%nat.
Proof.
  intros He Hg P Q. inversion Q as [|? ? ? c1 l1 d1 r2 d2 Q1 Q2|? ? ? ? Q1|? ? ? c1 x ? Q1]; subst;
    pose proof (peg_det w e cur _ _ He Hg P (L_CountW.pegk_peg _ _ _ _ _ Q1)) as D; try discriminate.
  injection D as <- <-. eauto 8.
Qed.
Notation w k := (f_world prod (sum_text k)).
Lemma sum_way k : exists c1 c2 c3 c4 l, peg (w k) EStart sp0 (RSucc c1 []) /\ peg (w k) (erase sp_0) c1 (RSucc c2 []) /\
  peg (w k) expressionInner c2 (RSucc c3 l) /\ additions k l /\ peg (w k) SEnd c3 (RSucc c4 []).
Proof.
  destruct (start_peg (w k) sp0 eq_refl) as (c1 & P1 & H1).
  assert (A1 : at_rest (w k) c1 ([] ++ sum_text k)).
  { split; [split; [|rewrite H1; lia]|unfold rest_of; rewrite H1; reflexivity]. cbn [w_str]. unfold f_world. cbn [w_str].
    constructor; [unfold is_byte; lia|apply plus_ones_bytes]. }
  destruct (sp_0_peg (w k) c1 [] (sum_text k)) as (c2 & P2 & A2); [constructor|apply solid_head; cbn; lia|exact A1|].
  destruct (sum_inner (w k) c2 k A2) as (c3 & l & P3 & D & A3). destruct (end_yes (w k) c3 A3) as (c4 & P4 & _). eauto 12.
Qed.
Lemma start_gram : peg_gram EStart. Proof. formula_unfold. gram_tac. Qed.
Lemma spaces_gram : peg_gram (erase sp_0). Proof. formula_unfold. gram_tac. Qed.
Lemma inner_gram : peg_gram expressionInner. Proof. formula_unfold. gram_tac; auto. Qed.
Lemma sum_least k n o err : snd (kw_run (fun _ => k_grouped kp) n (k_program kp) 0%nat (new_string_ctx (sum_text (S k)))) = Ok (o, err) ->
  (10 * (S k * S k) + 40 * S k <= formula_calls negT mulT addT n (sum_text (S k)))%nat.
Proof.
  intros E. destruct (formula_counts_on negT mulT addT neg_good mul_good add_good exactly _ n o err ltac:(intros; left; auto) exactly_kp E) as (r & P).
  destruct (sum_way (S k)) as (c1 & c2 & c3 & c4 & l & P1 & P2 & P3 & D & P4). revert P. generalize (formula_calls negT mulT addT n (sum_text (S k))). intros d P.
  pose proof (prod_good negT mulT addT neg_good mul_good add_good) as G.
  assert (He : peg_env (w (S k))) by (exact (grouped_gram prod G)).
  unfold program in P. inversion P as [|? ? ? d0 Q| | | | | | | | |]; subst.
  destruct (pegks_step _ _ _ _ _ _ _ _ _ He start_gram P1 Q) as (d1 & d1' & r1 & _ & Q1 & ->).
  destruct (pegks_step _ _ _ _ _ _ _ _ _ He spaces_gram P2 Q1) as (d2 & d2' & r2 & _ & Q2 & ->).
  assert (X : forall r' d', L_CountW.pegk exactly (w (S k)) (expression prod) c2 r' d' -> (10 * (S k * S k) + 40 * S k <= d')%nat).
  { intros r' d' Y. unfold expression in Y. inversion Y as [| | | | | | | | |? ? ? q ? dq x Y1 _ Y2|]; subst.
    rewrite <- (peg_det (w (S k)) expressionInner c2 _ _ He inner_gram P3 (L_CountW.pegk_peg _ _ _ _ _ Y1)) in Y2. cbn [weighs L_CountW.weighs] in Y2.
    destruct Y2 as [[[N _] _]|(_ & c' & n' & a & T & ->)]; [destruct (N eq_refl)|].
    pose proof (additions_cost negT mulT addT neg_good mul_good add_good add_sum n' (c_tag c') n' k l 0%nat a D) as C. cbv zeta in C.
    pose proof (kprod_same no_rules prod_check tbl n' c' 0%nat l) as Eq. rewrite T in Eq. specialize (C Eq). unfold prod_cost, kprod. change (fst (kprod no_rules tbl prod_check n' c' 0%nat l) = 0 + 10 * (S k * S k) + 40 * S k)%nat in C. unfold kprod in C. lia. }
  inversion Q2 as [|? ? ? ? ? d3 ? d4 Y|? ? ? ? Y|? ? ? ? ? ? Y]; subst; specialize (X _ _ Y); lia.
Qed.
Lemma sum_program k : exists cur a, is_number a /\ peg (w (S k)) (program prod) sp0 (RSucc cur [a]).
Proof.
  destruct (sum_way (S k)) as (c1 & c2 & c3 & c4 & l & P1 & P2 & P3 & D & P4).
  destruct (sum_calls negT mulT addT neg_good mul_good add_good add_sum k l (fresh (w (S k)) c2) D) as (n0 & a & Ha & T).
  destruct (T n0 (le_n n0)) as [T1 _]. exists c4, a. split; [exact Ha|]. change [a] with ([] ++ [] ++ [a] ++ [] ++ []). constructor.
  eapply S_Peg.seq_ok; [exact P1|]. eapply S_Peg.seq_ok; [exact P2|]. eapply S_Peg.seq_ok; [|eapply S_Peg.seq_ok; [exact P4|constructor]].
  eapply peg_trans_ok; [exact P3|]. eapply pl_ok; [exact T1|constructor].
Qed.
End Sum.
Lemma formula_sum k : exists n0 z, forall n, (n0 <= n)%nat -> formula_Parse n (sum_text (S k)) = Ok (inr z) /\
  (10 * (S k * S k) + 40 * S k <= formula_calls negate (mulDiv div_panic) addSub n (sum_text (S k)))%nat.
Proof.
  pose proof (mulDiv_good div_panic (or_intror eq_refl)) as Hm. pose proof (prod_good negate (mulDiv div_panic) addSub negate_good Hm addSub_good) as G.
  destruct (sum_program negate (mulDiv div_panic) addSub negate_good Hm addSub_good addSub_sum k) as (cur & a & (_ & z & V) & P).
  destruct (parse_good _ G int_answer (sum_text (S k)) cur a z P) as (n0 & F); [unfold int_answer; rewrite V; reflexivity|].
  exists n0, z. intros n Hn. split; [exact (F n Hn)|]. pose proof (F n Hn) as E. unfold parse_with in E.
  destruct (run (grouped_env (formulaProductionRules negate (mulDiv div_panic) addSub)) n (program (formulaProductionRules negate (mulDiv div_panic) addSub)) (new_string_ctx (sum_text (S k)))) as [[o err]|x|] eqn:R; try discriminate.
  apply (sum_least negate (mulDiv div_panic) addSub negate_good Hm addSub_good addSub_sum k n o err). rewrite formula_same. exact R.
Qed.
Lemma sum_text_length k : length (sum_text k) = (2 * k + 1)%nat.
Proof. cbn [sum_text length]. assert (length (plus_ones k) = (2 * k)%nat) by (induction k; cbn [plus_ones length]; lia). lia. Qed.
