(** The number of parser calls of the formula grammar, with its production rules. *)
From Verif Require Export L_CountTable L_FormulaParse.

(** ** The same answers *)
Lemma kw_sim_trans f f' t t' n : csim f f' -> (forall c k l, snd (t n c k l) = t' n c l) ->
  csim (w_base ":base:Trans" None [] [f] (variadic [t]) n) (base_parser ":base:Trans" None [] [f'] (variadic [t']) n).
Proof.
  intros Hf Ht. apply esim_base; [constructor; auto|]. cbn. intros c0 w l _ _. right. split; [|exact I].
  specialize (Ht (set_cls c0 ":base:Trans") w l). destruct (t n _ w l) as [w1 r]. cbn [snd] in Ht. rewrite <- Ht. destruct r as [[e|r]|x|]; reflexivity.
Qed.
Section Formula.
Variables (negT mulT addT : trans).
Notation prod := (formulaProductionRules negT mulT addT).
Notation kp := (k_rules negT mulT addT).
Lemma kp_same n c k l : snd (kp n c k l) = prod n c l.
Proof. exact (kprod_same no_rules prod_check (formula_table negT mulT addT) n c k l). Qed.
Ltac kids := first [apply Forall2_nil|apply Forall2_cons; [first [refine (kdenote_same _ _ _ _ _); assumption|idtac]|kids]].
Ltac flat_sim := apply csim_tick; apply (csim_base _ _ _ _ _ None); kids.
Lemma expression_sim rho rho' n : (forall j, csim (rho j) (rho' j)) -> csim (kw_denote rho n (k_expression kp)) (denote rho' n (expression prod)).
Proof.
  intros Hr. unfold k_expression, expression, expressionInner, EZeroOrMore. cbn [kw_denote denote map]. unfold Trans. apply csim_tick. apply kw_sim_trans; [|intros; apply kp_same].
  flat_sim; flat_sim; [apply csim_tick, esim_light; apply Hr|]. flat_sim. flat_sim. flat_sim. apply csim_tick, esim_light. apply Hr.
Qed.
Lemma grouped_sim rho rho' n : (forall j, csim (rho j) (rho' j)) -> csim (kw_denote rho n (k_grouped kp)) (denote rho' n (groupedExpresion prod)).
Proof.
  intros Hr. unfold k_grouped, groupedExpresion. cbn [kw_denote denote map]. flat_sim. flat_sim. flat_sim. exact (expression_sim rho rho' n Hr).
Qed.
Lemma program_sim rho rho' n : (forall j, csim (rho j) (rho' j)) -> csim (kw_denote rho n (k_program kp)) (denote rho' n (program prod)).
Proof.
  intros Hr. unfold k_program, program. cbn [kw_denote denote map]. flat_sim. exact (expression_sim rho rho' n Hr).
Qed.
Lemma env_sim n : forall j, csim (kw_run_env (fun _ => k_grouped kp) n j) (run_env (grouped_env prod) n j).
Proof.
  induction n as [|n IH]; intros j; apply csim_eq; [reflexivity|]. intros k c. cbn [kw_run_env run_env]. revert k c. apply csim_eq. exact (grouped_sim _ _ n IH).
Qed.
Lemma formula_same n k c : snd (kw_run (fun _ => k_grouped kp) n (k_program kp) k c) = run (grouped_env prod) n (program prod) c.
Proof. revert k c. apply csim_eq. exact (program_sim _ _ n (env_sim n)). Qed.

(** ** The counted semantics, where the production rules may count *)
Hypothesis neg_good : good_trans negT.
Hypothesis mul_good : good_trans mulT.
Hypothesis add_good : good_trans addT.
Hypothesis neg_one : to_one negT.
Hypothesis mul_one : to_one mulT.
Hypothesis add_one : to_one addT.
Definition rules_max (l : list ast) : nat := ((length l + 1) * (12 * length l + 32))%nat.
Definition wt (tr : list trans) (c : ctx) (l : list ast) (x : nat) : Prop := x = 0%nat \/ (tr = [prod] /\ (x <= rules_max l)%nat).
Lemma wt_free tr c l : wt tr c l 0. Proof. left. reflexivity. Qed.
Lemma prod_good : good_trans prod.
Proof. apply rules_good; assumption. Qed.
Lemma kp_counts fuel c c0 : tr_counts c fuel (fun l y => wt [prod] c0 l y) (Some [prod]) (Some [kp]).
Proof.
  intros k l. cbn [w_run_trans run_trans]. cbv zeta. pose proof (kp_same fuel c k l) as E.
  pose proof (kprod_at no_rules prod_check (formula_table negT mulT addT) fuel c k l) as A.
  pose proof (table_most negT mulT addT neg_good mul_good add_good neg_one mul_one add_one fuel c k l) as M.
  unfold k_rules in *. rewrite A in *. cbn [fst snd] in *. rewrite <- E in *.
  destruct (table_prod no_rules (formula_table negT mulT addT) prod_check fuel c l) as [[x|l1]|x|]; cbn [fst snd]; split; auto;
    (eexists; split; [|reflexivity]; right; split; [reflexivity|]; specialize (M _ eq_refl); unfold rules_max; lia).
Qed.
Lemma not_prod t : t 0%nat (new_string_ctx []) [] <> Fuel -> t <> prod.
Proof. intros H E. rewrite E in H. apply H. reflexivity. Qed.
Ltac only_tac := formula_unfold; cbn [gram map fold_right allP only g_leaf g_trans g_behind g_repeat g_indirect g_base]; unfold anyZ, anyR, anyI;
  repeat split; apply not_prod; vm_compute; discriminate.
(** For all weights where the production rules may count what they count, and the other transformers nothing. *)
Section Counts.
Variable wt0 : list trans -> ctx -> list ast -> nat -> Prop.
Hypothesis wt0_free : forall tr c l, allP (fun t => t <> prod) tr -> wt0 tr c l 0.
Hypothesis wt0_kp : forall fuel c c0, tr_counts c fuel (fun l y => wt0 [prod] c0 l y) (Some [prod]) (Some [kp]).
Ltac ckids := first [apply Forall2_nil|apply Forall2_cons; [first [refine (kdenote_counts_on wt0 (fun t => t <> prod) _ _ wt0_free _ _ _ _ _); [formula_unfold; gram_tac; fail|only_tac|assumption]|idtac]|ckids]].
Variable w : world.
Lemma expression_counts rho n : (forall j, counts wt0 w (w_env w j) (rho j)) -> counts wt0 w (expression prod) (kw_denote rho n (k_expression kp)).
Proof.
  intros Hr. unfold k_expression, expression, expressionInner, EZeroOrMore. cbn [kw_denote map]. apply trans_counts; [|split; [exact prod_good|exact I]|intros c _; apply wt0_kp].
  apply flat_counts. ckids.
Qed.
Lemma grouped_counts rho n : (forall j, counts wt0 w (w_env w j) (rho j)) -> counts wt0 w (groupedExpresion prod) (kw_denote rho n (k_grouped kp)).
Proof.
  intros Hr. unfold k_grouped, groupedExpresion. cbn [kw_denote map]. apply flat_counts. ckids. apply first_counts. ckids. apply flat_counts. ckids. exact (expression_counts rho n Hr).
Qed.
Lemma program_counts rho n : (forall j, counts wt0 w (w_env w j) (rho j)) -> counts wt0 w (program prod) (kw_denote rho n (k_program kp)).
Proof. intros Hr. unfold k_program, program. cbn [kw_denote map]. apply flat_counts. ckids. exact (expression_counts rho n Hr). Qed.
End Counts.
Lemma formula_counts_on (wt0 : list trans -> ctx -> list ast -> nat -> Prop) s n o err : (forall tr c l, allP (fun t => t <> prod) tr -> wt0 tr c l 0%nat) ->
  (forall fuel c c0, tr_counts c fuel (fun l y => wt0 [prod] c0 l y) (Some [prod]) (Some [kp])) ->
  snd (kw_run (fun _ => k_grouped kp) n (k_program kp) 0%nat (new_string_ctx s)) = Ok (o, err) ->
  exists r, L_CountW.pegk wt0 (f_world prod s) (program prod) sp0 r (formula_calls negT mulT addT n s).
Proof.
  intros Hf Hk E. unfold formula_calls.
  assert (R : forall m j, counts wt0 (f_world prod s) (w_env (f_world prod s) j) (kw_run_env (fun _ => k_grouped kp) m j)).
  { induction m as [|m IH]; intros j k c Hc; [exact I|]. exact (grouped_counts wt0 Hf Hk (f_world prod s) _ m IH k c Hc). }
  pose proof (program_counts wt0 Hf Hk (f_world prod s) _ n (R n) 0%nat (new_string_ctx s) ltac:(repeat split)) as H. unfold kw_run in *.
  destruct (kw_denote _ n (k_program kp) 0%nat (new_string_ctx s)) as [k r]. cbn [fst snd] in *. subst r. destruct H as (r & d & P & _ & _ & ->). exists r. exact P.
Qed.
Lemma formula_counts s n o err : snd (kw_run (fun _ => k_grouped kp) n (k_program kp) 0%nat (new_string_ctx s)) = Ok (o, err) ->
  exists r, L_CountW.pegk wt (f_world prod s) (program prod) sp0 r (formula_calls negT mulT addT n s).
Proof. apply formula_counts_on; [intros; apply wt_free|exact kp_counts]. Qed.
End Formula.
