(** C78: how many parser calls production rules make, and the formula examples with them. *)
From Verif Require Import S_CountRule L_CountRule L_CountTable L_CountFormula L_CountUnits L_CountSum.

(** Counted production rules answer what the rules answer, whatever has been counted before, and what they count does not
    depend on it. *)
Theorem C78_same : forall env prs check n c k l,
  snd (kprod env prs check n c k l) = table_prod env prs check n c l /\
  fst (kprod env prs check n c k l) = (k + prod_cost env prs check n c l)%nat.
Proof. intros env prs check n c k l. rewrite kprod_at. auto. Qed.
Print Assumptions C78_same.

(** When every rule makes at most [K] calls at a position and shortens the list, the rules make at most so many calls on [m]
    items, whether they end with a list or with an error. *)
Theorem C78_bound : forall env check prs K n c l a,
  (forall e, e = check \/ In e (flat_map fst prs) -> rule_calls env (c_tag c) K e) ->
  (forall e, In e (flat_map fst prs) -> shortens env (c_tag c) e) ->
  table_prod env prs check n c l = Ok a ->
  let m := length l in (2 * prod_cost env prs check n c l <= K * (width prs * (m + 1) * (m + 2) + 2 * (m + 1)))%nat.
Proof.
  intros env check prs K n c l a HK Hs E m. pose proof (production_most env check (c_tag c) K prs HK Hs n n 0 l) as H. cbv zeta in H.
  assert (X : exists b, snd (kprod env prs check n c 0%nat l) = Ok b) by (exists a; rewrite kprod_same; exact E).
  specialize (H X). rewrite <- (rounds_closed K prs m). unfold prod_cost. apply Nat.mul_le_mono_l. exact H.
Qed.
Print Assumptions C78_bound.
(** The table of formula/precedence.go: at most eight calls for a rule at a position. *)
Example C78_bound_example : let t := formula_table negate (mulDiv div_panic) addSub in
  (forall tag e, e = prod_check \/ In e (flat_map fst t) -> rule_calls no_rules tag 8 e) /\
  (forall tag e, In e (flat_map fst t) -> shortens no_rules tag e) /\ width t = 3%nat /\
  let num z := mkAst 0 "Number" TInt (VInt z) sp0 in let op x := mkAst 0 "BinaryOperator" TString (VStr x) sp0 in
  let l := [num 2; op (bs "+"); num 3; op (bs "*"); num 4] in
  table_prod no_rules t prod_check 30%nat (new_string_ctx []) l = Ok (inr [number_ast 14]) /\
  prod_cost no_rules t prod_check 30%nat (new_string_ctx []) l = 98%nat.
Proof.
  cbv zeta. split; [|split; [|split; [reflexivity|split; vm_compute; reflexivity]]].
  - intros tag e. apply table_calls; [exact negate_good|apply mulDiv_good; auto|exact addSub_good].
  - intros tag e. apply table_shorter; [exact negate_good|apply mulDiv_good; auto|exact addSub_good|exact negate_one|exact mulDiv_one|exact addSub_one].
Qed.

(** Quadratically many for [k] additions: every addition scans all levels from the start again. *)
Theorem C78_sums : forall k l c, additions (S k) l -> exists n0 a, is_number a /\ forall n, (n0 <= n)%nat ->
  formula_prod div_panic n c l = Ok (inr [a]) /\
  prod_cost no_rules (formula_table negate (mulDiv div_panic) addSub) prod_check n c l = (10 * (S k * S k) + 40 * S k)%nat.
Proof.
  exact (sum_calls negate (mulDiv div_panic) addSub negate_good (mulDiv_good _ (or_intror eq_refl)) addSub_good addSub_sum).
Qed.
Print Assumptions C78_sums.
Example C78_sums_example : let num z := mkAst 0 "Number" TInt (VInt z) sp0 in let op x := mkAst 0 "BinaryOperator" TString (VStr x) sp0 in
  let l := [num 1; op (bs "+"); num 2; op (bs "+"); num 3] in
  additions 2 l /\ prod_cost no_rules (formula_table negate (mulDiv div_panic) addSub) prod_check 30%nat (new_string_ctx []) l = 120%nat.
Proof.
  cbv zeta. split; [|vm_compute; reflexivity]. repeat constructor; eexists; reflexivity.
Qed.

(** The counted run of formula.Parse and torpn.Parse answers what they answer. *)
Theorem C78_formula_same : forall neg mul add n k c,
  snd (kw_run (fun _ => k_grouped (k_rules neg mul add)) n (k_program (k_rules neg mul add)) k c) =
  run (grouped_env (formulaProductionRules neg mul add)) n (program (formulaProductionRules neg mul add)) c.
Proof. exact formula_same. Qed.
Print Assumptions C78_formula_same.

(** All calls, those of the grammar and those of the rules of all expressions in parentheses: at most quadratically many in
    the length of the text, be it well formed or not. *)
Theorem C78_formula : forall n s r, formula_Parse n s = Ok r ->
  (formula_calls negate (mulDiv div_panic) addSub n s <= (12 * length s + 32) * (20 * length s + 24))%nat.
Proof.
  intros n s r E. unfold formula_Parse, parse_with in E.
  destruct (run (grouped_env (formula_prod div_panic)) n (program (formula_prod div_panic)) (new_string_ctx s)) as [[o err]|x|] eqn:R; try discriminate.
  apply (formula_max negate (mulDiv div_panic) addSub negate_good (mulDiv_good _ (or_intror eq_refl)) addSub_good negate_one mulDiv_one addSub_one s n o err).
  rewrite formula_same. exact R.
Qed.
Print Assumptions C78_formula.
Theorem C78_torpn : forall n s r, torpn_Parse n s = Ok r ->
  (formula_calls transformUnaryOp transformBinaryOp transformBinaryOp n s <= (12 * length s + 32) * (20 * length s + 24))%nat.
Proof.
  intros n s r E. unfold torpn_Parse, parse_with in E.
  destruct (run (grouped_env torpn_prod) n (program torpn_prod) (new_string_ctx s)) as [[o err]|x|] eqn:R; try discriminate.
  apply (formula_max transformUnaryOp transformBinaryOp transformBinaryOp unary_good binary_good binary_good rpn_unary_one rpn_binary_one rpn_binary_one s n o err).
  rewrite formula_same. exact R.
Qed.
Print Assumptions C78_torpn.
Example C78_formula_example :
  formula_Parse 60%nat (bs "2*(3+-4)") = Ok (inr (-2)) /\ formula_calls negate (mulDiv div_panic) addSub 60%nat (bs "2*(3+-4)") = 244%nat /\
  (exists e, formula_Parse 60%nat (bs "(((") = Ok (inl e)) /\ formula_calls negate (mulDiv div_panic) addSub 60%nat (bs "(((") = 117%nat /\
  (exists l, torpn_Parse 60%nat (bs "2*(3+-4)") = Ok (inr (inr l)) /\ length l = 5%nat) /\
  formula_calls transformUnaryOp transformBinaryOp transformBinaryOp 60%nat (bs "2*(3+-4)") = 244%nat.
Proof.
  split; [vm_compute; reflexivity|]. split; [vm_compute; reflexivity|]. split; [eexists; vm_compute; reflexivity|]. split; [vm_compute; reflexivity|].
  split; [eexists; split; [vm_compute; reflexivity|reflexivity]|vm_compute; reflexivity].
Qed.

(** And no fewer than quadratically many: the text 1+1+...+1 with [k] signs has [2 * k + 1] bytes, Parse evaluates it, and
    makes at least so many calls.  So no linear bound holds. *)
Theorem C78_formula_linear_refuted : forall k, exists n0 z, forall n, (n0 <= n)%nat ->
  formula_Parse n (sum_text (S k)) = Ok (inr z) /\ length (sum_text (S k)) = (2 * S k + 1)%nat /\
  (10 * (S k * S k) + 40 * S k <= formula_calls negate (mulDiv div_panic) addSub n (sum_text (S k)))%nat.
Proof.
  intros k. destruct (formula_sum k) as (n0 & z & H). exists n0, z. intros n Hn. destruct (H n Hn) as [P Q]. split; [exact P|]. split; [apply sum_text_length|exact Q].
Qed.
Print Assumptions C78_formula_linear_refuted.
Example C78_formula_linear_refuted_example : sum_text 3 = bs "1+1+1+1" /\ formula_Parse 60%nat (sum_text 3) = Ok (inr 4) /\
  (10 * (3 * 3) + 40 * 3 = 210)%nat /\ formula_calls negate (mulDiv div_panic) addSub 60%nat (sum_text 3) = 338%nat.
Proof. repeat split; vm_compute; reflexivity. Qed.
