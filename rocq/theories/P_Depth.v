(** C80: how deep parser calls nest. *)
From Verif Require Import S_Depth L_Depth L_DepthFormula L_DepthLow P_Rec L_Formula L_Torpn.
From Verif Require M_Csv.

(** The run that keeps count of the calls not returned yet answers what the run answers, and is back at the count it
    started from. *)
Theorem C80_same : forall env n e m c, snd (drun env n e m c) = run env n e c /\ fst (fst (drun env n e m c)) = fst m.
Proof.
  intros env n e m c. split; [apply drun_same|]. assert (T : forall k j, keeps L_DepthLow.tame (fun _ => True) (drun_env env k j)).
  { induction k as [|k IH]; intros j; [intros x y _; apply L_DepthLow.tame_refl|]. exact (L_DepthLow.tame_denote (env j) (drun_env env k) k IH). }
  exact (proj1 (tame_denote e (drun_env env n) n (T n) m c I)).
Qed.
Print Assumptions C80_same.

(** A grammar without Indirect nests its calls no deeper than it is itself, whatever the input. *)
Theorem C80_static : forall env n e c, rule_free e -> (nesting env n e c <= height e)%nat.
Proof. intros env n e c H. apply nesting_upto with (P := fun _ => True); [|exact I]. apply static_upto. exact H. Qed.
Print Assumptions C80_static.
(** The parser for numbers of the formula examples is twelve levels high and comes that deep on these digits. *)
Example C80_static_example : rule_free simpleExpression /\ height simpleExpression = 12%nat /\
  nesting no_rules 60%nat simpleExpression (new_string_ctx (bs "123+4")) = 12%nat /\
  nesting no_rules 60%nat simpleExpression (new_string_ctx (bs "x")) = 8%nat.
Proof. split; [cbn; tauto|]. repeat split; vm_compute; reflexivity. Qed.

(** The CSV example never nests its calls deeper than fourteen levels, on no text. *)
Theorem C80_csv : forall s n, (nesting no_rules n M_Csv.document (new_string_ctx s) <= 14)%nat.
Proof. intros s n. apply (C80_static no_rules n M_Csv.document (new_string_ctx s)). cbn. tauto. Qed.
Print Assumptions C80_csv.
Example C80_csv_example : nesting no_rules 60%nat M_Csv.document (new_string_ctx (bs "a,""b""""c"", d")) = 14%nat.
Proof. vm_compute. reflexivity. Qed.

(** A recursive grammar without left recursion: in proportion to the length of the input. *)
Theorem C80_ranked : forall sz eat layer rank H R L env n e c, ranked sz eat layer rank env -> guarded sz eat anyI anyI anyI e -> in_bounds sz c ->
  (forall k, height (env k) <= H /\ rank k < R /\ layer k < L)%nat ->
  (nesting env n e c <= height e + H * (L * (sz (c_str c) (c_slice c) + 1) * R))%nat.
Proof. exact ranked_nesting. Qed.
Print Assumptions C80_ranked.
Example C80_ranked_example : let e := EFlatGroup [EIndirect 0; SEnd] in let c := new_string_ctx (bs "((a)b)") in
  ranked str_size anyI (fun _ => 0%nat) (fun _ => 0%nat) paren_env /\ guarded str_size anyI anyI anyI anyI e /\ in_bounds str_size c /\
  (forall k, height (paren_env k) <= 4 /\ 0 < 1 /\ 0 < 1)%nat /\ nesting paren_env 30%nat e c = 13%nat.
Proof.
  cbv zeta. split; [exact paren_ranked|]. split; [gd_tac|]. split; [unfold in_bounds, c_pos; cbn; lia|]. split; [intros k; cbn; lia|vm_compute; reflexivity].
Qed.
(** With left recursion no bound holds: the deeper the stack may grow, the deeper it grows. *)
Theorem C80_left_recursion_refuted : forall n c, nesting (fun _ => EIndirect 0) n (EIndirect 0) c = S n.
Proof.
  intros n c. assert (X : forall n a b, (b <= a)%nat -> fst (drun_env (fun _ => EIndirect 0) n 0%nat (a, b) c) = (a, Nat.max b (if (n =? 0)%nat then b else a + n))%nat).
  { clear n. induction n as [|n IH]; intros a b L; cbn [drun_env ddenote]; [cbn; f_equal; lia|]. unfold on_stack. cbn [fst snd]. unfold w_light.
    replace (Nat.max b (S a)) with (S a) by lia. specialize (IH (S a) (S a) (le_n _)). destruct (drun_env _ n 0%nat (S a, S a) c) as [m1 r].
    cbn [fst] in IH. subst m1. cbn [fst snd Nat.eqb]. destruct r as [[o x]|x|]; cbn [fst snd]; f_equal; destruct (Nat.eqb_spec n 0); lia. }
  unfold nesting, drun. cbn [ddenote]. unfold on_stack. cbn [fst snd]. unfold w_light. change (Nat.max 0 1) with 1%nat. specialize (X n 1%nat 1%nat (le_n _)).
  destruct (drun_env _ n 0%nat (1, 1)%nat c) as [m1 r]. cbn [fst] in X. subst m1. destruct r as [[o x]|x|]; cbn [fst snd]; destruct (Nat.eqb_spec n 0); lia.
Qed.
Print Assumptions C80_left_recursion_refuted.

(** Production rules nest no deeper than their highest rule, however often they start over. *)
Theorem C80_rules : forall env prs check B n c m l, Forall (fun lv => Forall (fun e => rule_free e /\ (height e <= B)%nat) (fst lv)) prs ->
  rule_free check -> (height check <= B)%nat ->
  snd (dprod env prs check n c m l) = table_prod env prs check n c l /\
  (snd (fst (dprod env prs check n c m l)) <= Nat.max (snd m) (fst m + B))%nat.
Proof.
  intros env prs check B n c m l H1 H2 H3. split; [apply dprod_same|]. exact (proj2 (proj2 (dprod_upto env check B prs n c m l H1 H2 H3))).
Qed.
Print Assumptions C80_rules.
Example C80_rules_example : let t := formula_table negate (mulDiv div_panic) addSub in
  Forall (fun lv => Forall (fun e => rule_free e /\ (height e <= 4)%nat) (fst lv)) t /\ rule_free prod_check /\ height prod_check = 2%nat /\
  let num z := mkAst 0 "Number" TInt (VInt z) sp0 in let op x := mkAst 0 "BinaryOperator" TString (VStr x) sp0 in
  fst (dprod no_rules t prod_check 30%nat (new_string_ctx []) (7, 7)%nat [num 2; op (bs "+"); num 3; op (bs "*"); num 4]) = (7, 11)%nat.
Proof. cbv zeta. split; [repeat constructor; cbn; auto; lia|]. split; [cbn; auto|]. split; vm_compute; reflexivity. Qed.

(** formula.Parse and torpn.Parse: seven levels for every byte of the text and sixteen more suffice, be it well formed or
    not. *)
Theorem C80_formula_same : forall neg mul add n m c,
  snd (dw_run (fun _ => d_grouped (d_rules neg mul add)) n (d_program (d_rules neg mul add)) m c) =
  run (grouped_env (formulaProductionRules neg mul add)) n (program (formulaProductionRules neg mul add)) c.
Proof. exact formula_depth_same. Qed.
Print Assumptions C80_formula_same.
Theorem C80_formula : forall neg mul add n s, (formula_nesting neg mul add n s <= 7 * length s + 16)%nat.
Proof. exact formula_upto. Qed.
Print Assumptions C80_formula.
(** Opening parentheses take seven levels each: no bound holds for all texts. *)
Theorem C80_constant_refuted : forall k, exists n0, forall n, (n0 <= n)%nat ->
  (7 * k + 5 <= formula_nesting negate (mulDiv div_panic) addSub n (repeat 40%Z k))%nat /\
  (7 * k + 5 <= formula_nesting transformUnaryOp transformBinaryOp transformBinaryOp n (repeat 40%Z k))%nat.
Proof.
  intros k. destruct (formula_low negate (mulDiv div_panic) addSub k negate_good (mulDiv_good _ (or_intror eq_refl)) addSub_good) as (n0 & H).
  destruct (formula_low transformUnaryOp transformBinaryOp transformBinaryOp k unary_good binary_good binary_good) as (n1 & H1).
  exists (Nat.max n0 n1). intros n Hn. split; [apply H|apply H1]; lia.
Qed.
Print Assumptions C80_constant_refuted.
Example C80_formula_example :
  formula_nesting negate (mulDiv div_panic) addSub 60%nat (bs "2*(3+-4)") = 26%nat /\
  formula_nesting negate (mulDiv div_panic) addSub 60%nat (bs "(((") = 33%nat /\
  formula_nesting transformUnaryOp transformBinaryOp transformBinaryOp 60%nat (bs "((1))") = 29%nat.
Proof. repeat split; vm_compute; reflexivity. Qed.
