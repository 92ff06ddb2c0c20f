(** C40: the torpn example.  [torpn_answers s r] is: with enough fuel, and then always,
    Parse returns [r] for [s]. *)
From Verif Require Import L_Torpn.

(** A formula with literals below 2^63 is answered with its postfix form. *)
Theorem C40_postfix : forall s f l, Forall is_byte s -> formula s f -> literals (fun z => z < 2 ^ 63) f -> postfix f l ->
  torpn_answers s (inr (inr l)).
Proof. exact torpn_postfix. Qed.
Print Assumptions C40_postfix.

(** Parse is total, and answers only formulas, and only with their postfix form. *)
Theorem C40_total : forall s, Forall is_byte s -> exists r, torpn_answers s r.
Proof. intros s Hb. destruct (torpn_total s Hb) as [(f & l & _ & _ & _ & A)|(x & lc & A & _)]; eauto. Qed.
Print Assumptions C40_total.
Theorem C40_only_formulas : forall s r n, Forall is_byte s -> torpn_Parse n s = Ok (inr r) ->
  exists f l, r = inr l /\ formula s f /\ literals (fun z => z <= 2 ^ 63) f /\ postfix f l.
Proof. exact torpn_only. Qed.
Print Assumptions C40_only_formulas.

(** Where minus signs stand only before literals, running the answer on a stack gives the
    value of the formula and nothing else, and there is no result where there is no value. *)
Theorem C40_machine : forall s f, Forall is_byte s -> formula s f -> literals (fun z => z < 2 ^ 63) f -> plainly_signed f ->
  exists l, torpn_answers s (inr (inr l)) /\ forall v, evals f v <-> machine l [] [v].
Proof.
  intros s f Hb F L P. destruct (postfix_total f) as (l & Pl). exists l. split; [eapply torpn_postfix; eauto|]. intros v. split.
  - apply machine_value; auto.
  - apply machine_evals; auto.
Qed.
Print Assumptions C40_machine.
Theorem C40_machine_det : forall l st a b, machine l st a -> machine l st b -> a = b.
Proof. intros l st a b H. exact (machine_det l st a H b). Qed.
Print Assumptions C40_machine_det.
(** Such formulas share an answer only if they share the value. *)
Theorem C40_unambiguous_partial : forall s s' f f' r v v', Forall is_byte s -> Forall is_byte s' -> formula s f -> formula s' f' ->
  literals (fun z => z < 2 ^ 63) f -> literals (fun z => z < 2 ^ 63) f' -> plainly_signed f -> plainly_signed f' ->
  torpn_answers s (inr r) -> torpn_answers s' (inr r) -> evals f v -> evals f' v' -> v = v'.
Proof.
  intros s s' f f' r v v' Hb Hb' F F' L L' P P' A A' E E'.
  destruct (C40_machine s f Hb F L P) as (l & B & M), (C40_machine s' f' Hb' F' L' P') as (l' & B' & M').
  pose proof (finally_det _ _ _ A B) as K. pose proof (finally_det _ _ _ A' B') as K'. injection K as ->. injection K' as K'. subst l'.
  apply M in E. apply M' in E'. pose proof (machine_det _ _ _ E _ E') as Q. injection Q as ->. reflexivity.
Qed.
Print Assumptions C40_unambiguous_partial.

(** In general two formulas with different values get the same answer, so no way of
    evaluating the answer can be right for both. *)
Definition text1 : bytes := bs "5-(-(1+2))".
Definition tree1 : arith := FBin OSub (FLit 5) (FNeg (FBin OAdd (FLit 1) (FLit 2))).
Definition text2 : bytes := bs "-(5-(1+2))".
Definition tree2 : arith := FNeg (FBin OSub (FLit 5) (FBin OAdd (FLit 1) (FLit 2))).
Ltac digit_lit := apply lit_plain; vm_compute; reflexivity.
Ltac number := apply ft_atom, at_lit; [digit_lit|constructor].
Lemma sum_text : exprT ((bs "1" ++ []) ++ [43] ++ [] ++ (bs "2" ++ [])) (FBin OAdd (FLit 1) (FLit 2)).
Proof. apply (et_bin _ _ OAdd); [left; reflexivity|apply et_term, tt_factor; number|constructor|apply tt_factor; number]. Qed.
Lemma text1_formula : formula text1 tree1.
Proof.
  exists [], ((bs "5" ++ []) ++ [45] ++ [] ++ ([40] ++ [] ++ ([45] ++ [] ++ ([40] ++ [] ++ ((bs "1" ++ []) ++ [43] ++ [] ++ (bs "2" ++ [])) ++ [41] ++ [])) ++ [41] ++ [])).
  split; [reflexivity|]. split; [constructor|].
  apply (et_bin _ _ OSub); [right; reflexivity|apply et_term, tt_factor; number|constructor|].
  apply tt_factor, ft_atom, at_paren; [constructor| |constructor]. apply et_term, tt_factor, ft_neg; [constructor|]. apply ft_atom, at_paren; [constructor|exact sum_text|constructor].
Qed.
Lemma text2_formula : formula text2 tree2.
Proof.
  exists [], ([45] ++ [] ++ ([40] ++ [] ++ ((bs "5" ++ []) ++ [45] ++ [] ++ ([40] ++ [] ++ ((bs "1" ++ []) ++ [43] ++ [] ++ (bs "2" ++ [])) ++ [41] ++ [])) ++ [41] ++ [])).
  split; [reflexivity|]. split; [constructor|].
  apply et_term, tt_factor, ft_neg; [constructor|]. apply ft_atom, at_paren; [constructor| |constructor].
  apply (et_bin _ _ OSub); [right; reflexivity|apply et_term, tt_factor; number|constructor|].
  apply tt_factor, ft_atom, at_paren; [constructor|exact sum_text|constructor].
Qed.
Theorem C40_ambiguous_refuted : exists s s' f f' l v v', Forall is_byte s /\ Forall is_byte s' /\ formula s f /\ formula s' f' /\
  torpn_answers s (inr (inr l)) /\ torpn_answers s' (inr (inr l)) /\ exact f v /\ exact f' v' /\ v <> v'.
Proof.
  exists text1, text2, tree1, tree2, [VInt 5; VInt 1; VInt 2; VStr (bs "+"); VStr (bs "-"); VStr (bs "-")], (5 - - (1 + 2)), (- (5 - (1 + 2))).
  split; [apply byte_list; reflexivity|]. split; [apply byte_list; reflexivity|]. split; [exact text1_formula|]. split; [exact text2_formula|].
  split; [|split; [|split; [|split; [|lia]]]].
  - apply (parse_stable torpn_prod torpn_good rpn_answer 60%nat); [vm_compute; reflexivity|discriminate].
  - apply (parse_stable torpn_prod torpn_good rpn_answer 60%nat); [vm_compute; reflexivity|discriminate].
  - unfold tree1. repeat first [apply ex_sub|apply ex_add|apply ex_neg|apply ex_lit]; unfold int64; simpl; lia.
  - unfold tree2. repeat first [apply ex_sub|apply ex_add|apply ex_neg|apply ex_lit]; unfold int64; simpl; lia.
Qed.
Print Assumptions C40_ambiguous_refuted.

(** A formula for the theorems above: minus signs before literals only. *)
Definition text3 : bytes := bs "2*(1+2)--3".
Definition tree3 : arith := FBin OSub (FBin OMul (FLit 2) (FBin OAdd (FLit 1) (FLit 2))) (FNeg (FLit 3)).
Example C40_sample : formula text3 tree3 /\ literals (fun z => z < 2 ^ 63) tree3 /\ plainly_signed tree3 /\ exact tree3 9 /\
  torpn_Parse 60 text3 = Ok (inr (inr [VInt 2; VInt 1; VInt 2; VStr (bs "+"); VStr (bs "*"); VInt (-3); VStr (bs "-")])).
Proof.
  split; [|split; [|split; [|split]]].
  - exists [], (((bs "2" ++ []) ++ [42] ++ [] ++ ([40] ++ [] ++ ((bs "1" ++ []) ++ [43] ++ [] ++ (bs "2" ++ [])) ++ [41] ++ [])) ++ [45] ++ [] ++ ([45] ++ [] ++ (bs "3" ++ []))).
    split; [reflexivity|]. split; [constructor|]. apply (et_bin _ _ OSub); [right; reflexivity| |constructor|apply tt_factor, ft_neg; [constructor|number]].
    apply et_term. apply (tt_bin _ _ OMul); [left; reflexivity|apply tt_factor; number|constructor|]. apply ft_atom, at_paren; [constructor|exact sum_text|constructor].
  - simpl. repeat split; lia.
  - simpl. repeat split. intros C. inversion C.
  - change 9 with (2 * (1 + 2) - - (3)). unfold tree3. repeat first [apply ex_sub|apply ex_mul|apply ex_add|apply ex_neg|apply ex_lit]; unfold int64; simpl; lia.
  - vm_compute. reflexivity.
Qed.
