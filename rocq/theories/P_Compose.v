(** C84: formulas can be put together.  What formula.Parse and torpn.Parse answer to a formula made of texts in
    parentheses follows from what they answer to the texts. *)
From Verif Require Import L_Compose.

Lemma value_read s v : Forall is_byte s -> formula_answers s (Ok (inr v)) -> exists f, read_as s f /\ evals f v.
Proof.
  intros Hb H. destruct (formula_gives s Hb) as (a & R & G). destruct a as [x|x p q|]; simpl in G; [|destruct G as (lc & _ & G)|]; pose proof (finally_det _ _ _ H G) as E; inversion E; subst.
  inversion R as [b u f y W X Y| | |]; subst. exists f. split; [|exact Y]. exists b, u. split; [exact W|]. eapply (proj1 (proj2 (unstopped divides_by_zero))); [exact X|discriminate].
Qed.
Lemma grouped_bytes s : Forall is_byte s -> Forall is_byte (grouped s).
Proof. intros H. unfold grouped. repeat (apply Forall_app; split); auto; repeat constructor; unfold is_byte; lia. Qed.
Lemma bin_bytes o s t : Forall is_byte s -> Forall is_byte t -> Forall is_byte (grouped s ++ [op_byte o] ++ grouped t).
Proof. intros Hs Ht. repeat (apply Forall_app; split); try (apply grouped_bytes; assumption); try assumption; repeat constructor; unfold is_byte; try (destruct o; cbn; lia); lia. Qed.

(** An operator between two texts in parentheses: the operation on the values, in 64 bits, *)
Theorem C84_value : forall o s t x y r, Forall is_byte s -> Forall is_byte t -> formula_answers s (Ok (inr x)) -> formula_answers t (Ok (inr y)) -> operates o x y r ->
  formula_answers (grouped s ++ [op_byte o] ++ grouped t) (Ok (inr r)).
Proof.
  intros o s t x y r Hs Ht As At Op. destruct (value_read s x Hs As) as (f & Rf & Ef), (value_read t y Ht At) as (g & Rg & Eg).
  apply (proj1 (formula_read _ (FBin o f g) (bin_bytes o s t Hs Ht) (bin_read o s f t g Rf Rg))). destruct Op; econstructor; eauto.
Qed.
Print Assumptions C84_value.
(** or a panic if it is a division and the second value is zero; *)
Theorem C84_division : forall s t x, Forall is_byte s -> Forall is_byte t -> formula_answers s (Ok (inr x)) -> formula_answers t (Ok (inr 0)) ->
  formula_answers (grouped s ++ [op_byte ODiv] ++ grouped t) (Panic "integer divide by zero").
Proof.
  intros s t x Hs Ht As At. destruct (value_read s x Hs As) as (f & Rf & Ef), (value_read t 0 Ht At) as (g & Rg & Eg).
  apply (proj1 (proj2 (formula_read _ (FBin ODiv f g) (bin_bytes ODiv s t Hs Ht) (bin_read ODiv s f t g Rf Rg)))). apply dz_here. exact Eg.
Qed.
Print Assumptions C84_division.
(** parentheses alone change nothing, a minus sign negates in 64 bits; *)
Theorem C84_group : forall s x, Forall is_byte s -> formula_answers s (Ok (inr x)) -> formula_answers (grouped s) (Ok (inr x)).
Proof.
  intros s x Hs As. destruct (value_read s x Hs As) as (f & Rf & Ef). apply (proj1 (formula_read _ f (grouped_bytes s Hs) (group_read s f Rf))). exact Ef.
Qed.
Print Assumptions C84_group.
Theorem C84_minus : forall s x r, Forall is_byte s -> formula_answers s (Ok (inr x)) -> wraps (- x) r -> formula_answers ([45] ++ grouped s) (Ok (inr r)).
Proof.
  intros s x r Hs As W. destruct (value_read s x Hs As) as (f & Rf & Ef).
  assert (Hb : Forall is_byte ([45] ++ grouped s)) by (apply Forall_app; split; [repeat constructor; unfold is_byte; lia|apply grouped_bytes; exact Hs]).
  apply (proj1 (formula_read _ (FNeg f) Hb (neg_read s f Rf))). econstructor; eauto.
Qed.
Print Assumptions C84_minus.
(** and a text that panics does so in parentheses, whatever follows them. *)
Theorem C84_panic : forall s k, Forall is_byte s -> Forall is_byte k -> formula_answers s (Panic "integer divide by zero") ->
  formula_answers (grouped s ++ k) (Panic "integer divide by zero").
Proof.
  intros s k Hs Hk H. assert (C : reading divides_by_zero evals s Crash).
  { destruct (formula_gives s Hs) as (a & R & G). destruct a as [x|x p q|]; simpl in G; [|destruct G as (lc & _ & G)|]; pose proof (finally_det _ _ _ H G) as E; inversion E; subst. exact R. }
  apply (crash_read s k) in C. assert (E : grouped s ++ k = 40 :: s ++ 41 :: k) by (unfold grouped; cbn; rewrite <- app_assoc; reflexivity). rewrite E.
  assert (Hb : Forall is_byte (40 :: s ++ 41 :: k)) by (rewrite <- E; apply Forall_app; split; [apply grouped_bytes; exact Hs|exact Hk]).
  destruct (formula_gives _ Hb) as (a & R & G). rewrite (reading_func _ evals _ _ _ evals_det Hb R C) in G. exact G.
Qed.
Print Assumptions C84_panic.

(** The same for torpn.Parse: the answers one after the other, then the operator; a minus sign
    is written after the answer, or makes the number negative if there is only one. *)
Theorem C84_torpn : forall o s t l m, Forall is_byte s -> Forall is_byte t -> torpn_answers s (inr (inr l)) -> torpn_answers t (inr (inr m)) ->
  torpn_answers (grouped s) (inr (inr l)) /\ torpn_answers (grouped s ++ [op_byte o] ++ grouped t) (inr (inr (l ++ m ++ [VStr [op_byte o]]))).
Proof.
  intros o s t l m Hs Ht As At. apply torpn_read in As as (f & Rf & Pf); [|exact Hs]. apply torpn_read in At as (g & Rg & Pg); [|exact Ht].
  split; (apply torpn_read; [try (apply grouped_bytes; exact Hs); apply bin_bytes; assumption|]).
  - exists f. split; [apply group_read; exact Rf|exact Pf].
  - exists (FBin o f g). split; [apply bin_read; assumption|constructor; assumption].
Qed.
Print Assumptions C84_torpn.
Theorem C84_torpn_minus : forall s l, Forall is_byte s -> torpn_answers s (inr (inr l)) ->
  (forall z r, l = [VInt z] -> wraps (- z) r -> torpn_answers ([45] ++ grouped s) (inr (inr [VInt r]))) /\
  ((forall z, l <> [VInt z]) -> torpn_answers ([45] ++ grouped s) (inr (inr (l ++ [VStr [45]])))).
Proof.
  intros s l Hs As. apply torpn_read in As as (f & Rf & Pf); [|exact Hs].
  assert (Hb : Forall is_byte ([45] ++ grouped s)) by (apply Forall_app; split; [repeat constructor; unfold is_byte; lia|apply grouped_bytes; exact Hs]). split.
  - intros z r -> W. apply torpn_read; [exact Hb|]. exists (FNeg f). split; [apply neg_read; exact Rf|]. constructor. econstructor; [apply number_signed; exact Pf|exact W].
  - intros N. apply torpn_read; [exact Hb|]. exists (FNeg f). split; [apply neg_read; exact Rf|]. constructor; [|exact Pf]. destruct (signed_or_compound f) as [(z & S')|C]; [|exact C].
    exfalso. apply (N z). apply (postfix_det f); [exact Pf|constructor; exact S'].
Qed.
Print Assumptions C84_torpn_minus.

(** Without parentheses it is not so, *)
Ltac by_formula := apply (parse_stable (formula_prod div_panic) formula_good int_answer 60%nat); [vm_compute; reflexivity|discriminate].
Ltac by_torpn := apply (parse_stable torpn_prod torpn_good rpn_answer 60%nat); [vm_compute; reflexivity|discriminate].
Theorem C84_bare_refuted : formula_answers (bs "1+2") (Ok (inr 3)) /\ formula_answers (bs "4") (Ok (inr 4)) /\
  formula_answers (bs "1+2" ++ [op_byte OMul] ++ bs "4") (Ok (inr 9)).
Proof. repeat split; by_formula. Qed.
Print Assumptions C84_bare_refuted.
(** and a text in parentheses may have a value that the text alone has not. *)
Theorem C84_back_refuted : formula_answers (grouped (bs "1)+(2")) (Ok (inr 3)) /\ exists e, formula_answers (bs "1)+(2") (Ok (inl e)).
Proof. split; [by_formula|eexists; by_formula]. Qed.
Print Assumptions C84_back_refuted.

(** Texts with values, with space around them and the smallest int64 inside. *)
Example C84_value_example : formula_answers (bs " 7 - 2 ") (Ok (inr 5)) /\ formula_answers (bs "0+-9223372036854775808") (Ok (inr (- 2 ^ 63))) /\
  operates OSub 5 (- 2 ^ 63) (5 - 2 ^ 63) /\ formula_answers (bs "( 7 - 2 )-(0+-9223372036854775808)") (Ok (inr (5 - 2 ^ 63))).
Proof. split; [by_formula|]. split; [by_formula|]. split; [constructor; split; [unfold int64; lia|exists 1; lia]|]. by_formula. Qed.
Example C84_panic_example : formula_answers (bs "(1/0") (Panic "integer divide by zero") /\ formula_answers (grouped (bs "(1/0") ++ bs " nonsense") (Panic "integer divide by zero").
Proof. split; by_formula. Qed.
Example C84_torpn_example : torpn_answers (bs "1+2") (inr (inr [VInt 1; VInt 2; VStr (bs "+")])) /\
  torpn_answers (bs "-(1+2)") (inr (inr [VInt 1; VInt 2; VStr (bs "+"); VStr (bs "-")])) /\ torpn_answers (bs "-(-3)") (inr (inr [VInt 3])).
Proof. repeat split; by_torpn. Qed.
