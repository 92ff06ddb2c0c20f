(** C82: the formula examples agree.  formula.Parse computes what the stack machine computes from the answer of torpn.Parse. *)
From Verif Require Import L_Agree.

(** Where formula.Parse returns an error torpn.Parse returns the same error for the same
    place, and the other way round unless formula.Parse has met a division by zero. *)
Theorem C82_errors : forall s e, Forall is_byte s -> formula_answers s (Ok (inl e)) -> torpn_answers s (inl e).
Proof.
  intros s e Hb H. destruct (formula_gives s Hb) as (a & R & G), (torpn_gives s Hb) as (a' & R' & G').
  assert (A : exists x p q, a = Failure x p q) by (destruct a as [v|x p q|]; simpl in G; [|eauto|]; pose proof (finally_det _ _ _ H G); discriminate). destruct A as (x & p & q & ->).
  assert (T : reading (fun _ => False) postfix s (Failure x p q)).
  { inversion R; subst; [eapply rd_more|eapply rd_bad]; eauto; (eapply (proj1 (proj2 (unstopped divides_by_zero))); [eassumption|discriminate]). }
  rewrite (reading_func _ postfix s _ _ postfix_det Hb R' T) in G'. destruct G as (lc & El & G), G' as (lc' & El' & G'). rewrite El in El'. injection El' as <-.
  pose proof (finally_det _ _ _ H G) as E. injection E as ->. exact G'.
Qed.
Print Assumptions C82_errors.
Theorem C82_errors_back : forall s e, Forall is_byte s -> torpn_answers s (inl e) ->
  formula_answers s (Ok (inl e)) \/ formula_answers s (Panic "integer divide by zero").
Proof.
  intros s e Hb H. destruct (formula_gives s Hb) as (a & R & G). destruct a as [v|x p q|]; simpl in G; [exfalso| |right; exact G].
  - inversion R as [b u f y W X Y| | |]; subst. destruct (postfix_total f) as (l & Pl).
    assert (T : torpn_answers s (inr (inr l))).
    { apply torpn_read; [exact Hb|]. exists f. split; [|exact Pl]. exists b, u. split; [exact W|]. eapply (proj1 (proj2 (unstopped divides_by_zero))); [exact X|discriminate]. }
    pose proof (finally_det _ _ _ H T). discriminate.
  - left. destruct G as (lc & El & G). pose proof (C82_errors s _ Hb G) as T. pose proof (finally_det _ _ _ H T) as E. injection E as ->. exact G.
Qed.
Print Assumptions C82_errors_back.

(** Where torpn.Parse answers, its answer is the postfix form of the one formula that the
    text is read as, and formula.Parse returns the value of this formula or panics because
    of a division by zero in it. *)
Theorem C82_formulas : forall s l, Forall is_byte s -> torpn_answers s (inr (inr l)) ->
  exists f, read_as s f /\ (forall g, read_as s g -> g = f) /\ postfix f l /\
    (forall v, formula_answers s (Ok (inr v)) <-> evals f v) /\
    (formula_answers s (Panic "integer divide by zero") <-> divides_by_zero f) /\ (forall e, ~ formula_answers s (Ok (inl e))).
Proof.
  intros s l Hb H. apply torpn_read in H; [|exact Hb]. destruct H as (f & Rf & P). exists f. split; [exact Rf|]. split; [intros g Rg; eapply read_once; eauto|]. split; [exact P|].
  exact (formula_read s f Hb Rf).
Qed.
Print Assumptions C82_formulas.

(** The stack machine gets through the answer of torpn.Parse with one number left exactly if
    no minus sign stands before a parenthesis with an operator in it, and that number is what
    formula.Parse returns. *)
Theorem C82_machine : forall s l f, Forall is_byte s -> torpn_answers s (inr (inr l)) -> read_as s f ->
  (stacks 0 l 1 <-> plainly_signed f) /\
  forall v, machine l [] [v] <-> plainly_signed f /\ formula_answers s (Ok (inr v)).
Proof.
  intros s l f Hb H Rf. apply torpn_read in H; [|exact Hb]. destruct H as (f' & Rf' & P). rewrite <- (read_once s f f' Hb Rf Rf') in P. clear f' Rf'.
  destruct (formula_read s f Hb Rf) as (V & _ & _). split.
  - split; [apply stacks_plain; exact P|intros Pl; exact (postfix_stacks f l P Pl 0)].
  - intros v. rewrite V. split.
    + intros M. pose proof (stacks_plain f l P (machine_stacks _ _ _ M)) as Pl. split; [exact Pl|]. eapply machine_evals; eauto.
    + intros [Pl E]. eapply machine_value; eauto.
Qed.
Print Assumptions C82_machine.
(** So whatever the machine computes, formula.Parse computes. *)
Theorem C82_same : forall s l v, Forall is_byte s -> torpn_answers s (inr (inr l)) -> machine l [] [v] -> formula_answers s (Ok (inr v)).
Proof.
  intros s l v Hb H M. destruct (C82_formulas s l Hb H) as (f & Rf & _). apply (proj2 (C82_machine s l f Hb H Rf) v) in M. apply M.
Qed.
Print Assumptions C82_same.

(** Every program of the stack machine with numbers above -2^63 is the answer to some text,
    and formula.Parse computes from this text what the machine computes. *)
Theorem C82_every_program : forall l, stacks 0 l 1 -> numbers (fun z => - 2 ^ 63 < z < 2 ^ 63) l ->
  exists s, Forall is_byte s /\ torpn_answers s (inr (inr l)) /\ forall v, formula_answers s (Ok (inr v)) <-> machine l [] [v].
Proof.
  intros l H N. destruct (every_program l H N) as (f & P & Ls & Pl). pose proof (show_bytes f Ls) as Hb. exists (show f). split; [exact Hb|].
  assert (F : formula (show f) f) by (exists [], (show f); split; [reflexivity|]; split; [constructor|]; apply et_term, tt_factor, ft_atom, show_atom; exact Ls).
  pose proof (torpn_postfix (show f) f l Hb F (sound_literals f Ls) P) as T. split; [exact T|]. intros v. apply torpn_read in T as (g & Rg & Pg); [|exact Hb].
  assert (T' : torpn_answers (show f) (inr (inr l))) by (apply torpn_read; eauto). rewrite (proj2 (C82_machine (show f) l g Hb T' Rg) v). pose proof (stacks_plain g l Pg H). tauto.
Qed.
Print Assumptions C82_every_program.
(** With the smallest int64 there are programs that are the answer to no text. *)
Theorem C82_smallest_refuted : exists l v, stacks 0 l 1 /\ numbers int64 l /\ machine l [] [v] /\ forall s, Forall is_byte s -> ~ torpn_answers s (inr (inr l)).
Proof.
  exists [VInt (- 2 ^ 63)], (- 2 ^ 63). split; [repeat constructor|]. split; [intros z [E|[]]; injection E as <-; unfold int64; lia|]. split; [repeat constructor|]. exact no_smallest.
Qed.
Print Assumptions C82_smallest_refuted.

(** Examples: a text with every operator, a sign before a parenthesis, and a division by zero before a syntax error. *)
Definition sample : bytes := bs " 20 - -3*( 4+ 5 )/ 2 - 1".
Ltac by_torpn := apply (parse_stable torpn_prod torpn_good rpn_answer 60%nat); [vm_compute; reflexivity|discriminate].
Ltac by_formula := apply (parse_stable (formula_prod div_panic) formula_good int_answer 60%nat); [vm_compute; reflexivity|discriminate].
Definition sample_program : list value :=
  [VInt 20; VInt (-3); VInt 4; VInt 5; VStr (bs "+"); VStr (bs "*"); VInt 2; VStr (bs "/"); VStr (bs "-"); VInt 1; VStr (bs "-")].
Example C82_sample : Forall is_byte sample /\ torpn_answers sample (inr (inr sample_program)) /\ formula_answers sample (Ok (inr 32)) /\ stacks 0 sample_program 1.
Proof.
  split; [apply byte_list; reflexivity|]. split; [by_torpn|]. split; [by_formula|]. unfold sample_program. repeat first [apply stk_num|apply stk_end|apply (stk_op _ OAdd)|apply (stk_op _ OSub)|apply (stk_op _ OMul)|apply (stk_op _ ODiv)].
Qed.
Example C82_sign : torpn_answers (bs "5-(-(1+2))") (inr (inr [VInt 5; VInt 1; VInt 2; VStr (bs "+"); VStr (bs "-"); VStr (bs "-")])) /\
  formula_answers (bs "5-(-(1+2))") (Ok (inr 8)) /\ ~ stacks 0 [VInt 5; VInt 1; VInt 2; VStr (bs "+"); VStr (bs "-"); VStr (bs "-")] 1.
Proof. split; [by_torpn|]. split; [by_formula|]. intros H. apply stacks_weight in H. cbn in H. lia. Qed.
Example C82_division_first : (exists e, torpn_answers (bs "(1/0") (inl e)) /\ formula_answers (bs "(1/0") (Panic "integer divide by zero").
Proof. split; [eexists; by_torpn|by_formula]. Qed.
Example C82_error : exists e, formula_answers (bs "1+*") (Ok (inl e)).
Proof. eexists. by_formula. Qed.
