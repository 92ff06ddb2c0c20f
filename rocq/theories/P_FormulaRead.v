(** C62: the formula examples answer every text as the reading of S_FormulaRead says.
    [finally f r] is: with enough fuel, and then always, [f] returns [r]. *)
From Verif Require Import S_ErrText M_Err L_FormulaRead.

(** ** _examples/formula *)
Definition value_reading : bytes -> answer Z -> Prop := reading divides_by_zero evals.
Lemma f_once s a a' : Forall is_byte s -> value_reading s a -> value_reading s a' -> a = a'.
Proof. intros Hb. apply reading_func; auto. exact evals_det. Qed.
(** Every text has exactly one reading. *)
Theorem C62_formula_reading : forall s, Forall is_byte s -> exists a, value_reading s a /\ forall a', value_reading s a' -> a' = a.
Proof. intros s Hb. destruct (formula_gives s Hb) as (a & R & _). exists a. split; auto. intros a' R'. eapply f_once; eauto. Qed.
Print Assumptions C62_formula_reading.

(** Parse returns a value exactly where the reading is that value, *)
Theorem C62_formula_value : forall s v, Forall is_byte s ->
  (finally (fun n => formula_Parse n s) (Ok (inr v)) <-> value_reading s (Value v)).
Proof.
  intros s v Hb. destruct (formula_gives s Hb) as (a & R & G). split; intros H.
  - destruct a as [x|x p q|]; simpl in G; [|destruct G as (lc & _ & G)|]; pose proof (finally_det _ _ _ H G) as E; inversion E; subst. exact R.
  - rewrite (f_once s _ _ Hb R H) in G. exact G.
Qed.
Print Assumptions C62_formula_value.

(** panics exactly where the reading is a division by zero, *)
Theorem C62_formula_panic : forall s why, Forall is_byte s ->
  (finally (fun n => formula_Parse n s) (Panic why) <-> why = "integer divide by zero"%string /\ value_reading s Crash).
Proof.
  intros s why Hb. destruct (formula_gives s Hb) as (a & R & G). split.
  - intros H. destruct a as [x|x p q|]; simpl in G; [|destruct G as (lc & _ & G)|]; pose proof (finally_det _ _ _ H G) as E; inversion E; subst. auto.
  - intros [-> H]. rewrite (f_once s _ _ Hb R H) in G. exact G.
Qed.
Print Assumptions C62_formula_panic.

(** and returns an error exactly where the reading is that error, with the line and the
    column between the two parts of the text. *)
Theorem C62_formula_error : forall s x lc, Forall is_byte s ->
  (finally (fun n => formula_Parse n s) (Ok (inl (mkPE x lc))) <->
   exists p q, value_reading s (Failure x p q) /\ GetLineAndColPosition s (length p) 4 = Ok lc).
Proof.
  intros s x lc Hb. destruct (formula_gives s Hb) as (a & R & G). split.
  - intros H. destruct a as [y|y p q|]; simpl in G; [|destruct G as (lc' & El & G)|]; pose proof (finally_det _ _ _ H G) as E; inversion E; subst. eauto.
  - intros (p & q & H & El). rewrite (f_once s _ _ Hb R H) in G. destruct G as (lc' & El' & G). rewrite El in El'. injection El' as <-. exact G.
Qed.
Print Assumptions C62_formula_error.

(** The whole message, for texts of less than 10^19 bytes. *)
Theorem C62_formula_message : forall s x p q, Forall is_byte s -> Z.of_nat (length s) < 10 ^ 19 -> value_reading s (Failure x p q) ->
  s = p ++ q /\ exists lc t m, finally (fun n => formula_Parse n s) (Ok (inl (mkPE x lc))) /\ says x t /\ message x lc = Some m /\ told t p q m.
Proof.
  intros s x p q Hb L R. split; [inversion R; subst; auto|].
  destruct (formula_gives s Hb) as (a & R' & G). rewrite <- (f_once s _ _ Hb R R') in G. destruct G as (lc & El & G).
  destruct (failure_told _ _ _ _ _ _ lc R L El) as (t & m & T & M & K). exists lc, t, m. auto.
Qed.
Print Assumptions C62_formula_message.

(** ** _examples/torpn *)
Definition postfix_reading : bytes -> answer (list value) -> Prop := reading (fun _ => False) postfix.
Lemma t_once s a a' : Forall is_byte s -> postfix_reading s a -> postfix_reading s a' -> a = a'.
Proof. intros Hb. apply reading_func; auto. exact postfix_det. Qed.
Theorem C62_torpn_reading : forall s, Forall is_byte s ->
  exists a, postfix_reading s a /\ a <> Crash /\ forall a', postfix_reading s a' -> a' = a.
Proof.
  intros s Hb. destruct (torpn_gives s Hb) as (a & R & G). exists a. split; auto. split; [|intros a' R'; eapply t_once; eauto].
  intros ->. inversion R as [| | |b u Hw X]; subst. eapply never_zero; eauto.
Qed.
Print Assumptions C62_torpn_reading.
Theorem C62_torpn_value : forall s l, Forall is_byte s ->
  (finally (fun n => torpn_Parse n s) (Ok (inr (inr l))) <-> postfix_reading s (Value l)).
Proof.
  intros s l Hb. destruct (torpn_gives s Hb) as (a & R & G). split; intros H.
  - destruct a as [x|x p q|]; simpl in G; [|destruct G as (lc & _ & G)|]; pose proof (finally_det _ _ _ H G) as E; inversion E; subst. exact R.
  - rewrite (t_once s _ _ Hb R H) in G. exact G.
Qed.
Print Assumptions C62_torpn_value.
Theorem C62_torpn_error : forall s x lc, Forall is_byte s ->
  (finally (fun n => torpn_Parse n s) (Ok (inl (mkPE x lc))) <->
   exists p q, postfix_reading s (Failure x p q) /\ GetLineAndColPosition s (length p) 4 = Ok lc).
Proof.
  intros s x lc Hb. destruct (torpn_gives s Hb) as (a & R & G). split.
  - intros H. destruct a as [y|y p q|]; simpl in G; [|destruct G as (lc' & El & G)|]; pose proof (finally_det _ _ _ H G) as E; inversion E; subst. eauto.
  - intros (p & q & H & El). rewrite (t_once s _ _ Hb R H) in G. destruct G as (lc' & El' & G). rewrite El in El'. injection El' as <-. exact G.
Qed.
Print Assumptions C62_torpn_error.
(** torpn never panics and never returns an error of another kind. *)
Theorem C62_torpn_other : forall s r, Forall is_byte s -> finally (fun n => torpn_Parse n s) r ->
  (exists l, r = Ok (inr (inr l))) \/ exists x lc, r = Ok (inl (mkPE x lc)).
Proof.
  intros s r Hb H. destruct (torpn_gives s Hb) as ([x|x p q|] & R & G); simpl in G.
  - left. exists x. eapply finally_det; eauto.
  - right. destruct G as (lc & _ & G). exists x, lc. eapply finally_det; eauto.
  - exfalso. inversion R as [| | |b u Hw X]; subst. eapply never_zero; eauto.
Qed.
Print Assumptions C62_torpn_other.
Theorem C62_torpn_message : forall s x p q, Forall is_byte s -> Z.of_nat (length s) < 10 ^ 19 -> postfix_reading s (Failure x p q) ->
  s = p ++ q /\ exists lc t m, finally (fun n => torpn_Parse n s) (Ok (inl (mkPE x lc))) /\ says x t /\ message x lc = Some m /\ told t p q m.
Proof.
  intros s x p q Hb L R. split; [inversion R; subst; auto|].
  destruct (torpn_gives s Hb) as (a & R' & G). rewrite <- (t_once s _ _ Hb R R') in G. destruct G as (lc & El & G).
  destruct (failure_told _ _ _ _ _ _ lc R L El) as (t & m & T & M & K). exists lc, t, m. auto.
Qed.
Print Assumptions C62_torpn_message.

(** ** Examples *)
(** Readings derived by hand: a sign of its own after a minus sign, *)
Ltac no_gap := split; [reflexivity|]; split; [constructor|first [apply solid_nil|apply solid_head; simpl; lia]].
Ltac not_begins := let t := fresh in let E := fresh in intros [t E]; discriminate E.
Ltac no_word := let c := fresh in let u := fresh in let E := fresh in intros c u E; first [discriminate E|injection E as <- _; unfold word_byte; lia].
Example C62_plus : value_reading (bs "-+5") (Value (- 5)).
Proof.
  eapply (rd_value _ _ _ [] (bs "-+5") (FNeg (FLit 5))); [no_gap| |eapply ev_neg; [constructor|split; [unfold int64; lia|exists 0; lia]]].
  eapply (xp_chain _ _ 1 (bs "+5") true (FLit 5) [] (Got [] [])).
  - apply (si_more (bs "+5") [] (bs "+5") 0); [no_gap|]. constructor. not_begins.
  - eapply (pm_number _ _ (bs "+5")); [exists [], []; split; [reflexivity|]; split; [no_gap|]; split; [|no_word]| |unfold int64; lia].
    + exists [43], [53]. split; [reflexivity|]. split; [unfold sign; auto|]. right. exists 53, []. split; [reflexivity|]. split; [lia|constructor].
    + right. left. exists [53]. split; [reflexivity|]. split; [discriminate|]. exists [5]. split; [|reflexivity]. constructor; [|constructor].
      change 53 with (48 + 5). constructor; lia.
  - constructor. intros o. not_begins.
  - constructor; [constructor; constructor|]. intros D. inversion D; subst. match goal with X : divides_by_zero (FLit _) |- _ => inversion X end.
Qed.
(** an operator without operand after signs, *)
Example C62_after_operator : value_reading (bs "1+-") (Failure (Some (EText "Error in the expression after the binary operator")) (bs "1+") (bs "-")).
Proof.
  eapply (rd_bad _ _ _ [] (bs "1+-")); [no_gap| |reflexivity].
  apply (xp_chain _ _ 0 (bs "1+-") true (FLit 1) (bs "+-") (Bad (EText "Error in the expression after the binary operator") (bs "-"))).
  - constructor. not_begins.
  - eapply (pm_number _ _ (bs "1")); [exists (bs "+-"), []; split; [reflexivity|]; split; [no_gap|]; split; [|no_word]| |unfold int64; lia].
    + exists [], [49]. split; [reflexivity|]. split; [unfold sign; auto|]. right. exists 49, []. split; [reflexivity|]. split; [lia|constructor].
    + change (strip (bs "1")) with [49]. left. split; [discriminate|]. exists [1]. split; [|reflexivity]. constructor; [|constructor]. change 49 with (48 + 1). constructor; lia.
  - assert (N : forall s, Forall (fun c => ~ dec_digit c) s -> ~ starts_number s).
    { intros s F (w & t & -> & (x & d & -> & _ & Hd) & _). destruct (int_run d Hd) as (c & r & -> & Hc & _). rewrite <- !app_assoc in F.
      apply Forall_app in F. destruct F as [_ F]. inversion F; subst. contradiction. }
    apply (ot_none _ true OAdd (bs "-") [] (bs "-") 1 []).
    + no_gap.
    + apply oa_signs; [intros _; apply (N [45]); constructor; [unfold dec_digit; lia|constructor]|]. apply (si_more [] [] [] 0); [no_gap|]. constructor. not_begins.
    + split; [not_begins|apply N; constructor].
  - apply (cb_failed _ _ (Bad (EText "Error in the expression after the binary operator") (bs "-"))). exact I.
Qed.
(** and readings found by the model of the code: the smallest int64 is read after an
    operator but not at the start; a division by zero inside a parenthesis comes before
    the missing parenthesis, a missing operand comes before the division. *)
Ltac by_code := apply (parse_stable (formula_prod div_panic) formula_good int_answer 60%nat); [vm_compute; reflexivity|discriminate].
Example C62_smallest : value_reading (bs "1 + -9223372036854775808") (Value (- 9223372036854775807)).
Proof. apply C62_formula_value; [apply byte_list; reflexivity|by_code]. Qed.
Example C62_smallest_first : exists p q, value_reading (bs "-9223372036854775808 + 1") (Failure (Some (ENum "ParseInt" (bs "9223372036854775808") true)) p q).
Proof.
  assert (H : exists lc, finally (fun n => formula_Parse n (bs "-9223372036854775808 + 1")) (Ok (inl (mkPE (Some (ENum "ParseInt" (bs "9223372036854775808") true)) lc)))) by (eexists; by_code).
  destruct H as (lc & H). apply C62_formula_error in H; [|apply byte_list; reflexivity]. destruct H as (p & q & H & _). eauto.
Qed.
Example C62_division_first : value_reading (bs "2*(1/0") Crash.
Proof. apply (C62_formula_panic (bs "2*(1/0") "integer divide by zero"); [apply byte_list; reflexivity|by_code]. Qed.
Example C62_operand_first : exists p q, value_reading (bs "1/0+") (Failure (Some (EText "Error in the expression after the binary operator")) p q).
Proof.
  assert (H : exists lc, finally (fun n => formula_Parse n (bs "1/0+")) (Ok (inl (mkPE (Some (EText "Error in the expression after the binary operator")) lc)))) by (eexists; by_code).
  destruct H as (lc & H). apply C62_formula_error in H; [|apply byte_list; reflexivity]. destruct H as (p & q & H & _). eauto.
Qed.
