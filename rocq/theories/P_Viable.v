(** C86: where an error is reported the text can be completed. *)
From Verif Require Import L_Viable.

Lemma error_reading s x lc : Forall is_byte s -> torpn_answers s (inl (mkPE x lc)) ->
  exists p q, reading (fun _ => False) postfix s (Failure x p q) /\ GetLineAndColPosition s (length p) 4 = Ok lc.
Proof.
  intros Hb H. destruct (torpn_gives s Hb) as (a & R & G). destruct a as [v|y p q|]; simpl in G; [|destruct G as (lc' & El & G)|]; pose proof (finally_det _ _ _ H G) as E; inversion E; subst. eauto.
Qed.
Lemma completed_bytes p y n : Forall is_byte (p ++ y) -> Forall is_byte (p ++ one n).
Proof.
  intros H. apply Forall_app in H as [H _]. apply Forall_app. split; [exact H|]. constructor; [unfold is_byte; lia|]. induction n; cbn [repeat]; constructor; [unfold is_byte; lia|assumption].
Qed.
(** Every error but one for a literal has a place in the text, and what stands before this
    place is the beginning of a formula: one more operand and closing parentheses make it
    one. *)
Theorem C86_torpn : forall s e lc, Forall is_byte s -> torpn_answers s (inl (mkPE (Some e) lc)) -> (forall who txt range, e <> ENum who txt range) ->
  exists p q t l, s = p ++ q /\ GetLineAndColPosition s (length p) 4 = Ok lc /\ completion t /\ torpn_answers (p ++ t) (inr (inr l)).
Proof.
  intros s e lc Hb H Ne. destruct (error_reading s _ lc Hb H) as (p & q & R & L). pose proof R as R0. apply error_viable in R as (p0 & y & n & f & E & A & Rf).
  assert (Ey : y = q) by (destruct e; cbn [about] in A; auto; exfalso; eapply Ne; reflexivity). subst y.
  assert (Es : s = p ++ q) by (clear E; inversion R0; assumption). rewrite Es in E. apply app_inv_tail in E. subst p0 s. destruct (postfix_total f) as (l & Pl). exists p, q, (one n), l. split; [reflexivity|]. split; [exact L|]. split; [exists n; reflexivity|].
  apply torpn_read; [eapply completed_bytes; exact Hb|eauto].
Qed.
Print Assumptions C86_torpn.
(** The error for a literal that does not fit into 64 bits has its place behind the literal;
    what stands before the literal can be completed. *)
Theorem C86_literal : forall s who txt range lc, Forall is_byte s -> torpn_answers s (inl (mkPE (Some (ENum who txt range)) lc)) ->
  exists p y q t l, s = (p ++ y) ++ q /\ GetLineAndColPosition s (length (p ++ y)) 4 = Ok lc /\ too_large y /\ completion t /\ torpn_answers (p ++ t) (inr (inr l)).
Proof.
  intros s who txt range lc Hb H. destruct (error_reading s _ lc Hb H) as (p & q & R & L). pose proof R as R0. apply error_viable in R as (p0 & y & n & f & E & A & Rf). cbn [about] in A. destruct A as (x & -> & Tx).
  assert (Es : s = p ++ q) by (clear E; inversion R0; assumption). rewrite Es, app_assoc in E. apply app_inv_tail in E. subst p s. destruct (postfix_total f) as (l & Pl). exists p0, x, q, (one n), l. split; [reflexivity|]. split; [exact L|]. split; [exact Tx|]. split; [exists n; reflexivity|].
  apply torpn_read; [rewrite <- app_assoc in Hb; eapply completed_bytes; exact Hb|eauto].
Qed.
Print Assumptions C86_literal.
(** And "Parse failed" means that the beginning of the text is a formula and more follows. *)
Theorem C86_parse_failed : forall s lc, Forall is_byte s -> torpn_answers s (inl (mkPE None lc)) -> exists p q l, s = p ++ q /\ q <> [] /\ torpn_answers p (inr (inr l)).
Proof.
  intros s lc Hb H. destruct (error_reading s _ lc Hb H) as (p & q & R & L). apply proper_prefix in R as (p0 & y & f & -> & N & Rf). destruct (postfix_total f) as (l & Pl). exists p0, y, l. split; [reflexivity|]. split; [exact N|].
  apply torpn_read; [apply Forall_app in Hb; apply Hb|eauto].
Qed.
Print Assumptions C86_parse_failed.
(** The same for formula.Parse, which may also divide by zero. *)
Definition formula_or_zero (s : bytes) : Prop := (exists v, formula_answers s (Ok (inr v))) \/ formula_answers s (Panic "integer divide by zero").
Lemma torpn_formula s l : Forall is_byte s -> torpn_answers s (inr (inr l)) -> formula_or_zero s.
Proof.
  intros Hb H. apply torpn_read in H as (f & Rf & _); [|exact Hb]. destruct (formula_read s f Hb Rf) as (V & D & _). destruct (evals_or_dz f) as [(v & E)|Z]; [left; exists v; apply V; exact E|right; apply D; exact Z].
Qed.
Lemma same_error s e : Forall is_byte s -> formula_answers s (Ok (inl e)) -> torpn_answers s (inl e).
Proof.
  intros Hb H. destruct (formula_gives s Hb) as (a & R & G), (torpn_gives s Hb) as (a' & R' & G').
  assert (A : exists x p q, a = Failure x p q) by (destruct a as [v|x p q|]; simpl in G; [|eauto|]; pose proof (finally_det _ _ _ H G); discriminate). destruct A as (x & p & q & ->).
  assert (T : reading (fun _ => False) postfix s (Failure x p q)).
  { inversion R; subst; [eapply rd_more|eapply rd_bad]; eauto; (eapply (proj1 (proj2 (unstopped divides_by_zero))); [eassumption|discriminate]). }
  rewrite (reading_func _ postfix s _ _ postfix_det Hb R' T) in G'. destruct G as (lc & El & G), G' as (lc' & El' & G'). rewrite El in El'. injection El' as <-.
  pose proof (finally_det _ _ _ H G) as E. injection E as ->. exact G'.
Qed.
Theorem C86_formula : forall s x lc, Forall is_byte s -> formula_answers s (Ok (inl (mkPE x lc))) ->
  match x with
  | None => exists p q, s = p ++ q /\ q <> [] /\ formula_or_zero p
  | Some (ENum _ _ _) => exists p y q t, s = (p ++ y) ++ q /\ GetLineAndColPosition s (length (p ++ y)) 4 = Ok lc /\ too_large y /\ completion t /\ formula_or_zero (p ++ t)
  | Some _ => exists p q t, s = p ++ q /\ GetLineAndColPosition s (length p) 4 = Ok lc /\ completion t /\ formula_or_zero (p ++ t)
  end.
Proof.
  intros s x lc Hb H. apply same_error in H; [|exact Hb].
  assert (B : forall p t, Forall is_byte p -> completion t -> Forall is_byte (p ++ t)) by (intros p t Hp (n & ->); eapply (completed_bytes p []); rewrite app_nil_r; exact Hp).
  assert (K : forall e, x = Some e -> (forall who txt range, e <> ENum who txt range) -> exists p q t, s = p ++ q /\ GetLineAndColPosition s (length p) 4 = Ok lc /\ completion t /\ formula_or_zero (p ++ t)).
  { intros e -> Ne. destruct (C86_torpn s e lc Hb H Ne) as (p & q & t & l & -> & L & C & T). exists p, q, t. split; [reflexivity|]. split; [exact L|]. split; [exact C|]. eapply torpn_formula; [|exact T]. apply B; [apply Forall_app in Hb; apply Hb|exact C]. }
  destruct x as [[m|ty|who txt range|n]|]; try (eapply K; [reflexivity|discriminate]).
  - destruct (C86_literal s who txt range lc Hb H) as (p & y & q & t & l & -> & L & Ty & C & T). exists p, y, q, t. split; [reflexivity|]. split; [exact L|]. split; [exact Ty|]. split; [exact C|]. eapply torpn_formula; [|exact T].
    apply B; [|exact C]. apply Forall_app in Hb as [Hb _]. apply Forall_app in Hb. apply Hb.
  - destruct (C86_parse_failed s lc Hb H) as (p & q & l & -> & N & T). exists p, q. split; [reflexivity|]. split; [exact N|]. eapply torpn_formula; [|exact T]. apply Forall_app in Hb. apply Hb.
Qed.
Print Assumptions C86_formula.

(** The place is not always the last one that can be completed: an unclosed parenthesis is
    reported behind the parenthesis, although all of the text can be completed. *)
Ltac by_formula := apply (parse_stable (formula_prod div_panic) formula_good int_answer 60%nat); [vm_compute; reflexivity|discriminate].
Ltac by_torpn := apply (parse_stable torpn_prod torpn_good rpn_answer 60%nat); [vm_compute; reflexivity|discriminate].
Theorem C86_last_refuted : exists lc, torpn_answers (bs "(12") (inl (mkPE (Some (EText "Error in grouped expression")) lc)) /\ GetLineAndColPosition (bs "(12") 1 4 = Ok lc /\
  torpn_answers (bs "(12" ++ bs ")") (inr (inr [VInt 12])).
Proof. eexists. split; [by_torpn|]. split; [vm_compute; reflexivity|by_torpn]. Qed.
Print Assumptions C86_last_refuted.

(** A text with each kind of error, and the completed beginnings. *)
Example C86_operand_example : exists lc, torpn_answers (bs "2*(1- (-") (inl (mkPE (Some (EText "Value required")) lc)) /\ GetLineAndColPosition (bs "2*(1- (-") 8 4 = Ok lc /\
  torpn_answers (bs "2*(1- (-" ++ bs "1))") (inr (inr [VInt 2; VInt 1; VInt (- 1); VStr (bs "-"); VStr (bs "*")])).
Proof. eexists. split; [by_torpn|]. split; [vm_compute; reflexivity|by_torpn]. Qed.
Example C86_literal_example : exists lc, torpn_answers (bs "(1+9223372036854775808 )") (inl (mkPE (Some (ENum "ParseInt" (bs "9223372036854775808") true)) lc)) /\
  GetLineAndColPosition (bs "(1+9223372036854775808 )") (length (bs "(1+" ++ bs "9223372036854775808 ")) 4 = Ok lc /\ torpn_answers (bs "(1+" ++ bs "1)") (inr (inr [VInt 1; VInt 1; VStr (bs "+")])).
Proof. eexists. split; [by_torpn|]. split; [vm_compute; reflexivity|by_torpn]. Qed.
Example C86_parse_failed_example : exists lc, torpn_answers (bs "1 + 2 3") (inl (mkPE None lc)) /\ torpn_answers (bs "1 + 2 ") (inr (inr [VInt 1; VInt 2; VStr (bs "+")])).
Proof. eexists. split; by_torpn. Qed.
