(** C85: the space between the tokens of a formula does not matter. *)
From Verif Require Import L_Spacing.

Lemma same_answers s t f g : Forall is_byte s -> Forall is_byte t -> read_as s f -> read_as t g -> alike f g ->
  (forall l, torpn_answers s (inr (inr l)) <-> torpn_answers t (inr (inr l))) /\ (forall v, formula_answers s (Ok (inr v)) <-> formula_answers t (Ok (inr v))) /\
  (formula_answers s (Panic "integer divide by zero") <-> formula_answers t (Panic "integer divide by zero")).
Proof.
  intros Hs Ht Rf Rg A. destruct (formula_read s f Hs Rf) as (V & D & _), (formula_read t g Ht Rg) as (V' & D' & _). destruct (postfix_total f) as (k & Pk). pose proof (alike_postfix f g A k Pk) as Pk'.
  assert (Tk : torpn_answers s (inr (inr k))) by (apply torpn_read; eauto). assert (Tk' : torpn_answers t (inr (inr k))) by (apply torpn_read; eauto).
  assert (No : forall u v, formula_answers u (Ok (inr v)) -> formula_answers u (Panic "integer divide by zero") -> False) by (intros u v X Y; pose proof (finally_det _ _ _ X Y); discriminate).
  split; [|split].
  - intros l. split; intros H; [pose proof (finally_det _ _ _ H Tk) as E|pose proof (finally_det _ _ _ H Tk') as E]; injection E as <-; assumption.
  - intros v. rewrite V, V'. split; [apply alike_evals; exact A|]. intros E. destruct (evals_or_dz f) as [(x & Ex)|X].
    + rewrite (evals_det g v x E (alike_evals f g A x Ex)). exact Ex.
    + exfalso. apply (No t v); [apply V'; exact E|apply D'; eapply alike_dz; eauto].
  - rewrite D, D'. split; [apply alike_dz; exact A|]. intros X. destruct (evals_or_dz f) as [(x & Ex)|Y]; [|exact Y].
    exfalso. apply (No t x); [apply V'; eapply alike_evals; eauto|apply D'; exact X].
Qed.

(** Every text that torpn.Parse accepts is a sequence of numbers, operators and parentheses;
    with any other space between them, none if you like, torpn.Parse and formula.Parse
    answer the same. *)
Theorem C85_spacing : forall s l, Forall is_byte s -> torpn_answers s (inr (inr l)) ->
  exists ws, Forall lexeme ws /\ spelling ws s /\ forall t, spelling ws t ->
    torpn_answers t (inr (inr l)) /\ (forall v, formula_answers s (Ok (inr v)) <-> formula_answers t (Ok (inr v))) /\
    (formula_answers s (Panic "integer divide by zero") <-> formula_answers t (Panic "integer divide by zero")).
Proof.
  intros s l Hs H. pose proof H as H0. apply torpn_read in H as (f & Rf & P); [|exact Hs]. destruct (respelled s f Rf) as (ws & F & Sp & Ag). exists ws. split; [exact F|]. split; [exact Sp|].
  intros t St. destruct (Ag t St) as (g & Rg & A). pose proof (spelling_bytes ws t F St) as Ht. destruct (same_answers s t f g Hs Ht Rf Rg A) as (T & V & D). split; [apply T; exact H0|]. split; assumption.
Qed.
Print Assumptions C85_spacing.

(** So every formula can be written without space. *)
Lemma lexeme_no_space w : lexeme w -> Forall (fun c => 32 < c < 128) w.
Proof.
  intros [(g & d & -> & Sg & Sh)|H].
  - apply Forall_app. split; [destruct Sg as [Sg|[Sg|Sg]]; subst g; repeat constructor; lia|].
    destruct Sh as [(r & -> & F)|(c & r & -> & Hc & F)]; (constructor; [lia|]); eapply Forall_impl; [|exact F|idtac|exact F]; cbn; intros x Hx; unfold dec_digit in *; lia.
  - cbn [In] in H. decompose [or] H; try contradiction; subst w; repeat constructor; lia.
Qed.
Lemma concat_spelled ws : spelled ws (concat ws).
Proof. induction ws as [|w ws IH]; cbn [concat]; [constructor|]. apply (sl_more w [] ws (concat ws)); [constructor|exact IH]. Qed.
Theorem C85_unspaced : forall s l, Forall is_byte s -> torpn_answers s (inr (inr l)) ->
  exists t, (forall x y z, t = x ++ y ++ z -> ~ space_char y) /\ torpn_answers t (inr (inr l)) /\
    (forall v, formula_answers s (Ok (inr v)) <-> formula_answers t (Ok (inr v))) /\
    (formula_answers s (Panic "integer divide by zero") <-> formula_answers t (Panic "integer divide by zero")).
Proof.
  intros s l Hs H. destruct (C85_spacing s l Hs H) as (ws & F & _ & Ag). exists (concat ws). split; [|apply Ag; exists [], (concat ws); split; [reflexivity|]; split; [constructor|apply concat_spelled]].
  intros x y z E Hy. assert (N : Forall (fun c => 32 < c < 128) (concat ws)) by (clear -F; induction F as [|w ws Hw F IH]; cbn [concat]; [constructor|]; apply Forall_app; split; [apply lexeme_no_space; exact Hw|exact IH]).
  rewrite E in N. apply Forall_app in N as [_ N]. apply Forall_app in N as [N _]. unfold space_char in Hy. cbn [In] in Hy.
  repeat (destruct Hy as [<-|Hy]; [inversion N; subst; lia|]). destruct Hy.
Qed.
Print Assumptions C85_unspaced.

(** The tokens are not what one may expect: a sign belongs to the number behind it, and
    with space between the two there may be an error. *)
Ltac by_formula := apply (parse_stable (formula_prod div_panic) formula_good int_answer 60%nat); [vm_compute; reflexivity|discriminate].
Ltac by_torpn := apply (parse_stable torpn_prod torpn_good rpn_answer 60%nat); [vm_compute; reflexivity|discriminate].
Theorem C85_sign_refuted :
  formula_answers (bs "0+-9223372036854775808") (Ok (inr (- 2 ^ 63))) /\ (exists e, formula_answers (bs "0+- 9223372036854775808") (Ok (inl e))) /\
  formula_answers (bs "+2") (Ok (inr 2)) /\ (exists e, formula_answers (bs "+ 2") (Ok (inl e))).
Proof. split; [by_formula|]. split; [eexists; by_formula|]. split; [by_formula|eexists; by_formula]. Qed.
Print Assumptions C85_sign_refuted.

(** The tokens of a text, and two other ways to write them; in one of them a minus sign has
    come to belong to the number. *)
Example C85_example : torpn_answers (bs " ( 1+ 2 )*3 - - 4") (inr (inr [VInt 1; VInt 2; VStr (bs "+"); VInt 3; VStr (bs "*"); VInt (- 4); VStr (bs "-")])) /\
  spelling [bs "("; bs "1"; bs "+"; bs "2"; bs ")"; bs "*"; bs "3"; bs "-"; bs "-"; bs "4"] (bs " ( 1+ 2 )*3 - - 4") /\
  spelling [bs "("; bs "1"; bs "+"; bs "2"; bs ")"; bs "*"; bs "3"; bs "-"; bs "-"; bs "4"] (bs "(1+2)*3--4") /\
  torpn_answers (bs "(1+2)*3--4") (inr (inr [VInt 1; VInt 2; VStr (bs "+"); VInt 3; VStr (bs "*"); VInt (- 4); VStr (bs "-")])).
Proof.
  assert (G : gap [32]) by (apply (gap_more [32] []); [unfold space_char; cbn; tauto|constructor]). split; [by_torpn|]. split; [|split; [|by_torpn]].
  - exists [32], (bs "( 1+ 2 )*3 - - 4"). split; [reflexivity|]. split; [exact G|].
    apply (sl_more (bs "(") [32]); [exact G|]. apply (sl_more (bs "1") []); [constructor|]. apply (sl_more (bs "+") [32]); [exact G|]. apply (sl_more (bs "2") [32]); [exact G|]. apply (sl_more (bs ")") []); [constructor|].
    apply (sl_more (bs "*") []); [constructor|]. apply (sl_more (bs "3") [32]); [exact G|]. apply (sl_more (bs "-") [32]); [exact G|]. apply (sl_more (bs "-") [32]); [exact G|]. apply (sl_more (bs "4") [] [] []); constructor.
  - exists [], (bs "(1+2)*3--4"). split; [reflexivity|]. split; [constructor|]. apply (concat_spelled [bs "("; bs "1"; bs "+"; bs "2"; bs ")"; bs "*"; bs "3"; bs "-"; bs "-"; bs "4"]).
Qed.
