(** C76: rewriting grammars by laws. *)
From Verif Require Import L_Laws P_Core.

(** A grammar and its rules can be rewritten by the laws, anywhere and any number of times: every call gives the same answer. *)
Theorem C76_refactoring : forall env env' e e' c,
  (forall k, peg_gram (env k)) -> (forall k, peg_gram (env' k)) -> peg_gram e -> peg_gram e' ->
  (forall k, rewrites (env k) (env' k)) -> rewrites e e' -> c_st c = Matched -> same_answers env e env' e' c.
Proof. exact refactored_run. Qed.
Print Assumptions C76_refactoring.
(** A rule can be written in place of Indirect. *)
Theorem C76_inline : forall env k c, (forall j, peg_gram (env j)) -> c_st c = Matched -> same_answers env (EIndirect k) env (env k) c.
Proof.
  intros env k c He Hc r. set (w := mkW (c_str c) (c_slice c) (c_tag c) env).
  pose proof (peg_adequate w (EIndirect k) c He I (conj eq_refl (conj eq_refl eq_refl)) Hc r) as A.
  pose proof (peg_adequate w (env k) c He (He k) (conj eq_refl (conj eq_refl eq_refl)) Hc r) as A'.
  cbn [w w_env] in A, A'. split; intros H.
  - apply A'. apply A in H. inversion H; subst. assumption.
  - apply A. apply A' in H. apply peg_indirect. exact H.
Qed.
Print Assumptions C76_inline.

Lemma rs_refl es : rewrites_seq es es.
Proof. induction es; constructor; auto. apply rw_refl. Qed.
Lemma rs_app es a b : rewrites_seq a b -> rewrites_seq (es ++ a) (es ++ b).
Proof. intros H. induction es; [exact H|]. cbn. constructor; [apply rw_refl|assumption]. Qed.
(** Repetitions with the names of the documentation. *)
Theorem C76_repetitions : forall es,
  rewrites (EOnce es) (EFlatGroup es) /\
  rewrites (EZeroOrOnce es) (EFirst [EFlatGroup es; EFlatGroup []]) /\
  rewrites (EZeroOrMore es) (EFirst [EFlatGroup (es ++ [EZeroOrMore es]); EFlatGroup []]) /\
  rewrites (EOneOrMore es) (EFlatGroup (es ++ [EZeroOrMore es])).
Proof.
  intros es.
  assert (N : forall m, m <= 0 -> rewrites (EFlatGroup (es ++ [ERepeat (mkTimes m 0) es])) (EFlatGroup es)).
  { intros m L. apply rw_flat. apply rs_trans with (es ++ []); [|rewrite app_nil_r; apply rs_refl]. apply rs_app. apply rs_trans with [EFlatGroup []].
    - constructor; [|constructor]. apply rw_law, law_repeat_none; [exact L|reflexivity].
    - apply (rs_flat [] []). }
  split; [|split; [|split]].
  - apply rw_trans with (EFlatGroup (es ++ [ERepeat (mkTimes 0 0) es])); [|apply N; lia]. apply rw_law. apply (law_repeat_more qtyOnce); cbn; lia.
  - apply rw_trans with (EFirst [EFlatGroup (es ++ [ERepeat (mkTimes (-1) 0) es]); EFlatGroup []]).
    + apply rw_law. apply (law_repeat_option qtyZeroOrOnce); cbn; lia.
    + apply rw_first. constructor; [apply N; lia|]. constructor; [apply rw_refl|constructor].
  - (* Min counts on below zero, which makes no difference *)
    assert (B : forall m, m <= 0 -> rewrites (ERepeat (mkTimes m (-1)) es) (EFirst [EFlatGroup (es ++ [ERepeat (mkTimes (m - 1) (-1)) es]); EFlatGroup []])).
    { intros m L. apply rw_law. apply (law_repeat_option (mkTimes m (-1))); cbn; lia. }
    apply rw_trans with (EFirst [EFlatGroup (es ++ [ERepeat (mkTimes (-1) (-1)) es]); EFlatGroup []]); [apply B; lia|].
    apply rw_first. constructor; [|constructor; [apply rw_refl|constructor]]. apply rw_flat, rs_app. constructor; [|constructor].
    apply rw_law. apply law_repeat_same; cbn; lia.
  - apply rw_law. apply (law_repeat_more qtyOneOrMoreTimes); cbn; lia.
Qed.
Print Assumptions C76_repetitions.

(** ** Examples *)
(** A rule that refers to itself, written with First in place of ZeroOrMoreTimes. *)
Definition parens2 : pexp := EFlatGroup [SSeq (bs "("); EFirst [EFlatGroup [EIndirect 0; EZeroOrMore [EIndirect 0]]; EFlatGroup []]; SSeq (bs ")")].
Example C76_parens : (forall k, peg_gram (parens_env k)) /\ peg_gram parens2 /\ rewrites parens parens2 /\
  forall s, same_answers parens_env parens (fun _ => parens2) parens2 (new_string_ctx s).
Proof.
  assert (G : peg_gram parens2) by (unfold parens2, SSeq, EZeroOrMore; gram_tac).
  assert (R : rewrites parens parens2).
  { apply rw_flat. constructor; [apply rw_refl|]. constructor; [|apply rs_refl]. apply (C76_repetitions [EIndirect 0]). }
  split; [exact parens_gram|]. split; [exact G|]. split; [exact R|]. intros s. apply C76_refactoring; auto; try exact parens_gram. exact (parens_gram 0).
Qed.
(** 1.5 or 15: the common beginning is read once. *)
Definition point : pexp := EFirst [EFlatGroup [digits_int; SSeq (bs "."); digits_int]; EFlatGroup [digits_int]].
Definition point2 : pexp := EFlatGroup [digits_int; EZeroOrOnce [SSeq (bs "."); digits_int]].
Example C76_point : peg_gram point /\ peg_gram point2 /\ rewrites point point2 /\
  exists o, run no_env 20 point2 (new_string_ctx (bs "15x")) = Ok (o, None) /\ c_st o = Matched /\ c_pos o = 2%nat.
Proof.
  split; [unfold point, digits_int, SSeq, EOneOrMore, SNumber, ParseInt; gram_tac|].
  split; [unfold point2, digits_int, SSeq, EZeroOrOnce, EOneOrMore, SNumber, ParseInt; gram_tac|]. split.
  - apply rw_trans with (EFirst [EFlatGroup [digits_int; EFirst [EFlatGroup [SSeq (bs "."); digits_int]; EFlatGroup []]]]).
    + apply rw_first. apply (ra_factor digits_int [SSeq (bs "."); digits_int] [] []). exact digits_gram.
    + apply rw_trans with (EFlatGroup [digits_int; EFirst [EFlatGroup [SSeq (bs "."); digits_int]; EFlatGroup []]]); [apply rw_law, law_first_one|].
      apply rw_flat. constructor; [apply rw_refl|]. constructor; [|constructor]. apply rw_sym. apply (C76_repetitions [SSeq (bs "."); digits_int]).
  - eexists. split; [vm_compute; reflexivity|]. split; reflexivity.
Qed.

(** ** What is not a law *)
(** Two calls that answer differently. *)
Lemma differ n n' e e' c o o' err err' r :
  peg_gram e -> peg_gram e' -> run no_env n e c = Ok (o, err) -> run no_env n' e' c = Ok (o', err') ->
  returns (c_stack c) o err r -> ~ returns (c_stack c) o' err' r -> ~ same_answers no_env e no_env e' c.
Proof.
  intros G G' R R' A N H. destruct (proj1 (H r)) as (m & o2 & err2 & R2 & A2); [eauto|].
  assert (E : Ok (o', err') = Ok (o2, err2)).
  { rewrite <- R', <- R2. apply run_det; [intros k; apply peg_gram_mono, no_env_peg|apply peg_gram_mono; exact G'|rewrite R'; discriminate|rewrite R2; discriminate]. }
  injection E as -> ->. exact (N A2).
Qed.
(** The order of alternatives matters. *)
Theorem C76_first_order_refuted : exists a b c, peg_gram (EFirst [a; b]) /\ peg_gram (EFirst [b; a]) /\ c_st c = Matched /\
  ~ same_answers no_env (EFirst [a; b]) no_env (EFirst [b; a]) c.
Proof.
  exists (SSeq (bs "a")), (SSeq (bs "ab")), (new_string_ctx (bs "ab")). 
  split; [unfold SSeq; gram_tac|]; split; [unfold SSeq; gram_tac|]; split; [reflexivity|].
  eapply (differ 9 9 _ _ _ _ _ _ _ (RSucc (mkSP 1 1) _)).
  1,2: unfold SSeq; gram_tac. 1,2: vm_compute; reflexivity. 1: cbn; repeat split. cbn. intros (_ & _ & X & _). discriminate X.
Qed.
Print Assumptions C76_first_order_refuted.
(** What follows a First cannot be moved into its alternatives: an alternative that has matched is not left again. *)
Theorem C76_distribute_refuted : exists a b d c, let e := EFlatGroup [EFirst [a; b]; d] in
  let e' := EFirst [EFlatGroup [a; d]; EFlatGroup [b; d]] in peg_gram e /\ peg_gram e' /\ c_st c = Matched /\ ~ same_answers no_env e no_env e' c.
Proof.
  exists (SSeq (bs "a")), (SSeq (bs "ab")), (SSeq (bs "c")), (new_string_ctx (bs "abc")). cbv zeta.
  split; [unfold SSeq; gram_tac|]; split; [unfold SSeq; gram_tac|]; split; [reflexivity|].
  eapply (differ 9 9 _ _ _ _ _ _ _ RFail).
  1,2: unfold SSeq; gram_tac. 1,2: vm_compute; reflexivity. 1: cbn; repeat split. cbn. intros (_ & X). discriminate X.
Qed.
Print Assumptions C76_distribute_refuted.
(** First without alternatives does not fail: it matches nothing, so it is not Unmatched. *)
Theorem C76_first_none_refuted : exists c, peg_gram (EFirst []) /\ peg_gram EUnmatched /\ c_st c = Matched /\ ~ same_answers no_env (EFirst []) no_env EUnmatched c.
Proof.
  exists (new_string_ctx (bs "a")). split; [gram_tac|]; split; [unfold EUnmatched; gram_tac|]; split; [reflexivity|].
  eapply (differ 9 9 _ _ _ _ _ _ _ (RSucc (mkSP 0 0) [])).
  1: gram_tac. 1: unfold EUnmatched; gram_tac. 1,2: vm_compute; reflexivity. 1: cbn; repeat split. cbn. intros (_ & X & _). discriminate X.
Qed.
Print Assumptions C76_first_none_refuted.
(** Zero at the end of a sequence is no neutral element: the length of the match becomes that of Zero. *)
Theorem C76_zero_refuted : exists e c, peg_gram e /\ peg_gram (EFlatGroup [e; EZero []]) /\ c_st c = Matched /\
  ~ same_answers no_env e no_env (EFlatGroup [e; EZero []]) c.
Proof.
  exists (SSeq (bs "a")), (new_string_ctx (bs "a")). split; [unfold SSeq; gram_tac|]; split; [unfold SSeq, EZero; gram_tac|]; split; [reflexivity|].
  eapply (differ 9 9 _ _ _ _ _ _ _ (RSucc (mkSP 1 1) _)).
  1: unfold SSeq; gram_tac. 1: unfold SSeq, EZero; gram_tac. 1,2: vm_compute; reflexivity. 1: cbn; repeat split. cbn. intros (_ & _ & X & _). discriminate X.
Qed.
Print Assumptions C76_zero_refuted.
(** A rule cannot be replaced by anything that is equivalent given the rules as they were: here by a reference to itself. *)
Theorem C76_fold_refuted : exists env env' e, (forall k, peg_gram (env k)) /\ (forall k, peg_gram (env' k)) /\ peg_gram e /\
  (forall k c, c_st c = Matched -> same_answers env (env k) env (env' k) c) /\
  exists c, c_st c = Matched /\ ~ same_answers env e env' e c.
Proof.
  exists (fun _ => SSeq [97]), (fun k => EIndirect k), (EIndirect 0).
  assert (G : forall k : nat, peg_gram (SSeq [97])) by (intros _; unfold SSeq; gram_tac).
  split; [exact G|]. split; [intros k; exact I|]. split; [exact I|]. split.
  - intros k c Hc r. symmetry. apply (C76_inline (fun _ => SSeq [97]) k c G Hc r).
  - exists (new_string_ctx [97]). split; [reflexivity|]. intros H.
    assert (X : exists r n o err, run (fun _ => SSeq [97]) n (EIndirect 0) (new_string_ctx [97]) = Ok (o, err) /\ returns [] o err r).
    { eexists (RSucc (mkSP 1 1) _), 3%nat, _, _. split; [vm_compute; reflexivity|]. cbn. repeat split. }
    destruct X as [r X]. apply (proj1 (H r)) in X. destruct X as (n & o & err & E & _).
    assert (F : forall m k c, run_env (fun k => EIndirect k) m k c = Fuel).
    { induction m as [|m IH]; intros k c; [reflexivity|]. cbn [run_env denote]. unfold Indirect, light_base_parser. rewrite IH. reflexivity. }
    unfold run in E. cbn [denote] in E. unfold Indirect, light_base_parser in E. rewrite F in E. discriminate.
Qed.
Print Assumptions C76_fold_refuted.
(** If takes its first parser when the flag holds and its second one otherwise, whatever they are. *)
Theorem C76_if : forall env n t f c, run env n (EIf true t f) c = run env n t c /\ run env n (EIf false t f) c = run env n f c.
Proof. intros. split; reflexivity. Qed.
Print Assumptions C76_if.
Example C76_if_differ : run no_env 9 (EIf true (SSeq (bs "a")) EUnmatched) (new_string_ctx (bs "a")) <> run no_env 9 (EIf false (SSeq (bs "a")) EUnmatched) (new_string_ctx (bs "a")).
Proof. vm_compute. discriminate. Qed.
