(** Lemmas: AstSlice.ItemEquals and S_Equal. *)
From Verif Require Export S_Equal L_Obj.

Lemma list_deep {A} (eqb : A -> A -> bool) (R : A -> A -> Prop) l : Forall (fun x => forall y, eqb x y = true <-> R x y) l ->
  forall l', list_eqb eqb l l' = true <-> Forall2 R l l'.
Proof.
  induction 1 as [|x l H F IH]; intros [|y l']; cbn.
  - split; auto.
  - split; [discriminate|intros K; inversion K].
  - split; [discriminate|intros K; inversion K].
  - rewrite andb_true_iff, H, IH. split; [intros []; constructor; auto|intros K; inversion K; auto].
Qed.
Lemma deeply_asts_iff l l' : deeply_asts l l' <-> Forall2 deeply_ast l l'.
Proof. split; [induction 1; constructor; auto|induction 1; constructor; auto]. Qed.
Lemma deeply_values_iff l l' : deeply_values l l' <-> Forall2 deeply l l'.
Proof. split; [induction 1; constructor; auto|induction 1; constructor; auto]. Qed.
Lemma list_eq {A} (eqb : A -> A -> bool) l l' : (forall x y, eqb x y = true <-> x = y) -> (list_eqb eqb l l' = true <-> l = l').
Proof.
  intros H. rewrite (list_deep eqb eq) by (apply Forall_all; intros; apply H). split; [induction 1; congruence|]. intros <-. induction l; constructor; auto.
Qed.
Lemma deep_iff : (forall v w, deep_eqb v w = true <-> deeply v w) /\ (forall a b, deep_eqb_ast a b = true <-> deeply_ast a b).
Proof.
  apply ast_value_ind.
  all: try (intros z [| | | | | | | | | | | | | |]; cbn [deep_eqb]; try (split; [discriminate|intros K; inversion K; fail]);
            rewrite ?Z.eqb_eq, ?Nat.eqb_eq, ?Bool.eqb_true_iff, ?bytes_eqb_iff; split; [intros; subst; constructor; auto|intros K; inversion K; auto]; fail).
  - intros [| | | | | | | | | | | | | |]; cbn [deep_eqb]; (split; [first [constructor|discriminate]|intros K; inversion K; auto]).
  - intros a d Ha Hd [| | | | | | |a' d'| | | | | | |]; cbn [deep_eqb]; try (split; [discriminate|intros K; inversion K; fail]).
    rewrite andb_true_iff, Ha, Hd. split; [intros []; constructor; auto|intros K; inversion K; auto].
  - intros l Hl [| | | | | | | |l'| | | | | |]; cbn [deep_eqb]; try (split; [discriminate|intros K; inversion K; fail]).
    rewrite (list_deep _ deeply_ast) by exact Hl. rewrite <- deeply_asts_iff. split; [constructor; auto|intros K; inversion K; auto].
  - intros a Ha [| | | | | | | | |a'| | | | |]; cbn [deep_eqb]; try (split; [discriminate|intros K; inversion K; fail]).
    rewrite Ha. split; [constructor; auto|intros K; inversion K; auto].
  - intros l Hl [| | | | | | | | | |l'| | | |]; cbn [deep_eqb]; try (split; [discriminate|intros K; inversion K; fail]).
    rewrite (list_deep _ deeply) by exact Hl. rewrite <- deeply_values_iff. split; [constructor; auto|intros K; inversion K; auto].
  - intros l [| | | | | | | | | | |l'| | |]; cbn [deep_eqb]; try (split; [discriminate|intros K; inversion K; fail]).
    rewrite list_eq by apply bytes_eqb_iff. split; [intros ->; constructor|intros K; inversion K; auto].
  - intros l [| | | | | | | | | | | |l'| |]; cbn [deep_eqb]; try (split; [discriminate|intros K; inversion K; fail]).
    rewrite list_eq by (intros; apply list_eq; apply bytes_eqb_iff). split; [intros ->; constructor|intros K; inversion K; auto].
  - intros n [| | | | | | | | | | | | | |]; cbn [deep_eqb]; split; try discriminate; intros K; inversion K.
  - intros o cls ty v p Hv [o' cls' ty' v' p']. cbn [deep_eqb_ast]. rewrite !andb_true_iff, Z.eqb_eq, String.eqb_eq, asttype_eqb_eq, sp_eqb_eq, Hv.
    split; [intros ((((-> & ->) & ->) & D) & ->); constructor; auto|intros K; inversion K; subst; auto].
Qed.
Lemma same_iff a : forall b, ast_equals a b = Some true <-> same_ast a b.
Proof.
  induction a as [o cls ty v p Hv] using ast_tree_ind. intros [o' cls' ty' v' p']. rewrite equals_true. cbn [a_cls a_ty a_val].
  split.
  - intros (-> & -> & H).
    assert (D : deep_eqb v v' = true -> deeply v v') by apply deep_iff.
    destruct ty'; try (constructor; [discriminate|discriminate|auto]).
    + destruct v, v'; try contradiction. destruct H as [H1 H2], Hv as [V1 V2]. constructor; [apply V1|apply V2]; auto.
    + destruct v as [| | | | | | | |l| | | | | |], v' as [| | | | | | | |l'| | | | | |]; try contradiction. constructor. cbn [subs] in Hv. clear - H Hv. revert Hv. induction H; intros Hv; inversion Hv; subst; constructor; auto. apply H3. exact H.
  - intros S. inversion S as [? ? ? ? ? a b a' b' S1 S2|? ? ? ? ? l l' F|? ? ? ? ? ? ? ? N1 N2 D]; subst; (split; [reflexivity|]); (split; [reflexivity|]).
    + destruct Hv as [V1 V2]. split; [apply V1|apply V2]; auto.
    + cbn [subs] in Hv. clear - F Hv. revert Hv. induction F; intros Hv; inversion Hv; subst; constructor; auto. apply H2. exact H.
    + destruct ty'; try contradiction; apply deep_iff; auto.
Qed.
Lemma and_then_none a b : and_then a b = None <-> a = None \/ (a = Some true /\ b = None).
Proof. destruct a as [[|]|]; cbn; intuition congruence. Qed.
Lemma loop_none l : Forall (fun x => forall y, ast_equals x y = None <-> bad_pair x y) l -> forall l', length l = length l' ->
  (eq_loop ast_equals l l' = None <-> exists l1 a r l1' a' r', l = l1 ++ a :: r /\ l' = l1' ++ a' :: r' /\ Forall2 same_ast l1 l1' /\ bad_pair a a' /\ length r = length r').
Proof.
  induction 1 as [|x l Hx Hl IH]; intros [|y l'] L; try discriminate.
  - cbn. split; [discriminate|]. intros (l1 & a & r & l1' & a' & r' & E & _). destruct l1; discriminate.
  - cbn [eq_loop]. change (and_then (ast_equals x y) (eq_loop ast_equals l l') = None <-> exists l1 a r l1' a' r', x :: l = l1 ++ a :: r /\ y :: l' = l1' ++ a' :: r' /\ Forall2 same_ast l1 l1' /\ bad_pair a a' /\ length r = length r').
    rewrite and_then_none, same_iff, Hx, IH by (cbn in L; lia). split.
    + intros [B|(S & l1 & a & r & l1' & a' & r' & -> & -> & F & B & R)].
      * exists [], x, l, [], y, l'. repeat split; auto.
      * exists (x :: l1), a, r, (y :: l1'), a', r'. repeat split; auto.
    + intros (l1 & a & r & l1' & a' & r' & E & E' & F & B & R). inversion F as [|u u' m m' F1 F2]; subst.
      * injection E as <- <-. injection E' as <- <-. left. exact B.
      * injection E as <- ->. injection E' as <- ->. right. split; [exact F1|]. exists m, a, r, m', a', r'. repeat split; auto.
Qed.
Lemma bad_iff a : forall b, ast_equals a b = None <-> bad_pair a b.
Proof.
  induction a as [o cls ty v p Hv] using ast_tree_ind. intros [o' cls' ty' v' p']. cbn [ast_equals].
  destruct (String.eqb cls cls' && asttype_eqb ty ty')%bool eqn:E.
  2:{ split; [discriminate|]. intros B. exfalso. assert (String.eqb cls cls' && asttype_eqb ty ty' = true)%bool; [|congruence].
      rewrite andb_true_iff, String.eqb_eq, asttype_eqb_eq. inversion B; auto. }
  rewrite andb_true_iff, String.eqb_eq, asttype_eqb_eq in E. destruct E as [<- <-].
  destruct ty; try (split; [discriminate|intros B; inversion B; fail]).
  - assert (K : (exists a b a' b', v = VCons a b /\ v' = VCons a' b') \/ ~ (exists a b a' b', v = VCons a b /\ v' = VCons a' b')).
    { destruct v; try (right; intros (? & ? & ? & ? & ? & ?); discriminate). destruct v'; try (right; intros (? & ? & ? & ? & ? & ?); discriminate). left. eauto 6. }
    destruct K as [(a & b & a' & b' & -> & ->)|K].
    + cbn [subs] in Hv. destruct Hv as [V1 V2]. rewrite and_then_none, same_iff, V1, V2. split.
      * intros [B|[S B]]; [apply bp_car|apply bp_cdr]; auto.
      * intros B. inversion B; subst; [|left; auto|right; auto]. exfalso. match goal with H : ~ _ |- _ => apply H end. eauto 6.
    + split; [|intros _; destruct v; auto; destruct v'; auto; exfalso; apply K; eauto 6]. intros _. apply bp_cons. exact K.
  - assert (K : (exists l l', v = VAsts l /\ v' = VAsts l') \/ ~ (exists l l', v = VAsts l /\ v' = VAsts l')).
    { destruct v; try (right; intros (? & ? & ? & ?); discriminate). destruct v'; try (right; intros (? & ? & ? & ?); discriminate). left. eauto. }
    destruct K as [(l & l' & -> & ->)|K].
    + cbn [subs] in Hv. destruct (Nat.eqb_spec (length l) (length l')) as [L|L].
      * rewrite loop_none by auto. split.
        -- intros (l1 & a & r & l1' & a' & r' & -> & -> & F & B & R). apply bp_item; auto.
        -- intros B. inversion B as [|? ? ? ? ? ? ? N| | |? ? ? ? ? l1 a r l1' a' r' F B1 R]; subst; [exfalso; apply N; eauto|]. exists l1, a, r, l1', a', r'. repeat split; auto.
      * split; [discriminate|]. intros B. inversion B as [|? ? ? ? ? ? ? N| | |? ? ? ? ? l1 a r l1' a' r' F B1 R]; subst; [exfalso; apply N; eauto|].
        exfalso. apply L. rewrite !app_length. cbn. rewrite R. rewrite (Forall2_len _ _ _ F). reflexivity.
    + split; [|intros _; destruct v; auto; destruct v'; auto; exfalso; apply K; eauto]. intros _. apply bp_list. exact K.
Qed.
