From Verif Require Export M_Indirect.
From Coq Require Export Lia.

Section Inv.
Variable sem : nat -> ctx -> out.
Definition fine (s : ist) (p : pc) : Prop :=
  match p with
  | Idle | Test _ | Build _ => True
  | Store _ v => (v < i_made s)%nat
  | Load _ _ => i_cell s <> None
  | Running _ v => (v < i_made s)%nat
  | Crashed => False
  end.
Definition iinv (s : ist) : Prop :=
  (forall v, i_cell s = Some v -> (v < i_made s)%nat) /\ (forall t, fine s (i_pc s t)) /\
  Forall (fun cr => exists v, (v < i_made s)%nat /\ snd cr = Indirect (sem v) (fst cr)) (i_hist s).
Lemma iinv_start : iinv i_start.
Proof. repeat split; simpl; auto; discriminate. Qed.
Lemma fine_mono x m h f x' m' h' f' p : (x <> None -> x' <> None) -> (m <= m')%nat -> fine (mkI x f m h) p -> fine (mkI x' f' m' h') p.
Proof. destruct p; simpl; auto; lia. Qed.
Lemma hist_mono m m' h : (m <= m')%nat -> Forall (fun cr => exists v, (v < m)%nat /\ snd cr = Indirect (sem v) (fst cr)) h ->
  Forall (fun cr => exists v, (v < m')%nat /\ snd cr = Indirect (sem v) (fst cr)) h.
Proof. intros L. apply Forall_impl. intros [c r] (v & A & B). exists v. split; auto. lia. Qed.
Lemma iinv_step s s' : istep sem false s s' -> iinv s -> iinv s'.
Proof.
  intros St (I1 & I2 & I3).
  assert (K : forall x x' f m m' h h' t p, (forall u, fine (mkI x f m h) (f u)) -> (x <> None -> x' <> None) -> (m <= m')%nat ->
     fine (mkI x' (set_pc f t p) m' h') p -> forall u, fine (mkI x' (set_pc f t p) m' h') (set_pc f t p u)).
  { intros x x' f m m' h h' t p F Hx Hm Hp u. unfold set_pc at 2. destruct (Nat.eqb u t); auto. eapply fine_mono; [exact Hx|exact Hm|apply F]. }
  inversion St; subst; simpl in *; try discriminate;
    match goal with H : _ ?t = _ |- _ => pose proof (I2 t) as F; rewrite H in F; simpl in F; clear H end.
  - split; [auto|split; [|auto]]. eapply K; eauto; try exact I.
  - split; [auto|split; [|auto]]. eapply K; eauto; try exact I.
  - split; [auto|split; [|auto]]. eapply K; eauto. simpl. discriminate.
  - split; [intros v Hv; specialize (I1 v Hv); simpl; lia|split; [|simpl; eapply hist_mono; [|exact I3]; lia]]. eapply K; eauto. simpl. lia.
  - split; [simpl; intros v0 Hv; inversion Hv; subst; auto|split; [|auto]]. eapply K; eauto; simpl; discriminate.
  - split; [auto|split; [|auto]]. eapply K; eauto. simpl. auto.
  - exfalso. apply F. reflexivity.
  - split; [auto|split; [|simpl]]; [eapply K; eauto; exact I|]. apply Forall_app. split; auto. constructor; auto. simpl. eauto.
Qed.
Lemma iinv_steps s s' : isteps sem false s s' -> iinv s -> iinv s'.
Proof. induction 1; auto. intros. apply IHisteps. eapply iinv_step; eauto. Qed.

(** Once the variable is set and nobody is between the test and the assignment, fn is
    not called again. *)
Definition settled (s : ist) : Prop := i_cell s <> None /\ forall t c, i_pc s t <> Build c.
Lemma settled_step s s' : istep sem false s s' -> settled s -> settled s' /\ i_made s' = i_made s.
Proof.
  intros St [S1 S2].
  assert (K : forall f t p, (forall t c, f t <> Build c) -> (forall c, p <> Build c) -> forall u c, set_pc f t p u <> Build c).
  { intros f t p F P u c. unfold set_pc. destruct (Nat.eqb u t); auto. }
  inversion St; subst; simpl in *; try discriminate; try congruence; try (exfalso; eapply S2; eassumption);
    (split; [split; [simpl; auto; discriminate|simpl; apply K; [auto|intros; discriminate]]|auto]).
Qed.
Lemma settled_steps s s' : isteps sem false s s' -> settled s -> settled s' /\ i_made s' = i_made s.
Proof.
  induction 1 as [|s s1 s2 H Hs IH]; auto. intros S0. destruct (settled_step _ _ H S0) as [S1 E1]. destruct (IH S1) as [S2 E2].
  split; auto. congruence.
Qed.
(** Every call can always go on. *)
Lemma progress s t : i_pc s t <> Crashed -> exists s', istep sem false s s' /\ i_pc s' t <> i_pc s t.
Proof.
  destruct s as [x f m h]. simpl. intros NC. destruct (f t) as [|c|c|c v|c b|c v|] eqn:E; try congruence;
  (* the context of a new call does not matter *)
  [exists (mkI x (set_pc f t (Test (mkCtx [] None sp0 0 [] Matched "" VNil))) m h); split; [constructor; auto|]
  |destruct x as [v|]; [exists (mkI (Some v) (set_pc f t (Load c false)) m h)|exists (mkI None (set_pc f t (Build c)) m h)]; (split; [constructor; auto|])
  |exists (mkI x (set_pc f t (Store c m)) (S m) h); split; [constructor; auto|]
  |exists (mkI (Some v) (set_pc f t (Load c true)) m h); split; [econstructor; eauto|]
  |destruct x as [v|]; [exists (mkI (Some v) (set_pc f t (Running c v)) m h)|exists (mkI None (set_pc f t Crashed) m h)]; (split; [econstructor; eauto|])
  |exists (mkI x (set_pc f t Idle) m (h ++ [(c, Indirect (sem v) c)])); split; [econstructor; eauto|]];
  simpl; unfold set_pc; rewrite Nat.eqb_refl; try rewrite E; discriminate.
Qed.
End Inv.
