From Verif Require Export S_Box.
From Coq Require Export Lia.

Lemma key_eqb_spec a b : key_eqb a b = true <-> a = b /\ a <> KeyBad.
Proof.
  destruct a, b; simpl; try (split; [discriminate|intros [? ?]; congruence]).
  - rewrite String.eqb_eq. split; [intros ->; split; [auto|discriminate]|intros [H _]; congruence].
  - rewrite Z.eqb_eq. split; [intros ->; split; [auto|discriminate]|intros [H _]; congruence].
Qed.
Lemma ety_eqb_spec a b : ety_eqb a b = true <-> a = b.
Proof. destruct a, b; simpl; split; congruence. Qed.
Lemma fits_spec e v : v <> DNil -> (value_fits e v <-> e = KAny \/ e = type_of v).
Proof.
  intros N. unfold value_fits. destruct e, v; cbn; try congruence; split; intros H;
    (repeat match goal with H : _ \/ _ |- _ => destruct H | H : exists _, _ |- _ => destruct H end); try congruence; eauto; try discriminate.
Qed.
Lemma check_key_spec m k : check_key m k = None <-> key_fits (k_any m) k.
Proof. destruct k; simpl; try (split; auto; discriminate). - destruct (k_any m); split; auto; discriminate. - split; [discriminate|tauto]. Qed.

Definition same_kind (m m' : container) : Prop := k_any m' = k_any m /\ k_ety m' = k_ety m.
Definition put (m : container) (k : gkey) (v : dval) (m' : container) : Prop :=
  same_kind m m' /\ forall x, k_map m' x = if key_eqb x k then match v with DNil => None | _ => Some v end else k_map m x.
Lemma set_index_spec m k v :
  (key_fits (k_any m) k /\ value_fits (k_ety m) v /\ exists m', set_index m k v = Ok m' /\ put m k v m') \/
  (~ (key_fits (k_any m) k /\ value_fits (k_ety m) v) /\ exists w, set_index m k v = Panic w).
Proof.
  unfold set_index. destruct (check_key m k) as [w|] eqn:C.
  - right. split; [|eauto]. intros [K _]. apply check_key_spec in K. congruence.
  - apply check_key_spec in C.
    assert (D : v = DNil \/ v <> DNil) by (destruct v; auto; right; discriminate). destruct D as [->|Nv].
    + left. split; auto. split; [left; auto|]. eexists. split; [reflexivity|]. split; [split; auto|]. reflexivity.
    + destruct (ety_eqb (k_ety m) KAny || ety_eqb (k_ety m) (type_of v)) eqn:E.
      * left. split; auto. split.
        { apply (fits_spec _ v Nv). apply orb_true_iff in E. destruct E as [E|E]; apply ety_eqb_spec in E; auto. }
        destruct v; try congruence; (eexists; split; [reflexivity|split; [split; auto|reflexivity]]).
      * right. apply orb_false_iff in E. destruct E as [E1 E2]. split; [|destruct v; try congruence; eauto].
        intros [_ V]. apply (fits_spec _ v Nv) in V. destruct V as [V|V]; apply ety_eqb_spec in V; congruence.
Qed.

(** What a run does to the container and to the boxes. *)
Definition rel (s s' : bstate) : Prop := same_kind (s_map s) (s_map s') /\ forall i, n_key (s_box s' i) = n_key (s_box s i).
Lemma bop_run_app s l l' : bop_run s (l ++ l') = bop_run (bop_run s l) l'.
Proof. revert s. induction l; simpl; auto. Qed.
Notation keys s := (fun i => n_key (s_box s i)).
Lemma step_spec s o :
  match o with
  | OGet _ _ => fst (bop_step s o) = s
  | OSet b v =>
      let k := key_of (keys s) b in
      (key_fits (k_any (s_map s)) k /\ value_fits (k_ety (s_map s)) v /\ put (s_map s) k v (s_map (fst (bop_step s o))) /\
        (forall i, n_key (s_box (fst (bop_step s o)) i) = n_key (s_box s i) /\
                   n_init (s_box (fst (bop_step s o)) i) = n_init (s_box s i) || match b with BNot j => Nat.eqb i j | _ => false end)) \/
      (~ (key_fits (k_any (s_map s)) k /\ value_fits (k_ety (s_map s)) v) /\ fst (bop_step s o) = s)
  end.
Proof.
  destruct o as [[k|i] a|b v]; simpl; auto.
  destruct b as [k|i]; simpl.
  - unfold map_set. destruct (set_index_spec (s_map s) k v) as [(K & V & m' & -> & P)|(N & w & ->)]; [left|right; auto].
    repeat split; auto; try apply P. simpl. rewrite orb_false_r. auto.
  - unfold n_set. destruct (set_index_spec (s_map s) (n_key (s_box s i)) v) as [(K & V & m' & -> & P)|(N & w & ->)]; [left|right; auto].
    split; auto. split; auto. split; [exact P|]. intros j. simpl. destruct (Nat.eqb_spec j i) as [->|Nj]; simpl; split; auto.
    + rewrite orb_true_r. auto.
    + rewrite orb_false_r. auto.
Qed.
Lemma rel_run s l : rel s (bop_run s l).
Proof.
  revert s. induction l as [|o l IH]; intros s; cbn [bop_run]; [repeat split; auto|].
  destruct (IH (fst (bop_step s o))) as [[A1 A2] A3]. pose proof (step_spec s o) as H. destruct o as [b a|b v].
  - rewrite H in *. repeat split; auto.
  - destruct H as [(_ & _ & [[P1 P2] _] & H)|[_ H]].
    + repeat split; try congruence. intros i. rewrite A3. apply H.
    + rewrite H in *. repeat split; auto.
Qed.
Lemma last_set_spec s l k v : last_set (k_any (s_map s)) (k_ety (s_map s)) (keys s) k l v ->
  k_map (s_map (bop_run s l)) k = match v with DNil => None | _ => Some v end /\ key_fits (k_any (s_map s)) k.
Proof.
  remember (k_any (s_map s)) as ak. remember (k_ety (s_map s)) as et.
  induction 1 as [l b v Hk Hf Hv|l b a v H [IH Hf]|l b w v Hn H [IH Hf]].
  - rewrite bop_run_app. cbn [bop_run]. split; auto. set (s1 := bop_run s l). destruct (rel_run s l) as [[R1 R2] R3]. fold s1 in R1, R2, R3.
    pose proof (step_spec s1 (OSet b v)) as St. cbv beta iota zeta in St.
    assert (Kb : key_of (keys s1) b = k) by (rewrite <- Hk; destruct b; simpl; auto).
    rewrite Kb, R1, R2, <- Heqak, <- Heqet in St. destruct St as [(_ & _ & [_ P] & _)|[N _]]; [|exfalso; auto].
    rewrite P. replace (key_eqb k k) with true; auto. symmetry. apply key_eqb_spec. split; auto. intros ->. exact Hf.
  - rewrite bop_run_app. cbn [bop_run]. split; auto. rewrite (step_spec (bop_run s l) (OGet b a)). auto.
  - rewrite bop_run_app. cbn [bop_run]. split; auto. set (s1 := bop_run s l) in *. destruct (rel_run s l) as [[R1 R2] R3]. fold s1 in R1, R2, R3.
    pose proof (step_spec s1 (OSet b w)) as St. cbv beta iota zeta in St.
    assert (Kb : key_of (keys s1) b = key_of (keys s) b) by (destruct b; simpl; auto).
    rewrite Kb, R1, R2, <- Heqak, <- Heqet in St. destruct St as [(_ & Vf & [_ P] & _)|[_ E]]; [|rewrite E; auto].
    rewrite P. destruct (key_eqb k (key_of (keys s) b)) eqn:E; auto. apply key_eqb_spec in E. destruct E as [E _]. destruct Hn; [congruence|tauto].
Qed.
Lemma never_set_spec s l k : never_set (k_any (s_map s)) (k_ety (s_map s)) (keys s) k l -> k_map (s_map (bop_run s l)) k = k_map (s_map s) k.
Proof.
  revert s. induction l as [|o l IH]; intros s H; cbn [bop_run]; auto. destruct o as [b a|b v].
  - rewrite (step_spec s (OGet b a)). apply IH. intros b' v' Hin. apply H. right. auto.
  - pose proof (step_spec s (OSet b v)) as St. cbv beta iota zeta in St. destruct St as [(Kf & Vf & [[P1 P2] P] & Hk)|[N E]].
    + assert (Nk : key_of (keys s) b <> k) by (intros E; apply (H b v); [left; auto|auto|rewrite <- E; auto]).
      rewrite IH.
      * rewrite P. destruct (key_eqb k (key_of (keys s) b)) eqn:E; auto. apply key_eqb_spec in E. destruct E. congruence.
      * rewrite P1, P2. intros b' v' Hin Hb. apply (H b' v'); [right; auto|]. rewrite <- Hb. destruct b'; simpl; auto. symmetry. apply Hk.
    + rewrite E. apply IH. intros b' v' Hin. apply H. right. auto.
Qed.
Lemma init_spec s l i : n_init (s_box (bop_run s l) i) = true <->
  n_init (s_box s i) = true \/ initialised (k_any (s_map s)) (k_ety (s_map s)) (keys s) i l.
Proof.
  revert s. induction l as [|o l IH]; intros s; cbn [bop_run].
  { split; auto. intros [H|(v & [] & _)]; auto. }
  rewrite IH. clear IH. destruct o as [b a|b v].
  - rewrite (step_spec s (OGet b a)). split; (intros [H|(w & Hin & X)]; [auto|right; exists w; split; auto]).
    + right. auto.
    + destruct Hin as [E|Hin]; [discriminate|auto].
  - pose proof (step_spec s (OSet b v)) as St. cbv beta iota zeta in St. destruct St as [(Kf & Vf & [[P1 P2] P] & Hk)|[N E]].
    + rewrite P1, P2. destruct (Hk i) as [Hk1 Hk2]. rewrite Hk2. unfold initialised. rewrite Hk1, orb_true_iff. split.
      * intros [[H|H]|(w & Hin & X)]; auto; right.
        -- destruct b as [k|j]; [discriminate|]. apply Nat.eqb_eq in H. subst j. exists v. split; [left; auto|auto].
        -- exists w. split; [right; auto|auto].
      * intros [H|(w & [E|Hin] & X)]; auto.
        -- inversion E; subst. left. right. apply Nat.eqb_refl.
        -- right. eauto.
    + rewrite E. split; (intros [H|(w & Hin & X)]; auto).
      * right. exists w. split; [right; auto|auto].
      * destruct Hin as [E'|Hin]; [|right; exists w; auto]. inversion E'; subst. exfalso. apply N. exact X.
Qed.
