(** Lemmas for C66. *)
From Verif Require Export L_Exact S_Reuse.

Lemma but_self a : but_position a a.
Proof. exists (a_sp a). destruct a. reflexivity. Qed.
Lemma set_twice a p q : set_asp (set_asp a p) q = set_asp a q.
Proof. destruct a. reflexivity. Qed.
Lemma like_refl a : like a a.
Proof. intros j. apply but_self. Qed.
Lemma like_set a v j p : like a v -> like a (v_set v j (set_asp (v j) p)).
Proof.
  intros H i. unfold v_set. destruct (Nat.eqb_spec i j) as [->|]; auto. destruct (H j) as (q & ->).
  exists p. apply set_twice.
Qed.
Lemma like_same a v j : like a v -> like a (v_set v j (v j)).
Proof. intros H i. unfold v_set. destruct (Nat.eqb_spec i j) as [->|]; auto. Qed.
Lemma trans_like a t n c v l : like a v -> like a (fst (v_trans t n c v l)).
Proof.
  intros H. unfold v_trans. destruct t as [f|j|j]; [auto| |]; unfold prepend_step, push_step; destruct l as [|x l]; cbn [fst]; auto using like_set, like_same.
Qed.
(** On a list with an AST the variable makes no difference. *)
Lemma trans_fed a t n c v l : like a v -> (owns t = true -> l <> []) -> snd (v_trans t n c v l) = plain_tr a t n c l.
Proof.
  intros H N. unfold v_trans, plain_tr, Prepend, Push, prepend_step, push_step. destruct t as [f|j|j]; auto.
  all: destruct l as [|x l]; [exfalso; apply N; auto|]; cbn [fst snd]; destruct (H j) as (q & ->).
  - rewrite set_twice. reflexivity.
  - rewrite set_twice.
    assert (L : forall d e, last (x :: l) d = last (x :: l) e).
    { clear. revert x. induction l as [|y l IH]; intros x d e; auto. change (last (y :: l) d = last (y :: l) e). apply IH. }
    rewrite (L _ (a j)). reflexivity.
Qed.
Lemma plain_nonempty a t n c l r : owns t = true -> plain_tr a t n c l = Ok (inr r) -> r <> [].
Proof.
  destruct t as [f|j|j]; intros O E; try discriminate; cbn in E; unfold Prepend, Push, tok, prepend_step, push_step in E; injection E as <-.
  - discriminate.
  - cbn. destruct l; discriminate.
Qed.
Lemma trs_fed a n c ts : lined_up ts -> forall v l, like a v -> (existsb owns ts = true -> l <> []) ->
  snd (w_run_trans n c (map v_trans ts) v l) = run_trans n c (map (plain_tr a) ts) l.
Proof.
  induction ts as [|t ts IH]; intros H v l L N; cbn [map w_run_trans run_trans]; auto. destruct H as [K H].
  pose proof (trans_like a t n c v l L) as L1. cbn [existsb] in N.
  assert (E : snd (v_trans t n c v l) = plain_tr a t n c l).
  { apply trans_fed; auto. intros O. apply N. rewrite O. reflexivity. }
  destruct (v_trans t n c v l) as [v1 r]. cbn [fst snd] in L1, E. rewrite <- E. destruct r as [[e|r]|x|]; auto.
  apply IH; auto. intros X. destruct t as [f|j|j].
  - apply (K X n c l r); [|cbn in E; congruence]. apply N. cbn. auto.
  - apply (plain_nonempty a (VPrepend j) n c l r); auto.
  - apply (plain_nonempty a (VPush j) n c l r); auto.
Qed.
Lemma trs_pure a n c ts : existsb owns ts = false -> forall v l,
  snd (w_run_trans n c (map v_trans ts) v l) = run_trans n c (map (plain_tr a) ts) l.
Proof.
  induction ts as [|t ts IH]; intros H v l; cbn [map w_run_trans run_trans]; auto. cbn in H. apply orb_false_iff in H as [O H].
  destruct t as [f|j|j]; try discriminate. cbn [v_trans plain_tr]. destruct (f n c l) as [[e|r]|x|]; auto.
Qed.
Definition keeps_like (a : vars) (_ : ending) (v v1 : vars) : Prop := like a v -> like a v1.
Lemma kl_any a k v : keeps_like a k v v. Proof. intros H. exact H. Qed.
Lemma kl_trans a k x y z : keeps_like a Returns x y -> keeps_like a k y z -> keeps_like a k x z. Proof. intros A B H. auto. Qed.
Lemma trans_moves a n ts : Forall (tmoves_at vars (keeps_like a) n) (map v_trans ts).
Proof. apply Forall_forall. intros t X. apply in_map_iff in X as (t' & <- & _). intros c v l H. apply trans_like; auto. Qed.

Lemma trs_like a n c ts v l : like a v -> like a (fst (w_run_trans n c (map v_trans ts) v l)).
Proof. intros H. apply (moves_run_trans vars (keeps_like a) (kl_any a) (kl_trans a) n c _ (trans_moves a n ts) v l H). Qed.

Section Ind.
Variable P : vexp -> Prop.
Hypothesis HL : forall cls fn, P (VLight cls fn).
Hypothesis HB : forall cls fn props es tr, Forall P es -> P (VBase cls fn props es tr).
Hypothesis HH : forall neg mn mx es, Forall P es -> P (VBehind neg mn mx es).
Hypothesis HI : forall k, P (VIndirect k).
Fixpoint vexp_rect' (e : vexp) : P e :=
  let fix all (es : list vexp) : Forall P es :=
    match es with [] => Forall_nil P | e :: es' => Forall_cons e (vexp_rect' e) (all es') end in
  match e with
  | VLight cls fn => HL cls fn
  | VBase cls fn props es tr => HB cls fn props es tr (all es)
  | VBehind neg mn mx es => HH neg mn mx es (all es)
  | VIndirect k => HI k
  end.
End Ind.

Lemma denote_stays rho a n : (forall k, moves vars (keeps_like a) (rho k)) -> forall e, moves vars (keeps_like a) (v_denote rho n e).
Proof.
  intros R. induction e as [cls fn|cls fn props es tr H|neg mn mx es H|k] using vexp_rect'; cbn [v_denote].
  - intros w c. apply kl_any.
  - apply moves_base; auto using kl_any; [exact (kl_trans a)|clear -H; induction H; simpl; constructor; auto|]. intros ts E. destruct tr as [ts'|]; [|discriminate].
    injection E as <-. apply trans_moves.
  - intros w c. apply (moves_behind vars (keeps_like a) (kl_any a) (kl_trans a)). apply moves_base; auto using kl_any; [exact (kl_trans a)|clear -H; induction H; simpl; constructor; auto|discriminate].
  - apply moves_light. auto.
Qed.
Lemma run_env_stays env a n : forall k, moves vars (keeps_like a) (v_run_env env n k).
Proof. induction n as [|n IH]; intros k; cbn [v_run_env]; [intros w c J; exact J|]. intros w c. apply denote_stays; auto. Qed.
Lemma run_stays env a n e v c : like a v -> like a (fst (v_run env n e v c)).
Proof. apply denote_stays. apply run_env_stays. Qed.

Section Main.
Variables (env : nat -> vexp) (a : vars).
Definition env' : nat -> pexp := fun k => plain_exp a (env k).
Hypothesis Henv : forall k, fed env' a (env k).

Lemma fed_all es : fold_right and True (map (fed env' a) es) -> Forall (fed env' a) es.
Proof. induction es; simpl; intros; constructor; tauto. Qed.
Lemma reuse_denote n : (forall k, esim vars (like a) nothing (v_run_env env n k) (run_env env' n k)) ->
  forall e, fed env' a e -> esim vars (like a) nothing (v_denote (v_run_env env n) n e) (denote (run_env env' n) n (plain_exp a e)).
Proof.
  intros R. induction e as [cls fn|cls fn props es tr H|neg mn mx es H|k] using vexp_rect'; intros G; cbn [v_denote denote plain_exp].
  - apply esim_pure.
  - destruct G as [G T]. apply fed_all in G.
    apply esim_base.
    + rewrite map_map. clear -H G. induction H; inversion G; subst; simpl; constructor; auto.
    + destruct tr as [ts|]; [|exact I]. cbn [option_map tr_sim]. intros c0 w l J X.
      right. split; [|apply trs_like; auto].
      destruct (existsb owns ts) eqn:O; [|apply trs_pure; auto].
      destruct (T eq_refl) as (A & B & C). apply trs_fed; auto. intros _ ->.
      destruct (X B) as (o & E1 & E2 & E3 & E4). specialize (C n c0 o E1 E2).
      assert (Z : length (skipn (length (c_stack c0)) (c_stack o)) = 0%nat) by (rewrite <- E4; reflexivity).
      rewrite skipn_length in Z. lia.
  - intros w c J. cbn in G. apply fed_all in G. unfold look_behind_base. apply (esim_behind vars (like a) nothing); auto.
    apply esim_base; [|exact I]. rewrite map_map. clear -H G. induction H; inversion G; subst; simpl; constructor; auto.
  - apply esim_light. apply R.
Qed.
Lemma reuse_env n : forall k, esim vars (like a) nothing (v_run_env env n k) (run_env env' n k).
Proof.
  induction n as [|n IH]; intros k; cbn [v_run_env run_env]; [intros w c J; auto|]. intros w c J.
  apply (reuse_denote n IH (env k) (Henv k)); auto.
Qed.
Lemma reuse n e : fed env' a e -> esim vars (like a) nothing (v_run env n e) (run env' n (plain_exp a e)).
Proof. intros G. apply reuse_denote; auto. apply reuse_env. Qed.
Lemma reuse_session n e : fed env' a e -> forall cs v, like a v -> v_session env n e v cs = map (run env' n (plain_exp a e)) cs.
Proof.
  intros G. induction cs as [|c cs IH]; intros v L; cbn [v_session map]; auto.
  destruct (spoilt_exact _ _ (reuse n e G v c L)) as (A & B). destruct (v_run env n e v c) as [v1 r]. cbn [fst snd] in A, B. rewrite <- A, IH; auto.
Qed.
End Main.

(** ** How to see that a parser feeds *)
Lemma children_feed p sv o o1 num : feeds p -> children_loop false sv [p] o 0 = CEnd o1 num -> (length (c_stack o) < length (c_stack o1))%nat /\ c_st o1 = Matched.
Proof.
  intros H. cbn [children_loop]. destruct (p o) as [[o2 e]|x|] eqn:E; try discriminate. cbv zeta. destruct e as [e|]; cbn [fix_status].
  - destruct o2; cbn. discriminate.
  - destruct (c_st o2) eqn:S; intros X; try discriminate. injection X as <- _. split; [apply (H _ _ E S)|exact S].
Qed.
Lemma parent_feed p q bottom : feeds p -> forall n o count o1 k, parent_loop n q false None bottom [p] o count = PDone o1 k ->
  (count <= k)%nat /\ (length (c_stack o) <= length (c_stack o1))%nat /\ ((count < k)%nat -> (length (c_stack o) < length (c_stack o1))%nat).
Proof.
  intros H. induction n as [|n IH]; intros o count o1 k E; cbn [parent_loop] in E; destruct (more q count); try discriminate;
    try (injection E as <- <-; repeat split; lia).
  destruct (children_loop false o [p] o 0) as [r|c|o2 num] eqn:C; try discriminate.
  - injection E as <- <-. assert (c = o).
    { cbn [children_loop] in C. destruct (p o) as [[o2 e]|x|]; try discriminate. cbv zeta in C. destruct (c_st (fix_status o2 e)); try discriminate. congruence. }
    subst c. repeat split; lia.
  - destruct (children_feed p o o o2 num H C) as [L S]. cbn [andb] in E. cbn [call_fn] in E.
    assert (Q : forall x, c_st (set_qty o2 x) = Matched) by (intros; destruct o2; exact S). rewrite Q in E.
    apply IH in E. assert (K : c_stack (set_qty o2 count) = c_stack o2) by (destruct o2; reflexivity). rewrite K in E. repeat split; lia.
Qed.
Lemma feeds_repeat cls q p n : feeds p -> (1 <= t_min q)%Z -> feeds (base_parser cls None [PTimes q] [p] None n).
Proof.
  intros H M c o. unfold base_parser. cbv zeta. cbn [flags_of fold_left flag_step f_qty f_ex f_rew f_neg].
  destruct (parent_loop n q false None _ [p] _ 0) as [r|o1 k] eqn:E.
  - intros -> S. exfalso. revert E S. generalize (length (c_stack (set_cls c cls))), (set_st (set_cls c cls) Matched), 0%nat. 
    induction n as [|n IH]; intros b o1 k E S; cbn [parent_loop] in E; destruct (more q k); try discriminate.
    destruct (children_loop false o1 [p] o1 0) as [r|x|o2 num] eqn:C; try discriminate.
    + injection E as ->. cbn [children_loop] in C. destruct (p o1) as [[o2 e]|x|]; try discriminate. cbv zeta in C.
      destruct (c_st (fix_status o2 e)) eqn:X; try discriminate. injection C as C ->. congruence.
    + destruct (children_feed p o1 o1 o2 num H C) as [L S']. cbn [andb call_fn] in E.
      assert (Q : forall x, c_st (set_qty o2 x) = Matched) by (intros; destruct o2; exact S'). rewrite Q in E. apply (IH _ _ _ E S).
  - apply parent_feed in E; auto. destruct E as (A & B & C).
    assert (K : c_stack (set_st (set_cls c cls) Matched) = c_stack c) by (destruct c; reflexivity). rewrite K in *.
    unfold after_loop. cbn [f_qty f_neg]. destruct (Z.leb_spec 0 (t_min q)); [|lia]. destruct (Z.ltb_spec (Z.of_nat k) (t_min q)); cbn [andb].
    + assert (U : c_st (set_st o1 Unmatched) = Unmatched) by (destruct o1; reflexivity). rewrite U. intros X S. injection X as <-. congruence.
    + destruct (c_st o1) eqn:S1; try (intros X S; injection X as <-; congruence).
      cbn [call_fn]. assert (Q : c_st (set_qty o1 k) = Matched) by (destruct o1; exact S1). rewrite Q. intros X _. injection X as <-.
      assert (Y : c_stack (set_qty o1 k) = c_stack o1) by (destruct o1; reflexivity). rewrite Y. apply C. lia.
Qed.
Lemma feeds_once cls p n : feeds p -> feeds (base_parser cls None [] [p] None n).
Proof.
  intros H. change (base_parser cls None [] [p] None n) with (base_parser cls None [PTimes qtyOnce] [p] None n).
  apply feeds_repeat; auto. cbn. lia.
Qed.
