(** Counted runs: they answer what plain runs answer, and a semantics with counts, where also transformers may count. *)
From Verif Require Export M_Count L_Leaf L_Exact.

(** ** The same answers *)
Definition any_nat (_ : nat) : Prop := True.
Definition no_panic (_ : string) : Prop := False.
Notation csim := (esim nat any_nat no_panic).
Lemma csim_eq f f' : csim f f' <-> forall k c, snd (f k c) = f' c.
Proof.
  split; intros H k c.
  - destruct (H k c I) as [(x & [] & _)|[E _]]; exact E.
  - intros _. right. split; [apply H|exact I].
Qed.
Lemma csim_tick f f' : csim f f' -> csim (tick f) f'.
Proof. rewrite !csim_eq. intros H k c. apply H. Qed.
Lemma no_effect_sim n c ts : forall k l, w_run_trans n c (map no_effect ts) k l = (k, run_trans n c ts l).
Proof.
  induction ts as [|t ts IH]; intros k l; cbn [map w_run_trans run_trans]; [reflexivity|]. unfold no_effect at 1.
  destruct (t n c l) as [[e|l1]|x|]; auto.
Qed.
Lemma csim_base cls fn props ps qs tr n : Forall2 csim ps qs ->
  csim (w_base cls fn props ps (option_map (map no_effect) tr) n) (base_parser cls fn props qs tr n).
Proof.
  intros H. apply esim_base; auto. destruct tr as [ts|]; cbn; [|exact I].
  intros c0 w l _ _. right. rewrite no_effect_sim. split; [reflexivity|exact I].
Qed.
Lemma kdenote_same e : forall rho rho' n, (forall j, csim (rho j) (rho' j)) -> csim (kdenote rho n e) (denote rho' n e).
Proof.
  induction e using pexp_ind'; intros rho rho' nn Hr;
    try (assert (Hcs : Forall2 csim (map (kdenote rho nn) es) (map (denote rho' nn) es)) by
      (clear -H Hr; induction H; cbn; constructor; auto));
    cbn [kdenote denote]; unfold FlatGroup, Group, First, LookAhead, LookAheadN, Repeat, Trans, Indirect; try apply csim_tick.
  - apply csim_eq. reflexivity.
  - apply (csim_base _ _ _ _ _ None); auto.
  - apply (csim_base _ _ _ _ _ (Some [GroupingTransform])); auto.
  - apply (csim_base _ _ _ _ _ None); auto.
  - apply (csim_base _ _ _ _ _ None); auto.
  - apply (csim_base _ _ _ _ _ None); auto.
  - intros k c J. unfold look_behind_base. apply esim_behind; [|exact I]. apply csim_tick. apply (csim_base _ _ _ _ _ None); auto.
  - apply (csim_base _ _ _ _ _ None); auto.
  - apply csim_base. constructor; auto.
  - apply esim_light. auto.
  - apply csim_base; auto.
Qed.
Lemma krun_same env n e k c : snd (krun env n e k c) = run env n e c.
Proof.
  assert (H : csim (krun env n e) (run env n e)); [|apply csim_eq; exact H].
  unfold krun, run. apply kdenote_same. intros j. revert j. induction n as [|m IH]; intros j.
  - apply csim_eq. reflexivity.
  - apply csim_eq. intros k' c'. cbn [krun_env run_env]. revert k' c'. apply csim_eq. apply kdenote_same. exact IH.
Qed.

(** ** The semantics with counts *)
Definition grouped (r : result) : result := match r with RSucc cur l => RSucc cur [group_ast l] | r => r end.
Definition ahead (cur : srcpos) (r : result) : result := match r with RSucc _ _ => RSucc cur [] | r => r end.
Definition not_ahead (cur : srcpos) (r : result) : result := match r with RSucc _ _ => RFail | RFail => RSucc cur [] | r => r end.
Inductive through (c : ctx) (tr : list trans) : result -> result -> Prop :=
| th_ok : forall cur l l1, pipeline c tr l (inr l1) -> through c tr (RSucc cur l) (RSucc cur l1)
| th_bad : forall cur l x, pipeline c tr l (inl x) -> through c tr (RSucc cur l) (RErr cur x)
| th_fail : through c tr RFail RFail
| th_err : forall cur x, through c tr (RErr cur x) (RErr cur x).
Definition repeated (t : times) (q : (srcpos * gerr) + (srcpos * list ast * nat)) : result :=
  match q with inl (cur, x) => RErr cur x | inr (cur, l, k) => if Z.of_nat k <? t_min t then RFail else RSucc cur l end.

(** [wt tr c l x]: the transformers [tr] may make [x] calls when they are given [l] in the context [c]. *)
Section Weighted.
Variable wt : list trans -> ctx -> list ast -> nat -> Prop.
Definition weighs (tr : list trans) (c : ctx) (r : result) (x : nat) : Prop := match r with RSucc _ l => wt tr c l x | _ => x = 0%nat end.
Inductive pegk (w : world) : pexp -> srcpos -> result -> nat -> Prop :=
| pk_leaf : forall cls fn n cur o err, fn n (fresh w cur) = Ok (o, err) -> pegk w (ELight cls fn) cur (leaf_result o err) 1
| pk_flat : forall es cur r d, pegks w es cur r d -> pegk w (EFlatGroup es) cur r (S d)
| pk_group : forall es cur r d, pegks w es cur r d -> pegk w (EGroup es) cur (grouped r) (S d)
| pk_first_none : forall cur, pegk w (EFirst []) cur (RSucc cur []) 1
| pk_first : forall e es cur r d, pegkc w (e :: es) cur r d -> pegk w (EFirst (e :: es)) cur r (S d)
| pk_ahead : forall es cur r d, pegks w es cur r d -> pegk w (ELookAhead es) cur (ahead cur r) (S d)
| pk_aheadN : forall es cur r d, pegks w es cur r d -> pegk w (ELookAheadN es) cur (not_ahead cur r) (S d)
| pk_behind : forall (neg : bool) mn mx es cur r d, pegkb w es (behind cur mn (Z.to_nat (mx - mn + 1))) r d ->
    pegk w (ELookBehind neg mn mx es) cur (if neg then not_ahead cur r else ahead cur r) d
| pk_repeat : forall t es cur q d, pegkr w t es 0 cur q d -> pegk w (ERepeat t es) cur (repeated t q) (S d)
| pk_transw : forall e tr cur r r' d x, pegk w e cur r d -> through (fresh w cur) tr r r' -> weighs tr (fresh w cur) r x ->
    pegk w (ETrans e tr) cur r' (S (d + x))
| pk_indirect : forall k cur r d, pegk w (w_env w k) cur r d -> pegk w (EIndirect k) cur r (S d)
with pegks (w : world) : list pexp -> srcpos -> result -> nat -> Prop :=
| sk_nil : forall cur, pegks w [] cur (RSucc cur []) 0
| sk_ok : forall e es cur cur1 l d r d2, pegk w e cur (RSucc cur1 l) d -> pegks w es cur1 r d2 ->
    pegks w (e :: es) cur (match r with RSucc cur2 l2 => RSucc cur2 (l ++ l2) | r => r end) (d + d2)
| sk_fail : forall e es cur d, pegk w e cur RFail d -> pegks w (e :: es) cur RFail d
| sk_err : forall e es cur cur1 x d, pegk w e cur (RErr cur1 x) d -> pegks w (e :: es) cur (RErr cur1 x) d
with pegkc (w : world) : list pexp -> srcpos -> result -> nat -> Prop :=
| ck_nil : forall cur, pegkc w [] cur RFail 0
| ck_ok : forall e es cur cur1 l d, pegk w e cur (RSucc cur1 l) d -> pegkc w (e :: es) cur (RSucc cur1 l) d
| ck_err : forall e es cur cur1 x d, pegk w e cur (RErr cur1 x) d -> pegkc w (e :: es) cur (RErr cur1 x) d
| ck_next : forall e es cur r d d2, pegk w e cur RFail d -> pegkc w es cur r d2 -> pegkc w (e :: es) cur r (d + d2)
with pegkr (w : world) : times -> list pexp -> nat -> srcpos -> (srcpos * gerr) + (srcpos * list ast * nat) -> nat -> Prop :=
| rk_limit : forall t es k cur, 0 <= t_max t <= Z.of_nat k -> pegkr w t es k cur (inr (cur, [], k)) 0
| rk_stop : forall t es k cur d, t_max t < 0 \/ Z.of_nat k < t_max t -> pegks w es cur RFail d -> pegkr w t es k cur (inr (cur, [], k)) d
| rk_err : forall t es k cur cur1 x d, t_max t < 0 \/ Z.of_nat k < t_max t -> pegks w es cur (RErr cur1 x) d -> pegkr w t es k cur (inl (cur1, x)) d
| rk_more : forall t es k cur cur1 l q d d2, t_max t < 0 \/ Z.of_nat k < t_max t ->
    pegks w es cur (RSucc cur1 l) d -> pegkr w t es (S k) cur1 q d2 ->
    pegkr w t es k cur (match q with inr (cur2, l2, k2) => inr (cur2, l ++ l2, k2) | q => q end) (d + d2)
with pegkb (w : world) : list pexp -> list srcpos -> result -> nat -> Prop :=
| bk_none : forall es, pegkb w es [] RFail 0
| bk_ok : forall es p ps cur1 l d, pegks w es p (RSucc cur1 l) d -> pegkb w es (p :: ps) (RSucc p []) (S d)
| bk_err : forall es p ps cur1 x d, pegks w es p (RErr cur1 x) d -> pegkb w es (p :: ps) (RErr cur1 x) (S d)
| bk_next : forall es p ps r d d2, pegks w es p RFail d -> pegkb w es ps r d2 -> pegkb w es (p :: ps) r (S d + d2).
Scheme pegk_mind := Induction for pegk Sort Prop
  with pegks_mind := Induction for pegks Sort Prop
  with pegkc_mind := Induction for pegkc Sort Prop
  with pegkr_mind := Induction for pegkr Sort Prop
  with pegkb_mind := Induction for pegkb Sort Prop.
Combined Scheme pegk_mutind from pegk_mind, pegks_mind, pegkc_mind, pegkr_mind, pegkb_mind.

(** Without the counts it is [peg]. *)
Lemma pegk_peg_all w :
  (forall e cur r d, pegk w e cur r d -> peg w e cur r) /\
  (forall es cur r d, pegks w es cur r d -> pegs w es cur r) /\
  (forall es cur r d, pegkc w es cur r d -> pegc w es cur r) /\
  (forall t es k cur q d, pegkr w t es k cur q d -> pegr w t es k cur q) /\
  (forall es ps r d, pegkb w es ps r d -> pegb w es ps r /\ (forall p l, r = RSucc p l -> l = [])).
Proof.
  apply (pegk_mutind w (fun e cur r d _ => peg w e cur r) (fun es cur r d _ => pegs w es cur r) (fun es cur r d _ => pegc w es cur r)
    (fun t es k cur q d _ => pegr w t es k cur q) (fun es ps r d _ => pegb w es ps r /\ (forall p l, r = RSucc p l -> l = []))); intros.
  - econstructor; eassumption.
  - constructor; assumption.
  - destruct r; constructor; assumption.
  - constructor.
  - constructor; assumption.
  - destruct r; [eapply peg_and_ok|apply peg_and_fail|apply peg_and_err]; eassumption.
  - destruct r; [eapply peg_not_fail|apply peg_not_ok|apply peg_not_err]; eassumption.
  - destruct H as [H L]. destruct r as [q0 l0| |q0 x0].
    + rewrite (L q0 l0 eq_refl) in H. destruct neg; [eapply peg_behindN_fail|eapply peg_behind_ok]; eassumption.
    + destruct neg; [eapply peg_behindN_ok|eapply peg_behind_fail]; eassumption.
    + destruct neg; apply peg_behind_err; assumption.
  - destruct q as [[cur1 x]|[[cur1 l] k]]; cbn [repeated]; [apply peg_rep_err; assumption|].
    destruct (Z.ltb_spec (Z.of_nat k) (t_min t)); [eapply peg_rep_few|eapply peg_rep_ok]; eassumption.
  - match goal with T : through _ _ _ _ |- _ => inversion T; subst end.
    + eapply peg_trans_ok; eassumption.
    + eapply peg_trans_bad; eassumption.
    + apply peg_trans_fail; assumption.
    + apply peg_trans_err; assumption.
  - constructor; assumption.
  - constructor.
  - destruct r; [eapply seq_ok|eapply seq_fail_later|eapply seq_err_later]; eassumption.
  - apply seq_fail; assumption.
  - apply seq_err; assumption.
  - constructor.
  - apply ch_ok; assumption.
  - apply ch_err; assumption.
  - apply ch_next; assumption.
  - apply rep_limit; assumption.
  - apply rep_stop; assumption.
  - apply rep_err; assumption.
  - destruct q as [[cur2 x]|[[cur2 l2] k2]]; [eapply rep_more_err|eapply rep_more]; eassumption.
  - split; [constructor|discriminate].
  - split; [eapply lb_ok; eassumption|congruence].
  - split; [apply lb_err; assumption|discriminate].
  - destruct H0 as [H0 L]. split; [apply lb_next; assumption|exact L].
Qed.
Lemma pegk_peg w e cur r d : pegk w e cur r d -> peg w e cur r.
Proof. apply (proj1 (pegk_peg_all w)). Qed.
Lemma pegks_pegs w es cur r d : pegks w es cur r d -> pegs w es cur r.
Proof. apply (proj1 (proj2 (pegk_peg_all w))). Qed.

(** ** Soundness: what a counted run counts, the semantics counts *)
Definition counts (w : world) (e : pexp) (f : wfn nat) : Prop :=
  forall k c, okc w c -> match f k c with
  | (k', Ok (o, err)) => exists r d, pegk w e (c_sp c) r d /\ returns (c_stack c) o err r /\ in_world w o /\ k' = (k + d)%nat
  | _ => True
  end.
Lemma children_counts w es cs : Forall2 (counts w) es cs -> forall saved k o num, okc w o ->
  match w_children false saved cs k o num with
  | (k', CReturn (Ok (o1, err))) =>
      exists cur x d, pegks w es (c_sp o) (RErr cur x) d /\ returns [] o1 err (RErr cur x) /\ in_world w o1 /\ k' = (k + d)%nat
  | (_, CReturn _) => True
  | (k', CBreak c) => c = saved /\ exists d, pegks w es (c_sp o) RFail d /\ k' = (k + d)%nat
  | (k', CEnd o1 num1) => exists l d, pegks w es (c_sp o) (RSucc (c_sp o1) l) d /\ c_stack o1 = c_stack o ++ l /\ okc w o1 /\ k' = (k + d)%nat
  end.
Proof.
  induction 1 as [|e f es cs Hf Hcs IH]; intros saved k o num Ho; cbn [w_children].
  - exists [], 0%nat. rewrite app_nil_r. split; [constructor|]. repeat split; auto; try apply Ho; lia.
  - specialize (Hf k o Ho). destruct (f k o) as [k1 [[o1 err]|why|]]; auto.
    destruct Hf as (r & d & Hp & Hr & Hw & ->). destruct r as [cur l| |cur x]; cbn [returns] in Hr.
    + destruct Hr as (-> & Hst & Hsp & Hstk). cbv zeta. rewrite fix_none, Hst. subst cur.
      specialize (IH saved (k + d)%nat o1 (S num) (conj Hw Hst)).
      destruct (w_children false saved cs (k + d)%nat o1 (S num)) as [k2 [[[o2 err2]|why|]|c|o2 num2]]; auto.
      * destruct IH as (cur2 & x & d2 & Hps & Hr & Hw2 & ->). exists cur2, x, (d + d2)%nat. split; [|repeat split; try apply Hr; try apply Hw2; lia].
        exact (sk_ok w e es _ _ _ _ _ _ Hp Hps).
      * destruct IH as (-> & d2 & Hps & ->). split; auto. exists (d + d2)%nat. split; [|lia]. exact (sk_ok w e es _ _ _ _ _ _ Hp Hps).
      * destruct IH as (l2 & d2 & Hps & Hs & Ho2 & ->). exists (l ++ l2), (d + d2)%nat. split; [exact (sk_ok w e es _ _ _ _ _ _ Hp Hps)|].
        split; [rewrite Hs, Hstk, app_assoc; reflexivity|]. split; [exact Ho2|lia].
    + destruct Hr as (-> & Hst). cbv zeta. rewrite fix_none, Hst. split; auto. exists d. split; auto. apply sk_fail; auto.
    + destruct Hr as (-> & Hst & Hsp). cbv zeta. rewrite fix_err by auto. rewrite Hst.
      exists cur, x, d. split; [apply sk_err; auto|]. cbn; auto.
Qed.
Lemma choice_counts w es cs : Forall2 (counts w) es cs -> forall saved k o num, okc w o ->
  match w_children true saved cs k o num with
  | (k', CReturn (Ok (o1, err))) =>
      exists cur x d, pegkc w es (c_sp o) (RErr cur x) d /\ returns [] o1 err (RErr cur x) /\ in_world w o1 /\ k' = (k + d)%nat
  | (_, CReturn _) => True
  | (_, CBreak c) => False
  | (k', CEnd o1 num1) =>
      (num1 = num /\ o1 = o /\ exists d, pegkc w es (c_sp o) RFail d /\ k' = (k + d)%nat) \/
      (num1 = S num /\ exists l d, pegkc w es (c_sp o) (RSucc (c_sp o1) l) d /\ c_stack o1 = c_stack o ++ l /\ okc w o1 /\ k' = (k + d)%nat)
  end.
Proof.
  induction 1 as [|e f es cs Hf Hcs IH]; intros saved k o num Ho; cbn [w_children].
  - left. repeat split. exists 0%nat. split; [constructor|lia].
  - specialize (Hf k o Ho). destruct (f k o) as [k1 [[o1 err]|why|]]; auto.
    destruct Hf as (r & d & Hp & Hr & Hw & ->). destruct r as [cur l| |cur x]; cbn [returns] in Hr.
    + destruct Hr as (-> & Hst & Hsp & Hstk). cbv zeta. rewrite fix_none, Hst. subst cur.
      right. split; auto. exists l, d. split; [apply ck_ok; auto|]. repeat split; auto; apply Hw.
    + destruct Hr as (-> & Hst). cbv zeta. rewrite fix_none, Hst. specialize (IH saved (k + d)%nat o num Ho).
      destruct (w_children true saved cs (k + d)%nat o num) as [k2 [[[o2 err2]|why|]|c|o2 num2]]; auto.
      * destruct IH as (cur2 & x & d2 & Hps & Hr & Hw2 & ->). exists cur2, x, (d + d2)%nat. split; [apply ck_next; auto|].
        split; [exact Hr|]. split; [exact Hw2|lia].
      * destruct IH as [(-> & -> & d2 & Hc & ->)|(-> & l & d2 & Hc & Hs & Ho2 & ->)]; [left|right].
        -- split; auto. split; auto. exists (d + d2)%nat. split; [apply ck_next; auto|lia].
        -- split; auto. exists l, (d + d2)%nat. split; [apply ck_next; auto|]. split; auto. split; auto. lia.
    + destruct Hr as (-> & Hst & Hsp). cbv zeta. rewrite fix_err by auto. rewrite Hst.
      exists cur, x, d. split; [apply ck_err; auto|]. cbn; auto.
Qed.
Lemma parent_counts w t es cs bottom : Forall2 (counts w) es cs -> forall fuel k o count, okc w o ->
  match w_parent fuel t false None bottom cs k o count with
  | (k', PReturn (Ok (o1, err))) =>
      exists cur x d, pegkr w t es count (c_sp o) (inl (cur, x)) d /\ returns [] o1 err (RErr cur x) /\ in_world w o1 /\ k' = (k + d)%nat
  | (_, PReturn _) => True
  | (k', PDone o1 j) => exists l d, pegkr w t es count (c_sp o) (inr (c_sp o1, l, j)) d /\ c_stack o1 = c_stack o ++ l /\ okc w o1 /\ k' = (k + d)%nat
  end.
Proof.
  intros Hcs. induction fuel; intros k o count Ho; cbn [w_parent].
  - destruct (more t count) eqn:Hm; auto.
    exists [], 0%nat. rewrite app_nil_r. split; [apply rk_limit, more_false; auto|]. split; [reflexivity|]. split; [exact Ho|lia].
  - destruct (more t count) eqn:Hm.
    + apply more_true in Hm. pose proof (children_counts w es cs Hcs o k o 0%nat Ho) as H.
      destruct (w_children false o cs k o 0) as [k1 [[[o1 err]|why|]|c|o1 num]]; auto.
      * destruct H as (cur & x & d & Hp & Hr & Hw & ->). exists cur, x, d. split; auto. apply rk_err; auto.
      * destruct H as (-> & d & Hp & ->). exists [], d. rewrite app_nil_r. split; [apply rk_stop; auto|]. auto.
      * destruct H as (l & d & Hp & Hs & Ho1 & ->). cbn [andb call_fn]. 
        destruct Ho1 as [Hw1 Hst1]. replace (c_st (set_qty o1 count)) with (c_st o1) by reflexivity. rewrite Hst1.
        specialize (IHfuel (k + d)%nat (set_qty o1 count) (S count) (conj Hw1 Hst1)).
        destruct (w_parent fuel t false None bottom cs (k + d)%nat (set_qty o1 count) (S count)) as [k2 [[[o2 err]|why|]|o2 j]]; auto.
        -- destruct IHfuel as (cur & x & d2 & Hr & Hx & Hw & ->). exists cur, x, (d + d2)%nat.
           split; [exact (rk_more w t es _ _ _ _ _ _ _ Hm Hp Hr)|]. split; [exact Hx|]. split; [exact Hw|lia].
        -- destruct IHfuel as (l2 & d2 & Hr & Hs2 & Ho2 & ->). exists (l ++ l2), (d + d2)%nat.
           split; [exact (rk_more w t es _ _ _ _ _ _ _ Hm Hp Hr)|].
           split; [rewrite Hs2; cbn; rewrite Hs, app_assoc; reflexivity|]. split; [exact Ho2|lia].
    + exists [], 0%nat. rewrite app_nil_r. split; [apply rk_limit, more_false; auto|]. split; [reflexivity|]. split; [exact Ho|lia].
Qed.
(** Once: the loop of {1,1}. *)
Lemma pegkr_once w es cur q d : pegkr w qtyOnce es 0 cur q d ->
  match q with
  | inr (cur1, l, k) => (k = 1%nat /\ pegks w es cur (RSucc cur1 l) d) \/ (k = 0%nat /\ cur1 = cur /\ l = [] /\ pegks w es cur RFail d)
  | inl (cur1, x) => pegks w es cur (RErr cur1 x) d
  end.
Proof.
  intros H. inversion H as [? ? ? ? L|? ? ? ? ? L A|? ? ? ? ? ? ? L A|? ? ? ? ? ? ? ? ? L A B]; subst; cbn in *; try lia; auto.
  inversion B as [? ? ? ? L2|? ? ? ? ? L2|? ? ? ? ? ? ? L2|? ? ? ? ? ? ? ? ? L2]; subst; cbn in *; try lia.
  left. rewrite app_nil_r, Nat.add_0_r. auto.
Qed.
Definition tr_counts (c : ctx) (fuel : nat) (x : list ast -> nat -> Prop) (tr : option (list trans)) (wtr : option (list (wtrans nat))) : Prop :=
  match tr, wtr with
  | None, None => True
  | Some ts, Some wts => forall k l, let q := w_run_trans fuel c wts k l in
      snd q = run_trans fuel c ts l /\ match snd q with Ok _ => exists y, x l y /\ fst q = (k + y)%nat | _ => True end
  | _, _ => False
  end.
Lemma base_once w cls es cs props (neg rew : bool) x tr wtr fuel k c : Forall2 (counts w) es cs -> okc w c ->
  flags_of props = mkFlags neg false rew qtyOnce -> (tr = None \/ neg = false /\ rew = false) -> tr_counts (set_cls c cls) fuel x tr wtr ->
  match w_base cls None props cs wtr fuel k c with
  | (k', Ok (o, err)) => in_world w o /\ exists r d y, k' = (k + d + y)%nat /\ pegks w es (c_sp c) r d /\
      match r, tr with RSucc _ l, Some _ => x l y | _, _ => y = 0%nat end /\
      match r with
      | RErr cur x => returns [] o err (RErr cur x)
      | RFail => if neg then if rew then o = set_cls c cls /\ err = None else True else returns [] o err RFail
      | RSucc cur l => if neg then returns [] o err RFail else if rew then o = set_cls c cls /\ err = None else
          exists o1, c_sp o1 = cur /\ okc w o1 /\ c_stack o1 = c_stack c ++ l /\
          match tr with
          | None => o = o1 /\ err = None
          | Some ts => match run_trans fuel (set_cls c cls) ts l with
              | Ok (inl e) => o = set_st o1 Errored /\ err = Some e
              | Ok (inr asts) => o = set_stack o1 (c_stack c ++ asts) /\ err = None
              | _ => False end
          end
      end
  | _ => True
  end.
Proof.
  intros Hcs Ho Hf Htr Hx. pose proof (okc_start w c cls Ho) as Ho0. unfold w_base. cbv zeta. rewrite Hf. cbn [f_qty f_ex f_neg f_rew].
  pose proof (parent_counts w qtyOnce es cs (length (c_stack (set_cls c cls))) Hcs fuel k _ 0%nat Ho0) as H.
  destruct (w_parent _ _ _ _ _ _ _ _ _) as [k1 [[[o1 err]|why|]|o1 j]]; auto.
  - destruct H as (cur & e & d & Hp & Hr & Hw & ->). apply pegkr_once in Hp. split; [exact Hw|]. exists (RErr cur e), d, 0%nat. split; [lia|]. auto.
  - destruct H as (l & d & Hp & Hs & [Hw Hst] & ->). apply pegkr_once in Hp.
    destruct Hp as [[-> Hp]|(-> & Hcur & -> & Hp)]; unfold after_loop; cbn [f_qty f_neg qtyOnce t_min Z.of_nat Z.leb Z.ltb Z.compare andb Pos.of_succ_nat Pos.compare Pos.compare_cont].
    + rewrite Hst. destruct neg.
      * destruct Htr as [->|[X _]]; [|discriminate]. cbn. rewrite ?Hst. cbn. split; [exact Hw|]. exists (RSucc (c_sp o1) l), d, 0%nat. split; [lia|]. repeat split; auto.
      * rewrite Hst. cbn [call_fn]. replace (c_st (set_qty o1 1)) with (c_st o1) by reflexivity. rewrite Hst.
        destruct rew.
        -- destruct Htr as [->|[_ X]]; [|discriminate]. destruct wtr as [wts|]; [contradiction|]. split; [apply Ho|]. exists (RSucc (c_sp o1) l), d, 0%nat. split; [lia|]. repeat split; auto.
        -- destruct tr as [ts|], wtr as [wts|]; try contradiction.
           ++ assert (Hs' : c_stack (set_qty o1 1) = c_stack c ++ l) by (cbn; exact Hs).
              rewrite Hs'. replace (length (c_stack (set_cls c cls))) with (length (c_stack c)) by reflexivity.
              rewrite (proj2 (Nat.ltb_ge _ _)) by (rewrite app_length; lia).
              rewrite app_split_skip, app_split_first. specialize (Hx (k + d)%nat l). cbv zeta in Hx.
              destruct (w_run_trans fuel (set_cls c cls) wts (k + d)%nat l) as [k2 q]. cbn [fst snd] in Hx. destruct Hx as [E Hx].
              destruct q as [[e|asts]|why|]; auto; destruct Hx as (y & Hy & ->);
                (split; [exact Hw|]; exists (RSucc (c_sp o1) l), d, y; split; [lia|]; split; [exact Hp|]; split; [exact Hy|]; exists (set_qty o1 1); rewrite <- E; repeat split; auto; apply Hw).
           ++ split; [exact Hw|]. exists (RSucc (c_sp o1) l), d, 0%nat. split; [lia|]. split; [exact Hp|]. split; [reflexivity|]. exists (set_qty o1 1). repeat split; auto; apply Hw.
    + destruct neg.
      * destruct Htr as [->|[X _]]; [|discriminate]. destruct wtr as [wts|]; [contradiction|]. cbn. destruct rew.
        -- split; [apply Ho|]. exists RFail, d, 0%nat. split; [lia|]. repeat split; auto.
        -- split; [exact Hw|]. exists RFail, d, 0%nat. split; [lia|]. repeat split; auto.
      * cbn. split; [exact Hw|]. exists RFail, d, 0%nat. split; [lia|]. repeat split; auto.
Qed.
Lemma base_plain w cls es cs props (neg rew : bool) fuel k c : Forall2 (counts w) es cs -> okc w c ->
  flags_of props = mkFlags neg false rew qtyOnce ->
  match w_base cls None props cs None fuel k c with
  | (k', Ok (o, err)) => in_world w o /\ exists r d, k' = (k + d)%nat /\ pegks w es (c_sp c) r d /\
      match r with
      | RErr cur x => returns [] o err (RErr cur x)
      | RFail => if neg then if rew then o = set_cls c cls /\ err = None else True else returns [] o err RFail
      | RSucc cur l => if neg then returns [] o err RFail else if rew then o = set_cls c cls /\ err = None else
          c_sp o = cur /\ okc w o /\ c_stack o = c_stack c ++ l /\ err = None
      end
  | _ => True
  end.
Proof.
  intros Hcs Ho Hf. pose proof (base_once w cls es cs props neg rew (fun _ y => y = 0%nat) None None fuel k c Hcs Ho Hf (or_introl eq_refl) I) as H.
  destruct (w_base _ _ _ _ _ _ _ _) as [k1 [[o err]|why|]]; auto. destruct H as (Hw & r & d & y & -> & Hp & Hy & H). split; [exact Hw|].
  exists r, d. assert (y = 0%nat) by (destruct r; exact Hy). split; [lia|]. split; [exact Hp|].
  destruct r as [cur l| |cur x]; auto. destruct neg; auto. destruct rew; auto. destruct H as (o1 & E1 & E2 & E3 & -> & ->). auto.
Qed.
Lemma flat_counts w es cs fuel : Forall2 (counts w) es cs -> counts w (EFlatGroup es) (tick (w_base ":base:FlatGroup" None [] cs None fuel)).
Proof.
  intros Hcs k c Ho. pose proof (base_plain w ":base:FlatGroup" es cs [] false false fuel (S k) c Hcs Ho eq_refl) as H.
  unfold tick. destruct (w_base _ _ _ _ _ _ _ _) as [k1 [[o err]|why|]]; auto. destruct H as (Hw & r & d & -> & Hp & H).
  exists r, (S d). split; [apply pk_flat; exact Hp|]. split; [|split; [exact Hw|lia]].
  destruct r as [cur l| |cur x]; auto. destruct H as (<- & [Hw1 Hst] & Hs & ->). cbn. auto.
Qed.
Lemma trans_counts w e f tr wtr fuel : counts w e f -> allP good_trans tr ->
  (forall c, okc w c -> tr_counts (set_cls c ":base:Trans") fuel (fun l y => wt tr (fresh w (c_sp c)) l y) (Some tr) (Some wtr)) ->
  counts w (ETrans e tr) (tick (w_base ":base:Trans" None [] [f] (Some wtr) fuel)).
Proof.
  intros Hf Hg Hx k c Ho.
  assert (Hcs : Forall2 (counts w) [e] [f]) by (constructor; auto).
  pose proof (base_once w ":base:Trans" [e] _ [] false false _ (Some tr) (Some wtr) fuel (S k) c Hcs Ho eq_refl (or_intror (conj eq_refl eq_refl)) (Hx c Ho)) as H.
  unfold tick. destruct (w_base _ _ _ _ _ _ _ _) as [k1 [[o err]|why|]]; auto. destruct H as (Hw & r & d & y & -> & Hp & Hy & H).
  assert (P : pegk w e (c_sp c) r d).
  { clear -Hp. inversion Hp as [|? ? ? ? l0 d0 r0 d2 A B|? ? ? ? A|? ? ? ? ? ? A]; subst; auto. inversion B; subst. rewrite app_nil_r, Nat.add_0_r. exact A. }
  clear Hp. destruct r as [cur l| |cur x].
  - destruct H as (o1 & <- & [Hw1 Hst] & Hs & H).
    rewrite (run_trans_ctx fuel tr l (set_cls c ":base:Trans") (fresh w (c_sp c))) in H;
      [|eapply allP_impl; [|exact Hg]; simpl; unfold good_trans; tauto|destruct Ho as [(E1 & E2 & E3) _]; simpl; congruence..].
    destruct (run_trans fuel (fresh w (c_sp c)) tr l) as [[x|asts]|why|] eqn:E; try contradiction;
      apply run_trans_pipeline in E; destruct H as [-> ->].
    + exists (RErr (c_sp o1) x), (S (d + y)). split; [eapply pk_transw; [exact P|apply th_bad; exact E|exact Hy]|]. split; [cbn; auto|]. split; [exact Hw|lia].
    + exists (RSucc (c_sp o1) asts), (S (d + y)). split; [eapply pk_transw; [exact P|apply th_ok; exact E|exact Hy]|]. split; [cbn; auto|]. split; [exact Hw|lia].
  - exists RFail, (S (d + y)). split; [eapply pk_transw; [exact P|constructor|exact Hy]|]. split; [exact H|]. split; [exact Hw|lia].
  - exists (RErr cur x), (S (d + y)). split; [eapply pk_transw; [exact P|constructor|exact Hy]|]. split; [exact H|]. split; [exact Hw|lia].
Qed.
Lemma indirect_counts w j f : counts w (w_env w j) f -> counts w (EIndirect j) (tick (w_light ":base:Indirect" f)).
Proof.
  intros Hf k c Ho. specialize (Hf (S k) c Ho). unfold tick, w_light.
  destruct (f (S k) c) as [k1 [[o err]|why|]]; auto. destruct Hf as (r & d & Hp & Hr & Hw & ->).
  exists r, (S d). split; [apply pk_indirect; exact Hp|]. split; [|split; [|lia]].
  - destruct r; cbn [returns] in *.
    + destruct Hr as (-> & Hst & Hr). cbn. rewrite Hst. cbn. auto.
    + destruct Hr as (-> & Hst). cbn. rewrite Hst. cbn. auto.
    + destruct Hr as (-> & Hst & Hr). cbn. auto.
  - destruct err; cbn; [apply Hw|]. destruct (c_st o); apply Hw.
Qed.
Lemma repeat_counts w t es cs fuel : Forall2 (counts w) es cs -> counts w (ERepeat t es) (tick (w_base ":base:Repeat" None [PTimes t] cs None fuel)).
Proof.
  intros Hcs k c Ho. pose proof (okc_start w c ":base:Repeat" Ho) as Ho0. unfold tick, w_base. cbv zeta.
  replace (flags_of [PTimes t]) with (mkFlags false false false t) by reflexivity. cbn [f_qty f_ex f_neg f_rew].
  pose proof (parent_counts w t es cs (length (c_stack (set_cls c ":base:Repeat"))) Hcs fuel (S k) _ 0%nat Ho0) as H.
  destruct (w_parent _ _ _ _ _ _ _ _ _) as [k1 [[[o1 err]|why|]|o1 j]]; auto.
  - destruct H as (cur & x & d & Hp & Hr & Hw & ->). exists (RErr cur x), (S d). split; [exact (pk_repeat w t es _ _ _ Hp)|].
    split; [exact Hr|]. split; [exact Hw|lia].
  - destruct H as (l & d & Hp & Hs & [Hw Hst] & ->). pose proof (pk_repeat w t es _ _ _ Hp) as P. cbn [repeated] in P.
    unfold after_loop. cbn [f_qty f_neg]. destruct (Z.ltb_spec (Z.of_nat j) (t_min t)) as [L|L].
    + replace (0 <=? t_min t) with true by (symmetry; apply Z.leb_le; lia). cbn. exists RFail, (S d). split; [exact P|]. split; [cbn; auto|]. split; [exact Hw|lia].
    + rewrite andb_false_r, Hst. cbn. rewrite Hst. cbn. exists (RSucc (c_sp o1) l), (S d). split; [exact P|]. split; [cbn; auto|]. split; [exact Hw|lia].
Qed.
Lemma first_counts w es cs fuel : Forall2 (counts w) es cs -> counts w (EFirst es) (tick (w_base ":base:First" None [PThereExists] cs None fuel)).
Proof.
  intros Hcs k c Ho. pose proof (okc_start w c ":base:First" Ho) as Ho0. unfold tick, w_base. cbv zeta.
  replace (flags_of [PThereExists]) with (mkFlags false true false qtyOnce) by reflexivity. cbn [f_qty f_ex f_neg f_rew].
  destruct fuel as [|fuel]; [cbn; auto|]. cbn [w_parent]. replace (more qtyOnce 0) with true by reflexivity.
  pose proof (choice_counts w es cs Hcs (set_st (set_cls c ":base:First") Matched) (S k) _ 0%nat Ho0) as H.
  destruct (w_children true _ cs _ _ 0) as [k1 [[[o1 err]|why|]|c1|o1 num]]; auto; try contradiction.
  - destruct H as (cur & x & d & Hp & Hr & Hw & ->). exists (RErr cur x), (S d). split; [|split; [exact Hr|]; split; [exact Hw|lia]].
    destruct es; [inversion Hp|]. apply pk_first; auto.
  - destruct H as [(-> & -> & d & Hp & ->)|(-> & l & d & Hp & Hs & [Hw Hst] & ->)].
    + inversion Hcs; subst; cbn [length Nat.ltb Nat.leb Nat.eqb andb].
      * inversion Hp; subst. destruct fuel; cbn; (exists (RSucc (c_sp c) []), 1%nat; split; [constructor|]; split; [cbn; rewrite app_nil_r; auto|split; [apply Ho|lia]]).
      * cbn. exists RFail, (S d). split; [apply pk_first; auto|]. split; [cbn; auto|]. split; [apply Ho|lia].
    + rewrite andb_false_r. cbn [call_fn]. replace (c_st (set_qty o1 0)) with (c_st o1) by reflexivity. rewrite Hst.
      destruct es; [inversion Hp|].
      destruct fuel; cbn; rewrite ?Hst; cbn; rewrite ?Hst;
        (exists (RSucc (c_sp o1) l), (S d); split; [apply pk_first; auto|]; split; [cbn; auto|]; split; [exact Hw|lia]).
Qed.
Lemma behind_counts w (neg : bool) mn mx es cs fuel : Forall2 (counts w) es cs ->
  counts w (ELookBehind neg mn mx es) (fun k c =>
      w_behind_loop neg (tick (w_base (if neg then ":base:LookBehindN" else ":base:LookBehind") None [PRewind] cs None fuel)) k c mn (Z.to_nat (mx - mn + 1))).
Proof.
  intros Hcs k c Ho. set (cls := if neg then ":base:LookBehindN"%string else ":base:LookBehind"%string).
  assert (G : forall j i k,
    match w_behind_loop neg (tick (w_base cls None [PRewind] cs None fuel)) k c i j with
    | (k', Ok (o, err)) => in_world w o /\ exists r d, k' = (k + d)%nat /\ pegkb w es (behind (c_sp c) i j) r d /\
        match r with
        | RFail => o = set_st c (if neg then Matched else Unmatched) /\ err = None
        | RSucc p l => err = None /\ if neg then c_st o = Unmatched else o = c
        | RErr cur x => returns [] o err (RErr cur x)
        end
    | _ => True
    end).
  { clear k. induction j as [|j IH]; intros i k; cbn [w_behind_loop behind].
    - split; [apply Ho|]. exists RFail, 0%nat. split; [lia|]. split; [constructor|auto].
    - replace (c_pos c) with (sp_pos (c_sp c)) by reflexivity. destruct (Z.of_nat (sp_pos (c_sp c)) - i <? 0) eqn:Hq; [apply IH|].
      set (c1 := set_pos c _). assert (Ho1 : okc w c1) by apply Ho.
      pose proof (base_plain w cls es cs [PRewind] false true fuel (S k) c1 Hcs Ho1 eq_refl) as H.
      unfold tick at 1. destruct (w_base cls None [PRewind] cs None fuel (S k) c1) as [k1 [[o1 err]|why|]]; auto.
      destruct H as (Hw & r & d & -> & Hp & H). destruct r as [cur l| |cur x].
      + destruct H as [-> ->]. replace (c_st (set_cls c1 cls)) with Matched by (symmetry; apply Ho).
        assert (P : pegkb w es (mkSP (Z.to_nat (Z.of_nat (sp_pos (c_sp c)) - i)) (sp_len (c_sp c)) :: behind (c_sp c) (i + 1) j) (RSucc (mkSP (Z.to_nat (Z.of_nat (sp_pos (c_sp c)) - i)) (sp_len (c_sp c))) []) (S d)).
        { eapply bk_ok. exact Hp. }
        destruct neg; (split; [apply Ho|]; eexists _, (S d); split; [lia|split; [exact P|cbn; auto]]).
      + destruct H as [-> Hst]. rewrite Hst. specialize (IH (i + 1) (S k + d)%nat).
        destruct (w_behind_loop _ _ _ c (i + 1) j) as [k2 [[o2 err2]|why|]]; auto.
        destruct IH as (Hw2 & r & d2 & -> & Hb & IH). split; [exact Hw2|]. exists r, (S d + d2)%nat. split; [lia|]. split; [|exact IH].
        apply bk_next; auto.
      + destruct H as (-> & Hst & Hsp). split; [exact Hw|]. exists (RErr cur x), (S d). split; [lia|]. split; [apply bk_err; exact Hp|]. cbn; auto. }
  specialize (G (Z.to_nat (mx - mn + 1)) mn k). fold cls.
  destruct (w_behind_loop _ _ _ c mn _) as [k' [[o err]|why|]]; auto.
  destruct G as (Hw & r & d & -> & Hb & G). eexists _, d. split; [apply pk_behind; exact Hb|]. split; [|split; [exact Hw|reflexivity]].
  destruct r as [p l| |cur x]; destruct neg; cbn [ahead not_ahead]; cbn [returns] in G |- *; intuition (subst; cbn; rewrite ?app_nil_r; auto).
  apply Ho.
Qed.
(** Counted runs where the transformers in [okt] need not count. *)
Definition only (okt : trans -> Prop) : gspec := mkGS (fun _ _ => True) okt anyZ anyR anyI noBase.
Lemma kdenote_counts_on okt w e : (forall tr c l, allP okt tr -> wt tr c l 0%nat) -> peg_gram e -> gram (only okt) e -> forall rho n, (forall j, counts w (w_env w j) (rho j)) -> counts w e (kdenote rho n e).
Proof.
  intros free. unfold peg_gram. induction e using pexp_ind'; intros Hg Hk rho nn Hrho; cbn [kdenote]; simpl in Hg, Hk;
    try rewrite fold_and_Forall in Hg; try rewrite fold_and_Forall in Hk;
    try (assert (Hcs : Forall2 (counts w) es (map (kdenote rho nn) es)) by
      (rewrite <- (map_id es) at 1; apply Forall2_map; eapply Forall_impl;
         [|eapply Forall_mp; [eapply Forall_mp; [exact H|first [exact Hg|exact (proj2 Hg)]]|first [exact Hk|exact (proj2 Hk)]]]; simpl; intros a Ha; apply Ha; assumption)).
  - intros k c Ho. pose proof (leaf_sound w cls fn nn Hg c Ho) as S. unfold answers in S. unfold tick.
    destruct (light_base_parser cls (fn nn) c) as [[o err]|why|]; auto.
    destruct S as (r & Hp & Hr & Hw). inversion Hp; subst. eexists _, 1%nat. split; [eapply pk_leaf; eassumption|]. split; [exact Hr|]. split; [exact Hw|lia].
  - apply flat_counts; auto.
  - intros k c Ho.
    assert (X : tr_counts (set_cls c ":base:Group") nn (fun _ y => y = 0%nat) (Some [GroupingTransform]) (Some [no_effect GroupingTransform])).
    { intros k0 l. cbv zeta. rewrite (no_effect_sim nn _ [GroupingTransform]). cbn. split; [reflexivity|]. exists 0%nat. split; [reflexivity|lia]. }
    pose proof (base_once w ":base:Group" es _ [] false false _ _ _ nn (S k) c Hcs Ho eq_refl (or_intror (conj eq_refl eq_refl)) X) as S.
    unfold tick. destruct (w_base _ _ _ _ _ _ _ _) as [k1 [[o err]|why|]]; auto. destruct S as (Hw & r & d & y & -> & Hp & Hy & S).
    assert (y = 0%nat) by (destruct r; exact Hy). exists (grouped r), (Datatypes.S d). split; [apply pk_group; exact Hp|]. split; [|split; [exact Hw|lia]].
    destruct r as [cur l| |cur x]; auto. destruct S as (o1 & <- & [Hw1 Hst] & Hs & S). cbn in S. destruct S as [-> ->]. cbn. auto.
  - apply first_counts; auto.
  - intros k c Ho. pose proof (base_plain w ":base:LookAhead" es _ [PRewind] false true nn (S k) c Hcs Ho eq_refl) as S.
    unfold tick. destruct (w_base _ _ _ _ _ _ _ _) as [k1 [[o err]|why|]]; auto. destruct S as (Hw & r & d & -> & Hp & S).
    exists (ahead (c_sp c) r), (Datatypes.S d). split; [apply pk_ahead; exact Hp|]. split; [|split; [exact Hw|lia]].
    destruct r as [cur l| |cur x]; auto. destruct S as [-> ->]. cbn. rewrite app_nil_r. destruct Ho; auto.
  - intros k c Ho. pose proof (base_plain w ":base:LookAheadN" es _ [PRewind; PNegative] true true nn (S k) c Hcs Ho eq_refl) as S.
    unfold tick. destruct (w_base _ _ _ _ _ _ _ _) as [k1 [[o err]|why|]]; auto. destruct S as (Hw & r & d & -> & Hp & S).
    exists (not_ahead (c_sp c) r), (Datatypes.S d). split; [apply pk_aheadN; exact Hp|]. split; [|split; [exact Hw|lia]].
    destruct r as [cur l| |cur x]; auto. destruct S as [-> ->]. cbn. rewrite app_nil_r. destruct Ho; auto.
  - apply behind_counts; auto.
  - apply repeat_counts; auto.
  - destruct Hg as [Hg1 Hg2]. destruct Hk as [Hk1 Hk2]. destruct tr as [|t tr]; cbn [variadic option_map].
    + intros k c Ho. assert (Hcs : Forall2 (counts w) [e] [kdenote rho nn e]) by (constructor; auto).
      pose proof (base_plain w ":base:Trans" [e] _ [] false false nn (S k) c Hcs Ho eq_refl) as S.
      unfold tick. destruct (w_base _ _ _ _ _ _ _ _) as [k1 [[o err]|why|]]; auto. destruct S as (Hw & r & d & -> & Hp & S).
      assert (P : pegk w e (c_sp c) r d).
      { clear -Hp. inversion Hp as [|? ? ? ? l0 d0 r0 d2 A B|? ? ? ? A|? ? ? ? ? ? A]; subst; auto. inversion B; subst. rewrite app_nil_r, Nat.add_0_r. exact A. }
      exists r, (Datatypes.S (d + 0)). split; [eapply pk_transw; [exact P|destruct r; [apply th_ok; constructor|apply th_fail|apply th_err]|destruct r; cbn; auto; apply free; exact I]|].
      split; [|split; [exact Hw|lia]]. destruct r as [cur l| |cur x]; auto. destruct S as (<- & [_ Hst] & Hs & ->). cbn. auto.
    + apply trans_counts; auto. intros c Ho k l. cbv zeta. rewrite no_effect_sim. cbn [fst snd]. split; [reflexivity|].
      destruct (run_trans _ _ _ _); auto. exists 0%nat. split; [apply free; exact Hk2|lia].
  - apply indirect_counts. apply Hrho.
  - destruct Hg as [[] _].
Qed.
Hypothesis free : forall tr c l, wt tr c l 0%nat.
Lemma kdenote_counts w e : peg_gram e -> forall rho n, (forall j, counts w (w_env w j) (rho j)) -> counts w e (kdenote rho n e).
Proof.
  intros Hg. apply (kdenote_counts_on (fun _ => True)); auto. revert Hg. apply gram_weaken; cbn; auto.
Qed.
Lemma krun_counts w e n k c o err k' : peg_env w -> peg_gram e -> okc w c ->
  krun (w_env w) n e k c = (k', Ok (o, err)) ->
  exists r d, pegk w e (c_sp c) r d /\ returns (c_stack c) o err r /\ in_world w o /\ k' = (k + d)%nat.
Proof.
  intros He Hg Ho E.
  assert (R : forall n j, counts w (w_env w j) (krun_env (w_env w) n j)).
  { clear -He free. induction n as [|n IH]; intros j; [intros k c _; exact I|]. intros k c Ho. cbn [krun_env]. apply kdenote_counts; auto. }
  pose proof (kdenote_counts w e Hg _ n (R n) k c Ho) as H. unfold krun in E. rewrite E in H. exact H.
Qed.
End Weighted.
Arguments pk_leaf {wt}.
Arguments pk_flat {wt}.
Arguments pk_group {wt}.
Arguments pk_first_none {wt}.
Arguments pk_first {wt}.
Arguments pk_ahead {wt}.
Arguments pk_aheadN {wt}.
Arguments pk_behind {wt}.
Arguments pk_repeat {wt}.
Arguments pk_transw {wt}.
Arguments pk_indirect {wt}.
Arguments sk_nil {wt}.
Arguments sk_ok {wt}.
Arguments sk_fail {wt}.
Arguments sk_err {wt}.
Arguments ck_nil {wt}.
Arguments ck_ok {wt}.
Arguments ck_err {wt}.
Arguments ck_next {wt}.
Arguments rk_limit {wt}.
Arguments rk_stop {wt}.
Arguments rk_err {wt}.
Arguments rk_more {wt}.
Arguments bk_none {wt}.
Arguments bk_ok {wt}.
Arguments bk_err {wt}.
Arguments bk_next {wt}.
Arguments pegk_peg_all {wt}.
Arguments pegk_peg {wt}.
Arguments pegks_pegs {wt}.
Arguments pegk_mutind {wt}.
