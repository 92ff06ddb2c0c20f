(** Lemmas for C76. *)
From Verif Require Export S_Laws L_Leaf.

(** ** The semantics as equations *)
Section W.
Variable w : world.
Definition prefixed (l : list ast) (r : result) : result := match r with RSucc c m => RSucc c (l ++ m) | _ => r end.
Lemma flat_iff es cur r : peg w (EFlatGroup es) cur r <-> pegs w es cur r.
Proof. split; [intros H; inversion H; auto|apply peg_flat]. Qed.
Lemma seq_iff e es cur r : pegs w (e :: es) cur r <->
  exists r0, peg w e cur r0 /\ match r0 with RSucc c1 l => exists r1, pegs w es c1 r1 /\ r = prefixed l r1 | _ => r = r0 end.
Proof.
  split.
  - intros H. inversion H; subst; eexists; (split; [eassumption|]); cbn; auto; eexists; (split; [eassumption|reflexivity]).
  - intros ([c1 l| |c1 x] & H & E); [destruct E as ([c2 l2| |c2 x2] & E1 & ->)|subst|subst]; cbn; [eapply seq_ok|eapply seq_fail_later|eapply seq_err_later|eapply seq_fail|eapply seq_err]; eauto.
Qed.
Lemma seq_nil_iff cur r : pegs w [] cur r <-> r = RSucc cur [].
Proof. split; [intros H; inversion H; auto|intros ->; constructor]. Qed.
Lemma alt_iff e es cur r : pegc w (e :: es) cur r <->
  exists r0, peg w e cur r0 /\ match r0 with RFail => pegc w es cur r | _ => r = r0 end.
Proof.
  split.
  - intros H. inversion H; subst; eexists; (split; [eassumption|]); cbn; auto.
  - intros ([c1 l| |c1 x] & H & E); [subst|idtac|subst]; [apply ch_ok|apply ch_next|apply ch_err]; auto.
Qed.
Lemma alt_nil_iff cur r : pegc w [] cur r <-> r = RFail.
Proof. split; [intros H; inversion H; auto|intros ->; constructor]. Qed.
Lemma first_iff e es cur r : peg w (EFirst (e :: es)) cur r <-> pegc w (e :: es) cur r.
Proof. split; [intros H; inversion H; auto|apply peg_first]. Qed.
Lemma first_nil_iff cur r : peg w (EFirst []) cur r <-> r = RSucc cur [].
Proof. split; [intros H; inversion H; auto|intros ->; constructor]. Qed.
Lemma group_iff es cur r : peg w (EGroup es) cur r <->
  exists r0, pegs w es cur r0 /\ r = match r0 with RSucc c1 l => RSucc c1 [group_ast l] | _ => r0 end.
Proof.
  split; [intros H; inversion H; subst; eexists; (split; [eassumption|reflexivity])|].
  intros ([c1 l| |c1 x] & H & ->); econstructor; eauto.
Qed.
Lemma ahead_iff es cur r : peg w (ELookAhead es) cur r <->
  exists r0, pegs w es cur r0 /\ r = match r0 with RSucc _ _ => RSucc cur [] | _ => r0 end.
Proof.
  split; [intros H; inversion H; subst; eexists; (split; [eassumption|reflexivity])|].
  intros ([c1 l| |c1 x] & H & ->); econstructor; eauto.
Qed.
Lemma aheadN_iff es cur r : peg w (ELookAheadN es) cur r <->
  exists r0, pegs w es cur r0 /\ r = match r0 with RSucc _ _ => RFail | RFail => RSucc cur [] | _ => r0 end.
Proof.
  split; [intros H; inversion H; subst; eexists; (split; [eassumption|reflexivity])|].
  intros ([c1 l| |c1 x] & H & ->); [eapply peg_not_fail|eapply peg_not_ok|eapply peg_not_err]; eauto.
Qed.
Lemma behind_iff neg mn mx es cur r : peg w (ELookBehind neg mn mx es) cur r <->
  exists r0, pegb w es (behind cur mn (Z.to_nat (mx - mn + 1))) r0 /\
    r = match r0 with RSucc _ _ => if neg then RFail else RSucc cur [] | RFail => if neg then RSucc cur [] else RFail | _ => r0 end.
Proof.
  split; [intros H; inversion H; subst; eexists; (split; [eassumption|reflexivity])|].
  intros ([c1 l| |c1 x] & H & ->); [|destruct neg; econstructor; eauto|econstructor; eauto].
  assert (l = []). { remember (behind cur mn (Z.to_nat (mx - mn + 1))) as ps eqn:E. clear E. remember (RSucc c1 l) as q eqn:Eq. induction H; try discriminate; [congruence|auto]. }
  subst l. destruct neg; econstructor; eauto.
Qed.
Lemma trans_iff e tr cur r : peg w (ETrans e tr) cur r <->
  exists r0, peg w e cur r0 /\ match r0 with
    | RSucc c1 l => exists p, pipeline (fresh w cur) tr l p /\ r = match p with inr l1 => RSucc c1 l1 | inl x => RErr c1 x end
    | _ => r = r0 end.
Proof.
  split; [intros H; inversion H; subst; eexists; (split; [eassumption|]); cbn; auto; eexists; (split; [eassumption|reflexivity])|].
  intros ([c1 l| |c1 x] & H & E); [destruct E as ([x|l1] & E & ->)|subst|subst]; [eapply peg_trans_bad|eapply peg_trans_ok|eapply peg_trans_fail|eapply peg_trans_err]; eauto.
Qed.
Lemma repeat_iff t es cur r : peg w (ERepeat t es) cur r <->
  exists q, pegr w t es 0 cur q /\ r = match q with inl (c1, x) => RErr c1 x | inr (c1, l, k) => if t_min t <=? Z.of_nat k then RSucc c1 l else RFail end.
Proof.
  split.
  - intros H; inversion H; subst; eexists; (split; [eassumption|]); cbn; auto.
    + destruct (Z.leb_spec (t_min t) (Z.of_nat k)); [reflexivity|lia].
    + destruct (Z.leb_spec (t_min t) (Z.of_nat k)); [lia|reflexivity].
  - intros ([[c1 x]|[[c1 l] k]] & H & ->); [econstructor; eauto|]. destruct (Z.leb_spec (t_min t) (Z.of_nat k)); [eapply peg_rep_ok|eapply peg_rep_few]; eauto.
Qed.
Definition rprefixed (l : list ast) (q : (srcpos * gerr) + (srcpos * list ast * nat)) :=
  match q with inl x => inl x | inr (c, m, k) => inr (c, l ++ m, k) end.
Lemma rep_iff t es k cur q : pegr w t es k cur q <->
  (0 <= t_max t <= Z.of_nat k /\ q = inr (cur, [], k)) \/
  ((t_max t < 0 \/ Z.of_nat k < t_max t) /\ exists r0, pegs w es cur r0 /\ match r0 with
     | RSucc c1 l => exists q1, pegr w t es (S k) c1 q1 /\ q = rprefixed l q1
     | RFail => q = inr (cur, [], k)
     | RErr c1 x => q = inl (c1, x) end).
Proof.
  split.
  - intros H. inversion H; subst; auto; right; (split; [assumption|]); eexists; (split; [eassumption|]); cbn; auto; eexists; (split; [eassumption|reflexivity]).
  - intros [[L ->]|[L ([c1 l| |c1 x] & H & E)]]; [apply rep_limit; auto| |subst; apply rep_stop; auto|subst; eapply rep_err; eauto].
    destruct E as ([[c2 x]|[[c2 m] k2]] & E & ->); cbn; [eapply rep_more_err|eapply rep_more]; eauto.
Qed.
Lemma unmatched_iff cur r : peg w EUnmatched cur r <-> r = RFail.
Proof.
  split; [intros H; inversion H; subst; match goal with E : _ = Ok _ |- _ => inversion E; subst; reflexivity end|].
  intros ->. exact (peg_leaf w ":base:Unmatched" (lift unmatched_fn) 0 cur _ _ eq_refl).
Qed.
Lemma error_iff m cur r : peg w (EError m) cur r <-> r = RErr (mkSP (sp_pos cur) 0) (EText m).
Proof.
  split; [intros H; inversion H; subst; match goal with E : _ = Ok _ |- _ => inversion E; subst; reflexivity end|].
  intros ->. exact (peg_leaf w ":base:Error" (lift (error_fn m)) 0 cur _ _ eq_refl).
Qed.
End W.

(** ** Equivalence *)
Definition alike_in (w : world) (e e' : pexp) : Prop := forall cur r, peg w e cur r <-> peg w e' cur r.
Definition seq_alike (w : world) (es es' : list pexp) : Prop := forall cur r, pegs w es cur r <-> pegs w es' cur r.
Definition alt_alike (w : world) (es es' : list pexp) : Prop := (es = [] <-> es' = []) /\ forall cur r, pegc w es cur r <-> pegc w es' cur r.

Section Laws.
Variable w : world.
Lemma seq_app es es' : forall cur r, pegs w (es ++ es') cur r <->
  exists r0, pegs w es cur r0 /\ match r0 with RSucc c1 l => exists r1, pegs w es' c1 r1 /\ r = prefixed l r1 | _ => r = r0 end.
Proof.
  induction es as [|e es IH]; intros cur r; cbn [app].
  - split.
    + intros H. exists (RSucc cur []). split; [constructor|]. exists r. split; [exact H|destruct r; reflexivity].
    + intros (r0 & H & E). apply seq_nil_iff in H. subst. destruct E as (r1 & H & ->). destruct r1; exact H.
  - rewrite seq_iff. split.
    + intros ([c1 l| |c1 x] & H & E); [destruct E as (r1 & E & ->)|subst|subst].
      * apply IH in E. destruct E as ([c2 l2| |c2 x2] & E & F); [destruct F as (r2 & F & ->)|subst|subst].
        -- exists (RSucc c2 (l ++ l2)). split; [eapply seq_ok; eauto|]. exists r2. split; [exact F|]. destruct r2; cbn; rewrite ?app_assoc; reflexivity.
        -- exists RFail. split; [eapply seq_fail_later; eauto|reflexivity].
        -- exists (RErr c2 x2). split; [eapply seq_err_later; eauto|reflexivity].
      * exists RFail. split; [apply seq_fail; auto|reflexivity].
      * exists (RErr c1 x). split; [apply seq_err; auto|reflexivity].
    + intros (r0 & H & E). apply seq_iff in H. destruct H as ([c1 l| |c1 x] & H & F).
      * exists (RSucc c1 l). split; [exact H|]. destruct F as (r1 & F & ->). destruct r1 as [c2 l2| |c2 x2]; cbn [prefixed] in E.
        -- destruct E as (r2 & E & ->). exists (prefixed l2 r2). split; [apply IH; eexists; (split; [exact F|]); cbn; eauto|]. destruct r2; cbn; rewrite ?app_assoc; reflexivity.
        -- subst. exists RFail. split; [apply IH; eexists; (split; [exact F|]); reflexivity|reflexivity].
        -- subst. exists (RErr c2 x2). split; [apply IH; eexists; (split; [exact F|]); reflexivity|reflexivity].
      * subst. exists RFail. split; [exact H|reflexivity].
      * subst. exists (RErr c1 x). split; [exact H|reflexivity].
Qed.
Lemma alt_app es es' : forall cur r, pegc w (es ++ es') cur r <->
  exists r0, pegc w es cur r0 /\ match r0 with RFail => pegc w es' cur r | _ => r = r0 end.
Proof.
  induction es as [|e es IH]; intros cur r; cbn [app].
  - split; [intros H; exists RFail; split; [constructor|exact H]|]. intros (r0 & H & E). apply alt_nil_iff in H. subst. exact E.
  - rewrite alt_iff. split.
    + intros ([c1 l| |c1 x] & H & E).
      * subst. eexists. split; [apply ch_ok; eauto|reflexivity].
      * apply IH in E. destruct E as (r0 & E & F). exists r0. split; [apply ch_next; auto|exact F].
      * subst. eexists. split; [apply ch_err; eauto|reflexivity].
    + intros (r0 & H & E). apply alt_iff in H. destruct H as ([c1 l| |c1 x] & H & F).
      * subst. eexists. split; [exact H|reflexivity].
      * exists RFail. split; [exact H|]. apply IH. eauto.
      * subst. eexists. split; [exact H|reflexivity].
Qed.
Definition bump (q : (srcpos * gerr) + (srcpos * list ast * nat)) := match q with inl x => inl x | inr (c, l, k) => inr (c, l, S k) end.
Lemma rep_up t es : t_max t <> 0 -> forall k cur q, pegr w (fewer t) es k cur q -> pegr w t es (S k) cur (bump q).
Proof.
  intros N k cur q H. remember (fewer t) as t' eqn:E. induction H; subst; cbn [bump].
  - apply rep_limit. unfold fewer in *. cbn [t_max] in *. destruct (Z.ltb_spec (t_max t) 0); lia.
  - apply rep_stop; auto. unfold fewer in *. cbn [t_max] in *. destruct (Z.ltb_spec (t_max t) 0); lia.
  - eapply rep_err; eauto. unfold fewer in *. cbn [t_max] in *. destruct (Z.ltb_spec (t_max t) 0); lia.
  - eapply rep_more; eauto. unfold fewer in *. cbn [t_max] in *. destruct (Z.ltb_spec (t_max t) 0); lia.
  - eapply rep_more_err; eauto. unfold fewer in *. cbn [t_max] in *. destruct (Z.ltb_spec (t_max t) 0); lia.
Qed.
Lemma rep_down t es : t_max t <> 0 -> forall k cur q, pegr w t es k cur q -> forall j, k = S j -> exists q0, q = bump q0 /\ pegr w (fewer t) es j cur q0.
Proof.
  intros N k cur q H. induction H; intros j ->.
  - exists (inr (cur, [], j)). split; [reflexivity|]. apply rep_limit. unfold fewer. cbn [t_max]. destruct (Z.ltb_spec (t_max t) 0); lia.
  - exists (inr (cur, [], j)). split; [reflexivity|]. apply rep_stop; auto. unfold fewer. cbn [t_max]. destruct (Z.ltb_spec (t_max t) 0); lia.
  - exists (inl (cur1, x)). split; [reflexivity|]. eapply rep_err; eauto. unfold fewer. cbn [t_max]. destruct (Z.ltb_spec (t_max t) 0); lia.
  - destruct (IHpegr N (S j) eq_refl) as ([y|[[c3 l3] k3]] & E & F); cbn in E; [discriminate|]. injection E as -> -> ->.
    exists (inr (c3, l ++ l3, k3)). split; [reflexivity|]. eapply rep_more; eauto. unfold fewer. cbn [t_max]. destruct (Z.ltb_spec (t_max t) 0); lia.
  - destruct (IHpegr N (S j) eq_refl) as ([y|[[c3 l3] k3]] & E & F); cbn in E; [|discriminate]. injection E as <-.
    exists (inl (cur2, x)). split; [reflexivity|]. eapply rep_more_err; eauto. unfold fewer. cbn [t_max]. destruct (Z.ltb_spec (t_max t) 0); lia.
Qed.
(** What an iteration and the rest of the repetition answer. *)
Lemma rep_step t es cur r : t_max t <> 0 ->
  (peg w (ERepeat t es) cur r <-> exists r0, pegs w es cur r0 /\ match r0 with
     | RSucc c1 l => exists r1, peg w (ERepeat (fewer t) es) c1 r1 /\ r = prefixed l r1
     | RFail => r = if t_min t <=? 0 then RSucc cur [] else RFail
     | RErr c1 x => r = r0 end).
Proof.
  intros N. rewrite repeat_iff. split.
  - intros (q & H & ->). apply rep_iff in H. destruct H as [[L _]|[L (r0 & H & E)]]; [cbn in L; lia|].
    exists r0. split; [exact H|]. destruct r0 as [c1 l| |c1 x]; [|subst; reflexivity|subst; reflexivity]. destruct E as (q1 & E & ->).
    destruct (rep_down t es N _ _ _ E 0%nat eq_refl) as (q0 & -> & F).
    exists (match q0 with inl (c1, x) => RErr c1 x | inr (c1, l, k) => if t_min (fewer t) <=? Z.of_nat k then RSucc c1 l else RFail end).
    split; [apply repeat_iff; exists q0; auto|]. destruct q0 as [[c2 x]|[[c2 m] k]]; cbn [bump rprefixed prefixed]; [reflexivity|]. cbn [fewer t_min].
    destruct (Z.leb_spec (t_min t) (Z.of_nat (S k))), (Z.leb_spec (t_min t - 1) (Z.of_nat k)); try lia; reflexivity.
  - intros (r0 & H & E). assert (L : t_max t < 0 \/ Z.of_nat 0 < t_max t) by (cbn; lia). destruct r0 as [c1 l| |c1 x].
    + destruct E as (r1 & E & ->). apply repeat_iff in E. destruct E as (q0 & E & ->). apply (rep_up t es N) in E.
      exists (rprefixed l (bump q0)). split; [apply rep_iff; right; split; [exact L|]; eexists; (split; [exact H|]); cbn; eauto|].
      destruct q0 as [[c2 x]|[[c2 m] k]]; cbn [bump rprefixed prefixed]; [reflexivity|]. cbn [fewer t_min].
      destruct (Z.leb_spec (t_min t) (Z.of_nat (S k))), (Z.leb_spec (t_min t - 1) (Z.of_nat k)); try lia; reflexivity.
    + subst. exists (inr (cur, [], 0%nat)). split; [apply rep_stop; auto|reflexivity].
    + subst. exists (inl (c1, x)). split; [eapply rep_err; eauto|reflexivity].
Qed.
Lemma repeat_never t es cur : t_min t <= 0 -> ~ peg w (ERepeat t es) cur RFail.
Proof. intros L H. apply repeat_iff in H. destruct H as ([[c1 x]|[[c1 l] k]] & _ & E); [discriminate|]. destruct (Z.leb_spec (t_min t) (Z.of_nat k)); [discriminate|lia]. Qed.
Lemma unfailing_ok e cur : unfailing e -> ~ peg w e cur RFail.
Proof.
  intros U H. destruct U.
  - inversion H; subst; match goal with E : _ = Ok _ |- _ => inversion E; subst; discriminate end.
  - apply error_iff in H. discriminate.
  - eapply repeat_never; eauto.
Qed.
Lemma dead_ok e cur r : dead_end e -> peg w e cur r -> match r with RSucc _ _ => False | _ => True end.
Proof. intros D H. destruct D; [apply error_iff in H|apply unmatched_iff in H]; subst; exact I. Qed.
Lemma pipeline_app c t1 t2 : forall l p, pipeline c (t1 ++ t2) l p <-> exists q, pipeline c t1 l q /\ match q with inr l1 => pipeline c t2 l1 p | inl x => p = inl x end.
Proof.
  induction t1 as [|t t1 IH]; intros l p; cbn [app].
  - split; [intros H; exists (inr l); split; [constructor|exact H]|]. intros (q & H & E). inversion H; subst. exact E.
  - split.
    + intros H. inversion H as [|n ? ? ? e E|n ? ? ? l1 ? E H']; subst.
      * exists (inl e). split; [eapply pl_err; eauto|reflexivity].
      * apply IH in H'. destruct H' as (q & Q & F). exists q. split; [eapply pl_ok; eauto|exact F].
    + intros (q & H & E). inversion H as [|n ? ? ? e E'|n ? ? ? l1 ? E' H']; subst.
      * subst. eapply pl_err; eauto.
      * eapply pl_ok; eauto. apply IH. eauto.
Qed.

Lemma law_ok_one e cur r : peg w (EFlatGroup [e]) cur r <-> peg w e cur r.
Proof.
  rewrite flat_iff, seq_iff. split.
  - intros ([c1 l| |c1 x] & H & E); [|subst; exact H|subst; exact H]. destruct E as (r1 & E & ->). apply seq_nil_iff in E. subst. cbn. rewrite app_nil_r. exact H.
  - intros H. exists r. split; [exact H|]. destruct r as [c1 l| |]; auto. exists (RSucc c1 []). split; [constructor|]. cbn. rewrite app_nil_r. reflexivity.
Qed.
Lemma rep_same t t' es : Z.max (-1) (t_max t) = Z.max (-1) (t_max t') -> forall k cur q, pegr w t es k cur q -> pegr w t' es k cur q.
Proof. intros E k cur q H. induction H; [apply rep_limit|apply rep_stop|eapply rep_err|eapply rep_more|eapply rep_more_err]; eauto; lia. Qed.
Hypothesis env_ok : peg_env w.
Lemma law_ok e e' : law e e' -> alike_in w e e'.
Proof.
  intros L cur r. destruct L as [e|e|es|e|e t1 t2|t es H1 H2|t es H1 H2|t es H1 H2|t es H1 H2|t t' es H1 H2|es|es|es|mn mx es].
  - rewrite flat_iff, seq_iff. split.
    + intros ([c1 l| |c1 x] & H & E); [|subst; exact H|subst; exact H]. destruct E as (r1 & E & ->). apply seq_nil_iff in E. subst. cbn. rewrite app_nil_r. exact H.
    + intros H. exists r. split; [exact H|]. destruct r as [c1 l| |]; auto. exists (RSucc c1 []). split; [constructor|]. cbn. rewrite app_nil_r. reflexivity.
  - rewrite first_iff, alt_iff. split.
    + intros ([c1 l| |c1 x] & H & E); [subst; exact H|apply alt_nil_iff in E; subst; exact H|subst; exact H].
    + intros H. exists r. split; [exact H|]. destruct r; auto. constructor.
  - rewrite group_iff, trans_iff. split.
    + intros (r0 & H & ->). exists r0. rewrite flat_iff. split; [exact H|]. destruct r0 as [c1 l| |]; auto.
      exists (inr [group_ast l]). split; [|reflexivity]. eapply (pl_ok _ 0%nat); [reflexivity|constructor].
    + intros (r0 & H & E). apply flat_iff in H. exists r0. split; [exact H|]. destruct r0 as [c1 l| |]; auto.
      destruct E as (p & E & ->). inversion E as [|n ? ? ? e0 E'|n ? ? ? l1 ? E' H']; subst; [discriminate|]. injection E' as <-. inversion H'; subst. reflexivity.
  - rewrite trans_iff. split.
    + intros ([c1 l| |c1 x] & H & E); [|subst; exact H|subst; exact H]. destruct E as (p & E & ->). inversion E; subst. exact H.
    + intros H. exists r. split; [exact H|]. destruct r as [c1 l| |]; auto. exists (inr l). split; [constructor|reflexivity].
  - rewrite !trans_iff. split.
    + intros (r0 & H & E). apply trans_iff in H. destruct H as ([c1 l| |c1 x] & H & F); [|subst; exists RFail; auto|subst; exists (RErr c1 x); auto].
      destruct F as (p & F & ->). exists (RSucc c1 l). split; [exact H|]. destruct p as [x|l1].
      * exists (inl x). split; [apply pipeline_app; exists (inl x); auto|exact E].
      * destruct E as (p2 & E & ->). exists p2. split; [apply pipeline_app; exists (inr l1); auto|reflexivity].
    + intros ([c1 l| |c1 x] & H & E).
      * destruct E as (p & E & ->). apply pipeline_app in E. destruct E as ([x|l1] & E & F).
        -- subst. exists (RErr c1 x). split; [|reflexivity]. apply trans_iff. exists (RSucc c1 l). split; [exact H|]. exists (inl x). auto.
        -- exists (RSucc c1 l1). split; [|eauto]. apply trans_iff. exists (RSucc c1 l). split; [exact H|]. exists (inr l1). auto.
      * subst. exists RFail. split; [|reflexivity]. apply trans_iff. exists RFail. auto.
      * subst. exists (RErr c1 x). split; [|reflexivity]. apply trans_iff. exists (RErr c1 x). auto.
  - rewrite repeat_iff, flat_iff, seq_nil_iff. split.
    + intros (q & H & ->). apply rep_iff in H. destruct H as [[_ ->]|[K _]]; [|cbn in K; lia]. destruct (Z.leb_spec (t_min t) (Z.of_nat 0)); [reflexivity|cbn in *; lia].
    + intros ->. exists (inr (cur, [], 0%nat)). split; [apply rep_limit; cbn; lia|]. destruct (Z.leb_spec (t_min t) (Z.of_nat 0)); [reflexivity|cbn in *; lia].
  - rewrite repeat_iff, unmatched_iff. split.
    + intros (q & H & ->). apply rep_iff in H. destruct H as [[_ ->]|[K _]]; [|cbn in K; lia]. destruct (Z.leb_spec (t_min t) (Z.of_nat 0)); [cbn in *; lia|reflexivity].
    + intros ->. exists (inr (cur, [], 0%nat)). split; [apply rep_limit; cbn; lia|]. destruct (Z.leb_spec (t_min t) (Z.of_nat 0)); [cbn in *; lia|reflexivity].
  - rewrite (rep_step t es cur r H2), flat_iff, seq_app. destruct (Z.leb_spec (t_min t) 0) as [Q|Q]; [lia|].
    assert (One : forall c1 r1, pegs w [ERepeat (fewer t) es] c1 r1 <-> peg w (ERepeat (fewer t) es) c1 r1) by (intros; rewrite <- flat_iff; apply (law_ok_one (ERepeat (fewer t) es))).
    split; intros (r0 & H & E); exists r0; (split; [exact H|]); destruct r0 as [c1 l| |]; auto; destruct E as (r1 & E & ->); exists r1; (split; [apply One; exact E|reflexivity]).
  - rewrite (rep_step t es cur r H2), first_iff, alt_iff. destruct (Z.leb_spec (t_min t) 0) as [Q|Q]; [|lia].
    assert (One : forall c1 r1, pegs w [ERepeat (fewer t) es] c1 r1 <-> peg w (ERepeat (fewer t) es) c1 r1) by (intros; rewrite <- flat_iff; apply (law_ok_one (ERepeat (fewer t) es))).
    split.
    + intros (r0 & H & E). destruct r0 as [c1 l| |c1 x].
      * destruct E as (r1 & E & ->). exists (prefixed l r1). split; [apply flat_iff, seq_app; eexists; (split; [exact H|]); cbn; exists r1; split; [apply One; exact E|reflexivity]|].
        destruct r1; cbn [prefixed]; auto. exfalso. eapply repeat_never; [|exact E]. cbn. lia.
      * subst. exists RFail. split; [apply flat_iff, seq_app; exists RFail; auto|]. apply alt_iff. exists (RSucc cur []). split; [apply flat_iff; constructor|reflexivity].
      * subst. exists (RErr c1 x). split; [apply flat_iff, seq_app; exists (RErr c1 x); auto|reflexivity].
    + intros (r0 & H & E). apply flat_iff, seq_app in H. destruct H as (r1 & H & F). exists r1. split; [exact H|]. destruct r1 as [c1 l| |c1 x].
      * destruct F as (r2 & F & ->). apply One in F. exists r2. split; [exact F|]. destruct r2 as [c2 m| |c2 x]; cbn [prefixed] in E; auto. exfalso. eapply repeat_never; [|exact F]. cbn. lia.
      * subst. apply alt_iff in E. destruct E as (r2 & E & F). apply flat_iff, seq_nil_iff in E. rewrite E in F. exact F.
      * subst. reflexivity.
  - rewrite !repeat_iff. split; intros (q & H & ->); exists q; (split; [eapply rep_same; [|exact H]; lia|]); destruct q as [[c1 x]|[[c1 l] k]]; auto;
      destruct (Z.leb_spec (t_min t) (Z.of_nat k)), (Z.leb_spec (t_min t') (Z.of_nat k)); try lia; reflexivity.
  - rewrite aheadN_iff, ahead_iff. split.
    + intros (r0 & H & ->). rewrite <- flat_iff in H. apply law_ok_one, aheadN_iff in H.
      destruct H as (r1 & H & ->). exists r1. split; [exact H|]. destruct r1; reflexivity.
    + intros (r0 & H & ->). exists (match r0 with RSucc _ _ => RFail | RFail => RSucc cur [] | _ => r0 end).
      split; [rewrite <- flat_iff; apply (law_ok_one), aheadN_iff; eauto|]. destruct r0; reflexivity.
  - rewrite !ahead_iff. split.
    + intros (r0 & H & ->). rewrite <- flat_iff in H. apply (law_ok_one), ahead_iff in H. destruct H as (r1 & H & ->). exists r1. split; [exact H|]. destruct r1; reflexivity.
    + intros (r0 & H & ->). exists (match r0 with RSucc _ _ => RSucc cur [] | _ => r0 end).
      split; [rewrite <- flat_iff; apply (law_ok_one), ahead_iff; eauto|]. destruct r0; reflexivity.
  - rewrite behind_iff, ahead_iff.
    replace (behind cur 0 (Z.to_nat (0 - 0 + 1))) with [cur].
    2: { change (Z.to_nat (0 - 0 + 1)) with 1%nat. cbn [behind]. rewrite Z.sub_0_r. destruct (Z.ltb_spec (Z.of_nat (sp_pos cur)) 0); [lia|]. rewrite Nat2Z.id. destruct cur; reflexivity. }
    split.
    + intros (r0 & H & ->). inversion H; subst; eexists; (split; [eassumption|]); try reflexivity. match goal with H : pegb _ _ [] _ |- _ => inversion H; subst; reflexivity end.
    + intros ([c1 l| |c1 x] & H & ->); eexists; (split; [first [eapply lb_ok; eassumption|eapply lb_err; eassumption|eapply lb_next; [eassumption|apply lb_none]]|reflexivity]).
  - rewrite aheadN_iff, behind_iff. split.
    + intros (r0 & H & ->). eexists. split; [rewrite <- flat_iff; apply (law_ok_one), behind_iff; eexists; (split; [exact H|reflexivity])|]. destruct r0; reflexivity.
    + intros (r0 & H & ->). rewrite <- flat_iff in H. apply (law_ok_one), behind_iff in H. destruct H as (r1 & H & ->). exists r1. split; [exact H|]. destruct r1; reflexivity.
Qed.

Lemma seq_cons e e' es es' : alike_in w e e' -> seq_alike w es es' -> seq_alike w (e :: es) (e' :: es').
Proof.
  intros A B cur r. rewrite !seq_iff. split; intros (r0 & H & E); exists r0; (split; [apply A; exact H|]); destruct r0 as [c1 l| |]; auto;
    destruct E as (r1 & E & ->); exists r1; (split; [apply B; exact E|reflexivity]).
Qed.
Lemma alt_cons e e' es es' : alike_in w e e' -> alt_alike w es es' -> alt_alike w (e :: es) (e' :: es').
Proof.
  intros A [_ B]. split; [split; discriminate|]. intros cur r. rewrite !alt_iff. split; intros (r0 & H & E); exists r0; (split; [apply A; exact H|]); destruct r0 as [c1 l| |]; auto; apply B; exact E.
Qed.
Lemma rep_mono t es es' : seq_alike w es es' -> forall k cur q, pegr w t es k cur q -> pegr w t es' k cur q.
Proof.
  intros A k cur q H. induction H; [apply rep_limit|apply rep_stop|eapply rep_err|eapply rep_more|eapply rep_more_err]; eauto; try apply A; eauto.
Qed.
Lemma behind_mono es es' : seq_alike w es es' -> forall ps r, pegb w es ps r -> pegb w es' ps r.
Proof.
  intros A ps r H. induction H; [apply lb_none|eapply lb_ok|eapply lb_err|eapply lb_next]; eauto; try apply A; eauto.
Qed.
Lemma seq_alike_sym es es' : seq_alike w es es' -> seq_alike w es' es.
Proof. intros A cur r. symmetry. apply A. Qed.
Scheme rewrites_m := Minimality for rewrites Sort Prop with rewrites_seq_m := Minimality for rewrites_seq Sort Prop with rewrites_alt_m := Minimality for rewrites_alt Sort Prop.
Combined Scheme rewrites_mut from rewrites_m, rewrites_seq_m, rewrites_alt_m.
Lemma rewrites_ok : (forall e e', rewrites e e' -> alike_in w e e') /\ (forall es es', rewrites_seq es es' -> seq_alike w es es') /\
  (forall es es', rewrites_alt es es' -> alt_alike w es es').
Proof.
  apply rewrites_mut.
  - intros e e'. apply law_ok.
  - intros e cur r. reflexivity.
  - intros e e' _ A cur r. symmetry. apply A.
  - intros a b c _ A _ B cur r. rewrite (A cur r). apply B.
  - intros es es' _ A cur r. rewrite !flat_iff. apply A.
  - intros es es' _ A cur r. rewrite !group_iff. split; intros (r0 & H & E); exists r0; (split; [apply A|]); auto.
  - intros es es' _ A cur r. rewrite !ahead_iff. split; intros (r0 & H & E); exists r0; (split; [apply A|]); auto.
  - intros es es' _ A cur r. rewrite !aheadN_iff. split; intros (r0 & H & E); exists r0; (split; [apply A|]); auto.
  - intros neg mn mx es es' _ A cur r. rewrite !behind_iff. split; intros (r0 & H & E); exists r0; (split; [|exact E]); eapply behind_mono; eauto. apply seq_alike_sym. exact A.
  - intros t es es' _ A cur r. rewrite !repeat_iff. split; intros (q & H & E); exists q; (split; [|exact E]); eapply rep_mono; eauto. apply seq_alike_sym. exact A.
  - intros e e' tr _ A cur r. rewrite !trans_iff. split; intros (r0 & H & E); exists r0; (split; [apply A|]); auto.
  - intros es es' _ [N A] cur r. destruct es as [|a es], es' as [|b es']; [reflexivity|discriminate (proj1 N eq_refl)|discriminate (proj2 N eq_refl)|].
    rewrite !first_iff. apply A.
  - intros cur r. reflexivity.
  - intros e e' es es' _ A _ B. apply seq_cons; auto.
  - intros a b _ A. apply seq_alike_sym. exact A.
  - intros a b c _ A _ B cur r. rewrite (A cur r). apply B.
  - intros es es' cur r. rewrite seq_app, seq_iff. split; intros (r0 & H & E); exists r0; (split; [apply flat_iff; exact H|exact E]).
  - intros e es D cur r. rewrite !seq_iff. split; intros (r0 & H & E); exists r0; (split; [exact H|]); pose proof (dead_ok _ _ _ D H) as F; destruct r0; auto; contradiction.
  - split; [reflexivity|]. intros cur r. reflexivity.
  - intros e e' es es' _ A _ B. apply alt_cons; auto.
  - intros a b _ [N A]. split; [symmetry; exact N|]. intros cur r. symmetry. apply A.
  - intros a b c _ [N A] _ [M B]. split; [rewrite N; exact M|]. intros cur r. rewrite (A cur r). apply B.
  - intros e es es'. split; [split; discriminate|]. intros cur r. rewrite alt_iff. change (e :: es ++ es') with ((e :: es) ++ es'). rewrite alt_app.
    split; intros (r0 & H & E); exists r0; (split; [apply first_iff; exact H|exact E]).
  - intros e es. split; [split; discriminate|]. intros cur r. rewrite alt_iff. split.
    + intros (r0 & H & E). apply unmatched_iff in H. subst. exact E.
    + intros H. exists RFail. split; [apply unmatched_iff; reflexivity|exact H].
  - intros e. split; [split; discriminate|]. intros cur r. rewrite (alt_iff w e [EUnmatched]), (alt_iff w e []).
    split; intros (r0 & H & E); exists r0; (split; [exact H|]); destruct r0; auto.
    + apply alt_iff in E. destruct E as (r1 & E & F). apply unmatched_iff in E. subst. exact F.
    + apply alt_iff. exists RFail. split; [apply unmatched_iff; reflexivity|exact E].
  - intros e es U. split; [split; discriminate|]. intros cur r. rewrite (alt_iff w e es), (alt_iff w e []).
    split; intros (r0 & H & E); exists r0; (split; [exact H|]); destruct r0; auto; destruct (unfailing_ok _ _ U H).
  - intros e es es' G. split; [split; discriminate|]. intros cur r. rewrite (alt_iff w e (es ++ e :: es')), (alt_iff w e (es ++ es')).
    split; intros (r0 & H & E); exists r0; (split; [exact H|]); destruct r0; auto; apply alt_app in E; apply alt_app; destruct E as (r1 & E & F); exists r1; (split; [exact E|]); destruct r1; auto.
    + apply alt_iff in F. destruct F as (r2 & F1 & F2). rewrite (peg_det w e cur r2 RFail env_ok G F1 H) in F2. exact F2.
    + apply alt_iff. exists RFail. auto.
  - intros e es es' rest G. split; [split; discriminate|]. intros cur r. rewrite (alt_iff w (EFlatGroup (e :: es))), (alt_iff w (EFlatGroup [e; _])). split.
    + intros (r0 & H & E). apply flat_iff, seq_iff in H. destruct H as ([c1 l| |c1 x] & H & F).
      * destruct F as (r1 & F & ->). destruct r1 as [c2 m| |c2 x]; cbn [prefixed] in E.
        -- exists (RSucc c2 (l ++ m)). split; [|exact E]. apply flat_iff. eapply seq_ok; [exact H|]. rewrite <- (app_nil_r m). eapply seq_ok; [|constructor].
           apply first_iff. apply ch_ok. apply flat_iff. exact F.
        -- apply alt_iff in E. destruct E as (r2 & E & K). apply flat_iff, seq_iff in E. destruct E as (r3 & E & L).
           assert (r3 = RSucc c1 l) by (eapply (peg_det w e); eauto). subst r3. destruct L as (r4 & L & ->).
           exists (prefixed l r4). split; [|exact K]. apply flat_iff, seq_iff. exists (RSucc c1 l). split; [exact H|]. exists r4. split; [|reflexivity].
           rewrite <- flat_iff. apply law_ok_one, first_iff. apply ch_next; [apply flat_iff; exact F|]. rewrite <- first_iff. apply (law_ok _ _ (law_first_one _)), flat_iff. exact L.
        -- exists (RErr c2 x). split; [|exact E]. apply flat_iff. eapply seq_err_later; [exact H|]. apply seq_err. apply first_iff, ch_err, flat_iff. exact F.
      * subst. apply alt_iff in E. destruct E as (r2 & E & K). apply flat_iff, seq_iff in E. destruct E as (r3 & E & L).
        assert (r3 = RFail) by (eapply (peg_det w e); eauto). subst r3. subst r2. exists RFail. split; [apply flat_iff, seq_fail; exact H|exact K].
      * subst. exists (RErr c1 x). split; [apply flat_iff, seq_err; exact H|reflexivity].
    + intros (r0 & H & E). apply flat_iff, seq_iff in H. destruct H as ([c1 l| |c1 x] & H & F).
      * destruct F as (r1 & F & ->). rewrite <- flat_iff in F. apply law_ok_one, first_iff, alt_iff in F. destruct F as (r2 & F & K). apply flat_iff in F.
        destruct r2 as [c2 m| |c2 x].
        -- subst. exists (RSucc c2 (l ++ m)). split; [apply flat_iff; eapply seq_ok; eauto|exact E].
        -- exists RFail. split; [apply flat_iff; eapply seq_fail_later; eauto|]. rewrite <- first_iff in K. apply (law_ok _ _ (law_first_one _)), flat_iff in K.
           apply alt_iff. exists (prefixed l r1). split; [apply flat_iff, seq_iff; exists (RSucc c1 l); eauto|exact E].
        -- subst. exists (RErr c2 x). split; [apply flat_iff; eapply seq_err_later; eauto|exact E].
      * subst. exists RFail. split; [apply flat_iff, seq_fail; exact H|]. apply alt_iff. exists RFail. split; [apply flat_iff, seq_fail; exact H|exact E].
      * subst. exists (RErr c1 x). split; [apply flat_iff, seq_err; exact H|reflexivity].
Qed.
End Laws.

(** ** Rules *)
Definition with_env (w : world) (env : nat -> pexp) : world := mkW (w_str w) (w_slice w) (w_tag w) env.
Lemma fresh_env w env cur : fresh (with_env w env) cur = fresh w cur.
Proof. reflexivity. Qed.
Lemma env_change w env : (forall k, alike_in (with_env w env) (w_env w k) (env k)) ->
  (forall e cur r, peg w e cur r -> peg (with_env w env) e cur r) /\ (forall es cur r, pegs w es cur r -> pegs (with_env w env) es cur r) /\
  (forall es cur r, pegc w es cur r -> pegc (with_env w env) es cur r) /\ (forall t es k cur q, pegr w t es k cur q -> pegr (with_env w env) t es k cur q) /\
  (forall es ps r, pegb w es ps r -> pegb (with_env w env) es ps r).
Proof.
  intros A. apply (peg_mutind w (fun e cur r _ => peg (with_env w env) e cur r) (fun es cur r _ => pegs (with_env w env) es cur r)
    (fun es cur r _ => pegc (with_env w env) es cur r) (fun t es k cur q _ => pegr (with_env w env) t es k cur q) (fun es ps r _ => pegb (with_env w env) es ps r));
    intros; try solve [econstructor; eauto].
  apply peg_indirect. cbn [with_env w_env]. apply A. assumption.
Qed.
Lemma refactored w env e e' : peg_env w -> (forall k, peg_gram (env k)) -> (forall k, rewrites (w_env w k) (env k)) -> rewrites e e' ->
  forall cur r, peg w e cur r <-> peg (with_env w env) e' cur r.
Proof.
  intros He He' R Re cur r. assert (He2 : peg_env (with_env w env)) by exact He'. split.
  - intros H. apply (proj1 (rewrites_ok _ He2) e e' Re). apply (proj1 (env_change w env (fun k => proj1 (rewrites_ok _ He2) _ _ (R k)))). exact H.
  - intros H. apply (proj1 (rewrites_ok _ He) e e' Re). destruct w as [str sl tag env0].
    apply (proj1 (env_change (with_env (mkW str sl tag env0) env) env0 (fun k => proj1 (rewrites_ok _ He) _ _ (rw_sym _ _ (R k))))). exact H.
Qed.
Lemma refactored_run env env' e e' c : (forall k, peg_gram (env k)) -> (forall k, peg_gram (env' k)) -> peg_gram e -> peg_gram e' ->
  (forall k, rewrites (env k) (env' k)) -> rewrites e e' -> c_st c = Matched -> same_answers env e env' e' c.
Proof.
  intros He He' G G' R Re Hc r. set (w := mkW (c_str c) (c_slice c) (c_tag c) env).
  pose proof (peg_adequate w e c He G (conj eq_refl (conj eq_refl eq_refl)) Hc r) as A.
  pose proof (peg_adequate (with_env w env') e' c He' G' (conj eq_refl (conj eq_refl eq_refl)) Hc r) as A'.
  pose proof (refactored w env' e e' He He' R Re (c_sp c) r) as B. cbn [w with_env w_env] in A, A'. split; intros H.
  - apply A', B, A. exact H.
  - apply A, B, A'. exact H.
Qed.
