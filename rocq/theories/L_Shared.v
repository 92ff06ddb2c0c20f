(** Lemmas for C69 and C70. *)
From Verif Require Export S_Shared L_Reuse L_BlurLib.

(** ** Up to positions *)
Lemma each_Forall {A} (P : A -> Prop) l : each P l -> Forall P l.
Proof. unfold each. induction l; cbn; intros; constructor; tauto. Qed.
Lemma but_blur a b : but_position a b -> blur b = blur a.
Proof. intros (p & ->). apply blur_set. Qed.
Section Sim.
Variable W : Type.
Variable I : W -> Prop.
Variable sem : vtr -> wtrans W.
Variable a : vars.
Hypothesis Hsem : forall t, blind_vtr t -> bsim_tr W I (sem t) (plain_tr a t).
Lemma bsim_trs ts : Forall blind_vtr ts -> Forall2 (bsim_tr W I) (map sem ts) (map (plain_tr a) ts).
Proof. induction 1; cbn; constructor; auto. Qed.
Lemma bsim_es rho rho' n es : Forall (fun e => blind_vexp e -> bsim W I (g_denote sem rho n e) (denote rho' n (plain_exp a e))) es -> each blind_vexp es ->
  Forall2 (bsim W I) (map (g_denote sem rho n) es) (map (denote rho' n) (map (plain_exp a) es)).
Proof. intros H B. apply each_Forall in B. rewrite map_map. induction H; inversion B; subst; cbn; constructor; auto. Qed.
Lemma bsim_denote rho rho' n : (forall k, bsim W I (rho k) (rho' k)) -> forall e, blind_vexp e -> bsim W I (g_denote sem rho n e) (denote rho' n (plain_exp a e)).
Proof.
  intros R. induction e as [cls fn|cls fn props es tr H|neg mn mx es H|k] using vexp_rect'; intros B; cbn [g_denote denote plain_exp].
  - apply bsim_pure. intros c d K. eapply light_same; [apply (B n c d K)|reflexivity..].
  - destruct B as (B1 & B2 & B3). apply bsim_base; auto; [apply bsim_es; auto|]. destruct tr as [ts|]; cbn [option_map]; auto. apply bsim_trs; auto.
  - intros w c d J K. unfold look_behind_base. apply bsim_behind; auto. apply bsim_base; cbn; auto. apply bsim_es; auto.
  - apply bsim_light. auto.
Qed.
Lemma bsim_env env : (forall k, blind_vexp (env k)) -> forall n k, bsim W I (g_run_env sem env n k) (run_env (fun k => plain_exp a (env k)) n k).
Proof.
  intros B. induction n as [|n IH]; intros k w c d J K; [cbn; auto|]. cbn [g_run_env run_env]. apply bsim_denote; auto.
Qed.
Lemma bsim_run env n e : (forall k, blind_vexp (env k)) -> blind_vexp e -> bsim W I (g_run sem env n e) (run (fun k => plain_exp a (env k)) n (plain_exp a e)).
Proof. intros B H. apply bsim_denote; auto. apply bsim_env; auto. Qed.
End Sim.

Lemma g_run_v env n e : g_run v_trans env n e = v_run env n e.
Proof.
  unfold g_run, v_run. assert (E : forall m k, g_run_env v_trans env m k = v_run_env env m k).
  { induction m as [|m IH]; intros k; reflexivity. }
  reflexivity.
Qed.
Lemma v_trans_sim a t : blind_vtr t -> bsim_tr vars (like a) (v_trans t) (plain_tr a t).
Proof.
  intros B n c d v l m L K H. split; [|apply trans_like; auto]. destruct t as [f|j|j]; cbn [v_trans plain_tr snd]; [apply B; auto| |].
  - unfold Prepend, prepend_step. cbn. unfold lsame in *. cbn [map]. f_equal; auto.
    destruct l, m; try discriminate; cbn [snd]; rewrite ?blur_set; apply but_blur, L.
  - unfold Push, push_step. cbn. apply lsame_app; auto. unfold lsame. cbn [map]. f_equal.
    destruct l, m; try discriminate; cbn [snd]; rewrite ?blur_set; apply but_blur, L.
Qed.
Lemma like_assign a v x : like a v -> like a (assign v x).
Proof. intros H. unfold assign. apply like_set. exact H. Qed.
Lemma like_assigns a xs : forall v, like a v -> like a (fold_left assign xs v).
Proof. induction xs as [|x xs IH]; intros v H; cbn; auto. apply IH, like_assign, H. Qed.
Lemma like_others a others w : sh_like a w -> sh_like a (sh_others others w).
Proof. apply like_assigns. Qed.
Lemma like_write a others w j p : sh_like a w -> sh_like a (sh_write others w j p).
Proof. intros H. apply like_assign. apply (like_others a others w H). Qed.
Lemma s_trans_like a others t n c w l : sh_like a w -> sh_like a (fst (s_trans others t n c w l)).
Proof. intros H. destruct t as [f|j|j], l; cbn [s_trans fst]; auto using like_others, like_write. Qed.
Lemma s_trans_sim a others t : blind_vtr t -> bsim_tr shared (sh_like a) (s_trans others t) (plain_tr a t).
Proof.
  intros B n c d w l m L K H. pose proof (s_trans_like a others t n c w l L) as L1. split; [|exact L1].
  destruct t as [f|j|j]; cbn [s_trans plain_tr fst snd] in *; [apply B; auto| |].
  - unfold Prepend, prepend_step. cbn [tok tsame snd]. unfold lsame in *. cbn [map]. f_equal; auto.
    rewrite (but_blur _ _ (L1 j)). destruct m; cbn [snd]; rewrite ?blur_set; reflexivity.
  - unfold Push, push_step. cbn [tok tsame snd]. apply lsame_app; auto. unfold lsame. cbn [map]. f_equal.
    rewrite (but_blur _ _ (L1 j)). destruct m; cbn [snd]; rewrite ?blur_set; reflexivity.
Qed.

(** ** Grammars of M_Grammar *)
Fixpoint embed (e : pexp) : vexp :=
  match e with
  | ELight cls fn => VLight cls fn
  | EFlatGroup es => VBase ":base:FlatGroup" None [] (map embed es) None
  | EGroup es => VBase ":base:Group" None [] (map embed es) (Some [VPure GroupingTransform])
  | EFirst es => VBase ":base:First" None [PThereExists] (map embed es) None
  | ELookAhead es => VBase ":base:LookAhead" None [PRewind] (map embed es) None
  | ELookAheadN es => VBase ":base:LookAheadN" None [PRewind; PNegative] (map embed es) None
  | ELookBehind neg mn mx es => VBehind neg mn mx (map embed es)
  | ERepeat t es => VBase ":base:Repeat" None [PTimes t] (map embed es) None
  | ETrans e1 tr => VBase ":base:Trans" None [] [embed e1] (variadic (map VPure tr))
  | EIndirect k => VIndirect k
  | EBase cls fn props es tr => VBase cls fn props (map embed es) (option_map (map VPure) tr)
  end.
Section PInd.
Variable P : pexp -> Prop.
Hypothesis H1 : forall cls fn, P (ELight cls fn).
Hypothesis H2 : forall es, Forall P es -> P (EFlatGroup es).
Hypothesis H3 : forall es, Forall P es -> P (EGroup es).
Hypothesis H4 : forall es, Forall P es -> P (EFirst es).
Hypothesis H5 : forall es, Forall P es -> P (ELookAhead es).
Hypothesis H6 : forall es, Forall P es -> P (ELookAheadN es).
Hypothesis H7 : forall neg mn mx es, Forall P es -> P (ELookBehind neg mn mx es).
Hypothesis H8 : forall t es, Forall P es -> P (ERepeat t es).
Hypothesis H9 : forall e tr, P e -> P (ETrans e tr).
Hypothesis H10 : forall k, P (EIndirect k).
Hypothesis H11 : forall cls fn props es tr, Forall P es -> P (EBase cls fn props es tr).
Fixpoint pexp_rect' (e : pexp) : P e :=
  let fix all (es : list pexp) : Forall P es :=
    match es with [] => Forall_nil P | e :: es' => Forall_cons e (pexp_rect' e) (all es') end in
  match e with
  | ELight cls fn => H1 cls fn
  | EFlatGroup es => H2 es (all es)
  | EGroup es => H3 es (all es)
  | EFirst es => H4 es (all es)
  | ELookAhead es => H5 es (all es)
  | ELookAheadN es => H6 es (all es)
  | ELookBehind neg mn mx es => H7 neg mn mx es (all es)
  | ERepeat t es => H8 t es (all es)
  | ETrans e1 tr => H9 e1 tr (pexp_rect' e1)
  | EIndirect k => H10 k
  | EBase cls fn props es tr => H11 cls fn props es tr (all es)
  end.
End PInd.
Lemma map_denote_embed a rho n es : Forall (fun e => denote rho n (plain_exp a (embed e)) = denote rho n e) es ->
  map (denote rho n) (map (plain_exp a) (map embed es)) = map (denote rho n) es.
Proof. rewrite !map_map. induction 1; cbn; f_equal; auto. Qed.
Lemma plain_pure a l : map (plain_tr a) (map VPure l) = l.
Proof. rewrite map_map. cbn. apply map_id. Qed.
Lemma denote_embed a rho n e : denote rho n (plain_exp a (embed e)) = denote rho n e.
Proof.
  induction e using pexp_rect'; cbn [embed plain_exp denote option_map map]; auto;
    try (rewrite map_denote_embed by assumption; reflexivity).
  - rewrite IHe. unfold Trans. destruct tr; auto. cbn [variadic map option_map]. cbn [map plain_tr]. rewrite plain_pure. reflexivity.
  - rewrite map_denote_embed by assumption. destruct tr; auto. cbn [option_map]. rewrite plain_pure. reflexivity.
Qed.

Lemma embed_blind e : blind_exp e -> blind_vexp (embed e).
Proof.
  assert (A : forall es, Forall (fun e => blind_exp e -> blind_vexp (embed e)) es -> each blind_exp es -> each blind_vexp (map embed es)).
  { intros es H B. apply each_Forall in B. unfold each. induction H; inversion B; subst; cbn; auto. }
  assert (T : forall ts, Forall blind_tr ts -> Forall blind_vtr (map VPure ts)) by (induction 1; cbn; constructor; auto).
  induction e using pexp_rect'; cbn [embed blind_exp blind_vexp blind_opt]; auto.
  - intros B. repeat split; auto. repeat constructor. apply tr_blind. constructor.
  - intros [B C]. repeat split; auto. destruct tr as [|t tr]; cbn [variadic map]; auto. apply T in C. exact C.
  - intros (B & C & D). repeat split; auto. destruct tr; cbn in *; auto.
Qed.
Definition u_sem (t : vtr) : wtrans unit := fun n c w l => (w, plain_tr (fun _ => mkAst 0 "" TNil VNil sp0) t n c l).
Lemma u_sem_sim t : blind_vtr t -> bsim_tr unit (fun _ => True) (u_sem t) (plain_tr (fun _ => mkAst 0 "" TNil VNil sp0) t).
Proof.
  intros B n c d w l m _ K H. split; auto. destruct t as [f|j|j]; cbn [u_sem snd plain_tr]; [apply B; auto|apply (prepend_blind _ n c d); auto|apply (push_blind _ n c d); auto].
Qed.
Lemma embed_env env : (forall k, blind_exp (env k)) -> forall n k, bsim unit (fun _ => True) (g_run_env u_sem (fun k => embed (env k)) n k) (run_env env n k).
Proof.
  intros B. induction n as [|n IH]; intros k w c d J K; [cbn; auto|]. cbn [g_run_env run_env].
  rewrite <- (denote_embed (fun _ => mkAst 0 "" TNil VNil sp0)). apply (bsim_denote unit (fun _ => True) u_sem _ u_sem_sim); auto. apply embed_blind, B.
Qed.
Lemma run_blind env e : (forall k, blind_exp (env k)) -> blind_exp e -> forall n c d, csame c d -> osame (run env n e c) (run env n e d).
Proof.
  intros B H n c d K.
  assert (S : bsim unit (fun _ => True) (g_run u_sem (fun k => embed (env k)) n (embed e)) (run env n e)).
  { unfold g_run, run. rewrite <- (denote_embed (fun _ => mkAst 0 "" TNil VNil sp0)). apply bsim_denote; [exact u_sem_sim|apply embed_env; auto|apply embed_blind; auto]. }
  destruct (S tt c c I (csame_trans _ _ _ K (csame_sym _ _ K))) as [A _]. destruct (S tt c d I K) as [A' _].
  eapply osame_trans; [apply osame_sym; exact A|exact A'].
Qed.

(** ** Exactly *)
Section Own.
Variables (others : nat -> list (nat * srcpos)) (mine : nat -> Prop) (a : vars).
Hypothesis Hother : elsewhere mine others.
Lemma assigns_keep xs j : (forall p, ~ In (j, p) xs) -> forall v, fold_left assign xs v j = v j.
Proof.
  induction xs as [|[i p] xs IH]; intros H v; cbn; auto. rewrite IH by (intros q X; apply (H q); cbn; auto).
  unfold assign, v_set. cbn [fst snd]. destruct (Nat.eqb_spec j i) as [->|]; auto. exfalso. apply (H p). cbn. auto.
Qed.
Lemma others_keep w j : mine j -> sh_vars (sh_others others w) j = sh_vars w j.
Proof. intros M. apply assigns_keep. intros p X. exact (Hother _ _ _ X M). Qed.
Lemma write_read w j p : mine j -> sh_like a w -> sh_vars (sh_others others (sh_write others w j p)) j = set_asp (a j) p.
Proof.
  intros M L. rewrite others_keep by exact M. unfold sh_write, assign, v_set. cbn [sh_vars fst snd]. rewrite Nat.eqb_refl.
  destruct (like_others a others w L j) as (q & ->). apply set_twice.
Qed.
Lemma last_cons (x : ast) l d : last (x :: l) d = last l x.
Proof. revert x d. induction l as [|y l IH]; intros x d; auto. change (last (y :: l) d = last (y :: l) x). rewrite !IH. reflexivity. Qed.
Lemma s_trans_fed t n c w l : within mine t -> sh_like a w -> (owns t = true -> l <> []) -> snd (s_trans others t n c w l) = plain_tr a t n c l.
Proof.
  intros M H N. destruct t as [f|j|j]; auto; destruct l as [|x l]; try (exfalso; apply N; auto; fail); cbn [s_trans plain_tr snd]; rewrite write_read by auto.
  - reflexivity.
  - unfold Push, push_step. cbn [snd]. rewrite last_cons. reflexivity.
Qed.
Lemma s_trs_like n c ts : forall w l, sh_like a w -> sh_like a (fst (w_run_trans n c (map (s_trans others) ts) w l)).
Proof.
  induction ts as [|t ts IH]; intros w l L; cbn [map w_run_trans]; auto. pose proof (s_trans_like a others t n c w l L) as L1.
  destruct (s_trans others t n c w l) as [w1 [[e|r]|x|]]; auto.
Qed.
Lemma s_trs_fed n c ts : Forall (within mine) ts -> lined_up ts -> forall w l, sh_like a w -> (existsb owns ts = true -> l <> []) ->
  snd (w_run_trans n c (map (s_trans others) ts) w l) = run_trans n c (map (plain_tr a) ts) l.
Proof.
  induction 1 as [|t ts M F IH]; intros H w l L N; cbn [map w_run_trans run_trans]; auto. destruct H as [K H].
  pose proof (s_trans_like a others t n c w l L) as L1. cbn [existsb] in N.
  assert (E : snd (s_trans others t n c w l) = plain_tr a t n c l).
  { apply s_trans_fed; auto. intros O. apply N. rewrite O. reflexivity. }
  destruct (s_trans others t n c w l) as [w1 r]. cbn [fst snd] in L1, E. rewrite <- E. destruct r as [[e|r]|x|]; auto.
  apply IH; auto. intros X. destruct t as [f|j|j].
  - apply (K X n c l r); [|cbn in E; congruence]. apply N. cbn. auto.
  - apply (plain_nonempty a (VPrepend j) n c l r); auto.
  - apply (plain_nonempty a (VPush j) n c l r); auto.
Qed.
Lemma s_trs_pure n c ts : existsb owns ts = false -> forall w l,
  snd (w_run_trans n c (map (s_trans others) ts) w l) = run_trans n c (map (plain_tr a) ts) l.
Proof.
  induction ts as [|t ts IH]; intros H w l; cbn [map w_run_trans run_trans]; auto. cbn in H. apply orb_false_iff in H as [O H].
  destruct t as [f|j|j]; try discriminate. cbn [s_trans plain_tr]. destruct (f n c l) as [[e|r]|x|]; auto.
Qed.
Variable env : nat -> vexp.
Let env1 : nat -> pexp := fun k => plain_exp a (env k).
Hypothesis Henv : forall k, fed env1 a (env k).
Hypothesis Hown : forall k, owned mine (env k).
Lemma own_denote n : (forall k, esim shared (sh_like a) nothing (g_run_env (s_trans others) env n k) (run_env env1 n k)) ->
  forall e, fed env1 a e -> owned mine e -> esim shared (sh_like a) nothing (g_denote (s_trans others) (g_run_env (s_trans others) env n) n e) (denote (run_env env1 n) n (plain_exp a e)).
Proof.
  intros R. induction e as [cls fn|cls fn props es tr H|neg mn mx es H|k] using vexp_rect'; intros G O; cbn [g_denote denote plain_exp].
  - apply esim_pure.
  - destruct G as [G T]. destruct O as [O M]. apply fed_all in G. apply each_Forall in O.
    apply esim_base.
    + rewrite map_map. clear -H G O. induction H; inversion G; inversion O; subst; simpl; constructor; auto.
    + destruct tr as [ts|]; [|exact I]. cbn [option_map tr_sim]. intros c0 w l J X.
      right. split; [|apply s_trs_like; auto].
      destruct (existsb owns ts) eqn:Q; [|apply s_trs_pure; auto].
      destruct (T eq_refl) as (A & B & C). apply s_trs_fed; auto. intros _ ->.
      destruct (X B) as (o & E1 & E2 & E3 & E4). specialize (C n c0 o E1 E2).
      assert (Z : length (skipn (length (c_stack c0)) (c_stack o)) = 0%nat) by (rewrite <- E4; reflexivity).
      rewrite skipn_length in Z. lia.
  - intros w c J. cbn in G. apply fed_all in G. apply each_Forall in O. unfold look_behind_base. apply (esim_behind shared (sh_like a) nothing); auto.
    apply esim_base; [|exact I]. rewrite map_map. clear -H G O. induction H; inversion G; inversion O; subst; simpl; constructor; auto.
  - apply esim_light. apply R.
Qed.
Lemma own_env n : forall k, esim shared (sh_like a) nothing (g_run_env (s_trans others) env n k) (run_env env1 n k).
Proof.
  induction n as [|n IH]; intros k; cbn [g_run_env run_env]; [intros w c J; auto|]. intros w c J.
  apply (own_denote n IH (env k) (Henv k) (Hown k)); auto.
Qed.
Lemma own_run n e : fed env1 a e -> owned mine e -> esim shared (sh_like a) nothing (s_run others env n e) (run env1 n (plain_exp a e)).
Proof. intros G O. apply own_denote; auto. apply own_env. Qed.
End Own.
Lemma no_vars_fed env a e : no_vars e -> fed env a e.
Proof.
  induction e as [cls fn|cls fn props es tr H|neg mn mx es H|k] using vexp_rect'; cbn [fed]; auto.
  - intros [A B]. split.
    + apply each_Forall in A. induction H; inversion A; subst; cbn; auto.
    + destruct tr as [ts|]; auto. intros X. exfalso. induction B as [|t ts M F IH]; [discriminate|]. destruct t; cbn in *; auto.
  - intros A. apply each_Forall in A. induction H; inversion A; subst; cbn; auto.
Qed.

(** ** Nobody else *)
Section Alone.
Variables (W1 W2 : Type) (R : W1 -> W2 -> Prop).
Definition wsim (f : wfn W1) (g : wfn W2) : Prop := forall w v c, R w v -> snd (f w c) = snd (g v c) /\ R (fst (f w c)) (fst (g v c)).
Definition wsim_tr (t : wtrans W1) (u : wtrans W2) : Prop := forall n c w v l, R w v -> snd (t n c w l) = snd (u n c v l) /\ R (fst (t n c w l)) (fst (u n c v l)).
Lemma wsim_light cls f g : wsim f g -> wsim (w_light cls f) (w_light cls g).
Proof.
  intros H w v c K. destruct (H w v c K) as [A B]. unfold w_light. destruct (f w c) as [w1 r], (g v c) as [v1 s]. cbn [fst snd] in *. subst s.
  destruct r as [[o e]|x|]; cbn; auto.
Qed.
Lemma wsim_children ex sv ps qs : Forall2 wsim ps qs -> forall w v o num, R w v ->
  snd (w_children ex sv ps w o num) = snd (w_children ex sv qs v o num) /\ R (fst (w_children ex sv ps w o num)) (fst (w_children ex sv qs v o num)).
Proof.
  induction 1 as [|p q ps qs H F IH]; intros w v o num K; cbn [w_children]; [auto|]. destruct (H w v o K) as [A B].
  destruct (p w o) as [w1 r], (q v o) as [v1 s]. cbn [fst snd] in *. subst s. destruct r as [[o1 e]|x|]; auto. cbv zeta.
  destruct (c_st (fix_status o1 e)); auto; destruct ex; auto.
Qed.
Lemma wsim_parent q ex fn bottom ps qs : Forall2 wsim ps qs -> forall fuel w v o count, R w v ->
  snd (w_parent fuel q ex fn bottom ps w o count) = snd (w_parent fuel q ex fn bottom qs v o count) /\
  R (fst (w_parent fuel q ex fn bottom ps w o count)) (fst (w_parent fuel q ex fn bottom qs v o count)).
Proof.
  intros F. assert (Ln : length ps = length qs) by (clear -F; induction F; simpl; congruence).
  induction fuel as [|fuel IH]; intros w v o count K; cbn [w_parent]; destruct (more q count); auto.
  destruct (wsim_children ex o ps qs F w v o 0%nat K) as [A B].
  destruct (w_children ex o ps w o 0) as [w1 r], (w_children ex o qs v o 0) as [v1 s]. cbn [fst snd] in *. subst s. destruct r as [r|c|o1 num]; auto.
  rewrite Ln. destruct (_ && _); auto. destruct (call_fn _ _ _ _) as [[o2 e]|x|]; auto. destruct (c_st o2); auto.
Qed.
Lemma wsim_trs n c ts us : Forall2 wsim_tr ts us -> forall w v l, R w v ->
  snd (w_run_trans n c ts w l) = snd (w_run_trans n c us v l) /\ R (fst (w_run_trans n c ts w l)) (fst (w_run_trans n c us v l)).
Proof.
  induction 1 as [|t u ts us H F IH]; intros w v l K; cbn [w_run_trans]; auto. destruct (H n c w v l K) as [A B].
  destruct (t n c w l) as [w1 r], (u n c v l) as [v1 s]. cbn [fst snd] in *. subst s. destruct r as [[e|r]|x|]; auto.
Qed.
Lemma wsim_base cls fn props ps qs tr tr' n : Forall2 wsim ps qs ->
  match tr, tr' with None, None => True | Some ts, Some ts' => Forall2 wsim_tr ts ts' | _, _ => False end ->
  wsim (w_base cls fn props ps tr n) (w_base cls fn props qs tr' n).
Proof.
  intros F T w v c K. unfold w_base. cbv zeta. set (f := flags_of props).
  destruct (wsim_parent (f_qty f) (f_ex f) fn (length (c_stack (set_cls c cls))) ps qs F n w v (set_st (set_cls c cls) Matched) 0%nat K) as [A B].
  destruct (w_parent n _ _ _ _ ps _ _ _) as [w1 r], (w_parent n _ _ _ _ qs _ _ _) as [v1 s]. cbn [fst snd] in *. subst s.
  destruct r as [r|o count]; auto. destruct (c_st (after_loop f o count)); auto. destruct (call_fn _ _ _ _) as [[o2 e]|x|]; auto. destruct (c_st o2); auto.
  destruct tr as [ts|], tr' as [ts'|]; try contradiction; auto. destruct (_ <? _)%nat; auto.
  match goal with |- context [w_run_trans n ?c ts w1 ?l] => destruct (wsim_trs n c ts ts' T w1 v1 l B) as [X Y];
    destruct (w_run_trans n c ts w1 l) as [w2 r2], (w_run_trans n c ts' v1 l) as [v2 s2] end. cbn [fst snd] in *. subst s2.
  destruct r2 as [[e1|l]|x|]; auto.
Qed.
Lemma wsim_behind neg p q : wsim p q -> forall k c i w v, R w v ->
  snd (w_behind_loop neg p w c i k) = snd (w_behind_loop neg q v c i k) /\ R (fst (w_behind_loop neg p w c i k)) (fst (w_behind_loop neg q v c i k)).
Proof.
  intros H. induction k as [|k IH]; intros c i w v K; cbn [w_behind_loop]; auto. cbv zeta. destruct (_ <? 0); [apply IH; auto|].
  destruct (H w v (set_pos c (Z.to_nat (Z.of_nat (c_pos c) - i))) K) as [A B]. destruct (p w _) as [w1 r], (q v _) as [v1 s]. cbn [fst snd] in *. subst s.
  destruct r as [[o [e|]]|x|]; auto. destruct (c_st o); auto. destruct neg; auto.
Qed.
Variables (s1 : vtr -> wtrans W1) (s2 : vtr -> wtrans W2).
Hypothesis Hs : forall t, wsim_tr (s1 t) (s2 t).
Lemma wsim_denote rho rho' n : (forall k, wsim (rho k) (rho' k)) -> forall e, wsim (g_denote s1 rho n e) (g_denote s2 rho' n e).
Proof.
  intros X. assert (L : forall es, Forall (fun e => wsim (g_denote s1 rho n e) (g_denote s2 rho' n e)) es -> Forall2 wsim (map (g_denote s1 rho n) es) (map (g_denote s2 rho' n) es)).
  { induction 1; cbn; constructor; auto. }
  induction e as [cls fn|cls fn props es tr H|neg mn mx es H|k] using vexp_rect'; cbn [g_denote].
  - intros w v c K. cbn. auto.
  - apply wsim_base; auto. destruct tr as [ts|]; cbn [option_map]; auto. induction ts; cbn; constructor; auto.
  - intros w v c K. apply wsim_behind; auto. apply wsim_base; auto.
  - apply wsim_light. auto.
Qed.
Lemma wsim_run env n e : wsim (g_run s1 env n e) (g_run s2 env n e).
Proof.
  apply wsim_denote. induction n as [|n IH]; intros k w v c K; [cbn; auto|]. cbn [g_run_env]. apply wsim_denote; auto.
Qed.
End Alone.
Definition agree (w : shared) (v : vars) : Prop := forall j, sh_vars w j = v j.
Lemma alone_tr t : wsim_tr shared vars agree (s_trans nobody t) (v_trans t).
Proof.
  intros n c w v l K. destruct t as [f|j|j]; [cbn; auto|..]; destruct l as [|x l]; cbn [s_trans v_trans prepend_step push_step sh_others sh_write nobody fold_left sh_vars fst snd assign].
  - rewrite (K j). split; auto. intros i. unfold v_set. cbn. destruct (Nat.eqb_spec i j) as [->|]; auto.
  - unfold assign, v_set. cbn [fst snd]. rewrite Nat.eqb_refl, (K j). split; auto. intros i. unfold sh_others, nobody, sh_write, assign, v_set. cbn. destruct (i =? j)%nat; rewrite ?(K j); auto.
  - rewrite (K j). split; auto. intros i. unfold v_set. cbn. destruct (Nat.eqb_spec i j) as [->|]; auto.
  - unfold assign, v_set. cbn [fst snd]. rewrite Nat.eqb_refl, (K j), last_cons. split; auto. intros i. unfold sh_others, nobody, sh_write, assign, v_set. cbn. destruct (i =? j)%nat; rewrite ?(K j); auto.
Qed.
Lemma alone env n e w v c : agree w v -> snd (s_run nobody env n e w c) = snd (v_run env n e v c) /\ agree (fst (s_run nobody env n e w c)) (fst (v_run env n e v c)).
Proof. intros K. rewrite <- g_run_v. apply (wsim_run shared vars agree _ _ alone_tr env n e w v c K). Qed.
