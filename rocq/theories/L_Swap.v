(** Replacing an error that no other part of a grammar raises by a panic: the answers
    stay the same, except that the error becomes the panic. *)
From Verif Require Export L_FormulaProd L_Extra.

Section Swap.
Variables (e0 : gerr) (w0 : string).
Definition swap (a b : out) : Prop :=
  (a = b /\ forall o, a <> Ok (o, Some e0)) \/ ((exists o, a = Ok (o, Some e0)) /\ b = Panic w0).
Definition swap_fn (f g : ctx -> out) : Prop := forall c, swap (f c) (g c).
Definition swap_t (a b : res (gerr + list ast)) : Prop :=
  (a = b /\ a <> Ok (inl e0)) \/ (a = Ok (inl e0) /\ b = Panic w0).
Definition tsim (t t' : trans) : Prop := forall n c l, swap_t (t n c l) (t' n c l).
Definition swap_c (a b : cres) : Prop :=
  (a = b /\ forall o, a <> CReturn (Ok (o, Some e0))) \/ ((exists o, a = CReturn (Ok (o, Some e0))) /\ b = CReturn (Panic w0)).
Definition swap_p (a b : pres) : Prop :=
  (a = b /\ forall o, a <> PReturn (Ok (o, Some e0))) \/ ((exists o, a = PReturn (Ok (o, Some e0))) /\ b = PReturn (Panic w0)).
Definition swap_s (a b : scan) : Prop := (a = b /\ a <> SErr e0) \/ (a = SErr e0 /\ b = SBad w0).

Local Ltac same := left; split; [auto|try discriminate].
Lemma swap_light cls f g : swap_fn f g -> swap_fn (light_base_parser cls f) (light_base_parser cls g).
Proof.
  intros H c. unfold light_base_parser. destruct (H c) as [[E N]|[[o E] E']].
  - left. rewrite <- E. split; auto. intros o. destruct (f c) as [[o1 err]|w|]; try discriminate. intros K. inversion K; subst. eapply N; eauto.
  - right. rewrite E, E'. split; eauto.
Qed.
Lemma swap_children ex saved cs cs' : Forall2 swap_fn cs cs' -> forall o num, swap_c (children_loop ex saved cs o num) (children_loop ex saved cs' o num).
Proof.
  induction 1 as [|f g cs cs' Hfg _ IH]; intros o num; cbn [children_loop]; [same|].
  destruct (Hfg o) as [[E N]|[[o1 E] E']].
  - rewrite <- E. destruct (f o) as [[o1 err]|w|]; try (same; fail).
    destruct (c_st (fix_status o1 err)) eqn:Es.
    + destruct ex; [same|apply IH].
    + destruct ex; [apply IH|same].
    + left. split; auto. intros o2 K. inversion K; subst. eapply N; eauto.
  - right. rewrite E, E'. cbn. split; eauto.
Qed.
Lemma swap_parent q ex bottom cs cs' : Forall2 swap_fn cs cs' -> forall n o k, swap_p (parent_loop n q ex None bottom cs o k) (parent_loop n q ex None bottom cs' o k).
Proof.
  intros H. assert (L : length cs = length cs') by (induction H; simpl; congruence).
  induction n as [|n IH]; intros o k; cbn [parent_loop]; destruct (more q k); try (same; fail).
  destruct (swap_children ex o _ _ H o 0) as [[E N]|[[o1 E] E']].
  - rewrite <- E, <- L. destruct (children_loop ex o cs o 0) as [r|c|o1 num].
    + left. split; auto. intros o1 K. inversion K; subst. eapply N; eauto.
    + same.
    + destruct (ex && (0 <? length cs)%nat && (num =? 0)%nat); [same|]. cbn [call_fn].
      destruct (c_st (set_qty o1 k)) eqn:Es; try (same; fail).
      * apply IH.
  - rewrite E, E'. right. split; eauto.
Qed.
Lemma swap_trans n c ts ts' : Forall2 tsim ts ts' -> forall l, swap_t (run_trans n c ts l) (run_trans n c ts' l).
Proof.
  induction 1 as [|t t' ts ts' H _ IH]; intros l; cbn [run_trans]; [same|].
  destruct (H n c l) as [[E N]|[E E']].
  - rewrite <- E. destruct (t n c l) as [[e|l']|w|]; try (same; fail); [|apply IH].
    left. split; auto.
  - rewrite E, E'. right. auto.
Qed.
Lemma swap_base cls props cs cs' tr tr' n : Forall2 swap_fn cs cs' ->
  match tr, tr' with None, None => True | Some t, Some t' => Forall2 tsim t t' | _, _ => False end ->
  swap_fn (base_parser cls None props cs tr n) (base_parser cls None props cs' tr' n).
Proof.
  intros H Ht c. unfold base_parser.
  match goal with |- context [parent_loop ?a ?q ?e None ?b cs ?o ?k] => destruct (swap_parent q e b cs cs' H a o k) as [[E N]|[[o1 E] E']] end.
  - rewrite <- E. destruct (parent_loop n _ _ _ _ cs _ _) as [r|o k].
    + left. split; auto. intros o2 K. subst. eapply N; eauto.
    + cbv zeta. destruct (c_st (after_loop (flags_of props) o k)); try (same; fail). cbn [call_fn].
      destruct (c_st (set_qty _ k)); try (same; fail).
      destruct tr as [ts|], tr' as [ts'|]; try contradiction; [|same].
      destruct (_ <? _)%nat; [same|].
      match goal with |- context [run_trans ?n0 ?c0 ts ?l0] => destruct (swap_trans n0 c0 ts ts' Ht l0) as [[F N2]|[F F']] end.
      * rewrite <- F. destruct (run_trans n _ ts _) as [[e|l]|w|]; try (same; fail).
        left. split; auto. intros o2 K. inversion K; subst. apply N2. reflexivity.
      * rewrite F, F'. right. split; eauto.
  - rewrite E, E'. right. split; eauto.
Qed.

(** The relation on grammars. *)
Definition esim (rho rho' : nat -> ctx -> out) (n : nat) (e e' : pexp) : Prop := swap_fn (denote rho n e) (denote rho' n e').
Section Exp.
Variables (rho rho' : nat -> ctx -> out) (n : nat).
Lemma map_sim es es' : Forall2 (esim rho rho' n) es es' -> Forall2 swap_fn (map (denote rho n) es) (map (denote rho' n) es').
Proof. induction 1; simpl; constructor; auto. Qed.
Lemma sim_flat es es' : Forall2 (esim rho rho' n) es es' -> esim rho rho' n (EFlatGroup es) (EFlatGroup es').
Proof. intros H. apply swap_base; [apply map_sim; auto|exact I]. Qed.
Lemma sim_first es es' : Forall2 (esim rho rho' n) es es' -> esim rho rho' n (EFirst es) (EFirst es').
Proof. intros H. apply swap_base; [apply map_sim; auto|exact I]. Qed.
Lemma sim_repeat t es es' : Forall2 (esim rho rho' n) es es' -> esim rho rho' n (ERepeat t es) (ERepeat t es').
Proof. intros H. apply swap_base; [apply map_sim; auto|exact I]. Qed.
Lemma sim_trans e e' ts ts' : esim rho rho' n e e' -> Forall2 tsim ts ts' -> esim rho rho' n (ETrans e ts) (ETrans e' ts').
Proof. intros H Ht. apply swap_base; [constructor; [exact H|constructor]|]. destruct Ht; [exact I|cbn [variadic]; constructor; auto]. Qed.
Lemma sim_indirect k : swap_fn (rho k) (rho' k) -> esim rho rho' n (EIndirect k) (EIndirect k).
Proof. intros H. apply swap_light. exact H. Qed.
Lemma sim_leaf cls fn : (forall c o, fn n c <> Ok (o, Some e0)) -> esim rho rho' n (ELight cls fn) (ELight cls fn).
Proof. intros H. apply swap_light. intros c. left. split; auto. Qed.
End Exp.

Lemma swap_run_env env env' : (forall rho rho' n k, (forall j, swap_fn (rho j) (rho' j)) -> esim rho rho' n (env k) (env' k)) ->
  forall n k, swap_fn (run_env env n k) (run_env env' n k).
Proof. intros H. induction n as [|n IH]; intros k c; cbn [run_env]; [same|]. apply H. exact IH. Qed.

(** ProductionRule with rules in the relation; the check is the same on both sides. *)
Definition psim (p p' : parser) : Prop := forall n, swap_fn (p n) (p' n).
Definition prec_sim (p p' : precedence) : Prop := Forall2 psim (pr_rules p) (pr_rules p') /\ pr_rtol p = pr_rtol p'.
Lemma swap_rules n astc asts p rs rs' : Forall2 psim rs rs' -> swap_s (try_rules n rs astc asts p) (try_rules n rs' astc asts p).
Proof.
  induction 1 as [|f g rs rs' Hfg _ IH]; cbn [try_rules]; [same|].
  destruct (Hfg n (set_pos astc p)) as [[E N]|[[o1 E] E']].
  - rewrite <- E. destruct (f n _) as [[o1 [err|]]|w|]; try (same; fail).
    + left. split; auto. intros K. inversion K; subst. eapply N; eauto.
    + destruct (c_st o1); try apply IH. destruct (_ && _); same.
  - rewrite E, E'. right. auto.
Qed.
Lemma swap_positions n pr pr' astc asts : prec_sim pr pr' -> forall k i, swap_s (try_positions n pr astc asts i k) (try_positions n pr' astc asts i k).
Proof.
  intros [H R]. induction k as [|k IH]; intros i; cbn [try_positions]; [same|]. rewrite <- R.
  set (p := if pr_rtol pr then (length asts - i)%nat else i).
  destruct (swap_rules n astc asts p _ _ H) as [[E N]|[E E']].
  - rewrite <- E. destruct (try_rules n (pr_rules pr) astc asts p); try (same; fail); [left; split; auto|apply IH].
  - rewrite E, E'. right. auto.
Qed.
Lemma swap_precedences n tag asts prs prs' : Forall2 prec_sim prs prs' -> swap_s (try_precedences n prs tag asts) (try_precedences n prs' tag asts).
Proof.
  induction 1 as [|p p' prs prs' H _ IH]; cbn [try_precedences]; [same|].
  destruct (swap_positions n p p' (new_object_ctx (ast_slice asts) tag) asts H (S (length asts)) 0) as [[E N]|[E E']].
  - rewrite <- E. destruct (try_positions n p _ asts 0 _); try (same; fail); [left; split; auto|apply IH].
  - rewrite E, E'. right. auto.
Qed.
Lemma swap_production prs prs' check : e0 <> prod_err -> Forall2 prec_sim prs prs' -> tsim (ProductionRule prs check) (ProductionRule prs' check).
Proof.
  intros Hne H n c. unfold ProductionRule. generalize n at 2 4. intros k. induction k as [|k IH]; intros l; cbn [production_loop]; [same|].
  destruct (swap_precedences n (c_tag c) l _ _ H) as [[E N]|[E E']].
  - rewrite <- E. destruct (try_precedences n prs (c_tag c) l) as [e|w| |l1|]; try (same; fail).
    + left. split; auto. intros K. inversion K; subst. congruence.
    + destruct (check n _) as [[o [e|]]|w|]; try (same; fail); [apply IH|]. destruct (c_st o); try apply IH. same.
    + destruct (check n _) as [[o [e|]]|w|]; try (same; fail); [|destruct (c_st o)]; left; (split; [auto|]); intros K; inversion K; subst; congruence.
  - rewrite E, E'. right. auto.
Qed.
End Swap.
