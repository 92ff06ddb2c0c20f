(** The engine with a memory agrees with the engine over lists, when the ASTs of the
    one represent the ASTs of the other and no parser touches what was there before. *)
From Verif Require Export M_World.

Definition ceq (c c' : ctx) : Prop := set_stack c [] = set_stack c' [].

Lemma ceq_refl c : ceq c c. Proof. reflexivity. Qed.
Lemma ceq_st c c' : ceq c c' -> c_st c = c_st c'.
Proof. destruct c, c'. unfold ceq, set_stack, set_st, set_cls, set_qty. cbn. intros H. inversion H; subst. reflexivity. Qed.
Lemma ceq_pos c c' : ceq c c' -> c_pos c = c_pos c'.
Proof. destruct c, c'. unfold ceq. cbn. intros H. inversion H; subst. reflexivity. Qed.
Lemma ceq_tag c c' : ceq c c' -> c_tag c = c_tag c'.
Proof. destruct c, c'. unfold ceq, set_stack, set_st, set_cls, set_qty. cbn. intros H. inversion H; subst. reflexivity. Qed.
Lemma ceq_set_st c c' x : ceq c c' -> ceq (set_st c x) (set_st c' x).
Proof. destruct c, c'. unfold ceq, set_stack, set_st, set_cls, set_qty. cbn. intros H. inversion H; subst. reflexivity. Qed.
Lemma ceq_set_cls c c' x : ceq c c' -> ceq (set_cls c x) (set_cls c' x).
Proof. destruct c, c'. unfold ceq, set_stack, set_st, set_cls, set_qty. cbn. intros H. inversion H; subst. reflexivity. Qed.
Lemma ceq_set_qty c c' x : ceq c c' -> ceq (set_qty c x) (set_qty c' x).
Proof. destruct c, c'. unfold ceq, set_stack, set_st, set_cls, set_qty. cbn. intros H. inversion H; subst. reflexivity. Qed.
Lemma ceq_set_stack c c' x y : ceq c c' -> ceq (set_stack c x) (set_stack c' y).
Proof. destruct c, c'. unfold ceq, set_stack, set_st, set_cls, set_qty. cbn. intros H. inversion H; subst. reflexivity. Qed.
Lemma ceq_fix c c' e : ceq c c' -> ceq (fix_status c e) (fix_status c' e).
Proof. intros H. destruct e; cbn; auto using ceq_set_st. Qed.
Lemma stack_st c x : c_stack (set_st c x) = c_stack c. Proof. destruct c. reflexivity. Qed.
Lemma stack_cls c x : c_stack (set_cls c x) = c_stack c. Proof. destruct c. reflexivity. Qed.
Lemma stack_qty c x : c_stack (set_qty c x) = c_stack c. Proof. destruct c. reflexivity. Qed.
Lemma stack_stack c x : c_stack (set_stack c x) = x. Proof. destruct c. reflexivity. Qed.
Lemma st_qty c x : c_st (set_qty c x) = c_st c. Proof. destruct c. reflexivity. Qed.
Lemma ceq_after f c c' k : ceq c c' -> ceq (after_loop f c k) (after_loop f c' k).
Proof.
  intros H. unfold after_loop. destruct (_ && _), (f_neg f); auto using ceq_set_st.
  - destruct c, c'; cbn. unfold ceq, set_st in *. cbn in *. inversion H; subst. reflexivity.
  - rewrite <- (ceq_st _ _ H). destruct (c_st c); auto using ceq_set_st.
Qed.
Lemma stack_after f c k : c_stack (after_loop f c k) = c_stack c.
Proof.
  unfold after_loop. destruct (_ && _), (f_neg f); auto using stack_st.
  destruct (c_st c); auto using stack_st.
Qed.

Section Simulation.
Variable W : Type.
Variable le : W -> W -> Prop.
Variable rep : W -> W -> list ast -> list ast -> Prop.
Hypothesis le_refl : forall w, le w w.
Hypothesis le_trans : forall a b c, le a b -> le b c -> le a c.
Hypothesis rep_nil : forall w w1, le w w1 -> rep w w1 [] [].
Hypothesis rep_mono : forall k w w1 l l', rep k w l l' -> le w w1 -> rep k w1 l l'.
Hypothesis rep_app : forall k w1 w2 a a' b b', le k w1 -> le w1 w2 -> rep k w1 a a' -> rep w1 w2 b b' -> rep k w2 (a ++ b) (a' ++ b').
Hypothesis rep_len : forall k w l l', rep k w l l' -> length l = length l'.

(** [c] and [c'] are what the run that began in memory [k] with the stacks [s] and [s']
    has made of them. *)
Definition grown (k w : W) (s s' : list ast) (c c' : ctx) : Prop :=
  ceq c c' /\ exists l l', c_stack c = s ++ l /\ c_stack c' = s' ++ l' /\ rep k w l l'.
Definition agree (k w : W) (s s' : list ast) (o o' : ctx) (e e' : option gerr) : Prop :=
  e = e' /\ ceq o o' /\ le k w /\ (e = None -> c_st o = Matched -> grown k w s s' o o').
Definition osim (k : W) (s s' : list ast) (r : W * out) (r' : out) : Prop :=
  match r, r' with
  | (w, Ok (o, e)), Ok (o', e') => agree k w s s' o o' e e'
  | (_, Panic x), Panic y => x = y
  | (_, Fuel), Fuel => True
  | _, _ => False
  end.
Definition wsim (f : wfn W) (f' : ctx -> out) : Prop := forall w c c', ceq c c' -> length (c_stack c) = length (c_stack c') ->
  osim w (c_stack c) (c_stack c') (f w c) (f' c').
Definition rsim (k : W) (r : W * res (gerr + list ast)) (r' : res (gerr + list ast)) : Prop :=
  match r, r' with
  | (w, Ok (inr l)), Ok (inr l') => le k w /\ rep k w l l'
  | (w, Ok (inl e)), Ok (inl e') => e = e' /\ le k w
  | (_, Panic x), Panic y => x = y
  | (_, Fuel), Fuel => True
  | _, _ => False
  end.
Definition wtsim (t : wtrans W) (t' : trans) : Prop := forall n c c' k w l l', ceq c c' -> le k w -> rep k w l l' -> rsim k (t n c w l) (t' n c' l').

Lemma grown_mono k w w1 s s' c c' : grown k w s s' c c' -> le w w1 -> grown k w1 s s' c c'.
Proof. intros (E & l & l' & A & B & R) H. split; auto. exists l, l'. eauto. Qed.
Lemma grown_start k w c c' : ceq c c' -> le k w -> grown k w (c_stack c) (c_stack c') c c'.
Proof. intros E H. split; auto. exists [], []. rewrite !app_nil_r. auto. Qed.
Lemma grown_len k w s s' c c' : grown k w s s' c c' -> length s = length s' -> length (c_stack c) = length (c_stack c').
Proof. intros (_ & l & l' & -> & -> & R) H. rewrite !app_length. apply rep_len in R. lia. Qed.
Lemma grown_then k w w1 s s' c c' o o' : le k w -> le w w1 -> grown k w s s' c c' -> grown w w1 (c_stack c) (c_stack c') o o' -> grown k w1 s s' o o'.
Proof.
  intros A B (_ & l & l' & El & El' & R) (E & m & m' & Em & Em' & R'). split; auto. exists (l ++ m), (l' ++ m').
  rewrite El in Em. rewrite El' in Em'. rewrite <- app_assoc in Em, Em'. repeat split; auto. eapply rep_app; eauto.
Qed.
Lemma grown_qty k w s s' c c' x : grown k w s s' c c' -> grown k w s s' (set_qty c x) (set_qty c' x).
Proof. intros (E & l & l' & A & B & R). split; [auto using ceq_set_qty|]. exists l, l'. rewrite !stack_qty. auto. Qed.
Lemma grown_cls k w s s' c c' x : grown k w s s' c c' -> grown k w s s' (set_cls c x) (set_cls c' x).
Proof. intros (E & l & l' & A & B & R). split; [auto using ceq_set_cls|]. exists l, l'. rewrite !stack_cls. auto. Qed.
Lemma grown_after k w s s' c c' f n : grown k w s s' c c' -> grown k w s s' (after_loop f c n) (after_loop f c' n).
Proof. intros (E & l & l' & A & B & R). split; [auto using ceq_after|]. exists l, l'. rewrite !stack_after. auto. Qed.

Lemma sim_light cls f f' : wsim f f' -> wsim (w_light cls f) (light_base_parser cls f').
Proof.
  intros H w c c' E L. pose proof (H w c c' E L) as S. unfold w_light, light_base_parser, osim in *.
  destruct (f w c) as [w1 [[o e]|x|]], (f' c') as [[o' e']|y|]; try contradiction; auto.
  destruct S as (-> & Eo & A & B). destruct e' as [e'|]; cbn [fix_status].
  - assert (C : ceq (set_st o Errored) (set_st o' Errored)) by (apply ceq_set_st; auto).
    rewrite <- (ceq_st _ _ C). split; [reflexivity|]. split; [|split; [auto|discriminate]]. apply ceq_set_cls. destruct (c_st _); auto using ceq_set_qty.
  - rewrite <- (ceq_st _ _ Eo). split; [reflexivity|]. destruct (c_st o) eqn:Es.
    + split; [auto using ceq_set_cls, ceq_set_qty|]. split; [auto|]. intros _ _. apply grown_cls, grown_qty, B; auto.
    + split; [auto using ceq_set_cls|]. split; [auto|]. intros _ K. destruct o; cbn in *; congruence.
    + split; [auto using ceq_set_cls|]. split; [auto|]. intros _ K; destruct o; cbn in *; congruence.
Qed.

(** The CHILDREN loop, entered in memory [w] with the contexts [o], [o'], which have grown
    since [k]. *)
Definition csim (k w0 : W) (s s' : list ast) (r : W * cres) (r' : cres) : Prop :=
  match r, r' with
  | (w, CReturn (Ok (o, e))), CReturn (Ok (o', e')) => e = e' /\ ceq o o' /\ c_st o = Errored /\ le w0 w
  | (w, CReturn (Panic x)), CReturn (Panic y) => x = y
  | (w, CReturn Fuel), CReturn Fuel => True
  | (w, CBreak c), CBreak c' => le w0 w /\ grown k w s s' c c'
  | (w, CEnd c n), CEnd c' n' => le w0 w /\ grown k w s s' c c' /\ n = n'
  | _, _ => False
  end.
Lemma csim_from k w w1 s s' r r' : le w w1 -> csim k w1 s s' r r' -> csim k w s s' r r'.
Proof.
  intros H. unfold csim. destruct r as [w2 [[[o1 e]|x|]|c|o1 num]], r' as [[[o1' e']|y|]|c'|o1' num']; auto.
  - intros (A & B & C & D). eauto.
  - intros (A & B). eauto.
  - intros (A & B). eauto.
Qed.
Lemma sim_children ex cs cs' : Forall2 wsim cs cs' -> forall k w s s' sv sv' o o' num, length s = length s' -> le k w ->
  grown k w s s' sv sv' -> grown k w s s' o o' -> csim k w s s' (w_children ex sv cs w o num) (children_loop ex sv' cs' o' num).
Proof.
  induction 1 as [|f f' cs cs' Hf _ IH]; intros k w s s' sv sv' o o' num L Hle Gs Go; cbn [w_children children_loop].
  - cbn. auto.
  - pose proof (Hf w o o' (proj1 Go) (grown_len _ _ _ _ _ _ Go L)) as S. unfold osim in S.
    destruct (f w o) as [w1 [[o1 e]|x|]], (f' o') as [[o1' e']|y|]; try contradiction; [|exact S|exact S].
    destruct S as (-> & Eo & A & B). cbv zeta. destruct e' as [e'|]; cbn [fix_status].
    + assert (C : ceq (set_st o1 Errored) (set_st o1' Errored)) by (apply ceq_set_st; auto).
      assert (X : forall o, c_st (set_st o Errored) = Errored) by (intros z; destruct z; reflexivity). rewrite !X.
      cbn. auto.
    + rewrite <- (ceq_st _ _ Eo). destruct (c_st o1) eqn:Es.
      * assert (Hw : le w w1) by auto. specialize (B eq_refl eq_refl).
        assert (G1 : grown k w1 s s' o1 o1') by (eapply grown_then; eauto).
        destruct ex; [cbn; eauto|]. apply (csim_from _ _ w1); auto. apply IH; eauto using grown_mono.
      * assert (Hw : le w w1) by auto.
        destruct ex; [apply (csim_from _ _ w1); auto; apply IH; eauto using grown_mono|]. cbn. eauto using grown_mono.
      * cbn. auto.
Qed.
Definition pasim (k : W) (s s' : list ast) (r : W * pres) (r' : pres) : Prop :=
  match r, r' with
  | (w, PReturn (Ok (o, e))), PReturn (Ok (o', e')) => e = e' /\ ceq o o' /\ c_st o = Errored /\ le k w
  | (w, PReturn (Panic x)), PReturn (Panic y) => x = y
  | (w, PReturn Fuel), PReturn Fuel => True
  | (w, PDone c n), PDone c' n' => le k w /\ grown k w s s' c c' /\ n = n'
  | _, _ => False
  end.
Lemma sim_parent q ex bottom bottom0 cs cs' : Forall2 wsim cs cs' -> forall n k w s s' o o' count, length s = length s' -> le k w ->
  grown k w s s' o o' -> pasim k s s' (w_parent n q ex None bottom0 cs w o count) (parent_loop n q ex None bottom cs' o' count).
Proof.
  intros H. assert (Lc : length cs = length cs') by (induction H; simpl; congruence).
  induction n as [|n IH]; intros k w s s' o o' count L Hle G; cbn [w_parent parent_loop]; destruct (more q count); try (cbn; auto; fail).
  pose proof (sim_children ex _ _ H k w s s' o o' o o' 0 L Hle G G) as S. unfold csim in S. rewrite <- Lc.
  destruct (w_children ex o cs w o 0) as [w1 [[[o1 e]|x|]|c|o1 num]], (children_loop ex o' cs' o' 0) as [[[o1' e']|y|]|c'|o1' num']; try contradiction; try (exact S).
  - cbn. destruct S as (A & B & C & D). eauto.
  - cbn. destruct S as (A & B). eauto.
  - destruct S as (Hw & G1 & <-). destruct (ex && (0 <? length cs)%nat && (num =? 0)%nat).
    + cbn. eauto using grown_mono.
    + cbn [call_fn]. rewrite !st_qty. rewrite <- (ceq_st _ _ (proj1 G1)). destruct (c_st o1) eqn:Es.
      * apply IH; eauto using grown_qty.
      * cbn. eauto using grown_mono.
      * cbn. split; auto. split; [apply (ceq_set_qty _ _ count (proj1 G1))|]. split; eauto.
Qed.
Lemma sim_run_trans ts ts' : Forall2 wtsim ts ts' -> forall n c c' k w l l', ceq c c' -> le k w -> rep k w l l' ->
  rsim k (w_run_trans n c ts w l) (run_trans n c' ts' l').
Proof.
  induction 1 as [|t t' ts ts' H _ IH]; intros n c c' k w l l' E Hle R; cbn [w_run_trans run_trans]; [cbn; auto|].
  pose proof (H n c c' k w l l' E Hle R) as S. unfold rsim in S.
  destruct (t n c w l) as [w1 [[e|r]|x|]], (t' n c' l') as [[e'|r']|y|]; try contradiction; try exact S.
  destruct S as (A & B). apply IH; auto.
Qed.
Definition otsim (t : option (list (wtrans W))) (t' : option (list trans)) : Prop :=
  match t, t' with None, None => True | Some a, Some b => Forall2 wtsim a b | _, _ => False end.
Lemma firstn_len {A} (a b : list A) : firstn (length a) (a ++ b) = a.
Proof. rewrite firstn_app, firstn_all, Nat.sub_diag, app_nil_r. reflexivity. Qed.
Lemma skipn_len {A} (a b : list A) : skipn (length a) (a ++ b) = b.
Proof. rewrite skipn_app, skipn_all, Nat.sub_diag. reflexivity. Qed.
Lemma sim_base cls props cs cs' tr tr' n : Forall2 wsim cs cs' -> otsim tr tr' ->
  wsim (w_base cls None props cs tr n) (base_parser cls None props cs' tr' n).
Proof.
  intros H Ht w c0 c0' E L. unfold w_base, base_parser. cbv zeta. rewrite !stack_cls.
  set (f := flags_of props). set (c := set_cls c0 cls). set (c' := set_cls c0' cls).
  assert (Ec : ceq c c') by (apply ceq_set_cls; auto).
  assert (Sc : c_stack c = c_stack c0) by apply stack_cls. assert (Sc' : c_stack c' = c_stack c0') by apply stack_cls.
  assert (G0 : grown w w (c_stack c0) (c_stack c0') (set_st c Matched) (set_st c' Matched)).
  { split; [apply ceq_set_st; auto|]. exists [], []. rewrite !stack_st, !app_nil_r. auto. }
  pose proof (sim_parent (f_qty f) (f_ex f) (length (c_stack c0')) (length (c_stack c0)) _ _ H n w w _ _ _ _ 0 L (le_refl w) G0) as S. unfold pasim in S.
  destruct (w_parent n (f_qty f) (f_ex f) None (length (c_stack c0)) cs w (set_st c Matched) 0) as [w1 [[[o1 e]|x|]|o count]],
    (parent_loop n (f_qty f) (f_ex f) None (length (c_stack c0')) cs' (set_st c' Matched) 0) as [[[o1' e']|y|]|o' count']; try contradiction; try exact S.
  - destruct S as (-> & A & B & C). cbn. split; auto. split; auto. split; auto. intros _ K; congruence.
  - destruct S as (Hw & G & <-). pose proof (grown_after _ _ _ _ _ _ f count G) as G1.
    set (o1 := after_loop f o count) in *. set (o1' := after_loop f o' count) in *. cbn [call_fn]. rewrite !st_qty.
    rewrite <- (ceq_st _ _ (proj1 G1)). destruct (c_st o1) eqn:Es.
    2,3: cbn; split; auto; split; [apply G1|]; split; [auto|]; intros _ K; congruence.
    assert (G3 : grown w w1 (c_stack c0) (c_stack c0') (if f_rew f then c else set_qty o1 count) (if f_rew f then c' else set_qty o1' count)).
    { destruct (f_rew f); [|apply grown_qty; auto]. split; auto. exists [], []. rewrite !app_nil_r. auto. }
    set (o3 := if f_rew f then c else set_qty o1 count) in *. set (o3' := if f_rew f then c' else set_qty o1' count) in *.
    destruct tr as [ts|], tr' as [ts'|]; try contradiction.
    + destruct G3 as (E3 & l & l' & A & B & R). rewrite A, B, !app_length, !firstn_len, !skipn_len.
      destruct (Nat.ltb_spec (length (c_stack c0) + length l) (length (c_stack c0))); [lia|].
      destruct (Nat.ltb_spec (length (c_stack c0') + length l') (length (c_stack c0'))); [lia|].
      pose proof (sim_run_trans _ _ Ht n c c' w w1 l l' Ec Hw R) as T. unfold rsim in T.
      destruct (w_run_trans n c ts w1 l) as [w2 [[e|r]|x|]], (run_trans n c' ts' l') as [[e'|r']|y|]; try contradiction; try exact T.
      * destruct T as [<- T]. cbn. split; auto. split; [apply ceq_set_st; auto|]. split; [auto|discriminate].
      * destruct T as (A2 & R2). cbn. split; auto. split; [apply ceq_set_stack; auto|]. split; auto. intros _ _. split; [apply ceq_set_stack; auto|].
        exists r, r'. rewrite !stack_stack. auto.
    + cbn. split; auto. split; [apply G3|]. split; auto.
Qed.

(** ** Grammars *)
Section Exp.
Variables (rho : nat -> wfn W) (rho' : nat -> ctx -> out) (n : nat).
Definition wesim (e : wexp W) (e' : pexp) : Prop := wsim (w_denote rho n e) (denote rho' n e').
Lemma wmap_sim es es' : Forall2 wesim es es' -> Forall2 wsim (map (w_denote rho n) es) (map (denote rho' n) es').
Proof. induction 1; simpl; constructor; auto. Qed.
Lemma wsim_flat es es' : Forall2 wesim es es' -> wesim (WFlatGroup es) (EFlatGroup es').
Proof. intros H. apply sim_base; [apply wmap_sim; auto|exact I]. Qed.
Lemma wsim_first es es' : Forall2 wesim es es' -> wesim (WFirst es) (EFirst es').
Proof. intros H. apply sim_base; [apply wmap_sim; auto|exact I]. Qed.
Lemma wsim_repeat t es es' : Forall2 wesim es es' -> wesim (WRepeat t es) (ERepeat t es').
Proof. intros H. apply sim_base; [apply wmap_sim; auto|exact I]. Qed.
Lemma wsim_trans e e' ts ts' : wesim e e' -> Forall2 wtsim ts ts' -> wesim (WTrans e ts) (ETrans e' ts').
Proof. intros H Ht. apply sim_base; [constructor; [exact H|constructor]|]. destruct Ht; [exact I|cbn [variadic otsim]; constructor; auto]. Qed.
Lemma wsim_indirect k : wsim (rho k) (rho' k) -> wesim (WIndirect k) (EIndirect k).
Proof. intros H. apply sim_light. exact H. Qed.
End Exp.
Lemma wsim_run_env env env' : (forall rho rho' n k, (forall j, wsim (rho j) (rho' j)) -> wesim rho rho' n (env k) (env' k)) ->
  forall n k, wsim (w_run_env env n k) (run_env env' n k).
Proof. intros H. induction n as [|n IH]; intros k; cbn [w_run_env run_env]; [intros w c c' E L; exact I|]. exact (H _ _ n k IH). Qed.

(** ** Grammars that do not touch the memory *)
Lemma pure_children ex sv cs (w : W) : forall o num, w_children ex sv (map w_pure cs) w o num = (w, children_loop ex sv cs o num).
Proof.
  induction cs as [|f cs IH]; intros o num; cbn [map w_children children_loop]; auto. unfold w_pure at 1.
  destruct (f o) as [[o1 e]|x|]; auto. cbv zeta. destruct (c_st (fix_status o1 e)); auto; destruct ex; auto.
Qed.
Lemma pure_parent q ex bottom cs (w : W) : forall n o k, w_parent n q ex None bottom (map w_pure cs) w o k = (w, parent_loop n q ex None bottom cs o k).
Proof.
  induction n as [|n IH]; intros o k; cbn [w_parent parent_loop]; destruct (more q k); auto.
  rewrite pure_children, map_length. destruct (children_loop ex o cs o 0) as [r|c|o1 num]; auto.
  destruct (ex && (0 <? length cs)%nat && (num =? 0)%nat); auto. cbn [call_fn]. destruct (c_st (set_qty o1 k)); auto.
Qed.
Definition pure_trans (t : trans) : wtrans W := fun n c w l => (w, t n c l).
Lemma pure_run_trans n c (w : W) ts : forall l, w_run_trans n c (map pure_trans ts) w l = (w, run_trans n c ts l).
Proof.
  induction ts as [|t ts IH]; intros l; cbn [map w_run_trans run_trans]; auto. unfold pure_trans at 1.
  destruct (t n c l) as [[e|r]|x|]; auto.
Qed.
Lemma pure_base cls props cs tr n (w : W) c :
  w_base cls None props (map w_pure cs) (option_map (map pure_trans) tr) n w c = (w, base_parser cls None props cs tr n c).
Proof.
  unfold w_base, base_parser. cbv zeta. rewrite pure_parent.
  destruct (parent_loop n _ _ None _ cs _ _) as [r|o k]; auto. cbn [call_fn]. rewrite !st_qty.
  destruct (c_st (after_loop (flags_of props) o k)); auto. destruct tr as [ts|]; auto. cbn [option_map].
  destruct (_ <? _)%nat; auto. rewrite pure_run_trans. destruct (run_trans n _ ts _) as [[e|r]|x|]; auto.
Qed.
(** A parser over lists that goes through the simulation unchanged. *)
Definition selfsim (f : ctx -> out) : Prop := wsim (w_pure f) f.
Lemma self_base cls props cs tr n : Forall selfsim cs -> match tr with None => True | Some ts => Forall (fun t => wtsim (pure_trans t) t) ts end ->
  selfsim (base_parser cls None props cs tr n).
Proof.
  intros H Ht w c c' E L. unfold w_pure. rewrite <- pure_base. apply sim_base; auto.
  - clear -H. induction H; simpl; constructor; auto.
  - destruct tr as [ts|]; [|exact I]. cbn. induction Ht; simpl; constructor; auto.
Qed.
Section Pure.
Variables (rho : nat -> ctx -> out) (n : nat).
Definition self (e : pexp) : Prop := selfsim (denote rho n e).
Lemma self_map es : Forall self es -> Forall selfsim (map (denote rho n) es).
Proof. induction 1; simpl; constructor; auto. Qed.
Lemma self_flat es : Forall self es -> self (EFlatGroup es).
Proof. intros H. apply self_base; [apply self_map; auto|exact I]. Qed.
Lemma self_first es : Forall self es -> self (EFirst es).
Proof. intros H. apply self_base; [apply self_map; auto|exact I]. Qed.
Lemma self_repeat t es : Forall self es -> self (ERepeat t es).
Proof. intros H. apply self_base; [apply self_map; auto|exact I]. Qed.
Lemma self_trans e ts : self e -> Forall (fun t => wtsim (pure_trans t) t) ts -> self (ETrans e ts).
Proof. intros H Ht. apply self_base; [constructor; [exact H|constructor]|]. destruct Ht; [exact I|cbn [variadic]; constructor; auto]. Qed.
(** A leaf adds the same ASTs to every stack. *)
Definition adds (fn : light_fn) : Prop := forall c, exists r l, forall s, fn (set_stack c s) =
  match r with Ok (o, e) => Ok (set_stack o (s ++ l), e) | Panic x => Panic x | Fuel => Fuel end /\ forall k w, le k w -> rep k w l l.
Lemma self_light cls fn : adds (fn n) -> self (ELight cls fn).
Proof.
  intros H w c c' E L. cbn [denote]. unfold w_pure.
  assert (X : forall z, set_stack z (c_stack z) = z) by (intros z; destruct z; reflexivity).
  destruct (H c) as (r & l & A). destruct (A (c_stack c)) as (B & R). rewrite X in B.
  assert (B' : fn n c' = match r with Ok (o, e) => Ok (set_stack o (c_stack c' ++ l), e) | Panic x => Panic x | Fuel => Fuel end).
  { replace c' with (set_stack c (c_stack c')) at 1; [apply A|]. rewrite <- (X c') at 2. destruct c, c'. unfold ceq in E. cbn in *. inversion E; subst. reflexivity. }
  assert (Hs : osim w (c_stack c) (c_stack c') (w, light_base_parser cls (fn n) c) (light_base_parser cls (fn n) c')).
  2: exact Hs. unfold light_base_parser. rewrite B, B'. destruct r as [[o e]|x|]; cbn [osim]; auto. split; auto.
  destruct e as [e|]; cbn [fix_status].
  - destruct o; cbn. split; [reflexivity|]. split; [auto|discriminate].
  - destruct o as [? ? ? ? ? st ? ?]; destruct st; cbn; (split; [reflexivity|]); (split; [auto|]); try discriminate.
    intros _ _. split; [reflexivity|]. exists l, l. cbn. auto.
Qed.
End Pure.

(** ** ProductionRule *)
Definition octx (asts : list ast) (tag : value) (p : nat) : ctx := set_pos (new_object_ctx (ast_slice asts) tag) p.
Definition rule_sim (R : nat -> wfn W) (R' : parser) : Prop := forall n tag k w asts asts' p, le k w -> rep k w asts asts' ->
  match R n w (octx asts tag p), R' n (octx asts' tag p) with
  | (w1, Ok (o, None)), Ok (o', None) => c_st o = c_st o' /\ le k w1 /\
      match c_st o with
      | Matched => c_pos o = c_pos o' /\ rep k w1 (firstn p asts ++ c_stack o ++ skipn (c_pos o) asts) (firstn p asts' ++ c_stack o' ++ skipn (c_pos o') asts')
      | _ => rep k w1 asts asts'
      end
  | (w1, Ok (_, Some e)), Ok (_, Some e') => e = e' /\ le k w1
  | (_, Panic x), Panic y => x = y
  | (_, Fuel), Fuel => True
  | _, _ => False
  end.
Definition ssim (k : W) (l l' : list ast) (r : W * scan) (r' : scan) : Prop :=
  match r, r' with
  | (w, SErr e), SErr e' => e = e' /\ le k w
  | (w, SBad x), SBad y => x = y
  | (w, SFuel), SFuel => True
  | (w, SHit a), SHit a' => le k w /\ rep k w a a'
  | (w, SNone), SNone => le k w /\ rep k w l l'
  | _, _ => False
  end.
Lemma sim_rules n tag k asts asts' p rs rs' : Forall2 rule_sim rs rs' -> forall w, le k w -> rep k w asts asts' ->
  ssim k asts asts' (w_try_rules n rs (new_object_ctx (ast_slice asts) tag) w asts p) (try_rules n rs' (new_object_ctx (ast_slice asts') tag) asts' p).
Proof.
  induction 1 as [|R R' rs rs' H _ IH]; intros w Hle Hr; cbn [w_try_rules try_rules]; [cbn; auto|].
  pose proof (H n tag k w asts asts' p Hle Hr) as S. unfold octx in S. rewrite <- (rep_len _ _ _ _ Hr).
  destruct (R n w _) as [w1 [[o [e|]]|x|]], (R' n _) as [[o' [e'|]]|y|]; try contradiction; try exact S.
  destruct S as (<- & Hw & S). destruct (c_st o); try (destruct S; apply IH; auto; fail); try (apply IH; auto; fail).
  destruct S as (<- & S). destruct (_ && _); [cbn; auto|reflexivity].
Qed.
Definition prec_wsim (p : wprecedence W) (p' : precedence) : Prop := Forall2 rule_sim (wpr_rules p) (pr_rules p') /\ wpr_rtol p = pr_rtol p'.
Lemma sim_positions n tag k asts asts' pr pr' : prec_wsim pr pr' -> forall m w i, le k w -> rep k w asts asts' ->
  ssim k asts asts' (w_try_positions n pr (new_object_ctx (ast_slice asts) tag) w asts i m) (try_positions n pr' (new_object_ctx (ast_slice asts') tag) asts' i m).
Proof.
  intros [H R]. induction m as [|m IH]; intros w i Hle Hr; cbn [w_try_positions try_positions]; [cbn; auto|].
  rewrite <- R, <- (rep_len _ _ _ _ Hr). cbv zeta.
  pose proof (sim_rules n tag k asts asts' (if wpr_rtol pr then (length asts - i)%nat else i) _ _ H w Hle Hr) as S. unfold ssim in S.
  destruct (w_try_rules n _ _ w asts _) as [w1 [e|x| |a|]], (try_rules n _ _ asts' _) as [e'|y| |a'|]; try contradiction; try exact S.
  destruct S. apply IH; auto.
Qed.
Lemma sim_precedences n tag k asts asts' prs prs' : Forall2 prec_wsim prs prs' -> forall w, le k w -> rep k w asts asts' ->
  ssim k asts asts' (w_try_precedences n prs tag w asts) (try_precedences n prs' tag asts').
Proof.
  induction 1 as [|p p' prs prs' H _ IH]; intros w Hle Hr; cbn [w_try_precedences try_precedences]; [cbn; auto|].
  rewrite <- (rep_len _ _ _ _ Hr).
  pose proof (sim_positions n tag k asts asts' _ _ H (S (length asts)) w 0 Hle Hr) as S. unfold ssim in S.
  destruct (w_try_positions n p _ w asts 0 _) as [w1 [e|x| |a|]], (try_positions n p' _ asts' 0 _) as [e'|y| |a'|]; try contradiction; try exact S.
  destruct S. apply IH; auto.
Qed.
(** The check for the end sees only how many ASTs there are. *)
Definition same_check (check : parser) : Prop := forall n tag l l', length l = length l' ->
  match check n (new_object_ctx (ast_slice l) tag), check n (new_object_ctx (ast_slice l') tag) with
  | Ok (o, e), Ok (o', e') => c_st o = c_st o' /\ e = e'
  | Panic x, Panic y => x = y
  | Fuel, Fuel => True
  | _, _ => False
  end.
Lemma sim_production prs prs' check : same_check check -> Forall2 prec_wsim prs prs' -> wtsim (w_ProductionRule prs (fun n => w_pure (check n))) (ProductionRule prs' check).
Proof.
  intros Hc H n c c' k w l l' E. unfold w_ProductionRule, ProductionRule. rewrite <- (ceq_tag _ _ E). clear c' E.
  revert w l l'. generalize n at 2 4. intros m. induction m as [|m IH]; intros w l l' Hle Hr; cbn [w_production production_loop]; [exact I|].
  pose proof (sim_precedences n (c_tag c) k l l' _ _ H w Hle Hr) as S. unfold ssim in S.
  destruct (w_try_precedences n prs (c_tag c) w l) as [w1 [e|x| |a|]], (try_precedences n prs' (c_tag c) l') as [e'|y| |a'|]; try contradiction; try exact S.
  - destruct S as (Hw & Ha). pose proof (Hc n (c_tag c) a a' (rep_len _ _ _ _ Ha)) as K.
    unfold w_pure. destruct (check n (new_object_ctx (ast_slice a) _)) as [[o [e|]]|x|], (check n (new_object_ctx (ast_slice a') _)) as [[o' [e'|]]|y|]; try contradiction; try exact K;
      try (destruct K; discriminate); [apply IH; auto|].
    destruct K as [<- _]. destruct (c_st o); [cbn; auto|apply IH; auto..].
  - destruct S as (Hw & Ha). pose proof (Hc n (c_tag c) l l' (rep_len _ _ _ _ Ha)) as K.
    unfold w_pure. destruct (check n (new_object_ctx (ast_slice l) _)) as [[o [e|]]|x|], (check n (new_object_ctx (ast_slice l') _)) as [[o' [e'|]]|y|]; try contradiction; try exact K;
      try (destruct K; discriminate); [cbn; auto|].
    destruct K as [<- _]. destruct (c_st o); cbn; auto.
Qed.
End Simulation.
