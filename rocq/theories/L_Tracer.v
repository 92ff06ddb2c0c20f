From Verif Require Export S_Tracer L_Exact.
From Coq Require Export Lia.

Section TexpInd.
Variable P : texp -> Prop.
Hypothesis H1 : forall cls fn, P (TLight cls fn).
Hypothesis H2 : forall cls fn props es rs tr, Forall P es -> Forall P rs -> P (TBase cls fn props es rs tr).
Hypothesis H3 : forall neg mn mx es, Forall P es -> P (TBehind neg mn mx es).
Hypothesis H4 : forall k, P (TInd k).
Hypothesis H5 : forall scope pt es, Forall P es -> P (TTrace scope pt es).
Fixpoint texp_ind' (e : texp) : P e :=
  let fix go (es : list texp) : Forall P es :=
    match es with [] => Forall_nil P | e :: es' => Forall_cons e (texp_ind' e) (go es') end in
  match e with
  | TLight cls fn => H1 cls fn
  | TBase cls fn props es rs tr => H2 cls fn props es rs tr (go es) (go rs)
  | TBehind neg mn mx es => H3 neg mn mx es (go es)
  | TInd k => H4 k
  | TTrace scope pt es => H5 scope pt es (go es)
  end.
End TexpInd.
Section BexpInd.
Variable P : bexp -> Prop.
Hypothesis H1 : forall m cls fn, P (BLight m cls fn).
Hypothesis H2 : forall m cls fn props bs rs tr, Forall P bs -> Forall P rs -> P (BBase m cls fn props bs rs tr).
Hypothesis H3 : forall m neg mn mx bs, Forall P bs -> P (BBehind m neg mn mx bs).
Hypothesis H4 : forall m i k, P (BInd m i k).
Fixpoint bexp_ind' (b : bexp) : P b :=
  let fix go (bs : list bexp) : Forall P bs :=
    match bs with [] => Forall_nil P | b :: bs' => Forall_cons b (bexp_ind' b) (go bs') end in
  match b with
  | BLight m cls fn => H1 m cls fn
  | BBase m cls fn props bs rs tr => H2 m cls fn props bs rs tr (go bs) (go rs)
  | BBehind m neg mn mx bs => H3 m neg mn mx bs (go bs)
  | BInd m i k => H4 m i k
  end.
End BexpInd.

Fixpoint build_list (es : list texp) (g : gs) : list bexp * gs :=
  match es with
  | [] => ([], g)
  | e :: es' => let '(b, g1) := build e g in let '(bs, g2) := build_list es' g1 in (b :: bs, g2)
  end.
Lemma build_eq e g : build e g =
  match e with
  | TLight cls fn => let '(m, g1) := new_mark cls g in (BLight m cls fn, g1)
  | TBase cls fn props es rs tr =>
      let '(bs, g1) := build_list es g in let '(qs, g2) := build_list rs g1 in
      let '(m, g3) := new_mark cls g2 in (BBase m cls fn props bs qs tr, g3)
  | TBehind neg mn mx es =>
      let '(bs, g1) := build_list es g in
      let '(m, g2) := new_mark (if neg then ":base:LookBehindN" else ":base:LookBehind") g1 in (BBehind m neg mn mx bs, g2)
  | TInd k =>
      let '(m, g1) := new_mark ":base:Indirect" g in (BInd m (length (g_inds g1)) k, g_alloc g1 k)
  | TTrace scope pt es =>
      let g0 := g_set g true (g_scope g ++ "/" ++ scope)%string pt in
      let '(bs, g1) := build_list es g0 in let '(m, g2) := new_mark ":Base:DebugTrace" g1 in
      (BBase m ":Base:DebugTrace" None [] bs [] None, g_set g2 (g_on g) (g_scope g) (g_tr g))
  end.
Proof. destruct e; reflexivity. Qed.

(** A grammar with DebugTrace as a group; a built parser without its marks, and where its
    Indirect variables live. *)
Fixpoint untrace (e : texp) : texp :=
  match e with
  | TLight cls fn => TLight cls fn
  | TBase cls fn props es rs tr => TBase cls fn props (map untrace es) (map untrace rs) tr
  | TBehind neg mn mx es => TBehind neg mn mx (map untrace es)
  | TInd k => TInd k
  | TTrace _ _ es => TBase ":Base:DebugTrace" None [] (map untrace es) [] None
  end.
Fixpoint unmark (b : bexp) : texp :=
  match b with
  | BLight _ cls fn => TLight cls fn
  | BBase _ cls fn props bs rs tr => TBase cls fn props (map unmark bs) (map unmark rs) tr
  | BBehind _ neg mn mx bs => TBehind neg mn mx (map unmark bs)
  | BInd _ _ k => TInd k
  end.
Lemma untrace_denote rho n e : t_denote rho n (untrace e) = t_denote rho n e.
Proof.
  induction e as [cls fn|cls fn props es rs tr H1 H2|neg mn mx es H|k|scope pt es H] using texp_ind'; cbn [untrace t_denote]; auto.
  - rewrite !map_map. f_equal; [|destruct tr; cbn [option_map]; auto; do 2 f_equal]; apply map_ext_Forall; auto.
  - rewrite map_map. f_equal. apply map_ext_Forall; auto.
  - rewrite map_map. cbn [option_map]. f_equal. apply map_ext_Forall; auto.
Qed.
Inductive okb (inds : list nat) : bexp -> Prop :=
| ok_light : forall m cls fn, okb inds (BLight m cls fn)
| ok_base : forall m cls fn props bs rs tr, Forall (okb inds) bs -> Forall (okb inds) rs -> okb inds (BBase m cls fn props bs rs tr)
| ok_behind : forall m neg mn mx bs, Forall (okb inds) bs -> okb inds (BBehind m neg mn mx bs)
| ok_ind : forall m i k, nth_error inds i = Some k -> okb inds (BInd m i k).
Lemma okb_app inds ks b : okb inds b -> okb (inds ++ ks) b.
Proof.
  induction b using bexp_ind'; intros X; inversion X; subst; constructor.
  - rewrite Forall_forall in *. auto.
  - rewrite Forall_forall in *. auto.
  - rewrite Forall_forall in *. auto.
  - rewrite nth_error_app1; auto. apply nth_error_Some. congruence.
Qed.

(** Effect of building on the state. *)
Definition built (g g' : gs) : Prop :=
  g_on g' = g_on g /\ g_scope g' = g_scope g /\ g_tr g' = g_tr g /\ g_cell g' = g_cell g /\ g_log g' = g_log g /\
  (g_no g <= g_no g')%nat /\ exists ks, g_inds g' = g_inds g ++ ks.
Lemma built_refl g : built g g.
Proof. repeat split; auto. exists []. rewrite app_nil_r. auto. Qed.
Lemma built_trans g1 g2 g3 : built g1 g2 -> built g2 g3 -> built g1 g3.
Proof.
  intros (A1 & A2 & A3 & A4 & A5 & A6 & ks & A7) (B1 & B2 & B3 & B4 & B5 & B6 & ls & B7).
  repeat split; try congruence; try lia. exists (ks ++ ls). rewrite B7, A7, app_assoc. auto.
Qed.
Lemma new_mark_built cls g m g' : new_mark cls g = (m, g') -> built g g' /\ g_inds g' = g_inds g.
Proof.
  unfold new_mark. destruct (g_on g) eqn:E; intros X; inversion X; subst; simpl; [|split; [apply built_refl|auto]].
  repeat split; simpl; auto. exists []. rewrite app_nil_r. auto.
Qed.
Lemma build_ok e : forall g b g', build e g = (b, g') -> built g g' /\ unmark b = untrace e /\ okb (g_inds g') b.
Proof.
  assert (L : forall es, Forall (fun e => forall g b g', build e g = (b, g') -> built g g' /\ unmark b = untrace e /\ okb (g_inds g') b) es ->
    forall g bs g', build_list es g = (bs, g') -> built g g' /\ map unmark bs = map untrace es /\ Forall (okb (g_inds g')) bs).
  { induction 1 as [|x es He F IH]; intros g bs g' E; simpl in E. { inversion E; subst. split; [apply built_refl|auto]. }
    destruct (build x g) as [b g1] eqn:E1. destruct (build_list es g1) as [bs' g2] eqn:E2. inversion E; subst.
    destruct (He _ _ _ E1) as (B1 & X1 & O1). destruct (IH _ _ _ E2) as (B2 & X2 & O2). split; [eapply built_trans; eauto|]. simpl. split; [congruence|].
    constructor; auto. destruct B2 as (_ & _ & _ & _ & _ & _ & ks & ->). apply okb_app. auto. }
  induction e using texp_ind'; intros g b g' E; rewrite build_eq in E.
  - destruct (new_mark cls g) as [m g1] eqn:M. inversion E; subst. destruct (new_mark_built _ _ _ _ M). repeat split; auto; try apply H. constructor.
  - destruct (build_list es g) as [bs g1] eqn:E1. destruct (build_list rs g1) as [qs g2] eqn:E2. destruct (new_mark cls g2) as [m g3] eqn:M. inversion E; subst.
    destruct (L _ H _ _ _ E1) as (B1 & X1 & O1). destruct (L _ H0 _ _ _ E2) as (B2 & X2 & O2). destruct (new_mark_built _ _ _ _ M) as [B3 I3].
    split; [eapply built_trans; eauto using built_trans|]. simpl. rewrite X1, X2. split; auto. rewrite I3.
    assert (K : Forall (okb (g_inds g2)) bs). { destruct B2 as (_ & _ & _ & _ & _ & _ & ks & ->). rewrite Forall_forall in *. intros. apply okb_app; auto. }
    constructor; auto.
  - destruct (build_list es g) as [bs g1] eqn:E1. destruct (new_mark _ g1) as [m g2] eqn:M. inversion E; subst.
    destruct (L _ H _ _ _ E1) as (B1 & X1 & O1). destruct (new_mark_built _ _ _ _ M) as [B2 I2].
    split; [eapply built_trans; eauto|]. simpl. rewrite X1. split; auto. constructor. rewrite I2. auto.
  - destruct (new_mark _ g) as [m g1] eqn:M. inversion E; subst. destruct (new_mark_built _ _ _ _ M) as [B I].
    split; [|split; auto].
    + destruct B as (A1 & A2 & A3 & A4 & A5 & A6 & A7). repeat split; simpl; auto. exists [k]. rewrite I. auto.
    + constructor. simpl. rewrite nth_error_app2, Nat.sub_diag by lia. auto.
  - cbv zeta in E. destruct (build_list es _) as [bs g1] eqn:E1. destruct (new_mark _ g1) as [m g2] eqn:M. inversion E; subst.
    destruct (L _ H _ _ _ E1) as (B1 & X1 & O1). destruct (new_mark_built _ _ _ _ M) as [B2 I2].
    pose proof (built_trans _ _ _ B1 B2) as (A1 & A2 & A3 & A4 & A5 & A6 & A7). simpl in *.
    split; [repeat split; simpl; auto|]. rewrite X1. split; auto. constructor; [rewrite I2; auto|constructor].
Qed.

(** ** Marks *)
Lemma seq_cut a n m : (n <= m)%nat -> seq (S a) n ++ seq (S (a + n)) (m - n) = seq (S a) m.
Proof. intros. replace m with (n + (m - n))%nat at 2 by lia. rewrite seq_app. auto. Qed.
Definition marked_ok (g g' : gs) (ms : list mark) : Prop :=
  map m_no ms = seq (S (g_no g)) (g_no g' - g_no g).
Lemma marked_app g g1 g2 a b : built g g1 -> built g1 g2 -> marked_ok g g1 a -> marked_ok g1 g2 b -> marked_ok g g2 (a ++ b).
Proof.
  unfold marked_ok. intros (_ & _ & _ & _ & _ & L1 & _) (_ & _ & _ & _ & _ & L2 & _) A B. rewrite map_app, A, B.
  rewrite <- (seq_cut (g_no g) (g_no g1 - g_no g) (g_no g2 - g_no g)) by lia. f_equal. f_equal; lia.
Qed.
Lemma mark_new cls g m g' : new_mark cls g = (m, g') -> marked_ok g g' (opt_list m) /\ (g_on g = true -> m <> None) /\ (g_on g = false -> m = None).
Proof.
  unfold new_mark. destruct (g_on g) eqn:E; intros X; inversion X; subst; unfold marked_ok; cbn [g_no opt_list map m_no]; repeat split; try congruence.
  - replace (S (g_no g) - g_no g)%nat with 1%nat by lia. reflexivity.
  - rewrite Nat.sub_diag. reflexivity.
Qed.
Definition good_marks (e : texp) : Prop := forall g b g', build e g = (b, g') -> marked_ok g g' (marks b) /\
  (g_on g = true -> all_marked b) /\ (g_on g = false -> untraced e -> marks b = []).
Lemma good_list es : Forall good_marks es -> forall g bs g', build_list es g = (bs, g') -> marked_ok g g' (flat_map marks bs) /\
  (g_on g = true -> fold_right and True (map all_marked bs)) /\ (g_on g = false -> fold_right and True (map untraced es) -> flat_map marks bs = []) /\
  built g g'.
Proof.
  induction 1 as [|e es He F IH]; intros g bs g' E; simpl in E.
  { inversion E; subst. repeat split; auto; try apply built_refl. unfold marked_ok. rewrite Nat.sub_diag. reflexivity. }
  destruct (build e g) as [b g1] eqn:E1. destruct (build_list es g1) as [bs' g2] eqn:E2. inversion E; subst.
  destruct (He _ _ _ E1) as (A1 & A2 & A3). destruct (IH _ _ _ E2) as (B1 & B2 & B3 & B4). destruct (build_ok _ _ _ _ E1) as (B & _).
  assert (On : g_on g1 = g_on g) by apply B.
  split; [simpl; eapply marked_app; eauto|]. split; [intros X; simpl; split; [auto|apply B2; congruence]|].
  split; [|eapply built_trans; eauto]. intros X [U1 U2]. simpl. rewrite A3, B3; auto; congruence.
Qed.
Lemma build_marks e : good_marks e.
Proof.
  induction e using texp_ind'; intros g b g' E; rewrite build_eq in E.
  - destruct (new_mark cls g) as [m g1] eqn:M. inversion E; subst. destruct (mark_new _ _ _ _ M) as (A1 & A2 & A3). simpl. repeat split; auto.
    intros X _. rewrite A3; auto.
  - destruct (build_list es g) as [bs g1] eqn:E1. destruct (build_list rs g1) as [qs g2] eqn:E2. destruct (new_mark cls g2) as [m g3] eqn:M. inversion E; subst.
    destruct (good_list _ H _ _ _ E1) as (A1 & A2 & A3 & B). destruct (good_list _ H0 _ _ _ E2) as (D1 & D2 & D3 & D). destruct (mark_new _ _ _ _ M) as (C1 & C2 & C3).
    assert (On : g_on g1 = g_on g) by apply B. assert (On2 : g_on g2 = g_on g1) by apply D. destruct (new_mark_built _ _ _ _ M) as [B2 _]. simpl. split; [|split].
    + eapply marked_app; eauto using built_trans. eapply marked_app; eauto.
    + intros X. repeat split; auto; [apply C2; congruence|apply D2; congruence].
    + intros X [U1 U2]. rewrite A3, D3, C3; auto; congruence.
  - destruct (build_list es g) as [bs g1] eqn:E1. destruct (new_mark _ g1) as [m g2] eqn:M. inversion E; subst.
    destruct (good_list _ H _ _ _ E1) as (A1 & A2 & A3 & B). destruct (mark_new _ _ _ _ M) as (C1 & C2 & C3).
    assert (On : g_on g1 = g_on g) by apply B. destruct (new_mark_built _ _ _ _ M) as [B2 _]. simpl. repeat split.
    + eapply marked_app; eauto.
    + rewrite On in C2. auto.
    + auto.
    + intros X U. rewrite A3, C3; auto. congruence.
  - destruct (new_mark _ g) as [m g1] eqn:M. inversion E; subst. destruct (mark_new _ _ _ _ M) as (A1 & A2 & A3). simpl. repeat split; auto.
    intros X _. rewrite A3; auto.
  - cbv zeta in E. destruct (build_list es _) as [bs g1] eqn:E1. destruct (new_mark _ g1) as [m g2] eqn:M. inversion E; subst.
    destruct (good_list _ H _ _ _ E1) as (A1 & A2 & A3 & B). destruct (mark_new _ _ _ _ M) as (C1 & C2 & C3).
    assert (On : g_on g1 = true) by apply B. destruct (new_mark_built _ _ _ _ M) as [B2 _]. simpl. repeat split.
    + pose proof (marked_app _ _ _ _ _ B B2 A1 C1) as X. exact X.
    + auto.
    + apply A2. reflexivity.
    + intros _ [].
Qed.

(** ** The arguments of ProductionRule *)
Section Arrange.
Variables (A B T U : Type) (Q : A -> B -> Prop) (V : T -> U -> Prop).
Definition levels_rel (l : list A * bool) (l' : list B * bool) : Prop := Forall2 Q (fst l) (fst l') /\ snd l = snd l'.
Lemma forall2_skipn k : forall (l : list A) (l' : list B), Forall2 Q l l' -> Forall2 Q (skipn k l) (skipn k l').
Proof. induction k; intros l l' H; [exact H|]. destruct H; simpl; auto. Qed.
Lemma forall2_firstn k : forall (l : list A) (l' : list B), Forall2 Q l l' -> Forall2 Q (firstn k l) (firstn k l').
Proof. induction k; intros l l' H; [constructor|]. destruct H; simpl; auto. Qed.
Lemma take_rel shape : forall rs rs', Forall2 Q rs rs' ->
  Forall2 levels_rel (fst (take_levels shape rs)) (fst (take_levels shape rs')) /\ Forall2 Q (snd (take_levels shape rs)) (snd (take_levels shape rs')).
Proof.
  induction shape as [|x shape IH]; intros rs rs' H; [split; auto; constructor|]. destruct x as [k r]. cbn [take_levels].
  destruct (IH _ _ (forall2_skipn k _ _ H)) as [X Y]. destruct (take_levels shape (skipn k rs)), (take_levels shape (skipn k rs')). cbn [fst snd] in *.
  split; auto. constructor; auto. split; [apply forall2_firstn; auto|reflexivity].
Qed.
Lemma arrange_rel pure pure' prod prod' d d' : Q d d' -> (forall t, V (pure t) (pure' t)) ->
  (forall ls ls' c c', Forall2 levels_rel ls ls' -> Q c c' -> V (prod ls c) (prod' ls' c')) ->
  forall tr rs rs', Forall2 Q rs rs' -> Forall2 V (arrange pure prod d tr rs) (arrange pure' prod' d' tr rs').
Proof.
  intros Hd Hp Hr. induction tr as [|x tr IH]; intros rs rs' H; [constructor|]. destruct x as [t|shape]; cbn [arrange]; [constructor; auto|].
  destruct (take_rel shape _ _ H) as [X Y]. destruct (take_levels shape rs) as [ls rest], (take_levels shape rs') as [ls' rest']. cbn [fst snd] in *.
  constructor.
  - apply Hr; auto. destruct Y; cbn; auto.
  - apply IH. destruct Y; cbn; auto.
Qed.
End Arrange.
Lemma arrange_all {A T} (Q : A -> Prop) (V : T -> Prop) pure prod d : Q d -> (forall t, V (pure t)) ->
  (forall ls c, Forall (fun l => Forall Q (fst l)) ls -> Q c -> V (prod ls c)) ->
  forall tr (rs : list A), Forall Q rs -> Forall V (arrange pure prod d tr rs).
Proof.
  intros Hd Hp Hr tr rs H.
  assert (X : Forall2 (fun a b : A => a = b /\ Q a) rs rs) by (clear -H; induction H; constructor; auto).
  pose proof (arrange_rel A A T T (fun a b => a = b /\ Q a) (fun a b => a = b /\ V a) pure pure prod prod d d (conj eq_refl Hd)
    (fun t => conj eq_refl (Hp t))) as K.
  assert (Y : forall l l' : list T, Forall2 (fun a b => a = b /\ V a) l l' -> Forall V l) by (induction 1 as [|a b l l' [_ Z] _ IH]; constructor; auto).
  eapply Y. apply K; [|exact X]. intros ls ls' c c' L [<- C].
  assert (F : forall l l' : list A, Forall2 (fun a b => a = b /\ Q a) l l' -> l = l' /\ Forall Q l).
  { induction 1 as [|a b l l' [<- Z] _ [<- IH]]; auto. }
  assert (E : ls = ls' /\ Forall (fun l => Forall Q (fst l)) ls).
  { clear -L F. induction L as [|[l r] [l' r'] ls ls' [P E] _ [<- IH]]; auto. cbn in P, E. subst r'. apply F in P as [<- P]. auto. }
  destruct E as [<- E]. auto.
Qed.

(** ** Transparency *)
Section Transparent.
Variable lost : bool.
Variable pts : nat -> tracer.
Variable env : nat -> texp.
Definition ext (g g' : gs) : Prop := exists ks, g_inds g' = g_inds g ++ ks.
Lemma ext_refl g : ext g g. Proof. exists []. rewrite app_nil_r. auto. Qed.
Lemma ext_trans g1 g2 g3 : ext g1 g2 -> ext g2 g3 -> ext g1 g3.
Proof. intros [ks A] [ls B]. exists (ks ++ ls). rewrite B, A, app_assoc. auto. Qed.
Definition inv (g : gs) : Prop := forall i b, g_cell g i = Some b ->
  exists k, nth_error (g_inds g) i = Some k /\ unmark b = untrace (env k) /\ okb (g_inds g) b.
Definition since (inds : list nat) (g : gs) : Prop := inv g /\ exists ks, g_inds g = inds ++ ks.
(** [p] does what [q] does. *)
Definition swallowed (x : string) : Prop := lost = true /\ x = panic_nil.
Definition same (inds : list nat) (p : sparser) (q : ctx -> out) : Prop := esim gs (since inds) swallowed p q.
Hypothesis obs : forall i, observer (pts i).

Lemma since_emit inds g e : since inds g -> since inds (g_emit g e).
Proof. intros H. exact H. Qed.
Lemma same_traced inds m p q : same inds p q -> same inds (traced lost pts m p) q.
Proof.
  intros H. destruct m as [k|]; [|exact H]. intros g c I. unfold traced. destruct (obs (m_tr k)) as (O1 & O2 & O3). rewrite O1.
  destruct (H (g_emit g (EvBefore k c)) c (since_emit _ _ _ I)) as [S|(E & I')]; [left; exact S|].
  destruct (p (g_emit g (EvBefore k c)) c) as [g1 [[o err]|w|]]; simpl in *; auto.
  - rewrite O2. auto.
  - unfold recovered. rewrite O3. destruct (lost && String.eqb w panic_nil) eqn:B; [left|right; auto].
    apply andb_prop in B as [B1 B2]. apply String.eqb_eq in B2. subst w. exists panic_nil. repeat split; auto.
Qed.
Lemma same_trans inds n ts ps qs : Forall2 (same inds) ps qs ->
  Forall2 (fun t t' => forall c w l, since inds w -> spoilt swallowed (t' n c l) \/ (snd (t n c w l) = t' n c l /\ since inds (fst (t n c w l)))) (s_trans ts ps) (t_trans ts qs).
Proof.
  apply (arrange_rel _ _ _ _ (same inds)); auto.
  - intros g c I. auto.
  - intros ls ls' p q H C c w l I. unfold w_ProductionRule, ProductionRule. apply (esim_production gs (since inds) swallowed n); auto.
    clear -H. induction H as [|[l r] [l' r'] ls ls' [P E] _ IH]; simpl; constructor; auto. cbn in P, E. split; auto. cbn.
    clear -P. unfold rules_esim. induction P; simpl; constructor; auto.
Qed.
Lemma same_list inds (f : bexp -> sparser) (f' : texp -> ctx -> out) bs : Forall (fun b => okb inds b -> same inds (f b) (f' (unmark b))) bs -> Forall (okb inds) bs ->
  Forall2 (same inds) (map f bs) (map f' (map unmark bs)).
Proof. induction 1; intros O; inversion O; subst; simpl; constructor; auto. Qed.
Lemma same_denote rho rho' n : (forall b k g c, inv g -> okb (g_inds g) b -> unmark b = untrace (env k) ->
     spoilt swallowed (rho' k c) \/ (snd (rho b g c) = rho' k c /\ since (g_inds g) (fst (rho b g c)))) ->
  forall inds b, okb inds b -> same inds (sdenote lost pts env rho n b) (t_denote rho' n (unmark b)).
Proof.
  intros R inds. induction b as [m cls fn|m cls fn props bs rs tr F1 F2|m neg mn mx bs F|m i k] using bexp_ind'; intros O; inversion O; subst; cbn [sdenote t_denote unmark].
  - apply same_traced. intros g c I. auto.
  - apply same_traced. apply esim_base; [apply same_list; auto|]. destruct tr as [ts|]; [|exact Logic.I]. cbn [option_map tr_sim].
    intros c0 w l I _. apply (esim_run_trans gs (since inds) swallowed); auto. apply same_trans. apply same_list; auto.
  - intros g c I. unfold look_behind_base. apply (esim_behind gs (since inds) swallowed); auto. apply same_traced. apply esim_base; [apply same_list; auto|exact Logic.I].
  - apply same_traced. apply esim_light. intros g c [I [ks X]].
    assert (K : nth_error (g_inds g) i = Some k) by (rewrite X, nth_error_app1; auto; apply nth_error_Some; congruence).
    assert (G : forall g', since (g_inds g) g' -> since inds g').
    { intros g' [I' [ls E]]. split; auto. exists (ks ++ ls). rewrite E, X, app_assoc. reflexivity. }
    destruct (g_cell g i) as [b|] eqn:E.
    + destruct (I _ _ E) as (k' & A & B & C). assert (k' = k) by congruence. subst. destruct (R b k g c I C B) as [S|[]]; auto.
    + destruct (build (env k) g) as [b g1] eqn:Bd. destruct (build_ok _ _ _ _ Bd) as ((A1 & A2 & A3 & A4 & A5 & A6 & ls & A7) & Eb & Ob).
      assert (I1 : inv (g_store g1 i b)).
      { intros j b' Hj. simpl in Hj. destruct (Nat.eqb_spec j i) as [->|Nj].
        - inversion Hj; subst b'. exists k. simpl. split; [|auto]. rewrite A7, nth_error_app1; auto. apply nth_error_Some. congruence.
        - rewrite A4 in Hj. destruct (I _ _ Hj) as (k' & B1 & B2 & B3). exists k'. simpl. rewrite A7. split; [|split; auto].
          + rewrite nth_error_app1; auto. apply nth_error_Some. congruence.
          + apply okb_app. auto. }
      destruct (R b k (g_store g1 i b) c I1 Ob Eb) as [S|(C1 & C2 & ms & C3)]; [left; exact S|right]. split; auto. split; auto.
      exists (ks ++ ls ++ ms). etransitivity; [exact C3|]. simpl. rewrite A7, X, <- !app_assoc. reflexivity.
Qed.
Lemma same_env n : forall b k g c, inv g -> okb (g_inds g) b -> unmark b = untrace (env k) ->
  spoilt swallowed (t_run_env env n k c) \/ (snd (srun_env lost pts env n b g c) = t_run_env env n k c /\ since (g_inds g) (fst (srun_env lost pts env n b g c))).
Proof.
  induction n as [|n IH]; intros b k g c I O E; cbn [srun_env t_run_env]. { right. repeat split; auto. exists []. rewrite app_nil_r. auto. }
  rewrite <- (untrace_denote _ _ (env k)), <- E. apply (same_denote _ _ n IH (g_inds g) b O g c). split; auto. exists []. rewrite app_nil_r. auto.
Qed.
Lemma transparent e g b g' n c : inv g -> build e g = (b, g') -> (lost = true -> t_run env n e c <> Panic panic_nil) ->
  snd (srun lost pts env n b g' c) = t_run env n e c.
Proof.
  intros I E NP. assert (K : spoilt swallowed (t_run env n e c) \/ (snd (srun lost pts env n b g' c) = t_run env n e c /\ since (g_inds g') (fst (srun lost pts env n b g' c)))).
  2: { destruct K as [(x & (L & ->) & S)|[K _]]; [destruct (NP L S)|exact K]. }
  destruct (build_ok _ _ _ _ E) as ((A1 & A2 & A3 & A4 & A5 & A6 & ks & A7) & Eb & Ob). unfold srun, t_run. rewrite <- (untrace_denote _ _ e), <- Eb.
  apply (same_denote _ _ n (same_env n) (g_inds g') b Ob). split.
  - intros i b' H. rewrite A4 in H. destruct (I _ _ H) as (k & B1 & B2 & B3). exists k. rewrite A7. split; [|split; [auto|apply okb_app; auto]].
    rewrite nth_error_app1; auto. apply nth_error_Some. congruence.
  - exists []. rewrite app_nil_r. auto.
Qed.
End Transparent.

(** ** Parsers that are equal at every context can be exchanged *)
Definition peq (p q : ctx -> out) : Prop := forall c, p c = q c.
Definition anywhere (_ : unit) : Prop := True.
Lemma exact_value {W A} (I : W -> Prop) (r : res A) (x : W * res A) : spoilt nothing r \/ (snd x = r /\ I (fst x)) -> snd x = r.
Proof. intros H. apply (spoilt_exact _ _ H). Qed.
Lemma peq_esim p q : peq p q -> esim unit anywhere nothing (w_pure p) q.
Proof. intros H w c _. right. split; [apply H|exact I]. Qed.
Definition teq (n : nat) (t t' : trans) : Prop := forall c l, t n c l = t' n c l.
Definition t_pure (t : trans) : wtrans unit := fun n c w l => (w, t n c l).
Lemma base_ext cls fn props ps qs tr tr' n : Forall2 peq ps qs ->
  match tr, tr' with None, None => True | Some ts, Some ts' => Forall2 (teq n) ts ts' | _, _ => False end ->
  peq (base_parser cls fn props ps tr n) (base_parser cls fn props qs tr' n).
Proof.
  intros F T c.
  assert (X : forall qs0 tr0, Forall2 peq ps qs0 -> match tr, tr0 with None, None => True | Some ts, Some ts' => Forall2 (teq n) ts ts' | _, _ => False end ->
    snd (w_base cls fn props (map w_pure ps) (option_map (map t_pure) tr) n tt c) = base_parser cls fn props qs0 tr0 n c).
  { intros qs0 tr0 F0 T0. apply (exact_value anywhere). apply (esim_base unit anywhere nothing); [|clear -T0|exact I].
    - clear -F0. induction F0; simpl; constructor; auto using peq_esim.
    - destruct tr as [ts|], tr0 as [ts'|]; try contradiction; [|exact I]. cbn [option_map tr_sim]. intros c0 w l J _. apply (esim_run_trans unit anywhere nothing); auto.
      induction T0 as [|t t' ts ts' E _ IH]; simpl; constructor; auto. intros c w1 l1 _. right. split; [apply E|exact I]. }
  rewrite <- (X qs tr' F T). symmetry. apply X.
  - clear. induction ps; constructor; auto. intros c. reflexivity.
  - clear. destruct tr as [ts|]; auto. induction ts; constructor; auto. intros c l. reflexivity.
Qed.
Lemma light_ext cls p q : peq p q -> peq (light_base_parser cls p) (light_base_parser cls q).
Proof. intros H c. unfold light_base_parser. rewrite H. reflexivity. Qed.
Lemma behind_ext neg p q c : peq p q -> forall k i, look_behind_loop neg p c i k = look_behind_loop neg q c i k.
Proof.
  intros H. induction k as [|k IH]; intros i; cbn [look_behind_loop]; auto. cbv zeta. destruct (_ <? 0); auto. rewrite H.
  destruct (q _) as [[o [e|]]|x|]; auto. destruct (c_st o); auto.
Qed.
Definition prec_eq (n : nat) (p p' : precedence) : Prop := Forall2 (fun r r' => peq (r n) (r' n)) (pr_rules p) (pr_rules p') /\ pr_rtol p = pr_rtol p'.
Lemma production_ext n prs prs' check check' : Forall2 (prec_eq n) prs prs' -> peq (check n) (check' n) -> teq n (ProductionRule prs check) (ProductionRule prs' check').
Proof.
  intros F C c l. unfold ProductionRule.
  pose (lp := fun p : precedence => mkWPrec (map (fun r (n : nat) => w_pure (W := unit) (r n)) (pr_rules p)) (pr_rtol p)).
  assert (X : forall prs0 check0, Forall2 (prec_eq n) prs prs0 -> peq (check n) (check0 n) ->
    snd (w_production n n (map lp prs) (fun n => w_pure (check n)) (c_tag c) tt l) = production_loop n n prs0 check0 (c_tag c) l).
  { intros prs0 check0 F0 C0. apply (exact_value anywhere). apply (esim_production unit anywhere nothing n); [|apply peq_esim; auto|exact I].
    clear -F0. induction F0 as [|p p' prs prs' [R E] _ IH]; simpl; constructor; auto. split; auto. cbn. unfold rules_esim.
    clear -R. induction R; simpl; constructor; auto using peq_esim. }
  rewrite <- (X prs' check' F C). symmetry. apply X; [|intros x; reflexivity].
  clear. induction prs as [|p prs IH]; constructor; auto. split; auto. induction (pr_rules p); constructor; auto. intros c. reflexivity.
Qed.

(** ** Grammars whose production rules use no Indirect *)
Lemma ands {A} (P : A -> Prop) l : fold_right and True (map P l) -> Forall P l.
Proof. induction l; simpl; intros; constructor; tauto. Qed.
Section Closed.
Lemma e_trans_ext n ts ps es : Forall2 (fun p e => peq p (run no_indirect n e)) ps es -> Forall2 (teq n) (t_trans ts ps) (e_trans ts es).
Proof.
  apply (arrange_rel _ _ _ _ (fun p e => peq p (run no_indirect n e))).
  - intros c. reflexivity.
  - intros t c l. reflexivity.
  - intros ls ls' p e H C. apply production_ext; auto.
    clear -H. induction H as [|[l r] [l' r'] ls ls' [P E] _ IH]; simpl; constructor; auto. cbn in P, E. split; auto. cbn.
    clear -P. induction P; simpl; constructor; auto.
Qed.
Lemma closed_denote e : closed e -> forall rho rho' n, peq (t_denote rho n e) (denote rho' n (erase e)).
Proof.
  induction e as [cls fn|cls fn props es rs tr H1 H2|neg mn mx es H|k|scope pt es H] using texp_ind'; intros C rho rho' n; cbn [t_denote erase denote].
  - intros c. reflexivity.
  - destruct C as [C1 C2]. apply ands in C1, C2. apply base_ext.
    + rewrite map_map. clear -H1 C1. induction H1; inversion C1; subst; simpl; constructor; auto.
    + destruct tr as [ts|]; [|exact I]. cbn [option_map]. apply e_trans_ext. clear -H2 C2. induction H2; inversion C2; subst; simpl; constructor; auto.
      intros c. apply H; auto.
  - intros c. unfold look_behind_base. apply behind_ext. apply base_ext; [|exact I]. apply ands in C. rewrite map_map. clear -H C. induction H; inversion C; subst; simpl; constructor; auto.
  - destruct C.
  - apply base_ext; [|exact I]. apply ands in C. rewrite map_map. clear -H C. induction H; inversion C; subst; simpl; constructor; auto.
Qed.
Lemma closed_rules_denote e : closed_rules e -> forall rho rho' n, (forall k, peq (rho k) (rho' k)) -> peq (t_denote rho n e) (denote rho' n (erase e)).
Proof.
  intros C rho rho' n R. revert C.
  induction e as [cls fn|cls fn props es rs tr H1 H2|neg mn mx es H|k|scope pt es H] using texp_ind'; intros C; cbn [t_denote erase denote].
  - intros c. reflexivity.
  - destruct C as [C1 C2]. apply ands in C1, C2. apply base_ext.
    + rewrite map_map. clear -H1 C1. induction H1; inversion C1; subst; simpl; constructor; auto.
    + destruct tr as [ts|]; [|exact I]. cbn [option_map]. apply e_trans_ext. clear -C2. induction C2; simpl; constructor; auto.
      apply closed_denote; auto.
  - intros c. unfold look_behind_base. apply behind_ext. apply base_ext; [|exact I]. apply ands in C. rewrite map_map. clear -H C. induction H; inversion C; subst; simpl; constructor; auto.
  - apply light_ext. apply R.
  - apply base_ext; [|exact I]. apply ands in C. rewrite map_map. clear -H C. induction H; inversion C; subst; simpl; constructor; auto.
Qed.
Lemma closed_run env e : (forall k, closed_rules (env k)) -> closed_rules e -> forall n c, t_run env n e c = run (fun k => erase (env k)) n (erase e) c.
Proof.
  intros H C n c. apply closed_rules_denote; auto. clear e C c. induction n as [|n IH]; intros k c; cbn [t_run_env run_env]; auto. apply closed_rules_denote; auto.
Qed.
End Closed.

(** ** Nesting *)
Section Nested.
Variable lost : bool.
Variable pts : nat -> tracer.
Variable env : nat -> texp.
Notation nested := (nested lost pts).
Notation crashed := (crashed lost pts).
Lemma nested_app a b : nested a -> nested b -> nested (a ++ b).
Proof. induction 1; intros; simpl; auto; rewrite <- app_assoc; [apply ns_pair|apply ns_lost]; auto. Qed.
Lemma crashed_app w a b : nested a -> crashed w b -> crashed w (a ++ b).
Proof.
  intros A B. inversion B; subst.
  - apply cr_here. apply nested_app; auto.
  - rewrite app_assoc. apply cr_in; auto. apply nested_app; auto.
  - rewrite app_assoc. apply cr_after; auto. apply nested_app; auto.
Qed.
Definition events (x : ending) (g g' : gs) : Prop := exists es, g_log g' = g_log g ++ es /\
  match x with Returns => nested es | Panics w => crashed w es | Starves => True end.
Definition neat : sparser -> Prop := moves gs events.
Lemma events_any x g : events x g g.
Proof. exists []. rewrite app_nil_r. split; auto. destruct x; auto; [constructor|apply cr_here; constructor]. Qed.
Lemma events_trans y g g1 g2 : events Returns g g1 -> events y g1 g2 -> events y g g2.
Proof.
  intros (e1 & L1 & H1) (e2 & L2 & H2). exists (e1 ++ e2). split; [rewrite L2, L1, app_assoc; auto|].
  destruct y; auto; [apply nested_app; auto|apply crashed_app; auto].
Qed.
Lemma events_log x g g1 g2 : g_log g1 = g_log g -> events x g1 g2 -> events x g g2.
Proof. intros E (es & L & H). exists es. split; auto. congruence. Qed.
(** What recovering adds to the events [es] since the Before. *)
Lemma recovered_events k g c g1 c1 w es : g_log g1 = g_log g ++ EvBefore k c :: es ->
  ((crashed w es /\ fst (tr_before (pts (m_tr k)) k c) = c1) \/ exists es' o err, nested es' /\ es = es' ++ [EvAfter k o err] /\ tr_after (pts (m_tr k)) k o err = (c1, Some w)) ->
  events (ending_of (snd (recovered lost pts k g1 c1 w))) g (fst (recovered lost pts k g1 c1 w)).
Proof.
  intros L H. unfold recovered. destruct (lost && String.eqb w panic_nil) eqn:B; cbn [fst snd ending_of].
  - apply andb_prop in B as [B1 B2]. apply String.eqb_eq in B2. subst w. exists (EvBefore k c :: es). split; auto.
    destruct H as [[H Ec]|(es' & o & err & H & -> & Ea)].
    + rewrite <- (app_nil_r es). apply ns_lost; auto. constructor.
    + apply ns_pair; auto. constructor.
  - exists (EvBefore k c :: es ++ [EvPanic k c1 w]). split; [simpl; rewrite L, <- app_assoc; reflexivity|].
    destruct H as [[H Ec]|(es' & o & err & H & -> & Ea)].
    + apply (cr_in lost pts w []); auto. constructor.
    + rewrite <- app_assoc. apply (cr_after lost pts w []); auto. constructor.
Qed.
Lemma neat_traced m p : neat p -> neat (traced lost pts m p).
Proof.
  intros H. destruct m as [k|]; [|exact H]. intros g c. unfold traced. destruct (tr_before (pts (m_tr k)) k c) as [c0 [w|]] eqn:Eb.
  { apply (recovered_events k g c) with (es := []); [reflexivity|]. left. split; [apply cr_here; constructor|]. rewrite Eb. reflexivity. }
  specialize (H (g_emit g (EvBefore k c)) c0).
  destruct (p _ _) as [g1 [[o err]|w|]]; destruct H as (es & L & N); cbn [fst snd ending_of] in *.
  - assert (L2 : g_log (g_emit g1 (EvAfter k o err)) = g_log g ++ EvBefore k c :: es ++ [EvAfter k o err]).
    { simpl in *. rewrite L, <- !app_assoc. reflexivity. }
    cbv zeta. destruct (tr_after (pts (m_tr k)) k o err) as [o' [w|]] eqn:Ea.
    + eapply recovered_events; [exact L2|]. right. eauto 7.
    + exists (EvBefore k c :: es ++ [EvAfter k o err]). split; [exact L2|]. constructor; auto. constructor.
  - eapply recovered_events; [|left; split; [exact N|rewrite Eb; reflexivity]]. simpl in *. rewrite L, <- app_assoc. reflexivity.
  - exists (EvBefore k c :: es). split; [|exact I]. simpl in *. rewrite L, <- app_assoc. reflexivity.
Qed.
Lemma moves_trans {R : ending -> gs -> gs -> Prop} n ts ps : (forall k w, R k w w) -> (forall k a b c, R Returns a b -> R k b c -> R k a c) ->
  Forall (moves gs R) ps -> Forall (tmoves_at gs R n) (s_trans ts ps).
Proof.
  intros R1 R2. apply arrange_all.
  - intros g c. apply R1.
  - intros t c g l. apply R1.
  - intros ls p H C. apply moves_production; auto. clear -H. induction H as [|l ls P _ IH]; simpl; constructor; auto. cbn. clear -P. induction P; simpl; constructor; auto.
Qed.
Lemma neat_base cls fn props ps tr n : Forall neat ps -> (forall ts, tr = Some ts -> Forall (tmoves_at gs events n) ts) -> neat (w_base cls fn props ps tr n).
Proof. intros. apply moves_base; auto using events_any. exact events_trans. Qed.
Lemma neat_denote rho n : (forall b, neat (rho b)) -> forall b, neat (sdenote lost pts env rho n b).
Proof.
  intros R. assert (L : forall bs, Forall (fun b => neat (sdenote lost pts env rho n b)) bs -> Forall neat (map (sdenote lost pts env rho n) bs)).
  { induction 1; simpl; constructor; auto. }
  induction b as [m cls fn|m cls fn props bs rs tr F1 F2|m neg mn mx bs F|m i k] using bexp_ind'; cbn [sdenote].
  - apply neat_traced. intros g c. simpl. apply events_any.
  - apply neat_traced, neat_base; auto. intros ts E. destruct tr as [ts'|]; [|discriminate]. injection E as <-. apply moves_trans; auto using events_any. exact events_trans.
  - intros g c. apply (moves_behind gs events events_any events_trans). apply neat_traced, neat_base; auto. discriminate.
  - apply neat_traced, moves_light. intros g c. destruct (g_cell g i) as [b|]; [apply R|]. destruct (build (env k) g) as [b g1] eqn:E.
    eapply events_log; [|apply R]. simpl. destruct (build_ok _ _ _ _ E) as ((_ & _ & _ & _ & X & _) & _). auto.
Qed.
Lemma neat_env n b : neat (srun_env lost pts env n b).
Proof. revert b. induction n as [|n IH]; intros b g c; cbn [srun_env]; [apply events_any|apply neat_denote; auto]. Qed.
Lemma neat_run n b : neat (srun lost pts env n b).
Proof. apply neat_denote. apply neat_env. Qed.
End Nested.

(** ** The events of one traced parser *)
Section Report.
Variable lost : bool.
Variable pts : nat -> tracer.
Variable env : nat -> texp.
Hypothesis obs : forall i, observer (pts i).
Notation nested := (nested lost pts).
Notation neat := (neat lost pts).
Notation events := (events lost pts).
Lemma traced_report k p g c g' o err : (lost = true -> o <> zero_ctx) -> neat p -> traced lost pts (Some k) p g c = (g', Ok (o, err)) ->
  exists es, g_log g' = g_log g ++ EvBefore k c :: es ++ [EvAfter k o err] /\ nested es.
Proof.
  intros Z N E. unfold traced in E. destruct (obs (m_tr k)) as (O1 & O2 & O3). rewrite O1 in E. specialize (N (g_emit g (EvBefore k c)) c).
  destruct (p (g_emit g (EvBefore k c)) c) as [g1 [[o1 err1]|w|]]; try discriminate.
  - cbv zeta in E. rewrite O2 in E. inversion E; subst. destruct N as (es & L & N).
    exists es. split; auto. simpl in *. rewrite L, <- !app_assoc. auto.
  - unfold recovered in E. destruct lost; cbn [andb] in E; [|discriminate]. destruct (String.eqb w panic_nil); [|discriminate]. inversion E; subst. destruct (Z eq_refl eq_refl).
Qed.
Lemma report n b k g c g' o err : (lost = true -> o <> zero_ctx) -> top_mark b = Some k -> srun lost pts env n b g c = (g', Ok (o, err)) ->
  exists es, g_log g' = g_log g ++ EvBefore k c :: es ++ [EvAfter k o err] /\ nested es.
Proof.
  assert (L : forall bs, Forall neat (map (sdenote lost pts env (srun_env lost pts env n) n) bs)).
  { induction bs; simpl; constructor; auto. apply neat_denote. apply neat_env. }
  intros Z T E. unfold srun in E. destruct b; simpl in T; try discriminate; subst m; cbn [sdenote] in E; (eapply traced_report; [exact Z| |exact E]).
  - intros g0 c0. simpl. apply events_any.
  - apply neat_base; auto. intros ts X. destruct tr as [ts'|]; [|discriminate]. injection X as <-. apply moves_trans; auto using events_any. exact (events_trans lost pts).
  - apply moves_light. intros g0 c0.
    destruct (g_cell g0 cell) as [b|]; [apply neat_env|]. destruct (build (env k0) g0) as [b g1] eqn:Eb.
    eapply events_log; [|apply neat_env]. simpl. destruct (build_ok _ _ _ _ Eb) as ((_ & _ & _ & _ & X & _) & _). auto.
Qed.
End Report.

(** ** Tracers that panic *)
Section Panicking.
Variable lost : bool.
Variable pts : nat -> tracer.
Variable env : nat -> texp.
Lemma top_traced n b k : top_mark b = Some k -> exists p, forall g c, srun lost pts env n b g c = traced lost pts (Some k) p g c.
Proof. unfold srun. destruct b; cbn [top_mark sdenote]; intros E; try discriminate; subst m; eexists; reflexivity. Qed.
Lemma recovered_panic k g c w : (lost = true -> w <> panic_nil) -> recovered lost pts k g c w = (g_emit g (EvPanic k c w), Panic (next_panic pts k c w)).
Proof.
  intros H. unfold recovered. destruct (lost && String.eqb w panic_nil) eqn:B; auto. apply andb_prop in B as [B1 B2]. apply String.eqb_eq in B2. destruct (H B1 B2).
Qed.
Lemma before_panics n b k g c c0 w : top_mark b = Some k -> tr_before (pts (m_tr k)) k c = (c0, Some w) -> (lost = true -> w <> panic_nil) ->
  snd (srun lost pts env n b g c) = Panic (next_panic pts k c0 w) /\ g_log (fst (srun lost pts env n b g c)) = g_log g ++ [EvBefore k c; EvPanic k c0 w].
Proof.
  intros T E H. destruct (top_traced n b k T) as [p P]. rewrite P. unfold traced. rewrite E, recovered_panic; auto. simpl. rewrite <- app_assoc. auto.
Qed.
Lemma after_panics n b k g c w : top_mark b = Some k ->
  (forall m c, tr_before (pts (m_tr k)) m c = (c, None)) -> (forall m c err, tr_after (pts (m_tr k)) m c err = (c, Some w)) -> (lost = true -> w <> panic_nil) ->
  match snd (srun lost pts env n b g c) with Ok (o, e) => lost = true /\ o = zero_ctx /\ e = None | _ => True end.
Proof.
  intros T E1 E2 H. destruct (top_traced n b k T) as [p P]. rewrite P. unfold traced. rewrite E1. destruct (p _ _) as [g1 [[o e]|x|]]; cbn [snd]; auto.
  - cbv zeta. rewrite E2, recovered_panic; cbn; auto.
  - unfold recovered. destruct lost; cbn [andb]; [|exact I]. destruct (String.eqb x panic_nil); cbn; auto.
Qed.
End Panicking.

(** ** No DebugTrace, no events *)
Section Quiet.
Variable lost : bool.
Variable pts : nat -> tracer.
Variable env : nat -> texp.
Hypothesis env_untraced : forall k, untraced (env k).
Definition quiet (g : gs) : Prop := g_on g = false /\ forall i b, g_cell g i = Some b -> marks b = [].
Definition silent (_ : ending) (g g' : gs) : Prop := quiet g -> quiet g' /\ g_log g' = g_log g.
Definition calm : sparser -> Prop := moves gs silent.
Lemma silent_any k g : silent k g g. Proof. intros Q. auto. Qed.
Lemma silent_trans k g g1 g2 : silent Returns g g1 -> silent k g1 g2 -> silent k g g2.
Proof. intros A B Q. destruct (A Q) as [Q1 L1]. destruct (B Q1) as [Q2 L2]. split; auto. congruence. Qed.
Lemma calm_denote rho n : (forall b, marks b = [] -> calm (rho b)) -> forall b, marks b = [] -> calm (sdenote lost pts env rho n b).
Proof.
  intros R. assert (L : forall bs, Forall (fun b => marks b = [] -> calm (sdenote lost pts env rho n b)) bs -> flat_map marks bs = [] -> Forall calm (map (sdenote lost pts env rho n) bs)).
  { induction 1 as [|b bs H F IH]; simpl; intros E; constructor; apply app_eq_nil in E; destruct E; auto. }
  induction b as [m cls fn|m cls fn props bs rs tr F1 F2|m neg mn mx bs F|m i k] using bexp_ind'; cbn [sdenote marks]; intros M.
  - destruct m; [discriminate|]. intros g c Q. simpl. auto.
  - apply app_eq_nil in M. destruct M as [M1 M]. apply app_eq_nil in M. destruct M as [M2 M3]. destruct m; [discriminate|].
    apply (moves_base gs silent silent_any silent_trans); [apply L; auto|]. intros ts E. destruct tr as [ts'|]; [|discriminate]. injection E as <-.
    apply (moves_trans n ts' _ silent_any silent_trans). apply L; auto.
  - apply app_eq_nil in M. destruct M as [M1 M2]. destruct m; [discriminate|]. intros g c. apply (moves_behind gs silent silent_any silent_trans).
    apply (moves_base gs silent silent_any silent_trans); [apply L; auto|discriminate].
  - destruct m; [discriminate|]. apply moves_light. intros g c Q. destruct Q as [Q1 Q2]. destruct (g_cell g i) as [b|] eqn:E; [apply R; [eauto|split; auto]|].
    destruct (build (env k) g) as [b g1] eqn:Eb. destruct (build_ok _ _ _ _ Eb) as ((A1 & A2 & A3 & A4 & A5 & A6 & A7) & _).
    destruct (build_marks _ _ _ _ Eb) as (_ & _ & Mk). specialize (Mk Q1 (env_untraced k)). rewrite <- A5.
    apply (R b Mk (g_store g1 i b) c). split; simpl; [congruence|]. intros j b'. destruct (Nat.eqb j i); [congruence|]. rewrite A4. apply Q2.
Qed.
Lemma calm_run n b : marks b = [] -> calm (srun lost pts env n b).
Proof.
  apply calm_denote. clear b. induction n as [|n IH]; intros b M g c; cbn [srun_env]; [apply silent_any|apply calm_denote; auto].
Qed.
End Quiet.

(** ** Failures keep what was logged; the arguments of ProductionRule go where they belong *)
Section Calls.
Variable lost : bool.
Variable pts : nat -> tracer.
Variable env : nat -> texp.
Variable n : nat.
Notation call := (srun lost pts env n).
Lemma chain_children bs g c g1 c1 b g2 c2 rest sv num : chain call bs g c g1 c1 -> call b g1 c1 = (g2, Ok (c2, None)) -> c_st c2 = Unmatched ->
  w_children false sv (map call (bs ++ b :: rest)) g c num = (g2, CBreak sv).
Proof.
  intros H. revert num. induction H as [g c|b0 bs g c g1 c1 g2' c2' E S H IH]; intros num E1 S1; cbn [app map w_children].
  - rewrite E1. cbn [fix_status]. cbv zeta. rewrite S1. reflexivity.
  - rewrite E. cbn [fix_status]. cbv zeta. rewrite S. apply IH; auto.
Qed.
Lemma base_call m cls props bs g c : srun lost pts env m (BBase None cls None props bs [] None) g c = w_base cls None props (map (srun lost pts env m) bs) None m g c.
Proof. reflexivity. Qed.
Lemma failed_sequence cls bs b rest g c g1 c1 g2 c2 : (0 < n)%nat -> chain call bs g (set_st (set_cls c cls) Matched) g1 c1 ->
  call b g1 c1 = (g2, Ok (c2, None)) -> c_st c2 = Unmatched ->
  exists o, call (BBase None cls None [] (bs ++ b :: rest) [] None) g c = (g2, Ok (o, None)) /\ c_st o = Unmatched.
Proof.
  intros L H E S. pose proof (chain_children bs g _ g1 c1 b g2 c2 rest (set_st (set_cls c cls) Matched) 0%nat H E S) as K.
  destruct n as [|m]; [lia|]. rewrite base_call. unfold w_base. cbv zeta. cbn [w_parent option_map].
  change (more (f_qty (flags_of [])) 0) with true. cbv iota. change (f_ex (flags_of [])) with false. rewrite K. cbn. eauto.
Qed.
Lemma misses_children bs g c g1 b g2 c2 rest sv num : misses call bs g c g1 -> call b g1 c = (g2, Ok (c2, None)) -> c_st c2 = Matched ->
  w_children true sv (map call (bs ++ b :: rest)) g c num = (g2, CEnd c2 (S num)).
Proof.
  intros H. induction H as [g c|b0 bs g c g1 c1 g2' E S H IH]; intros E1 S1; cbn [app map w_children].
  - rewrite E1. cbn [fix_status]. cbv zeta. rewrite S1. reflexivity.
  - rewrite E. cbn [fix_status]. cbv zeta. rewrite S. apply IH; auto.
Qed.
Lemma missed_choice cls bs b rest g c g1 g2 c2 : (0 < n)%nat -> misses call bs g (set_st (set_cls c cls) Matched) g1 ->
  call b g1 (set_st (set_cls c cls) Matched) = (g2, Ok (c2, None)) -> c_st c2 = Matched ->
  exists o, call (BBase None cls None [PThereExists] (bs ++ b :: rest) [] None) g c = (g2, Ok (o, None)) /\ c_st o = Matched.
Proof.
  intros L H E S. pose proof (misses_children bs g _ g1 b g2 c2 rest (set_st (set_cls c cls) Matched) 0%nat H E S) as K.
  destruct n as [|m]; [lia|]. rewrite base_call. unfold w_base. cbv zeta. cbn [w_parent option_map].
  change (more (f_qty (flags_of [PThereExists])) 0) with true. cbv iota. change (f_ex (flags_of [PThereExists])) with true. rewrite K.
  rewrite andb_false_r. cbn [call_fn]. assert (Q : forall o k, c_st (set_qty o k) = c_st o) by (intros []; reflexivity). rewrite Q, S. cbv iota.
  destruct m; cbn [w_parent]; change (more (f_qty (flags_of [PThereExists])) 1) with false; cbv iota; unfold after_loop; cbn [flags_of];
    change (f_neg (flags_of [PThereExists])) with false; cbn; rewrite !S; cbn; rewrite ?S; eauto.
Qed.
End Calls.
(** The arguments of the transformers, flattened and put back. *)
Lemma take_back {A} (ls : list (list A * bool)) rest :
  take_levels (map (fun l => (length (fst l), snd l)) ls) (flat_map fst ls ++ rest) = (ls, rest).
Proof.
  induction ls as [|[l r] ls IH]; cbn [map flat_map take_levels fst snd app]; auto. rewrite <- app_assoc, skipn_app, firstn_app, skipn_all, firstn_all, Nat.sub_diag.
  cbn [skipn firstn app]. rewrite IH, app_nil_r. reflexivity.
Qed.
Lemma arrange_back {A T} (pure : trans -> T) prod (d : A) ws :
  arrange pure prod d (map shape_of ws) (flat_map args_of ws) = map (fun w => match w with AsPure t => pure t | AsRule ls c => prod ls c end) ws.
Proof.
  induction ws as [|w ws IH]; cbn [map flat_map arrange]; auto. destruct w as [t|ls c]; cbn [shape_of args_of app]; [rewrite IH; reflexivity|].
  rewrite <- app_assoc, take_back. cbn [app hd tl]. rewrite IH. reflexivity.
Qed.
