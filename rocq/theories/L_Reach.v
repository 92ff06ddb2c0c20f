(** Lemmas for C79: the engine on two texts. *)
From Verif Require Export S_Reach L_BlurUse L_Leaf.

Lemma stsame_length u l m : stsame u l m -> length l = length m.
Proof. intros [H _]. apply lsame_length, H. Qed.
Lemma stsame_app u l l' m m' : stsame u l m -> stsame u l' m' -> stsame u (l ++ l') (m ++ m').
Proof. intros [A A'] [B B']. split; [apply lsame_app; auto|]. intros E. rewrite A', B'; auto. Qed.
Lemma stsame_skipn u k l m : stsame u l m -> stsame u (skipn k l) (skipn k m).
Proof. intros [A A']. split; [apply lsame_skipn; auto|]. intros E. rewrite A'; auto. Qed.
Lemma stsame_firstn u k l m : stsame u l m -> stsame u (firstn k l) (firstn k m).
Proof. intros [A A']. split; [apply lsame_firstn; auto|]. intros E. rewrite A'; auto. Qed.
Definition trsame (u : bytes) (x y : res (gerr + list ast)) : Prop :=
  match x, y with
  | Ok (inl e), Ok (inl f) => e = f
  | Ok (inr l), Ok (inr m) => stsame u l m
  | Panic p, Panic q => p = q
  | Fuel, Fuel => True
  | _, _ => False
  end.

Section Sim.
Variables (K m : nat) (u : bytes).
Notation view := (view m u).
Notation vout := (vout m u).
Ltac vsolve := intros; unfold S_Reach.view in *; repeat match goal with c : ctx |- _ => destruct c end; unfold c_pos, c_len in *; cbn in *; intuition (subst; auto; try congruence).
Lemma view_cls c d x : view c d -> view (set_cls c x) (set_cls d x). Proof. vsolve. Qed.
Lemma view_st c d x : view c d -> view (set_st c x) (set_st d x). Proof. vsolve. Qed.
Lemma view_qty c d x : view c d -> view (set_qty c x) (set_qty d x). Proof. vsolve. Qed.
Lemma view_len c d x : view c d -> view (set_len c x) (set_len d x). Proof. vsolve. Qed.
Lemma view_stack c d l l' : view c d -> stsame u l l' -> view (set_stack c l) (set_stack d l'). Proof. vsolve. Qed.
Lemma view_at c d x y z : view c d -> y = (length u + x)%nat -> view (set_sp c (mkSP x z)) (set_sp d (mkSP y z)). Proof. vsolve. Qed.
Lemma view_fix c d e : view c d -> view (fix_status c e) (fix_status d e). Proof. destruct e; cbn; auto using view_st. Qed.
Lemma view_pos c d : view c d -> c_pos d = (length u + c_pos c)%nat. Proof. vsolve. Qed.
Lemma view_st_eq c d : view c d -> c_st c = c_st d. Proof. vsolve. Qed.
Lemma view_stack_eq c d : view c d -> stsame u (c_stack c) (c_stack d). Proof. vsolve. Qed.
Lemma view_stack_len c d : view c d -> length (c_stack c) = length (c_stack d). Proof. intros H. apply (stsame_length u), view_stack_eq, H. Qed.
Lemma view_neutral c d : view c d -> neutral c = neutral d. Proof. unfold neutral. intros (_ & -> & -> & _ & _ & _ & _ & _ & _ & ->). reflexivity. Qed.
Hint Resolve view_cls view_st view_qty view_len view_stack view_fix view_stack_eq stsame_app stsame_skipn stsame_firstn : view.

Lemma view_light cls x y : vout x y -> forall f g c d, f c = x -> g d = y -> vout (light_base_parser cls f c) (light_base_parser cls g d).
Proof.
  intros H f g c d E F. unfold light_base_parser. rewrite E, F. destruct x as [[o e]|p|], y as [[o' e']|q|]; cbn in *; auto; try contradiction.
  destruct H as [H ->]. split; auto. pose proof (view_fix _ _ e' H) as L. rewrite (view_st_eq _ _ L). destruct (c_st (fix_status o' e')); auto with view.
Qed.
Lemma view_call fn num bottom c d : near_opt u fn -> view c d -> vout (call_fn fn num bottom c) (call_fn fn num bottom d).
Proof.
  intros H V. destruct fn as [f|]; cbn; [|auto]. specialize (H m num bottom c d V).
  destruct (f num bottom c) as [[o e]|p|], (f num bottom d) as [[o' e']|q|]; cbn in *; auto. destruct H as [H ->]. auto with view.
Qed.
Lemma view_after f c d k : view c d -> view (after_loop f c k) (after_loop f d k).
Proof.
  intros H. unfold after_loop. set (b := _ && _). assert (V : view (if b then set_st c Unmatched else c) (if b then set_st d Unmatched else d)) by (destruct b; auto with view).
  destruct (f_neg f); auto. rewrite (view_st_eq _ _ V). destruct (c_st _); auto with view.
Qed.
(** [f] marks how far it looks; with the same text that far, [g] answers alike. *)
Definition rsim (f : wfn nat) (g : ctx -> out) : Prop := forall k c, (k <= fst (f k c))%nat /\ forall d, (fst (f k c) + K <= m)%nat -> view c d -> vout (snd (f k c)) (g d).
Definition crview (x y : cres) : Prop :=
  match x, y with
  | CReturn r, CReturn s => vout r s
  | CBreak c, CBreak d => view c d
  | CEnd c k, CEnd d j => view c d /\ k = j
  | _, _ => False
  end.
Definition prview (x y : pres) : Prop :=
  match x, y with PReturn r, PReturn s => vout r s | PDone c k, PDone d j => view c d /\ k = j | _, _ => False end.
Lemma rsim_light cls f g : rsim f g -> rsim (w_light cls f) (light_base_parser cls g).
Proof.
  intros H k c. destruct (H k c) as [A B]. unfold w_light. destruct (f k c) as [k1 r] eqn:E. cbn [fst snd] in *.
  split; [destruct r as [[o e]|x|]; exact A|]. intros d L V.
  assert (L' : (k1 + K <= m)%nat) by (destruct r as [[o e]|x|]; exact L). specialize (B d L' V).
  pose proof (view_light cls _ _ B (fun _ => r) g c d eq_refl eq_refl) as X. unfold light_base_parser at 1 in X.
  destruct r as [[o e]|x|]; cbn [fst snd] in *; auto.
Qed.
Lemma rsim_children ex ps qs : Forall2 rsim ps qs -> forall sv k o num,
  (k <= fst (w_children ex sv ps k o num))%nat /\ forall sv' o', (fst (w_children ex sv ps k o num) + K <= m)%nat -> view sv sv' -> view o o' ->
  crview (snd (w_children ex sv ps k o num)) (children_loop ex sv' qs o' num).
Proof.
  induction 1 as [|p q ps qs H F IH]; intros sv k o num; cbn [w_children children_loop]; [cbn; auto|].
  destruct (H k o) as [A B]. destruct (p k o) as [k1 r]. cbn [fst snd] in *.
  destruct r as [[o1 e]|x|].
  - cbv zeta. assert (X : forall o2 num2, let q := w_children ex sv ps k1 o2 num2 in (k <= fst q)%nat /\ forall sv' o', (fst q + K <= m)%nat -> view sv sv' -> view o2 o' ->
      crview (snd q) (children_loop ex sv' qs o' num2) /\ (k1 + K <= m)%nat).
    { intros o2 num2 q0. destruct (IH sv k1 o2 num2) as [C D]. unfold q0. split; [lia|]. intros. split; [apply D; auto|lia]. }
    destruct (c_st (fix_status o1 e)) eqn:St; [destruct ex|destruct ex|].
    + cbn [fst snd]. split; auto. intros sv' o' L V1 V2. specialize (B o' L V2). destruct (q o') as [[o1' e']|y|]; cbn in B; try contradiction. destruct B as [B ->].
      pose proof (view_fix _ _ e' B) as W. rewrite <- (view_st_eq _ _ W), St. cbn. auto.
    + destruct (X (fix_status o1 e) (Datatypes.S num)) as [C D]. split; auto. intros sv' o' L V1 V2.
      assert (L1 : (k1 + K <= m)%nat). { destruct (IH sv k1 (fix_status o1 e) (Datatypes.S num)) as [C' _]. lia. }
      specialize (B o' L1 V2). destruct (q o') as [[o1' e']|y|]; cbn in B; try contradiction. destruct B as [B ->].
      pose proof (view_fix _ _ e' B) as W. rewrite <- (view_st_eq _ _ W), St. apply D; auto.
    + destruct (X o num) as [C D]. split; auto. intros sv' o' L V1 V2.
      assert (L1 : (k1 + K <= m)%nat). { destruct (IH sv k1 o num) as [C' _]. lia. }
      specialize (B o' L1 V2). destruct (q o') as [[o1' e']|y|]; cbn in B; try contradiction. destruct B as [B ->].
      pose proof (view_fix _ _ e' B) as W. rewrite <- (view_st_eq _ _ W), St. apply D; auto.
    + cbn [fst snd]. split; auto. intros sv' o' L V1 V2. specialize (B o' L V2). destruct (q o') as [[o1' e']|y|]; cbn in B; try contradiction. destruct B as [B ->].
      pose proof (view_fix _ _ e' B) as W. rewrite <- (view_st_eq _ _ W), St. cbn. auto.
    + cbn [fst snd]. split; auto. intros sv' o' L V1 V2. specialize (B o' L V2). destruct (q o') as [[o1' e']|y|]; cbn in B; try contradiction. destruct B as [B ->].
      pose proof (view_fix _ _ e' B) as W. rewrite <- (view_st_eq _ _ W), St. cbn. auto.
  - cbn [fst snd]. split; auto. intros sv' o' L V1 V2. specialize (B o' L V2). destruct (q o') as [[o1' e']|y|]; cbn in B; try contradiction. cbn. auto.
  - cbn [fst snd]. split; auto. intros sv' o' L V1 V2. specialize (B o' L V2). destruct (q o') as [[o1' e']|y|]; cbn in B; try contradiction. cbn. auto.
Qed.
Lemma rsim_parent q ex fn bottom ps qs : near_opt u fn -> Forall2 rsim ps qs -> forall fuel k o count,
  (k <= fst (w_parent fuel q ex fn bottom ps k o count))%nat /\ forall o', (fst (w_parent fuel q ex fn bottom ps k o count) + K <= m)%nat -> view o o' ->
  prview (snd (w_parent fuel q ex fn bottom ps k o count)) (parent_loop fuel q ex fn bottom qs o' count).
Proof.
  intros G F. assert (Ln : length ps = length qs) by (clear -F; induction F; simpl; congruence).
  induction fuel as [|fuel IH]; intros k o count; cbn [w_parent parent_loop]; destruct (more q count); try (cbn; auto; fail).
  destruct (rsim_children ex ps qs F o k o 0%nat) as [A B]. destruct (w_children ex o ps k o 0) as [k1 r]. cbn [fst snd] in A, B.
  destruct r as [r|c|o1 num].
  1, 2: cbn [fst snd]; split; auto; intros o' L V; specialize (B o' o' L V V); destruct (children_loop ex o' qs o' 0) as [r'|c'|o1' num']; cbn in B; try contradiction; cbn; auto.
  assert (X : forall o', (k1 + K <= m)%nat -> view o o' -> exists o1', children_loop ex o' qs o' 0 = CEnd o1' num /\ view o1 o1').
  { intros o' L V. specialize (B o' o' L V V). destruct (children_loop ex o' qs o' 0) as [r'|c'|o1' num']; cbn in B; try contradiction. destruct B as [B ->]. eauto. }
  clear B. rewrite Ln. destruct (ex && (0 <? length qs)%nat && (num =? 0)%nat) eqn:EX.
  { cbn [fst snd]. split; auto. intros o' L V. destruct (X o' L V) as (o1' & -> & V1). rewrite EX. cbn. auto. }
  assert (Y : forall o', (k1 + K <= m)%nat -> view o o' -> exists o1', children_loop ex o' qs o' 0 = CEnd o1' num /\
    vout (call_fn fn (Z.of_nat num) bottom (set_qty o1 count)) (call_fn fn (Z.of_nat num) bottom (set_qty o1' count))).
  { intros o' L V. destruct (X o' L V) as (o1' & E & V1). exists o1'. split; auto. apply view_call; auto with view. }
  clear X. destruct (call_fn fn (Z.of_nat num) bottom (set_qty o1 count)) as [[o2 e]|x|] eqn:C.
  - destruct (c_st o2) eqn:St.
    + destruct (IH k1 o2 (Datatypes.S count)) as [D E]. split; [lia|]. intros o' L V. destruct (Y o') as (o1' & -> & V1); auto; [lia|]. rewrite EX.
      destruct (call_fn fn (Z.of_nat num) bottom (set_qty o1' count)) as [[o2' e']|y|]; cbn in V1; try contradiction. destruct V1 as [V1 ->]. rewrite <- (view_st_eq _ _ V1), St. apply E; auto.
    + cbn [fst snd]. split; auto. intros o' L V. destruct (Y o' L V) as (o1' & -> & V1). rewrite EX.
      destruct (call_fn fn (Z.of_nat num) bottom (set_qty o1' count)) as [[o2' e']|y|]; cbn in V1; try contradiction. destruct V1 as [V1 ->]. rewrite <- (view_st_eq _ _ V1), St. cbn. auto.
    + cbn [fst snd]. split; auto. intros o' L V. destruct (Y o' L V) as (o1' & -> & V1). rewrite EX.
      destruct (call_fn fn (Z.of_nat num) bottom (set_qty o1' count)) as [[o2' e']|y|]; cbn in V1; try contradiction. destruct V1 as [V1 ->]. rewrite <- (view_st_eq _ _ V1), St. cbn. auto.
  - cbn [fst snd]. split; auto. intros o' L V. destruct (Y o' L V) as (o1' & -> & V1). rewrite EX.
    destruct (call_fn fn (Z.of_nat num) bottom (set_qty o1' count)) as [[o2' e']|y|]; cbn in V1; try contradiction. cbn. auto.
  - cbn [fst snd]. split; auto. intros o' L V. destruct (Y o' L V) as (o1' & -> & V1). rewrite EX.
    destruct (call_fn fn (Z.of_nat num) bottom (set_qty o1' count)) as [[o2' e']|y|]; cbn in V1; try contradiction. cbn. auto.
Qed.
Lemma neutral_self c d : view c d -> csame (neutral c) (neutral c).
Proof. intros (_ & E & _). unfold csame, neutral. cbn. rewrite E. cbn. repeat split. Qed.
Lemma far_same t n c d l l' : far_tr t -> view c d -> stsame u l l' -> trsame u (t n c l) (t n d l').
Proof.
  intros [B N] V [L E]. rewrite (N n c), (N n d), <- (view_neutral _ _ V). pose proof (B n (neutral c) (neutral c) l l' (neutral_self _ _ V) L) as T.
  destruct (t n (neutral c) l) as [[e|x]|x|] eqn:X, (t n (neutral c) l') as [[e'|y]|y|] eqn:Y; cbn in T |- *; auto. split; auto. intros Hu. rewrite (E Hu) in X. congruence.
Qed.
Lemma far_run n ts : Forall far_tr ts -> forall c d l l', view c d -> stsame u l l' -> trsame u (run_trans n c ts l) (run_trans n d ts l').
Proof.
  induction 1 as [|t ts H F IH]; intros c d l l' V L; cbn [run_trans]; [exact L|]. pose proof (far_same t n c d l l' H V L) as A.
  destruct (t n c l) as [[e|x]|x|], (t n d l') as [[e'|y]|y|]; cbn in A; try contradiction; cbn; auto.
Qed.
Lemma no_effects n c ts : forall k l, w_run_trans n c (map no_effect ts) k l = (k : nat, run_trans n c ts l).
Proof.
  induction ts as [|t ts IH]; intros k l; cbn [map w_run_trans run_trans]; [reflexivity|]. unfold no_effect at 1.
  destruct (t n c l) as [[e|l1]|x|]; auto.
Qed.
Lemma rsim_base cls fn props ps qs tr n : near_opt u fn -> Forall2 rsim ps qs -> far_trs tr ->
  rsim (w_base cls fn props ps (option_map (map no_effect) tr) n) (base_parser cls fn props qs tr n).
Proof.
  intros G F T k c. unfold w_base, base_parser. cbv zeta. set (f := flags_of props). set (bottom := length (c_stack (set_cls c cls))).
  destruct (rsim_parent (f_qty f) (f_ex f) fn bottom ps qs G F n k (set_st (set_cls c cls) Matched) 0%nat) as [A B].
  destruct (w_parent n _ _ _ _ _ _ _ _) as [k1 r]. cbn [fst snd] in A, B.
  set (R := match r with PReturn r => (k1, r) | _ => _ end). assert (E1 : fst R = k1).
  { unfold R. clear B. destruct r as [r|o count]; [reflexivity|]. destruct (c_st (after_loop f o count)); try reflexivity.
    destruct (call_fn _ _ _ _) as [[o2 e]|x|]; try reflexivity. destruct (c_st o2); try reflexivity. destruct tr as [ts|]; cbn [option_map]; [|reflexivity].
    destruct (_ <? _)%nat; [reflexivity|]. rewrite no_effects. destruct (run_trans _ _ _ _) as [[e1|l]|x|]; reflexivity. }
  rewrite E1. split; [exact A|]. intros d L V. pose proof (view_cls _ _ cls V) as V1.
  replace (length (c_stack (set_cls d cls))) with bottom by (apply view_stack_len; exact V1).
  specialize (B _ L (view_st _ _ Matched V1)). unfold R. clear R E1.
  destruct r as [r|o count], (parent_loop n _ _ _ _ _ _ _) as [r'|o' count']; cbn in B; try contradiction; [cbn; auto|].
  destruct B as [B ->]. pose proof (view_after f _ _ count' B) as A1. rewrite (view_st_eq _ _ A1).
  destruct (c_st (after_loop f o' count')); try (cbn; auto; fail).
  pose proof (view_call fn (-1) bottom _ _ G (view_qty _ _ count' A1)) as C.
  destruct (call_fn fn (-1) bottom (set_qty (after_loop f o count') count')) as [[o2 e]|x|], (call_fn fn (-1) bottom (set_qty (after_loop f o' count') count')) as [[o2' e']|y|];
    cbn in C; try contradiction; try (cbn; auto; fail).
  destruct C as [C ->]. rewrite (view_st_eq _ _ C). destruct (c_st o2'); try (cbn; auto; fail).
  assert (Q : view (if f_rew f then set_cls c cls else o2) (if f_rew f then set_cls d cls else o2')) by (destruct (f_rew f); auto).
  set (o3 := if f_rew f then set_cls c cls else o2) in *. set (o3' := if f_rew f then set_cls d cls else o2') in *.
  destruct tr as [ts|]; cbn [option_map]; [|cbn; auto].
  rewrite (view_stack_len _ _ Q). destruct (length (c_stack o3') <? bottom)%nat; [cbn; auto|]. rewrite no_effects.
  pose proof (far_run n ts T (set_cls c cls) (set_cls d cls) (skipn bottom (c_stack o3)) (skipn bottom (c_stack o3')) V1 (stsame_skipn _ _ _ _ (view_stack_eq _ _ Q))) as X.
  destruct (run_trans n (set_cls c cls) ts _) as [[e|l]|x|], (run_trans n _ ts _) as [[e1|l']|y|]; cbn in X; try contradiction; cbn; subst; auto with view.
  split; auto. auto 6 with view.
Qed.
Lemma rsim_behind neg p q : u = [] -> rsim p q -> forall n c i k, (k <= fst (w_behind_loop neg p k c i n))%nat /\
  forall d, (fst (w_behind_loop neg p k c i n) + K <= m)%nat -> view c d -> vout (snd (w_behind_loop neg p k c i n)) (look_behind_loop neg q d i n).
Proof.
  intros Hu H. induction n as [|n IH]; intros c i k; cbn [w_behind_loop look_behind_loop]; [cbn; auto with view|].
  cbv zeta. destruct (Z.of_nat (c_pos c) - i <? 0) eqn:N.
  { destruct (IH c (i + 1) k) as [A B]. split; auto. intros d L V. assert (E : c_pos d = c_pos c) by (rewrite (view_pos _ _ V), Hu; reflexivity). rewrite E, N. auto. }
  set (x := Z.to_nat (Z.of_nat (c_pos c) - i)). destruct (H k (set_pos c x)) as [A B]. destruct (p k _) as [k1 r]. cbn [fst snd] in A, B.
  assert (X : forall d, (k1 + K <= m)%nat -> view c d -> (Z.of_nat (c_pos d) - i <? 0) = false /\ Z.to_nat (Z.of_nat (c_pos d) - i) = x /\ vout r (q (set_pos d x))).
  { intros d L V. assert (E : c_pos d = c_pos c) by (rewrite (view_pos _ _ V), Hu; reflexivity). rewrite E. split; [exact N|]. split; [reflexivity|]. apply B; auto.
    unfold set_pos. replace (c_len d) with (c_len c) by (destruct V as (_ & _ & _ & _ & W & _); exact W). apply view_at; auto. rewrite Hu. reflexivity. }
  clear B. destruct r as [[o e]|y|].
  - destruct e as [e|].
    { cbn [fst snd]. split; auto. intros d L V. destruct (X d L V) as (-> & -> & Y). destruct (q _) as [[o' e']|z|]; cbn in Y; try contradiction. destruct Y as [Y <-]. cbn. auto. }
    destruct (c_st o) eqn:St.
    + cbn [fst snd]. split; [destruct neg; exact A|]. intros d L V. assert (L' : (k1 + K <= m)%nat) by (destruct neg; exact L). destruct (X d L' V) as (-> & -> & Y).
      destruct (q _) as [[o' e']|z|]; cbn in Y; try contradiction. destruct Y as [Y <-]. rewrite <- (view_st_eq _ _ Y), St. destruct neg; cbn; auto with view.
    + destruct (IH c (i + 1) k1) as [C D]. split; [lia|]. intros d L V. destruct (X d ltac:(lia) V) as (-> & -> & Y).
      destruct (q _) as [[o' e']|z|]; cbn in Y; try contradiction. destruct Y as [Y <-]. rewrite <- (view_st_eq _ _ Y), St. auto.
    + destruct (IH c (i + 1) k1) as [C D]. split; [lia|]. intros d L V. destruct (X d ltac:(lia) V) as (-> & -> & Y).
      destruct (q _) as [[o' e']|z|]; cbn in Y; try contradiction. destruct Y as [Y <-]. rewrite <- (view_st_eq _ _ Y), St. auto.
  - cbn [fst snd]. split; auto. intros d L V. destruct (X d L V) as (-> & -> & Y). destruct (q _) as [[o' e']|z|]; cbn in Y; try contradiction. cbn. auto.
  - cbn [fst snd]. split; auto. intros d L V. destruct (X d L V) as (-> & -> & Y). destruct (q _) as [[o' e']|z|]; cbn in Y; try contradiction. cbn. auto.
Qed.
Lemma rsim_leaf cls fn n : near K u fn -> rsim (mark (light_base_parser cls (fn n))) (light_base_parser cls (fn n)).
Proof.
  intros H k c. unfold mark. cbn [fst snd]. split; [lia|]. intros d L V. eapply view_light; [apply (H m n c d)| |]; auto. lia.
Qed.
Lemma group_far : far_tr GroupingTransform.
Proof. split; [apply tr_blind; constructor|reflexivity]. Qed.
Lemma each_Forall {A} (P : A -> Prop) l : each P l <-> Forall P l.
Proof. unfold each. induction l; cbn; split; intros H; auto; [destruct H; constructor; tauto|inversion H; subst; tauto]. Qed.
Lemma rdenote_sim e : near_exp K u e -> forall rho rho' n, (forall j, rsim (rho j) (rho' j)) -> rsim (rdenote rho n e) (denote rho' n e).
Proof.
  induction e using pexp_ind'; intros He rho rho' nn Hr; cbn [near_exp] in He; rewrite ?each_Forall in He;
    try (assert (Hcs : Forall2 rsim (map (rdenote rho nn) es) (map (denote rho' nn) es)) by
      (clear -H He Hr; repeat match goal with X : _ /\ _ |- _ => destruct X | X : each _ _ |- _ => rewrite each_Forall in X end; induction H; cbn; constructor; 
       match goal with X : Forall (near_exp _ _) _ |- _ => inversion X; subst end; auto));
    cbn [rdenote denote]; unfold FlatGroup, Group, First, LookAhead, LookAheadN, Repeat, Trans, Indirect.
  - apply rsim_leaf; auto.
  - apply (rsim_base _ _ _ _ _ None); cbn; auto.
  - apply (rsim_base _ _ _ _ _ (Some [GroupingTransform])); cbn; auto using group_far.
  - apply (rsim_base _ _ _ _ _ None); cbn; auto.
  - apply (rsim_base _ _ _ _ _ None); cbn; auto.
  - apply (rsim_base _ _ _ _ _ None); cbn; auto.
  - destruct He as [Hu _]. intros k c. unfold look_behind_base. apply rsim_behind; auto. apply (rsim_base _ _ _ _ _ None); cbn; auto.
  - apply (rsim_base _ _ _ _ _ None); cbn; auto.
  - destruct He as [He Ht]. apply rsim_base; cbn; auto. unfold variadic. destruct tr; cbn; auto.
  - apply rsim_light. auto.
  - destruct He as (Hf & _ & Ht). apply rsim_base; auto.
Qed.
Lemma rrun_sim env e : (forall j, near_exp K u (env j)) -> near_exp K u e -> forall n, rsim (rrun env n e) (run env n e).
Proof.
  intros Hv He n. unfold rrun, run. apply rdenote_sim; auto. induction n as [|n IH]; intros j.
  - intros k c. cbn. auto.
  - intros k c. cbn [rrun_env run_env]. apply (rdenote_sim (env j) (Hv j) _ _ n IH k c).
Qed.
End Sim.
