(** Lemmas for C69: the engine does not look at the positions of ASTs. *)
From Verif Require Export S_Blur L_Exact.

(** ** The relations are equivalences *)
Lemma sl_same_sym s t : sl_same s t -> sl_same t s.
Proof.
  destruct s, t; cbn; auto. intros (A & B & C). repeat split; auto.
  - intros v w H. symmetry. apply B. symmetry. exact H.
  - intros x y H. symmetry. apply C. auto.
Qed.
Lemma sl_same_trans s t u : sl_same s t -> sl_same t u -> sl_same s u.
Proof.
  destruct s, t, u; cbn; auto; try contradiction. intros (A & B & C) (A' & B' & C'). split; [congruence|]. split.
  - intros v w H. rewrite (B v w H). apply B'. reflexivity.
  - intros x y H. unfold vsame. rewrite (C x y H). apply C'. reflexivity.
Qed.
Lemma csame_sym c d : csame c d -> csame d c.
Proof. intros (A & B & C & D & E & F & G & H). repeat split; auto. apply sl_same_sym; auto. symmetry. exact E. Qed.
Lemma csame_trans c d e : csame c d -> csame d e -> csame c e.
Proof.
  intros (A & B & C & D & E & F & G & H) (A' & B' & C' & D' & E' & F' & G' & H'). repeat split; try congruence.
  - eapply sl_same_trans; eauto.
Qed.
Lemma osame_sym x y : osame x y -> osame y x.
Proof.
  destruct x as [[c e]|p|], y as [[d f]|q|]; cbn; auto. intros [H ->]. split; auto. apply csame_sym; auto.
Qed.
Lemma osame_trans x y z : osame x y -> osame y z -> osame x z.
Proof.
  destruct x as [[c e]|p|], y as [[d f]|q|], z as [[g h]|r|]; cbn; try contradiction; try congruence.
  intros [H ->] [K ->]. split; auto. eapply csame_trans; eauto.
Qed.
Lemma lsame_length l m : lsame l m -> length l = length m.
Proof. intros H. rewrite <- (map_length blur l), H, map_length. reflexivity. Qed.
Lemma lsame_app l l' m m' : lsame l m -> lsame l' m' -> lsame (l ++ l') (m ++ m').
Proof. unfold lsame. intros A B. rewrite !map_app. congruence. Qed.
Lemma lsame_skipn k l m : lsame l m -> lsame (skipn k l) (skipn k m).
Proof. unfold lsame. intros A. rewrite <- !skipn_map. congruence. Qed.
Lemma lsame_firstn k l m : lsame l m -> lsame (firstn k l) (firstn k m).
Proof. unfold lsame. intros A. rewrite <- !firstn_map. congruence. Qed.

(** ** Setting fields *)
Ltac csolve := intros; unfold csame in *; repeat match goal with c : ctx |- _ => destruct c end; cbn in *; intuition (subst; auto; try congruence).
Lemma csame_cls c d x : csame c d -> csame (set_cls c x) (set_cls d x).
Proof. csolve. Qed.
Lemma csame_st c d x : csame c d -> csame (set_st c x) (set_st d x).
Proof. csolve. Qed.
Lemma csame_qty c d x : csame c d -> csame (set_qty c x) (set_qty d x).
Proof. csolve. Qed.
Lemma csame_sp c d x : csame c d -> csame (set_sp c x) (set_sp d x).
Proof. csolve. Qed.
Lemma c_pos_same c d : csame c d -> c_pos c = c_pos d.
Proof. csolve. Qed.
Lemma c_len_same c d : csame c d -> c_len c = c_len d.
Proof. csolve. Qed.
Lemma csame_pos c d x : csame c d -> csame (set_pos c x) (set_pos d x).
Proof. intros H. unfold set_pos. rewrite (c_len_same c d H). apply csame_sp; auto. Qed.
Lemma csame_len c d x : csame c d -> csame (set_len c x) (set_len d x).
Proof. intros H. unfold set_len. rewrite (c_pos_same c d H). apply csame_sp; auto. Qed.
Lemma csame_stack c d l m : csame c d -> lsame l m -> csame (set_stack c l) (set_stack d m).
Proof. csolve. Qed.
Lemma csame_fix c d e : csame c d -> csame (fix_status c e) (fix_status d e).
Proof. destruct e; cbn; auto using csame_st. Qed.
Lemma st_same c d : csame c d -> c_st c = c_st d.
Proof. csolve. Qed.
Lemma stack_same c d : csame c d -> lsame (c_stack c) (c_stack d).
Proof. csolve. Qed.
Lemma stack_len_same c d : csame c d -> length (c_stack c) = length (c_stack d).
Proof. intros H. apply lsame_length, stack_same, H. Qed.
Global Hint Resolve csame_cls csame_st csame_qty csame_sp csame_pos csame_len csame_stack csame_fix lsame_app lsame_skipn lsame_firstn stack_same : blur.

Lemma light_same cls x y : osame x y -> forall f g c d, f c = x -> g d = y -> osame (light_base_parser cls f c) (light_base_parser cls g d).
Proof.
  intros H f g c d E F. unfold light_base_parser. rewrite E, F. destruct x as [[o e]|p|], y as [[o' e']|q|]; cbn in *; auto; try contradiction.
  destruct H as [H ->]. split; auto. pose proof (csame_fix _ _ e' H) as K. rewrite (st_same _ _ K). destruct (c_st (fix_status o' e')); auto with blur.
Qed.
Lemma call_same fn num bottom c d : blind_opt fn -> csame c d -> osame (call_fn fn num bottom c) (call_fn fn num bottom d).
Proof.
  intros H K. destruct fn as [f|]; cbn; [|auto]. specialize (H num bottom c d K).
  destruct (f num bottom c) as [[o e]|p|], (f num bottom d) as [[o' e']|q|]; cbn in *; auto. destruct H as [H ->]. auto with blur.
Qed.
Lemma after_same f c d k : csame c d -> csame (after_loop f c k) (after_loop f d k).
Proof.
  intros H. unfold after_loop. set (b := _ && _). assert (K : csame (if b then set_st c Unmatched else c) (if b then set_st d Unmatched else d)) by (destruct b; auto with blur).
  destruct (f_neg f); auto. rewrite (st_same _ _ K). destruct (c_st _); auto with blur.
Qed.

(** ** The engine with a memory against the engine without *)
Section Sim.
Variable W : Type.
Variable I : W -> Prop.
Definition bsim (f : wfn W) (g : ctx -> out) : Prop := forall w c d, I w -> csame c d -> osame (snd (f w c)) (g d) /\ I (fst (f w c)).
Definition crsame (x y : cres) : Prop :=
  match x, y with
  | CReturn r, CReturn s => osame r s
  | CBreak c, CBreak d => csame c d
  | CEnd c k, CEnd d j => csame c d /\ k = j
  | _, _ => False
  end.
Definition prsame (x y : pres) : Prop :=
  match x, y with PReturn r, PReturn s => osame r s | PDone c k, PDone d j => csame c d /\ k = j | _, _ => False end.
Lemma bsim_light cls f g : bsim f g -> bsim (w_light cls f) (light_base_parser cls g).
Proof.
  intros H w c d J K. destruct (H w c d J K) as [A B]. unfold w_light. destruct (f w c) as [w1 r] eqn:E. cbn [fst snd] in *.
  pose proof (light_same cls _ _ A (fun _ => r) g c d eq_refl eq_refl) as L. unfold light_base_parser at 1 in L.
  destruct r as [[o e]|x|]; cbn [fst snd] in *; auto.
Qed.
Lemma bsim_children ex ps qs : Forall2 bsim ps qs -> forall sv sv' w o o' num, I w -> csame sv sv' -> csame o o' ->
  crsame (snd (w_children ex sv ps w o num)) (children_loop ex sv' qs o' num) /\ I (fst (w_children ex sv ps w o num)).
Proof.
  induction 1 as [|p q ps qs H F IH]; intros sv sv' w o o' num J S K; cbn [w_children children_loop]; [cbn; auto|].
  destruct (H w o o' J K) as [A B]. destruct (p w o) as [w1 r]. cbn [fst snd] in *.
  destruct r as [[o1 e]|x|], (q o') as [[o1' e']|y|]; cbn in A; try contradiction; try (cbn; auto; fail).
  destruct A as [A ->]. cbv zeta. pose proof (csame_fix _ _ e' A) as L. rewrite (st_same _ _ L).
  destruct (c_st (fix_status o1' e')); [destruct ex|destruct ex|]; cbn; auto.
Qed.
Lemma bsim_parent q ex fn bottom ps qs : blind_opt fn -> Forall2 bsim ps qs -> forall fuel w o o' count, I w -> csame o o' ->
  prsame (snd (w_parent fuel q ex fn bottom ps w o count)) (parent_loop fuel q ex fn bottom qs o' count) /\
  I (fst (w_parent fuel q ex fn bottom ps w o count)).
Proof.
  intros G F. assert (Ln : length ps = length qs) by (clear -F; induction F; simpl; congruence).
  induction fuel as [|fuel IH]; intros w o o' count J K; cbn [w_parent parent_loop]; destruct (more q count); try (cbn; auto; fail).
  destruct (bsim_children ex ps qs F o o' w o o' 0%nat J K K) as [A B]. destruct (w_children ex o ps w o 0) as [w1 r]. cbn [fst snd] in A, B.
  destruct r as [r|c|o1 num], (children_loop ex o' qs o' 0) as [r'|c'|o1' num']; cbn in A; try contradiction; try (cbn; auto; fail).
  destruct A as [A ->]. rewrite Ln. destruct (ex && (0 <? length qs)%nat && (num' =? 0)%nat); [cbn; auto|].
  pose proof (call_same fn (Z.of_nat num') bottom _ _ G (csame_qty _ _ count A)) as C.
  destruct (call_fn fn (Z.of_nat num') bottom (set_qty o1 count)) as [[o2 e]|x|], (call_fn fn (Z.of_nat num') bottom (set_qty o1' count)) as [[o2' e']|y|]; cbn in C; try contradiction; try (cbn; auto; fail).
  destruct C as [C ->]. rewrite (st_same _ _ C). destruct (c_st o2'); cbn; auto.
Qed.
Definition bsim_tr (t : wtrans W) (t' : trans) : Prop := forall n c d w l m, I w -> csame c d -> lsame l m ->
  tsame (snd (t n c w l)) (t' n d m) /\ I (fst (t n c w l)).
Lemma bsim_run_trans n ts ts' : Forall2 bsim_tr ts ts' -> forall c d w l m, I w -> csame c d -> lsame l m ->
  tsame (snd (w_run_trans n c ts w l)) (run_trans n d ts' m) /\ I (fst (w_run_trans n c ts w l)).
Proof.
  induction 1 as [|t t' ts ts' H F IH]; intros c d w l m J K L; cbn [w_run_trans run_trans]; [cbn; auto|].
  destruct (H n c d w l m J K L) as [A B]. destruct (t n c w l) as [w1 r]. cbn [fst snd] in A, B.
  destruct r as [[e|l']|x|], (t' n d m) as [[e'|m']|y|]; cbn in A; try contradiction; try (cbn; auto; fail).
Qed.
Lemma bsim_base cls fn props ps qs tr tr' n : blind_opt fn -> Forall2 bsim ps qs ->
  match tr, tr' with None, None => True | Some ts, Some ts' => Forall2 bsim_tr ts ts' | _, _ => False end ->
  bsim (w_base cls fn props ps tr n) (base_parser cls fn props qs tr' n).
Proof.
  intros G F T w c d J K. unfold w_base, base_parser. cbv zeta. set (f := flags_of props).
  pose proof (csame_cls _ _ cls K) as K1. rewrite (stack_len_same _ _ K1). set (bottom := length (c_stack (set_cls d cls))).
  destruct (bsim_parent (f_qty f) (f_ex f) fn bottom ps qs G F n w _ _ 0%nat J (csame_st _ _ Matched K1)) as [A B].
  destruct (w_parent n _ _ _ _ _ _ _ _) as [w1 r]. cbn [fst snd] in A, B.
  destruct r as [r|o count], (parent_loop n _ _ _ _ _ _ _) as [r'|o' count']; cbn in A; try contradiction; [cbn; auto|].
  destruct A as [A ->]. pose proof (after_same f _ _ count' A) as A1. rewrite (st_same _ _ A1).
  destruct (c_st (after_loop f o' count')); try (cbn; auto; fail).
  pose proof (call_same fn (-1) bottom _ _ G (csame_qty _ _ count' A1)) as C.
  destruct (call_fn fn (-1) bottom (set_qty (after_loop f o count') count')) as [[o2 e]|x|], (call_fn fn (-1) bottom (set_qty (after_loop f o' count') count')) as [[o2' e']|y|];
    cbn in C; try contradiction; try (cbn; auto; fail).
  destruct C as [C ->]. rewrite (st_same _ _ C). destruct (c_st o2'); try (cbn; auto; fail).
  assert (O : csame (if f_rew f then set_cls c cls else o2) (if f_rew f then set_cls d cls else o2')) by (destruct (f_rew f); auto).
  set (o3 := if f_rew f then set_cls c cls else o2) in *. set (o3' := if f_rew f then set_cls d cls else o2') in *.
  destruct tr as [ts|], tr' as [ts'|]; try contradiction; [|cbn; auto].
  rewrite (stack_len_same _ _ O). destruct (length (c_stack o3') <? bottom)%nat; [cbn; auto|].
  destruct (bsim_run_trans n ts ts' T (set_cls c cls) (set_cls d cls) w1 (skipn bottom (c_stack o3)) (skipn bottom (c_stack o3')) B K1 (lsame_skipn _ _ _ (stack_same _ _ O))) as [X Y].
  destruct (w_run_trans n _ ts w1 _) as [w2 r2]. cbn [fst snd] in X, Y.
  destruct r2 as [[e|l]|x|], (run_trans n _ ts' _) as [[e1|l']|y|]; cbn in X; try contradiction; cbn; subst; auto with blur.
  split; auto. split; auto. auto 6 with blur.
Qed.
Lemma bsim_behind neg p q : bsim p q -> forall k c d i w, I w -> csame c d ->
  osame (snd (w_behind_loop neg p w c i k)) (look_behind_loop neg q d i k) /\ I (fst (w_behind_loop neg p w c i k)).
Proof.
  intros H. induction k as [|k IH]; intros c d i w J K; cbn [w_behind_loop look_behind_loop]; [cbn; auto with blur|].
  cbv zeta. rewrite (c_pos_same _ _ K). destruct (Z.of_nat (c_pos d) - i <? 0); [apply IH; auto|].
  destruct (H w _ _ J (csame_pos _ _ (Z.to_nat (Z.of_nat (c_pos d) - i)) K)) as [A B]. destruct (p w _) as [w1 r]. cbn [fst snd] in A, B.
  destruct r as [[o e]|x|], (q _) as [[o' e']|y|]; cbn in A; try contradiction; try (cbn; auto; fail).
  destruct A as [A ->]. destruct e'; [cbn; auto|]. rewrite (st_same _ _ A). destruct (c_st o'); auto. destruct neg; cbn; auto with blur.
Qed.
End Sim.
Lemma bsim_pure W I f : (forall c d, csame c d -> osame (f c) (f d)) -> bsim W I (w_pure f) f.
Proof. intros H w c d J K. cbn. auto. Qed.
