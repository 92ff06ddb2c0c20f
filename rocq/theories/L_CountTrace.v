(** The number of calls is the number of times tracers are told that a call begins. *)
From Verif Require Export S_CountTrace L_Count L_Tracer.

(** ** One engine on two memories *)
Section Two.
Variables (V U : Type) (R : V -> U -> Prop).
Definition sim2 (f : wfn V) (g : wfn U) : Prop := forall a b c, R a b ->
  match f a c with (_, Panic _) => True | (a1, x) => exists b1, g b c = (b1, x) /\ R a1 b1 end.
Definition tsim2 (n : nat) (t : wtrans V) (u : wtrans U) : Prop := forall a b c l, R a b ->
  match t n c a l with (_, Panic _) => True | (a1, x) => exists b1, u n c b l = (b1, x) /\ R a1 b1 end.
Lemma two_children ex saved fs gs : Forall2 sim2 fs gs -> forall a b o num, R a b ->
  match w_children ex saved fs a o num with (_, CReturn (Panic _)) => True | (a1, x) => exists b1, w_children ex saved gs b o num = (b1, x) /\ R a1 b1 end.
Proof.
  induction 1 as [|f g fs gs Hf F IH]; intros a b o num H; cbn [w_children]; [eauto|].
  specialize (Hf a b o H). destruct (f a o) as [a1 [[o1 err]|y|]]; [| |]; [destruct Hf as (b1 & -> & H1)|exact I|destruct Hf as (b1 & -> & H1); eauto].
  destruct (c_st (fix_status o1 err)).
  - destruct ex; [eauto|]. apply (IH a1 b1); exact H1.
  - destruct ex; [|eauto]. apply (IH a1 b1); exact H1.
  - eauto.
Qed.
Lemma two_parent q ex fn bottom fs gs : Forall2 sim2 fs gs -> forall fuel a b o count, R a b ->
  match w_parent fuel q ex fn bottom fs a o count with (_, PReturn (Panic _)) => True | (a1, x) => exists b1, w_parent fuel q ex fn bottom gs b o count = (b1, x) /\ R a1 b1 end.
Proof.
  intros F. assert (E : length fs = length gs) by (induction F; cbn; congruence).
  induction fuel as [|fuel IH]; intros a b o count H; cbn [w_parent]; (destruct (more q count); [|eauto]); [eauto|].
  pose proof (two_children ex o fs gs F a b o 0 H) as C. rewrite <- E.
  destruct (w_children ex o fs a o 0) as [a1 [r|c|o1 num]].
  - destruct r as [r|y|]; [|exact I|]; destruct C as (b1 & -> & H1); eauto.
  - destruct C as (b1 & -> & H1); eauto.
  - destruct C as (b1 & -> & H1). destruct (ex && _ && _); [eauto|].
    destruct (call_fn fn (Z.of_nat num) bottom (set_qty o1 count)) as [[o2 err]|y|]; [|exact I|eauto].
    destruct (c_st o2); [|eauto|eauto]. apply IH. exact H1.
Qed.
Lemma two_trans n c ts us : Forall2 (tsim2 n) ts us -> forall a b l, R a b ->
  match w_run_trans n c ts a l with (_, Panic _) => True | (a1, x) => exists b1, w_run_trans n c us b l = (b1, x) /\ R a1 b1 end.
Proof.
  induction 1 as [|t u ts us H F IH]; intros a b l Hr; cbn [w_run_trans]; [eauto|].
  specialize (H a b c l Hr). destruct (t n c a l) as [a1 [[e|l1]|y|]]; [| |exact I|].
  - destruct H as (b1 & -> & H1). eauto.
  - destruct H as (b1 & -> & H1). apply IH. exact H1.
  - destruct H as (b1 & -> & H1). eauto.
Qed.
Lemma two_base cls fn props fs gs ts us n : Forall2 sim2 fs gs ->
  match ts, us with None, None => True | Some ts, Some us => Forall2 (tsim2 n) ts us | _, _ => False end ->
  sim2 (w_base cls fn props fs ts n) (w_base cls fn props gs us n).
Proof.
  intros F T a b c H. unfold w_base. cbv zeta. set (f := flags_of props).
  pose proof (two_parent (f_qty f) (f_ex f) fn (length (c_stack (set_cls c cls))) fs gs F n a b (set_st (set_cls c cls) Matched) 0 H) as P.
  destruct (w_parent _ _ _ _ _ fs a _ _) as [a1 [r|o count]].
  - destruct r as [r|y|]; [|exact I|]; destruct P as (b1 & -> & H1); eauto.
  - destruct P as (b1 & -> & H1). destruct (c_st (after_loop f o count)); [|eauto|eauto].
    destruct (call_fn fn (-1) _ _) as [[o2 err]|y|]; [|exact I|eauto]. destruct (c_st o2); [|eauto|eauto].
    destruct ts as [ts|], us as [us|]; try contradiction; [|eauto].
    destruct (Nat.ltb _ _); [exact I|].
    match goal with |- context [w_run_trans n ?c0 ts a1 ?l] => pose proof (two_trans n c0 ts us T a1 b1 l H1) as Q; destruct (w_run_trans n c0 ts a1 l) as [a2 [[e|l1]|y|]] end;
      [| |exact I|]; destruct Q as (b2 & -> & H2); eauto.
Qed.
Lemma two_behind neg p q : sim2 p q -> forall k a b c i, R a b ->
  match w_behind_loop neg p a c i k with (_, Panic _) => True | (a1, x) => exists b1, w_behind_loop neg q b c i k = (b1, x) /\ R a1 b1 end.
Proof.
  intros S. induction k as [|k IH]; intros a b c i H; cbn [w_behind_loop]; [eauto|]. cbv zeta. destruct (_ <? 0); [apply IH; exact H|].
  specialize (S a b (set_pos c (Z.to_nat (Z.of_nat (c_pos c) - i))) H).
  destruct (p a _) as [a1 [[o [e|]]|y|]]; [| |exact I|]; destruct S as (b1 & -> & H1); [eauto| |eauto].
  destruct (c_st o); [destruct neg; eauto|apply IH; exact H1|apply IH; exact H1].
Qed.
End Two.

(** ** Counting and tracing *)
Lemma befores_app l l' : befores (l ++ l') = (befores l + befores l')%nat.
Proof. unfold befores. rewrite filter_app, app_length. reflexivity. Qed.
Definition tally (k : nat) (g : gs) : Prop := k = befores (g_log g).
(** A built parser without Indirect and production rules. *)
Fixpoint ruleless (b : bexp) : Prop :=
  match b with
  | BLight _ _ _ => True
  | BBase _ _ _ _ bs rs tr => fold_right and True (map ruleless bs) /\
      match tr with Some ts => Forall (fun t => match t with TTPure _ => True | TTRule _ => False end) ts | None => True end
  | BBehind _ _ _ _ bs => fold_right and True (map ruleless bs)
  | BInd _ _ _ => False
  end.
Section Tally.
Variables (lost : bool) (pts : nat -> tracer) (env : nat -> texp).
Hypothesis O : forall i, observer (pts i).
Lemma tally_traced m f p : sim2 nat gs tally f p -> sim2 nat gs tally (tick f) (traced lost pts (Some m) p).
Proof.
  intros S a g c H. unfold tick, traced. destruct (O (m_tr m)) as (O1 & O2 & O3). rewrite O1.
  assert (H1 : tally (Datatypes.S a) (g_emit g (EvBefore m c))).
  { unfold tally in *. cbn [g_emit g_log]. rewrite befores_app. cbn. lia. }
  specialize (S (Datatypes.S a) _ c H1). destruct (f (Datatypes.S a) c) as [a1 [[o err]|y|]]; [|exact I|].
  - destruct S as (g1 & -> & H2). rewrite O2. eexists. split; [reflexivity|]. unfold tally in *. cbn [g_emit g_log]. rewrite befores_app. cbn. lia.
  - destruct S as (g1 & -> & H2). eauto.
Qed.
Lemma pure_arrange ts : Forall (fun t => match t with TTPure _ => True | TTRule _ => False end) ts -> forall n (ps : list sparser) (es : list pexp),
  Forall2 (tsim2 nat gs tally n) (map no_effect (e_trans ts es)) (s_trans ts ps).
Proof.
  induction 1 as [|t ts H F IH]; intros n ps es; [constructor|]. destruct t as [t|sh]; [|contradiction].
  cbn. constructor; [|apply IH]. intros a g c l Hr. unfold no_effect. destruct (t n c l); eauto.
Qed.
Lemma tally_denote rho rho' n b : all_marked b -> ruleless b -> sim2 nat gs tally (kdenote rho n (erase (unmark b))) (sdenote lost pts env rho' n b).
Proof.
  induction b as [m cls fn|m cls fn props bs rs tr H1 H2|m neg mn mx bs H|m i k] using bexp_ind'; cbn [all_marked ruleless unmark erase kdenote sdenote].
  - intros M _. destruct m as [m|]; [|congruence]. apply tally_traced. intros a g c Hr. destruct (light_base_parser cls (fn n) c); eauto.
  - intros (M & Mb & _) (Rb & Rt). destruct m as [m|]; [|congruence]. apply tally_traced. rewrite !map_map. apply two_base.
    + clear - H1 Mb Rb. induction H1 as [|b bs Hb F IH]; cbn in *; constructor; [apply Hb|apply IH]; tauto.
    + destruct tr as [ts|]; cbn [option_map]; [|exact I]. apply pure_arrange. exact Rt.
  - intros (M & Mb) Rb. destruct m as [m|]; [|congruence]. intros a g c Hr. cbv zeta.
    apply (two_behind nat gs tally neg _ _); [|exact Hr]. apply tally_traced. rewrite !map_map. apply two_base; [|exact I].
    clear - H Mb Rb. induction H as [|b bs Hb F IH]; cbn in *; constructor; [apply Hb|apply IH]; tauto.
  - contradiction.
Qed.
End Tally.
Lemma erase_untrace e : erase (untrace e) = erase e.
Proof.
  induction e as [cls fn|cls fn props es rs tr H1 H2|neg mn mx es H|k|scope pt es H] using texp_ind'; cbn [untrace erase]; auto.
  - rewrite !map_map. f_equal; [apply map_ext_Forall; auto|]. destruct tr; cbn [option_map]; auto. do 2 f_equal. apply map_ext_Forall; auto.
  - rewrite map_map. f_equal. apply map_ext_Forall; auto.
  - rewrite map_map. f_equal. apply map_ext_Forall; auto.
Qed.
Lemma fold_map_iff {A} (P Q : A -> Prop) l : Forall (fun x => P x <-> Q x) l -> fold_right and True (map P l) <-> fold_right and True (map Q l).
Proof. induction 1; cbn; tauto. Qed.
Lemma ruleless_unruled b : ruleless b <-> unruled (unmark b).
Proof.
  induction b as [m cls fn|m cls fn props bs rs tr H1 H2|m neg mn mx bs H|m i k] using bexp_ind'; cbn [ruleless unruled unmark]; try tauto; rewrite map_map;
    rewrite (fold_map_iff _ (fun x => unruled (unmark x)) bs) by assumption; tauto.
Qed.
Lemma unruled_untrace e : unruled e -> unruled (untrace e).
Proof.
  induction e as [cls fn|cls fn props es rs tr H1 H2|neg mn mx es H|k|scope pt es H] using texp_ind'; cbn [unruled untrace]; auto; rewrite map_map; rewrite !fold_and_Forall.
  - intros (A & B). split; [|exact B]. rewrite Forall_forall in *. auto.
  - rewrite !Forall_forall in *. auto.
  - intros A. split; [|exact I]. rewrite Forall_forall in *. auto.
Qed.
Lemma cost_traced lost pts env env' e g b g' n c : (forall i, observer (pts i)) -> build e g = (b, g') -> all_marked b -> unruled e -> g_log g = [] ->
  (forall x, run env' n (erase e) c <> Panic x) ->
  cost env' n (erase e) c = befores (g_log (fst (srun lost pts env n b g' c))).
Proof.
  intros O E M Ul L NP. destruct (build_ok _ _ _ _ E) as ((_ & _ & _ & _ & Lg & _) & U & _).
  assert (Rl : ruleless b) by (apply ruleless_unruled; rewrite U; apply unruled_untrace; exact Ul).
  assert (T : tally 0 g') by (unfold tally; rewrite Lg, L; reflexivity).
  pose proof (tally_denote lost pts env O (krun_env env' n) (srun_env lost pts env n) n b M Rl 0%nat g' c T) as S.
  rewrite U, erase_untrace in S. unfold cost, srun. change (kdenote (krun_env env' n) n (erase e) 0%nat c) with (krun env' n (erase e) 0%nat c) in S.
  pose proof (krun_same env' n (erase e) 0%nat c) as K. destruct (krun env' n (erase e) 0%nat c) as [k x]. cbn [snd fst] in *. subst x.
  destruct (run env' n (erase e) c) as [[o err]|y|] eqn:E1; [|destruct (NP y); reflexivity|]; destruct S as (g1 & -> & T1); exact T1.
Qed.
