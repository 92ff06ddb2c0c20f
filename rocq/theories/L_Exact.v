(** The engine with a memory returns what the engine without returns, as long as the
    memory stays in a set [I] of states and the engine without does not panic with a
    value in [bad]. *)
From Verif Require Export M_World.

Section Exact.
Variable W : Type.
Variable I : W -> Prop.
Variable bad : string -> Prop.
Definition spoilt {A} (r : res A) : Prop := exists x, bad x /\ r = Panic x.
Definition esim (f : wfn W) (f' : ctx -> out) : Prop := forall w c, I w -> spoilt (f' c) \/ (snd (f w c) = f' c /\ I (fst (f w c))).

Lemma esim_pure f : esim (w_pure f) f.
Proof. intros w c H. right. split; auto. Qed.
Lemma esim_light cls f f' : esim f f' -> esim (w_light cls f) (light_base_parser cls f').
Proof.
  intros H w c Hw. unfold w_light, light_base_parser. destruct (H w c Hw) as [(x & B & E)|[E J]]; [left; exists x; rewrite E; auto|right].
  destruct (f w c) as [w1 [[o e]|x|]]; cbn in *; rewrite <- E; auto.
Qed.
Lemma esim_children ex sv ps qs : Forall2 esim ps qs -> forall w o num, I w ->
  (exists x, bad x /\ children_loop ex sv qs o num = CReturn (Panic x)) \/
  (snd (w_children ex sv ps w o num) = children_loop ex sv qs o num /\ I (fst (w_children ex sv ps w o num))).
Proof.
  induction 1 as [|p q ps qs H F IH]; intros w o num J; cbn [w_children children_loop]; [right; split; auto|].
  destruct (H w o J) as [(x & B & E)|(E & J')]; [left; exists x; rewrite E; auto|].
  destruct (p w o) as [w1 [[o1 e]|x|]]; cbn [fst snd] in *; rewrite <- E; auto. cbv zeta.
  destruct (c_st (fix_status o1 e)); auto; destruct ex; auto.
Qed.
Lemma esim_parent q ex fn bottom ps qs : Forall2 esim ps qs -> forall fuel w o count, I w ->
  (exists x, bad x /\ parent_loop fuel q ex fn bottom qs o count = PReturn (Panic x)) \/
  (snd (w_parent fuel q ex fn bottom ps w o count) = parent_loop fuel q ex fn bottom qs o count /\
   I (fst (w_parent fuel q ex fn bottom ps w o count))).
Proof.
  intros F. assert (Ln : length ps = length qs) by (clear -F; induction F; simpl; congruence).
  induction fuel as [|fuel IH]; intros w o count J; cbn [w_parent parent_loop]; destruct (more q count); auto.
  destruct (esim_children ex o ps qs F w o 0%nat J) as [(x & B & E)|(E & J')]; [left; exists x; rewrite E; auto|].
  destruct (w_children ex o ps w o 0) as [w1 r]. cbn [fst snd] in E, J'. subst r.
  destruct (children_loop ex o qs o 0) as [r|c|o1 num]; auto. rewrite Ln.
  destruct (ex && (0 <? length qs)%nat && (num =? 0)%nat); auto.
  destruct (call_fn fn (Z.of_nat num) bottom (set_qty o1 count)) as [[o2 err]|x|]; auto.
  destruct (c_st o2); auto.
Qed.
(** The transformers, on the lists they can get. *)
Definition tr_sim (cls : string) (fn : option impl_fn) (props : list prop) (qs : list (ctx -> out)) (n : nat)
    (tr : option (list (wtrans W))) (tr' : option (list trans)) : Prop :=
  match tr, tr' with
  | None, None => True
  | Some ts, Some ts' => forall c0 w l, I w ->
      (f_rew (flags_of props) = false -> exists o, base_parser cls fn props qs None n c0 = Ok (o, None) /\ c_st o = Matched /\
         (length (c_stack c0) <= length (c_stack o))%nat /\ l = skipn (length (c_stack c0)) (c_stack o)) ->
      spoilt (run_trans n (set_cls c0 cls) ts' l) \/
      (snd (w_run_trans n (set_cls c0 cls) ts w l) = run_trans n (set_cls c0 cls) ts' l /\ I (fst (w_run_trans n (set_cls c0 cls) ts w l)))
  | _, _ => False
  end.
Lemma esim_base cls fn props ps qs tr tr' n : Forall2 esim ps qs -> tr_sim cls fn props qs n tr tr' ->
  esim (w_base cls fn props ps tr n) (base_parser cls fn props qs tr' n).
Proof.
  intros F T w c J. pose proof (T) as T0. unfold tr_sim in T. unfold w_base, base_parser in *. cbv zeta in *.
  set (f := flags_of props) in *. set (bottom := length (c_stack (set_cls c cls))) in *.
  assert (Hb : length (c_stack c) = bottom) by (subst bottom; destruct c; reflexivity).
  destruct (esim_parent (f_qty f) (f_ex f) fn bottom ps qs F n w (set_st (set_cls c cls) Matched) 0%nat J) as [(x & B & E)|(E & J')].
  { left. exists x. rewrite E. auto. }
  destruct (w_parent n _ _ _ _ _ _ _ _) as [w1 r]. cbn [fst snd] in E, J'.
  destruct tr as [ts|], tr' as [ts'|]; try contradiction.
  - specialize (T c). rewrite Hb in T. fold bottom in T. rewrite <- E in T |- *. destruct r as [r|o count]; auto. 
    destruct (c_st (after_loop f o count)) eqn:E1; auto.
    destruct (call_fn fn (-1) bottom (set_qty (after_loop f o count) count)) as [[o2 err]|x|] eqn:E2; auto. destruct (c_st o2) eqn:E3; auto.
    set (o3 := if f_rew f then set_cls c cls else o2) in *. destruct (Nat.ltb_spec (length (c_stack o3)) bottom); auto.
    destruct (T w1 (skipn bottom (c_stack o3)) J') as [(x & B & A)|(A & B)].
    + intros R. subst o3. rewrite R in *. exists o2. auto.
    + left. exists x. rewrite A. auto.
    + destruct (w_run_trans n (set_cls c cls) ts w1 (skipn bottom (c_stack o3))) as [w2 r2]. cbn [fst snd] in A, B. rewrite <- A. destruct r2 as [[e|r2]|x|]; auto.
  - rewrite <- E. destruct r as [r|o count]; auto.
    destruct (c_st (after_loop f o count)) eqn:E1; auto.
    destruct (call_fn fn (-1) bottom (set_qty (after_loop f o count) count)) as [[o2 err]|x|]; auto. destruct (c_st o2); auto.
Qed.
Lemma esim_behind neg p q c : esim p q -> forall k i w, I w ->
  spoilt (look_behind_loop neg q c i k) \/
  (snd (w_behind_loop neg p w c i k) = look_behind_loop neg q c i k /\ I (fst (w_behind_loop neg p w c i k))).
Proof.
  intros H. induction k as [|k IH]; intros i w J; cbn [w_behind_loop look_behind_loop]; auto.
  cbv zeta. destruct (Z.of_nat (c_pos c) - i <? 0); [apply IH; auto|].
  destruct (H w (set_pos c (Z.to_nat (Z.of_nat (c_pos c) - i))) J) as [(x & B & E)|(E & J')]; [left; exists x; rewrite E; auto|].
  destruct (p w _) as [w1 r]. cbn [fst snd] in E, J'. rewrite <- E.
  destruct r as [[o [e|]]|x|]; auto. destruct (c_st o); auto. destruct neg; auto.
Qed.
(** ProductionRule, when run with fuel [n] *)
Section Production.
Variable n : nat.
Definition rules_esim (rs : list (nat -> wfn W)) (rs' : list parser) : Prop := Forall2 (fun r r' => esim (r n) (r' n)) rs rs'.
Definition prec_esim (p : wprecedence W) (p' : precedence) : Prop := rules_esim (wpr_rules p) (pr_rules p') /\ wpr_rtol p = pr_rtol p'.
Definition spoilt_scan (r : scan) : Prop := exists x, bad x /\ r = SBad x.
Lemma esim_rules rs rs' astc asts p : rules_esim rs rs' -> forall w, I w ->
  spoilt_scan (try_rules n rs' astc asts p) \/
  (snd (w_try_rules n rs astc w asts p) = try_rules n rs' astc asts p /\ I (fst (w_try_rules n rs astc w asts p))).
Proof.
  induction 1 as [|r r' rs rs' H F IH]; intros w J; cbn [w_try_rules try_rules]; auto.
  destruct (H w (set_pos astc p) J) as [(x & B & E)|(E & J')]; [left; exists x; rewrite E; auto|].
  destruct (r n w _) as [w1 [[o [e|]]|x|]]; cbn [fst snd] in *; rewrite <- E; auto.
  destruct (c_st o); auto. destruct (_ && _); auto.
Qed.
Lemma esim_positions pr pr' astc asts : prec_esim pr pr' -> forall k i w, I w ->
  spoilt_scan (try_positions n pr' astc asts i k) \/
  (snd (w_try_positions n pr astc w asts i k) = try_positions n pr' astc asts i k /\ I (fst (w_try_positions n pr astc w asts i k))).
Proof.
  intros [H R]. induction k as [|k IH]; intros i w J; cbn [w_try_positions try_positions]; auto. rewrite <- R. cbv zeta.
  destruct (esim_rules _ _ astc asts (if wpr_rtol pr then (length asts - i)%nat else i) H w J) as [(x & B & E)|(E & J')]; [left; exists x; rewrite E; auto|].
  destruct (w_try_rules n _ astc w asts _) as [w1 r]. cbn [fst snd] in E, J'. rewrite <- E. destruct r; auto.
Qed.
Lemma esim_precedences prs prs' tag asts : Forall2 prec_esim prs prs' -> forall w, I w ->
  spoilt_scan (try_precedences n prs' tag asts) \/
  (snd (w_try_precedences n prs tag w asts) = try_precedences n prs' tag asts /\ I (fst (w_try_precedences n prs tag w asts))).
Proof.
  induction 1 as [|p p' prs prs' H F IH]; intros w J; cbn [w_try_precedences try_precedences]; auto. cbv zeta.
  destruct (esim_positions _ _ (new_object_ctx (ast_slice asts) tag) asts H (S (length asts)) 0%nat w J) as [(x & B & E)|(E & J')]; [left; exists x; rewrite E; auto|].
  destruct (w_try_positions n p _ w asts 0 _) as [w1 r]. cbn [fst snd] in E, J'. rewrite <- E. destruct r; auto.
Qed.
Lemma esim_production prs prs' check check' tag : Forall2 prec_esim prs prs' -> esim (check n) (check' n) -> forall k w asts, I w ->
  spoilt (production_loop n k prs' check' tag asts) \/
  (snd (w_production n k prs check tag w asts) = production_loop n k prs' check' tag asts /\ I (fst (w_production n k prs check tag w asts))).
Proof.
  intros H C. induction k as [|k IH]; intros w asts J; cbn [w_production production_loop]; auto. cbv zeta.
  destruct (esim_precedences _ _ tag asts H w J) as [(x & B & E)|(E & J')]; [left; exists x; rewrite E; auto|].
  destruct (w_try_precedences n prs tag w asts) as [w1 r]. cbn [fst snd] in E, J'. rewrite <- E.
  destruct r as [e|x| |a|]; auto.
  - destruct (C w1 (new_object_ctx (ast_slice a) tag) J') as [(x & B & E2)|(E2 & J2)]; [left; exists x; rewrite E2; auto|].
    destruct (check n w1 _) as [w2 [[o [e|]]|x|]]; cbn [fst snd] in *; rewrite <- E2; auto.
    destruct (c_st o); auto.
  - destruct (C w1 (new_object_ctx (ast_slice asts) tag) J') as [(x & B & E2)|(E2 & J2)]; [left; exists x; rewrite E2; auto|].
    destruct (check n w1 _) as [w2 [[o [e|]]|x|]]; cbn [fst snd] in *; rewrite <- E2; auto.
    destruct (c_st o); auto.
Qed.
End Production.
Lemma esim_run_trans n c ts ts' : Forall2 (fun t t' => forall c w l, I w -> spoilt (t' n c l) \/ (snd (t n c w l) = t' n c l /\ I (fst (t n c w l)))) ts ts' -> forall w l, I w ->
  spoilt (run_trans n c ts' l) \/ (snd (w_run_trans n c ts w l) = run_trans n c ts' l /\ I (fst (w_run_trans n c ts w l))).
Proof.
  induction 1 as [|t t' ts ts' H F IH]; intros w l J; cbn [w_run_trans run_trans]; auto.
  destruct (H c w l J) as [(x & B & E)|(E & J')]; [left; exists x; rewrite E; auto|].
  destruct (t n c w l) as [w1 r]. cbn [fst snd] in E, J'. rewrite <- E. destruct r as [[e|r]|x|]; auto.
Qed.
End Exact.
(** No panic is excused. *)
Definition nothing : string -> Prop := fun _ => False.
Lemma spoilt_exact {A} (r : res A) P : spoilt nothing r \/ P -> P.
Proof. intros [(x & [] & _)|H]. exact H. Qed.

(** What a run does to the memory, in terms of how it ends. *)
Inductive ending := Returns | Panics (x : string) | Starves.
Definition ending_of {A} (r : res A) : ending := match r with Ok _ => Returns | Panic x => Panics x | Fuel => Starves end.
Section Moves.
Variable W : Type.
Variable R : ending -> W -> W -> Prop.
Hypothesis R_any : forall k w, R k w w.
Hypothesis R_trans : forall k a b c, R Returns a b -> R k b c -> R k a c.
Definition moves (f : wfn W) : Prop := forall w c, R (ending_of (snd (f w c))) w (fst (f w c)).
Definition tmoves (t : wtrans W) : Prop := forall n c w l, R (ending_of (snd (t n c w l))) w (fst (t n c w l)).
Definition tmoves_at (n : nat) (t : wtrans W) : Prop := forall c w l, R (ending_of (snd (t n c w l))) w (fst (t n c w l)).
Lemma moves_light cls f : moves f -> moves (w_light cls f).
Proof. intros H w c. specialize (H w c). unfold w_light. destruct (f w c) as [w1 [[o e]|x|]]; auto. Qed.
Definition cres_end (r : cres) : ending := match r with CReturn r => ending_of r | _ => Returns end.
Definition pres_end (r : pres) : ending := match r with PReturn r => ending_of r | _ => Returns end.
Definition scan_end (r : scan) : ending := match r with SBad x => Panics x | SFuel => Starves | _ => Returns end.
Lemma moves_children ex sv ps : Forall moves ps -> forall w o num,
  R (cres_end (snd (w_children ex sv ps w o num))) w (fst (w_children ex sv ps w o num)).
Proof.
  induction 1 as [|p ps H F IH]; intros w o num; cbn [w_children]; [apply R_any|].
  specialize (H w o). destruct (p w o) as [w1 [[o1 e]|x|]]; cbn [fst snd ending_of] in *; auto. cbv zeta.
  destruct (c_st (fix_status o1 e)); try (destruct ex); auto; eapply R_trans; eauto.
Qed.
Lemma moves_parent q ex fn bottom ps : Forall moves ps -> forall fuel w o count,
  R (pres_end (snd (w_parent fuel q ex fn bottom ps w o count))) w (fst (w_parent fuel q ex fn bottom ps w o count)).
Proof.
  intros F. induction fuel as [|fuel IH]; intros w o count; cbn [w_parent]; destruct (more q count); try apply R_any.
  pose proof (moves_children ex o ps F w o 0%nat) as C. destruct (w_children ex o ps w o 0) as [w1 [r|c|o1 num]]; cbn [fst snd cres_end] in C; auto.
  destruct (ex && (0 <? length ps)%nat && (num =? 0)%nat); auto.
  destruct (call_fn fn (Z.of_nat num) bottom (set_qty o1 count)) as [[o2 err]|x|].
  - destruct (c_st o2); auto. eapply R_trans; eauto.
  - eapply R_trans; [exact C|apply R_any].
  - eapply R_trans; [exact C|apply R_any].
Qed.
Lemma moves_run_trans n c ts : Forall (tmoves_at n) ts -> forall w l,
  R (ending_of (snd (w_run_trans n c ts w l))) w (fst (w_run_trans n c ts w l)).
Proof.
  induction 1 as [|t ts H F IH]; intros w l; cbn [w_run_trans]; [apply R_any|]. specialize (H c w l).
  destruct (t n c w l) as [w1 [[e|r]|x|]]; cbn [fst snd ending_of] in *; auto. eapply R_trans; eauto.
Qed.
Lemma moves_base cls fn props ps tr n : Forall moves ps -> (forall ts, tr = Some ts -> Forall (tmoves_at n) ts) ->
  moves (w_base cls fn props ps tr n).
Proof.
  intros F T w c. unfold w_base. cbv zeta.
  pose proof (moves_parent (f_qty (flags_of props)) (f_ex (flags_of props)) fn (length (c_stack (set_cls c cls))) ps F n w (set_st (set_cls c cls) Matched) 0%nat) as P.
  destruct (w_parent n _ _ _ _ _ _ _ _) as [w1 [r|o count]]; cbn [fst snd pres_end] in P; auto.
  destruct (c_st (after_loop (flags_of props) o count)); auto.
  destruct (call_fn fn (-1) _ _) as [[o2 err]|x|]; try (eapply R_trans; [exact P|apply R_any]). destruct (c_st o2); auto. destruct tr as [ts|]; auto.
  destruct (_ <? _)%nat; [eapply R_trans; [exact P|apply R_any]|].
  pose proof (moves_run_trans n (set_cls c cls) ts (T ts eq_refl) w1 (skipn (length (c_stack (set_cls c cls))) (c_stack (if f_rew (flags_of props) then set_cls c cls else o2)))) as K.
  destruct (w_run_trans n _ ts w1 _) as [w2 [[e|r]|x|]]; eapply R_trans; eauto.
Qed.
Lemma moves_behind neg p c : moves p -> forall k i w, R (ending_of (snd (w_behind_loop neg p w c i k))) w (fst (w_behind_loop neg p w c i k)).
Proof.
  intros H. induction k as [|k IH]; intros i w; cbn [w_behind_loop]; [apply R_any|]. cbv zeta.
  destruct (Z.of_nat (c_pos c) - i <? 0); [apply IH; auto|].
  specialize (H w (set_pos c (Z.to_nat (Z.of_nat (c_pos c) - i)))). destruct (p w _) as [w1 [[o [e|]]|x|]]; cbn [fst snd ending_of] in *; auto.
  destruct (c_st o); try (eapply R_trans; eauto; fail). destruct neg; auto.
Qed.
Section Production.
Variable n : nat.
Lemma moves_rules rs astc asts p : Forall (fun r => moves (r n)) rs -> forall w,
  R (scan_end (snd (w_try_rules n rs astc w asts p))) w (fst (w_try_rules n rs astc w asts p)).
Proof.
  induction 1 as [|r rs H F IH]; intros w; cbn [w_try_rules]; [apply R_any|].
  specialize (H w (set_pos astc p)). destruct (r n w _) as [w1 [[o [e|]]|x|]]; cbn [fst snd ending_of] in *; auto.
  destruct (c_st o); try (eapply R_trans; eauto; fail). destruct (_ && _); auto. eapply R_trans; [exact H|apply R_any].
Qed.
Lemma moves_positions pr astc asts : Forall (fun r => moves (r n)) (wpr_rules pr) -> forall k i w,
  R (scan_end (snd (w_try_positions n pr astc w asts i k))) w (fst (w_try_positions n pr astc w asts i k)).
Proof.
  intros H. induction k as [|k IH]; intros i w; cbn [w_try_positions]; [apply R_any|]. cbv zeta.
  pose proof (moves_rules _ astc asts (if wpr_rtol pr then (length asts - i)%nat else i) H w) as K.
  destruct (w_try_rules n _ astc w asts _) as [w1 r]. cbn [fst snd] in K. destruct r; auto. eapply R_trans; eauto.
Qed.
Lemma moves_precedences prs tag asts : Forall (fun pr => Forall (fun r => moves (r n)) (wpr_rules pr)) prs -> forall w,
  R (scan_end (snd (w_try_precedences n prs tag w asts))) w (fst (w_try_precedences n prs tag w asts)).
Proof.
  induction 1 as [|p prs H F IH]; intros w; cbn [w_try_precedences]; [apply R_any|]. cbv zeta.
  pose proof (moves_positions _ (new_object_ctx (ast_slice asts) tag) asts H (S (length asts)) 0%nat w) as K.
  destruct (w_try_positions n p _ w asts 0 _) as [w1 r]. cbn [fst snd] in K. destruct r; auto. eapply R_trans; eauto.
Qed.
Lemma moves_production prs check : Forall (fun pr => Forall (fun r => moves (r n)) (wpr_rules pr)) prs -> moves (check n) ->
  tmoves_at n (w_ProductionRule prs check).
Proof.
  intros H C c. unfold w_ProductionRule. generalize n at 2 4. intros k. induction k as [|k IH]; intros w asts; cbn [w_production]; [apply R_any|]. cbv zeta.
  pose proof (moves_precedences _ (c_tag c) asts H w) as K. destruct (w_try_precedences n prs (c_tag c) w asts) as [w1 r]. cbn [fst snd] in K.
  destruct r as [e|x| |a|]; auto.
  - specialize (C w1 (new_object_ctx (ast_slice a) (c_tag c))). destruct (check n w1 _) as [w2 [[o [e|]]|x|]]; cbn [fst snd ending_of scan_end] in *;
      try (eapply R_trans; eauto; fail).
    destruct (c_st o); [eapply R_trans; eauto|eapply R_trans; [exact K|]; eapply R_trans; eauto..].
  - specialize (C w1 (new_object_ctx (ast_slice asts) (c_tag c))). destruct (check n w1 _) as [w2 [[o [e|]]|x|]]; cbn [fst snd ending_of scan_end] in *;
      try (eapply R_trans; eauto; fail).
    destruct (c_st o); eapply R_trans; eauto.
Qed.
End Production.
End Moves.

