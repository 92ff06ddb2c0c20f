From Verif Require Export S_Traverse.
From Coq Require Export Lia.

Lemma tsteps_app root C l C1 l2 C2 : tsteps root C l C1 -> tsteps root C1 l2 C2 -> tsteps root C (l ++ l2) C2.
Proof. induction 1; simpl; auto. intros. econstructor; eauto. Qed.
Lemma tsteps_one root C e C1 : tstep root C e C1 -> tsteps root C [e] C1.
Proof. intros. econstructor; eauto. constructor. Qed.

Section Log.
Context {S : Type}.
Variable there : S -> ast -> S * (ast * waymode * option gerr).
Variable back : S -> ast -> S * tres.
Variable cherr : S -> ast -> ast -> option value -> option gerr -> S.
Notation lt := (log_there there).
Notation lb := (log_back back).
Notation le := (log_err cherr).

Definition logs (p p' : S * list tev) (P : list tev -> Prop) : Prop := exists evs, snd p' = snd p ++ evs /\ P evs.
Definition child_ok (tr : S * list tev -> ast -> res ((S * list tev) * tres)) : Prop := forall p a p' r,
  tr p a = Ok (p', r) -> logs p p' (fun evs => forall root K C, expects root K a -> deliver K r C -> tsteps root (Run K) evs C).

Lemma back_logs p s : logs p (fst (lb p s)) (fun evs => forall root K f C, complete f s -> deliver K (snd (lb p s)) C -> tsteps root (Run (f :: K)) evs C).
Proof.
  unfold log_back. destruct (back (fst p) s) as [st r]. simpl. exists [EvBack s r]. split; auto. intros. apply tsteps_one. econstructor; eauto.
Qed.
Lemma logs_trans p p1 p2 P Q (R : list tev -> Prop) : logs p p1 P -> logs p1 p2 Q -> (forall a b, P a -> Q b -> R (a ++ b)) -> logs p p2 R.
Proof. intros (e1 & E1 & H1) (e2 & E2 & H2) H. exists (e1 ++ e2). split; [rewrite E2, E1, app_assoc; auto|auto]. Qed.

Lemma fail_logs p s a r : logs p (le p s a (t_thrown r) (t_err r)) (fun evs => forall root K f C, t_failed r = true -> f_node f = s -> blamed f r a ->
  deliver K (t_fail s (t_thrown r) (t_err r)) C -> tsteps root (Unwind (f :: K) r) evs C).
Proof.
  exists [EvErr s a (t_thrown r) (t_err r)]. split; auto. intros root K f C Hf <- Hb Hd. apply tsteps_one. econstructor; eauto.
Qed.

Lemma kids_log tr : child_ok tr -> forall todo p s done p' r, a_ty s = TListOfAst -> kids lb le tr p s done todo = Ok (p', r) ->
  logs p p' (fun evs => forall root K C, deliver K r C -> tsteps root (Run (FSeq s done todo :: K)) evs C).
Proof.
  intros H. induction todo as [|a todo IH]; intros p s done p' r Ht E; simpl in E.
  - pose proof (back_logs p (put_val s (VAsts done))) as (evs & E1 & E2). destruct (lb p (put_val s (VAsts done))) as [p1 r1]. inversion E; subst.
    exists evs. split; auto. intros root K C D. apply E2; auto. constructor. auto.
  - destruct (tr p a) as [[p1 r1]|w|] eqn:E1; try discriminate. pose proof (H _ _ _ _ E1) as L1. destruct (t_failed r1) eqn:F.
    + inversion E; subst. eapply logs_trans; [exact L1|apply fail_logs|]. cbv beta. intros e1 e2 H1 H2 root K C D.
      eapply tsteps_app; [apply (H1 root (FSeq s done (a :: todo) :: K)); [constructor|apply dl_fail; auto]|].
      apply H2; auto. apply bl_list. auto.
    + eapply logs_trans; [exact L1|apply (IH _ _ _ _ _ Ht E)|]. cbv beta. intros e1 e2 H1 H2 root K C D.
      eapply tsteps_app; [apply (H1 root (FSeq s done (a :: todo) :: K)); [constructor|apply dl_ok; [auto|constructor]]|]. auto.
Qed.
Lemma cons_log tr : child_ok tr -> forall p s car cdr p' r, a_ty s = TAstCons -> cons_part lb le tr p s car cdr = Ok (p', r) ->
  logs p p' (fun evs => forall root K C, deliver K r C -> tsteps root (Run (FSeq s [] [car; cdr] :: K)) evs C).
Proof.
  intros H p s car cdr p' r Ht E. unfold cons_part in E. destruct (tr p car) as [[p1 r1]|w|] eqn:E1; try discriminate.
  pose proof (H _ _ _ _ E1) as L1. destruct (t_failed r1) eqn:F.
  - inversion E; subst. eapply logs_trans; [exact L1|apply fail_logs|]. cbv beta. intros e1 e2 H1 H2 root K C D.
    eapply tsteps_app; [apply (H1 root (FSeq s [] [car; cdr] :: K)); [constructor|apply dl_fail; auto]|].
    apply H2; auto. apply bl_cons. auto.
  - destruct (tr p1 cdr) as [[p2 r2]|w|] eqn:E2; try discriminate. pose proof (H _ _ _ _ E2) as L2. destruct (t_failed r2) eqn:F2.
    + inversion E; subst. pose proof (fail_logs p2 s (t_ast r2) r2) as L3. destruct L1 as (e1 & X1 & H1), L2 as (e2 & X2 & H2), L3 as (e3 & X3 & H3).
      exists (e1 ++ e2 ++ e3). split; [rewrite X3, X2, X1, !app_assoc; auto|]. intros root K C D.
      eapply tsteps_app; [apply (H1 root (FSeq s [] [car; cdr] :: K)); [constructor|apply dl_ok; [auto|constructor]]|].
      eapply tsteps_app; [apply (H2 root (FSeq s ([] ++ [t_ast r1]) [cdr] :: K)); [constructor|apply dl_fail; auto]|].
      apply H3; auto. apply bl_cons. auto.
    + pose proof (back_logs p2 (put_val s (VCons (t_ast r1) (t_ast r2)))) as L3. destruct (lb p2 (put_val s (VCons (t_ast r1) (t_ast r2)))) as [p3 r3]. inversion E; subst.
      destruct L1 as (e1 & X1 & H1), L2 as (e2 & X2 & H2), L3 as (e3 & X3 & H3).
      exists (e1 ++ e2 ++ e3). split; [simpl in X3; rewrite X3, X2, X1, !app_assoc; auto|]. intros root K C D.
      eapply tsteps_app; [apply (H1 root (FSeq s [] [car; cdr] :: K)); [constructor|apply dl_ok; [auto|constructor]]|].
      eapply tsteps_app; [apply (H2 root (FSeq s ([] ++ [t_ast r1]) [cdr] :: K)); [constructor|apply dl_ok; [auto|constructor]]|].
      apply H3; auto. apply c_cons. auto.
Qed.
Lemma last_log tr : child_ok tr -> forall m p s orig i slot p' r, (orig <> [] -> slot <> []) -> last_loop lb le tr m p s orig i slot = Ok (p', r) ->
  logs p p' (fun evs => forall root K C, deliver K r C -> tsteps root (Run (FJump s orig i slot :: K)) evs C).
Proof.
  intros H. induction m as [|m IH]; intros p s orig i slot p' r Hs E; simpl in E; [discriminate|].
  destruct (Z.ltb_spec i (Z.of_nat (length orig))) as [Hi|Hi].
  - destruct (Z.ltb_spec i 0) as [|H0]; [discriminate|]. destruct (nth_error orig (Z.to_nat i)) as [a|] eqn:En; [|discriminate].
    assert (W : wants (FJump s orig i slot) a) by (constructor; auto).
    destruct (tr p a) as [[p1 r1]|w|] eqn:E1; try discriminate. pose proof (H _ _ _ _ E1) as L1. destruct (t_failed r1) eqn:F.
    + inversion E; subst. eapply logs_trans; [exact L1|apply fail_logs|]. cbv beta. intros e1 e2 H1 H2 root K C D.
      eapply tsteps_app; [apply (H1 root (FJump s orig i slot :: K)); [exact W|apply dl_fail; auto]|].
      apply H2; auto. apply bl_jump. auto.
    + assert (No : orig <> []) by (intros ->; destruct (Z.to_nat i); discriminate). specialize (Hs No).
      destruct slot as [|x slot]; [congruence|].
      eapply logs_trans; [exact L1|eapply IH; [|exact E]|].
      * intros _. destruct (t_op r1); discriminate.
      * cbv beta. intros e1 e2 H1 H2 root K C D. eapply tsteps_app; [apply (H1 root (FJump s orig i (x :: slot) :: K)); [exact W|apply dl_ok; [auto|]]|apply H2; exact D].
        destruct (t_op r1) eqn:Eo.
        -- replace (i + t_pc r1 + 1) with (i + 1 + t_pc r1) by lia. apply ad_nop. auto.
        -- replace (Z.of_nat (length orig) - 1 + t_pc r1 + 1) with (Z.of_nat (length orig) + t_pc r1) by lia. apply ad_break. auto.
        -- replace (-1 + t_pc r1 + 1) with (0 + t_pc r1) by lia. apply ad_continue. auto.
        -- replace (i + t_pc r1 + 1) with (i + 1 + t_pc r1) by lia. eapply ad_other. eauto.
  - pose proof (back_logs p (put_val s (VAsts slot))) as (evs & E1 & E2). destruct (lb p (put_val s (VAsts slot))) as [p1 r1]. inversion E; subst.
    exists evs. split; auto. intros root K C D. apply E2; auto. constructor. auto.
Qed.
Lemma traverse_log n : child_ok (traverse lt lb le n).
Proof.
  induction n as [|n IH]; intros p a p' r E; simpl in E; [discriminate|].
  unfold log_there in E at 1. destruct (there (fst p) a) as [st [[s m] err]]. set (p1 := (st, snd p ++ [EvThere a s m err])) in *.
  assert (B : forall P : list tev -> Prop, logs p1 p' P -> forall Q : list tev -> Prop, (forall evs, P evs -> Q (EvThere a s m err :: evs)) -> logs p p' Q).
  { intros P (evs & X & HP) Q HQ. exists (EvThere a s m err :: evs). split; auto. rewrite X. simpl. rewrite <- app_assoc. auto. }
  destruct err as [e|].
  { inversion E; subst. exists [EvThere a s m (Some e)]. split; auto. intros root K C X D. apply tsteps_one. econstructor; eauto. }
  assert (Open : forall f P, opens s m f -> logs p1 p' P ->
     (forall evs, P evs -> forall root K C, deliver K r C -> tsteps root (Run (f :: K)) evs C) ->
     logs p p' (fun evs => forall root K C, expects root K a -> deliver K r C -> tsteps root (Run K) evs C)).
  { intros f P Ho L HP. eapply B; [exact L|]. intros evs X root K C Ex D. econstructor; [eapply ts_there; eauto|]. eapply HP; eauto. }
  assert (Lf : forall f, opens s m f -> complete f s -> Ok (lb p1 s) = Ok (p', r) ->
     logs p p' (fun evs => forall root K C, expects root K a -> deliver K r C -> tsteps root (Run K) evs C)).
  { intros f Ho Hc X. pose proof (back_logs p1 s) as L. destruct (lb p1 s) as [p2 r2]. inversion X; subst. eapply Open; [exact Ho|exact L|].
    cbv beta. intros evs Y root K C D. eapply Y; eauto. }
  assert (Leaf : m <> MLazy -> a_ty s <> TAstCons -> a_ty s <> TListOfAst -> Ok (lb p1 s) = Ok (p', r) ->
     logs p p' (fun evs => forall root K C, expects root K a -> deliver K r C -> tsteps root (Run K) evs C)).
  { intros. eapply Lf; [apply op_leaf; auto|constructor|auto]. }
  assert (Main : m <> MLazy -> match a_ty s with
              | TAstCons => match a_val s with VCons car cdr => cons_part lb le (traverse lt lb le n) p1 s car cdr | _ => Panic "undefined: unsafe cast" end
              | TListOfAst => match a_val s with
                  | VAsts orig => match m with
                      | MLast => last_loop lb le (traverse lt lb le n) n p1 s orig 0 (match orig with [] => [] | _ => [zero_ast] end)
                      | _ => kids lb le (traverse lt lb le n) p1 s [] orig end
                  | _ => Panic "undefined: unsafe cast" end
              | _ => Ok (lb p1 s) end = Ok (p', r) ->
     logs p p' (fun evs => forall root K C, expects root K a -> deliver K r C -> tsteps root (Run K) evs C)).
  { intros Hm X. destruct (a_ty s) eqn:Ht; try (apply Leaf; [auto|congruence|congruence|exact X]).
    - destruct (a_val s) eqn:Hv; try discriminate. eapply Open; [apply op_cons; eauto|eapply cons_log; [exact IH|exact Ht|exact X]|]. auto.
    - destruct (a_val s) eqn:Hv; try discriminate. assert (Ks : m <> MLast -> kids lb le (traverse lt lb le n) p1 s [] l = Ok (p', r) -> 
        logs p p' (fun evs => forall root K C, expects root K a -> deliver K r C -> tsteps root (Run K) evs C)).
      { intros Hl Y. eapply Open; [apply op_list; eauto|eapply kids_log; [exact IH|exact Ht|exact Y]|]. auto. }
      destruct m; try (apply Ks; [discriminate|exact X]). eapply Open; [apply op_last; eauto|eapply last_log; [exact IH| |exact X]|]; auto.
      destruct l; congruence. }
  destruct m; try (apply Main; [discriminate|exact E]).
  eapply Lf; [apply op_lazy|constructor|exact E].
Qed.
End Log.

(** The logging does not change the traversal. *)
Section Same.
Context {S : Type}.
Variable there : S -> ast -> S * (ast * waymode * option gerr).
Variable back : S -> ast -> S * tres.
Variable cherr : S -> ast -> ast -> option value -> option gerr -> S.
Definition strips (x : res ((S * list tev) * tres)) : res (S * tres) :=
  match x with Ok (p, r) => Ok (fst p, r) | Panic w => Panic w | Fuel => Fuel end.
Lemma strip_back p s : strips (Ok (log_back back p s)) = Ok (back (fst p) s).
Proof. unfold log_back. destruct (back (fst p) s). reflexivity. Qed.
Lemma strip_kids tr tr' : (forall p a, strips (tr p a) = tr' (fst p) a) -> forall todo p s done,
  strips (kids (log_back back) (log_err cherr) tr p s done todo) = kids back cherr tr' (fst p) s done todo.
Proof.
  intros H. induction todo as [|a todo IH]; intros p s done; simpl. { apply strip_back. }
  rewrite <- H. destruct (tr p a) as [[p1 r]|w|]; simpl; auto. destruct (t_failed r); auto.
Qed.
Lemma strip_cons tr tr' : (forall p a, strips (tr p a) = tr' (fst p) a) -> forall p s car cdr,
  strips (cons_part (log_back back) (log_err cherr) tr p s car cdr) = cons_part back cherr tr' (fst p) s car cdr.
Proof.
  intros H p s car cdr. unfold cons_part. rewrite <- H. destruct (tr p car) as [[p1 r]|w|]; simpl; auto. destruct (t_failed r); auto.
  rewrite <- H. destruct (tr p1 cdr) as [[p2 r2]|w|]; simpl; auto. destruct (t_failed r2); auto. apply strip_back.
Qed.
Lemma strip_last tr tr' : (forall p a, strips (tr p a) = tr' (fst p) a) -> forall m p s orig i slot,
  strips (last_loop (log_back back) (log_err cherr) tr m p s orig i slot) = last_loop back cherr tr' m (fst p) s orig i slot.
Proof.
  intros H. induction m as [|m IH]; intros p s orig i slot; cbn [last_loop]; auto.
  destruct (i <? Z.of_nat (length orig)); [|apply strip_back]. destruct (i <? 0); auto. destruct (nth_error orig (Z.to_nat i)); auto.
  rewrite <- H. destruct (tr p a) as [[p1 r]|w|]; simpl; auto. destruct (t_failed r); auto.
Qed.
Lemma strip_traverse n : forall p a, strips (traverse (log_there there) (log_back back) (log_err cherr) n p a) = traverse there back cherr n (fst p) a.
Proof.
  induction n as [|n IH]; intros p a; cbn [traverse]; auto. unfold log_there at 1. destruct (there (fst p) a) as [st [[s m] err]].
  destruct err; auto.
  assert (M : strips match a_ty s with
              | TAstCons => match a_val s with VCons car cdr => cons_part (log_back back) (log_err cherr) (traverse (log_there there) (log_back back) (log_err cherr) n) (st, snd p ++ [EvThere a s m None]) s car cdr | _ => Panic "undefined: unsafe cast" end
              | TListOfAst => match a_val s with
                  | VAsts orig => match m with
                      | MLast => last_loop (log_back back) (log_err cherr) (traverse (log_there there) (log_back back) (log_err cherr) n) n (st, snd p ++ [EvThere a s m None]) s orig 0 (match orig with [] => [] | _ => [zero_ast] end)
                      | _ => kids (log_back back) (log_err cherr) (traverse (log_there there) (log_back back) (log_err cherr) n) (st, snd p ++ [EvThere a s m None]) s [] orig end
                  | _ => Panic "undefined: unsafe cast" end
              | _ => Ok (log_back back (st, snd p ++ [EvThere a s m None]) s) end =
     match a_ty s with
              | TAstCons => match a_val s with VCons car cdr => cons_part back cherr (traverse there back cherr n) st s car cdr | _ => Panic "undefined: unsafe cast" end
              | TListOfAst => match a_val s with
                  | VAsts orig => match m with
                      | MLast => last_loop back cherr (traverse there back cherr n) n st s orig 0 (match orig with [] => [] | _ => [zero_ast] end)
                      | _ => kids back cherr (traverse there back cherr n) st s [] orig end
                  | _ => Panic "undefined: unsafe cast" end
              | _ => Ok (back st s) end).
  { destruct (a_ty s); try apply strip_back.
    - destruct (a_val s); auto. apply (strip_cons _ _ IH).
    - destruct (a_val s); auto. destruct m; try apply (strip_kids _ _ IH). apply (strip_last _ _ IH). }
  destruct m; try exact M. apply strip_back.
Qed.
End Same.

(** Fuel. *)
Section Fuel.
Context {S : Type}.
Variable there : S -> ast -> S * (ast * waymode * option gerr).
Variable back : S -> ast -> S * tres.
Variable cherr : S -> ast -> ast -> option value -> option gerr -> S.
Notation trav := (traverse there back cherr).
Lemma kids_mono tr tr' : (forall st a x, tr st a = x -> x <> Fuel -> tr' st a = x) -> forall todo st s done x,
  kids back cherr tr st s done todo = x -> x <> Fuel -> kids back cherr tr' st s done todo = x.
Proof.
  intros H. induction todo as [|a todo IH]; intros st s done x E N; cbn [kids] in *; auto.
  destruct (tr st a) as [[st1 r]|w|] eqn:T; try (rewrite (H _ _ _ T) by discriminate); [|exact E|congruence].
  destruct (t_failed r); auto.
Qed.
Lemma cons_mono tr tr' : (forall st a x, tr st a = x -> x <> Fuel -> tr' st a = x) -> forall st s car cdr x,
  cons_part back cherr tr st s car cdr = x -> x <> Fuel -> cons_part back cherr tr' st s car cdr = x.
Proof.
  intros H st s car cdr x E N. unfold cons_part in *.
  destruct (tr st car) as [[st1 r]|w|] eqn:T; try (rewrite (H _ _ _ T) by discriminate); [|exact E|congruence].
  destruct (t_failed r); auto.
  destruct (tr st1 cdr) as [[st2 r2]|w|] eqn:T2; try (rewrite (H _ _ _ T2) by discriminate); [|exact E|congruence]. auto.
Qed.
Lemma last_mono tr tr' : (forall st a x, tr st a = x -> x <> Fuel -> tr' st a = x) -> forall m st s orig i slot x,
  last_loop back cherr tr m st s orig i slot = x -> x <> Fuel -> last_loop back cherr tr' (Datatypes.S m) st s orig i slot = x.
Proof.
  intros H. induction m as [|m IH]; intros st s orig i slot x E N; [cbn in E; congruence|].
  cbn [last_loop] in E. cbn [last_loop]. destruct (i <? Z.of_nat (length orig)); auto. destruct (i <? 0); auto.
  destruct (nth_error orig (Z.to_nat i)); auto.
  destruct (tr st a) as [[st1 r]|w|] eqn:T; try (rewrite (H _ _ _ T) by discriminate); [|exact E|congruence].
  destruct (t_failed r); auto. exact (IH _ _ _ _ _ _ E N).
Qed.
Lemma traverse_mono n : forall st a x, trav n st a = x -> x <> Fuel -> trav (Datatypes.S n) st a = x.
Proof.
  induction n as [|n IH]; intros st a x E N; [cbn in E; congruence|].
  remember (Datatypes.S n) as m eqn:Em. cbn [traverse]. rewrite Em in E. cbn [traverse] in E.
  destruct (there st a) as [st1 [[s md] err]]. destruct err; auto.
  destruct md; auto; (destruct (a_ty s); auto; destruct (a_val s); auto; subst m;
    [eapply cons_mono; eauto| first [eapply last_mono; eauto|eapply kids_mono; eauto]]).
Qed.
Lemma traverse_mono_le n m st a x : (n <= m)%nat -> trav n st a = x -> x <> Fuel -> trav m st a = x.
Proof. induction 1; auto. intros. apply traverse_mono; auto. Qed.
End Fuel.

(** Unwinding. *)
Lemma unwinds root K : forall r evs r', t_failed r = true -> tsteps root (Unwind K r) evs (Finished r') ->
  Forall2 (fun f e => exists c, e = EvErr (f_node f) c (t_thrown r) (t_err r)) K evs /\ t_thrown r' = t_thrown r /\ t_err r' = t_err r.
Proof.
  induction K as [|f K IH]; intros r evs r' F H; inversion H as [|C e C1 l C2 St Ss]; subst. { inversion St. }
  inversion St as [| | |K0 f0 r0 c C0 B D]; subst.
  assert (F' : t_failed (t_fail (f_node f) (t_thrown r) (t_err r)) = true) by (unfold t_failed in *; cbn; auto).
  inversion D; subst.
  - inversion Ss as [|X1 X2 X3 X4 X5 St2 Ss2]; subst; [|inversion St2]. repeat split; auto. constructor; eauto.
  - destruct (IH _ _ _ F' Ss) as (H1 & H2 & H3). repeat split; auto. constructor; eauto.
  - congruence.
Qed.

(** No panic. *)
Section NoPanic.
Context {S : Type}.
Variable there : S -> ast -> S * (ast * waymode * option gerr).
Variable back : S -> ast -> S * tres.
Variable cherr : S -> ast -> ast -> option value -> option gerr -> S.
Notation trav := (traverse there back cherr).
Hypothesis there_shaped : forall st a, shaped (fst (fst (snd (there st a)))).
Hypothesis back_pc : forall st a, 0 <= t_pc (snd (back st a)).
Definition safe (x : res (S * tres)) : Prop := match x with Ok (_, r) => 0 <= t_pc r | Panic _ => False | Fuel => True end.
Lemma safe_back st s : safe (Ok (back st s)).
Proof. pose proof (back_pc st s). simpl. destruct (back st s). auto. Qed.
Lemma safe_kids tr : (forall st a, safe (tr st a)) -> forall todo st s done, safe (kids back cherr tr st s done todo).
Proof.
  intros H. induction todo as [|a todo IH]; intros st s done; cbn [kids]; [apply safe_back|].
  specialize (H st a). destruct (tr st a) as [[st1 r]|w|]; auto. destruct (t_failed r); auto. simpl. lia.
Qed.
Lemma safe_cons tr : (forall st a, safe (tr st a)) -> forall st s car cdr, safe (cons_part back cherr tr st s car cdr).
Proof.
  intros H st s car cdr. unfold cons_part. pose proof (H st car) as H1. destruct (tr st car) as [[st1 r]|w|]; auto.
  destruct (t_failed r); [simpl; lia|]. pose proof (H st1 cdr) as H2. destruct (tr st1 cdr) as [[st2 r2]|w|]; auto.
  destruct (t_failed r2); [simpl; lia|]. apply safe_back.
Qed.
Lemma safe_last tr : (forall st a, safe (tr st a)) -> forall m st s orig i slot, 0 <= i -> safe (last_loop back cherr tr m st s orig i slot).
Proof.
  intros H. induction m as [|m IH]; intros st s orig i slot Hi; cbn [last_loop]; [exact I|].
  destruct (Z.ltb_spec i (Z.of_nat (length orig))) as [L|L]; [|apply safe_back].
  destruct (Z.ltb_spec i 0); [lia|]. destruct (nth_error orig (Z.to_nat i)) as [a|] eqn:E.
  2:{ apply nth_error_None in E. lia. }
  specialize (H st a). destruct (tr st a) as [[st1 r]|w|]; auto. destruct (t_failed r); [simpl; lia|]. simpl in H.
  apply IH. destruct (t_op r); lia.
Qed.
Lemma safe_traverse n : forall st a, safe (trav n st a).
Proof.
  induction n as [|n IH]; intros st a; cbn [traverse]; [exact I|]. pose proof (there_shaped st a) as [T1 T2].
  destruct (there st a) as [st1 [[s m] err]]. simpl in T1, T2. destruct err; [simpl; lia|].
  destruct m; try apply safe_back; (destruct (a_ty s) eqn:Ht; try apply safe_back;
    [destruct T1 as (x & y & ->); auto; apply safe_cons; auto|destruct T2 as (l & ->); auto; first [apply safe_last; [auto|lia]|apply safe_kids; auto]]).
Qed.
End NoPanic.

(** Callbacks that change nothing. *)
Section Identity.
Context {S : Type}.
Variable f g : S -> ast -> S.
Variable cherr : S -> ast -> ast -> option value -> option gerr -> S.
Definition id_there (st : S) (a : ast) : S * (ast * waymode * option gerr) := (f st a, (a, MNone, None)).
Definition id_back (st : S) (a : ast) : S * tres := (g st a, mkT a 0 TNop None None).
Definition observe (st : S) (v : visit) : S := match v with There a => f st a | Back a => g st a end.
Notation trav := (traverse id_there id_back cherr).

Lemma put_val_id s : put_val s (a_val s) = s.
Proof. destruct s. reflexivity. Qed.
Lemma visits_ind' (P : ast -> list visit -> Prop) :
  (forall s a b va vb, a_ty s = TAstCons -> a_val s = VCons a b -> P a va -> P b vb -> P s ([There s] ++ va ++ vb ++ [Back s])) ->
  (forall s l vs, a_ty s = TListOfAst -> a_val s = VAsts l -> Forall2 P l vs -> P s ([There s] ++ concat vs ++ [Back s])) ->
  (forall s, a_ty s <> TAstCons -> a_ty s <> TListOfAst -> P s [There s; Back s]) ->
  forall s v, visits s v -> P s v.
Proof.
  intros H1 H2 H3. fix IH 3. intros s v [s' a b va vb T V Ha Hb|s' l vs T V F|s' N1 N2].
  - apply (H1 s' a b); auto.
  - apply (H2 s' l); auto. clear T V. induction F; constructor; auto.
  - apply H3; auto.
Qed.
Lemma tagged_ind' (P : ast -> Prop) :
  (forall s a b, a_ty s = TAstCons -> a_val s = VCons a b -> P a -> P b -> P s) ->
  (forall s l, a_ty s = TListOfAst -> a_val s = VAsts l -> Forall P l -> P s) ->
  (forall s, a_ty s <> TAstCons -> a_ty s <> TListOfAst -> P s) ->
  forall s, tagged s -> P s.
Proof.
  intros H1 H2 H3. fix IH 2. intros s [s' a b T V Ha Hb|s' l T V F|s' N1 N2].
  - apply (H1 s' a b); auto.
  - apply (H2 s' l); auto. clear T V. induction F; constructor; auto.
  - apply H3; auto.
Qed.
Lemma tagged_visits s : tagged s -> exists v, visits s v.
Proof.
  induction 1 as [s a b T V (va & Ha) (vb & Hb)|s l T V F|s N1 N2] using tagged_ind'.
  - eexists. eapply v_cons; eauto.
  - assert (exists vs, Forall2 visits l vs) as [vs Hv]. { clear T V. induction F as [|x l [v Hv] F [vs IH]]; [exists []; constructor|exists (v :: vs); constructor; auto]. }
    eexists. eapply v_list; eauto.
  - eexists. apply v_leaf; auto.
Qed.
Lemma id_kids n s : forall l vs, Forall2 (fun a v => forall st, trav n st a = Ok (fold_left observe v st, mkT a 0 TNop None None)) l vs ->
  forall st done, kids id_back cherr (trav n) st s done l = Ok (id_back (fold_left observe (concat vs) st) (put_val s (VAsts (done ++ l)))).
Proof.
  induction 1 as [|a v l vs H F IH]; intros st done; cbn [kids]. { rewrite app_nil_r. reflexivity. }
  rewrite H. cbn [t_failed t_thrown t_err t_ast]. rewrite IH. simpl concat. rewrite fold_left_app, <- app_assoc. reflexivity.
Qed.
Lemma identity s v : visits s v -> exists n, forall st, trav n st s = Ok (fold_left observe v st, mkT s 0 TNop None None).
Proof.
  induction 1 as [s a b va vb T V (n1 & H1) (n2 & H2)|s l vs T V F|s N1 N2] using visits_ind'.
  - exists (Datatypes.S (n1 + n2)). intros st. cbn [traverse]. unfold id_there at 1. rewrite T, V. unfold cons_part.
    rewrite (traverse_mono_le _ _ _ n1 (n1 + n2) _ _ _ ltac:(lia) (H1 _)) by discriminate. cbn [t_failed t_thrown t_err t_ast].
    rewrite (traverse_mono_le _ _ _ n2 (n1 + n2) _ _ _ ltac:(lia) (H2 _)) by discriminate. cbn [t_failed t_thrown t_err t_ast].
    unfold id_back. rewrite <- V, put_val_id, !fold_left_app. reflexivity.
  - assert (exists n, Forall2 (fun a v => forall st, trav n st a = Ok (fold_left observe v st, mkT a 0 TNop None None)) l vs) as [n Hn].
    { clear T V. induction F as [|a v l vs [n1 H1] F [n2 IH]]; [exists 0%nat; constructor|]. exists (n1 + n2)%nat. constructor.
      - intros st. apply (traverse_mono_le _ _ _ n1); [lia|auto|discriminate].
      - clear F. induction IH as [|a' v' l' vs' H IH IH2]; constructor; auto. intros st. apply (traverse_mono_le _ _ _ n2); [lia|auto|discriminate]. }
    exists (Datatypes.S n). intros st. cbn [traverse]. unfold id_there at 1. rewrite T, V. rewrite (id_kids n s l vs Hn).
    unfold id_back. simpl ([] ++ l). rewrite <- V, put_val_id, !fold_left_app. reflexivity.
  - exists 1%nat. intros st. cbn [traverse]. unfold id_there at 1. destruct (a_ty s) eqn:T; try congruence; reflexivity.
Qed.
End Identity.
