(** How deep parser calls nest (C80). *)
From Verif Require Export S_Depth L_Rec L_CountFormula.

(** ** The same answers *)
Definition any_frames (_ : frames) : Prop := True.
Notation dsim := (L_Exact.esim frames any_frames no_panic).
Lemma dsim_eq f f' : dsim f f' <-> forall w c, snd (f w c) = f' c.
Proof.
  split; intros H w c.
  - destruct (H w c I) as [(x & [] & _)|[E _]]; exact E.
  - intros _. right. split; [apply H|exact I].
Qed.
Lemma dsim_stack f f' : dsim f f' -> dsim (on_stack f) f'.
Proof. rewrite !dsim_eq. intros H w c. unfold on_stack. rewrite <- (H (S (fst w), Nat.max (snd w) (S (fst w))) c). destruct (f _ c). reflexivity. Qed.
Lemma flat_tr_sim n c ts : forall w l, w_run_trans n c (map flat_tr ts) w l = (w, run_trans n c ts l).
Proof.
  induction ts as [|t ts IH]; intros w l; cbn [map w_run_trans run_trans]; [reflexivity|]. unfold flat_tr at 1.
  destruct (t n c l) as [[e|l1]|x|]; auto.
Qed.
Lemma dsim_base cls fn props ps qs tr n : Forall2 dsim ps qs ->
  dsim (w_base cls fn props ps (option_map (map flat_tr) tr) n) (base_parser cls fn props qs tr n).
Proof.
  intros H. apply esim_base; auto. destruct tr as [ts|]; cbn; [|exact I].
  intros c0 w l _ _. right. rewrite flat_tr_sim. split; [reflexivity|exact I].
Qed.
Lemma ddenote_same e : forall rho rho' n, (forall j, dsim (rho j) (rho' j)) -> dsim (ddenote rho n e) (denote rho' n e).
Proof.
  induction e using pexp_ind'; intros rho rho' nn Hr;
    try (assert (Hcs : Forall2 dsim (map (ddenote rho nn) es) (map (denote rho' nn) es)) by
      (clear -H Hr; induction H; cbn; constructor; auto));
    cbn [ddenote denote]; unfold FlatGroup, Group, First, LookAhead, LookAheadN, Repeat, Trans, Indirect; try apply dsim_stack.
  - apply dsim_eq. reflexivity.
  - apply (dsim_base _ _ _ _ _ None); auto.
  - apply (dsim_base _ _ _ _ _ (Some [GroupingTransform])); auto.
  - apply (dsim_base _ _ _ _ _ None); auto.
  - apply (dsim_base _ _ _ _ _ None); auto.
  - apply (dsim_base _ _ _ _ _ None); auto.
  - intros k c J. unfold look_behind_base. apply esim_behind; [|exact I]. apply dsim_stack. apply (dsim_base _ _ _ _ _ None); auto.
  - apply (dsim_base _ _ _ _ _ None); auto.
  - apply dsim_base. constructor; auto.
  - apply esim_light. auto.
  - apply dsim_base; auto.
Qed.
Lemma drun_env_sim env n : forall j, dsim (drun_env env n j) (run_env env n j).
Proof.
  induction n as [|m IH]; intros j; apply dsim_eq; [reflexivity|].
  intros k' c'. cbn [drun_env run_env]. revert k' c'. apply dsim_eq. apply ddenote_same. exact IH.
Qed.
Lemma drun_sim env n e : dsim (drun env n e) (run env n e).
Proof. apply ddenote_same. apply drun_env_sim. Qed.
Lemma drun_same env n e w c : snd (drun env n e w c) = run env n e c.
Proof. revert w c. apply dsim_eq. apply drun_sim. Qed.

(** ** The memory stays in a preorder *)
Section Order.
Variable R : frames -> frames -> Prop.
Hypothesis R_refl : forall w, R w w.
Hypothesis R_trans : forall a b c, R a b -> R b c -> R a c.
(** From contexts in [P]. *)
Definition keeps (P : ctx -> Prop) (F : wfn frames) : Prop := forall w c, P c -> R w (fst (F w c)).
Definition kids_keep (P : ctx -> Prop) (ex : bool) (Fs : list (wfn frames)) : Prop := forall sv w c num, P c ->
  R w (fst (w_children ex sv Fs w c num)) /\ match snd (w_children ex sv Fs w c num) with CEnd o _ => P o | _ => True end.
Definition keeps_tr (n : nat) (tr : option (list (wtrans frames))) : Prop :=
  match tr with None => True | Some ts => Forall (fun t => forall c w l, R w (fst (t n c w l))) ts end.
Lemma keeps_run_trans n c ts : keeps_tr n (Some ts) -> forall w l, R w (fst (w_run_trans n c ts w l)).
Proof.
  induction 1 as [|t ts H F IH]; intros w l; cbn [w_run_trans]; [apply R_refl|]. specialize (H c w l).
  destruct (t n c w l) as [w1 [[x|l1]|x|]]; cbn [fst] in *; auto. eapply R_trans; [exact H|apply IH].
Qed.
Lemma keeps_flat n ts : keeps_tr n (option_map (map flat_tr) ts).
Proof. destruct ts as [ts|]; cbn; [|exact I]. apply Forall_map. apply Forall_forall. intros t _ c w l. apply R_refl. Qed.
Lemma keeps_parent (P : ctx -> Prop) q ex fn b Fs : (forall o num k o2 err, P o -> call_fn fn num b (set_qty o k) = Ok (o2, err) -> c_st o2 = Matched -> P o2) -> kids_keep P ex Fs ->
  forall fuel w o k, P o -> R w (fst (w_parent fuel q ex fn b Fs w o k)).
Proof.
  intros Hf HK. induction fuel as [|fuel IH]; intros w o k Ho; cbn [w_parent]; destruct (more q k); try apply R_refl.
  destruct (HK o w o 0%nat Ho) as [A B]. destruct (w_children ex o Fs w o 0) as [w1 [r|c|o1 num]]; cbn [fst snd] in *; auto.
  destruct (_ && _); auto. destruct (call_fn fn (Z.of_nat num) b (set_qty o1 k)) as [[o2 err]|x|] eqn:E; auto.
  destruct (c_st o2) eqn:St; auto. eapply R_trans; [exact A|]. apply IH. eapply Hf; eauto.
Qed.
Lemma keeps_base (P : ctx -> Prop) cls fn props Fs tr n :
  (forall o num b k o2 err, P o -> call_fn fn num b (set_qty o k) = Ok (o2, err) -> c_st o2 = Matched -> P o2) -> (forall c cls, P c -> P (set_st (set_cls c cls) Matched)) ->
  kids_keep P (f_ex (flags_of props)) Fs -> keeps_tr n tr -> keeps P (w_base cls fn props Fs tr n).
Proof.
  intros Hf Hs HK HT w c Hc. unfold w_base. cbv zeta. set (b := length (c_stack (set_cls c cls))).
  pose proof (keeps_parent P (f_qty (flags_of props)) _ fn b Fs (fun o num k o2 err A B => Hf o num b k o2 err A B) HK n w _ 0%nat (Hs c cls Hc)) as A.
  destruct (w_parent n _ _ _ _ _ _ _ _) as [w1 [r|o count]]; cbn [fst] in *; auto.
  destruct (c_st (after_loop (flags_of props) o count)); auto.
  destruct (call_fn fn (-1) b _) as [[o2 err]|x|]; auto. destruct (c_st o2); auto.
  destruct tr as [ts|]; auto. destruct (_ <? b)%nat; auto.
  match goal with |- R w (fst (match w_run_trans n ?cc ts w1 ?l with _ => _ end)) => pose proof (keeps_run_trans n cc ts HT w1 l) as B; destruct (w_run_trans n cc ts w1 l) as [w2 [[x|l1]|x|]] end;
    cbn [fst] in *; eapply R_trans; eauto.
Qed.
Lemma keeps_behind (P : ctx -> Prop) neg F c i0 : keeps P F -> (forall i, i0 <= i -> 0 <= Z.of_nat (c_pos c) - i -> P (set_pos c (Z.to_nat (Z.of_nat (c_pos c) - i)))) ->
  forall k i w, i0 <= i -> R w (fst (w_behind_loop neg F w c i k)).
Proof.
  intros HF HP. induction k as [|k IH]; intros i w Hi; cbn [w_behind_loop]; [apply R_refl|]. cbv zeta.
  destruct (Z.ltb_spec (Z.of_nat (c_pos c) - i) 0); [apply IH; lia|].
  assert (A : R w (fst (F w (set_pos c (Z.to_nat (Z.of_nat (c_pos c) - i)))))) by (apply HF, HP; lia).
  destruct (F w _) as [w1 [[o [e|]]|x|]]; cbn [fst] in *; auto.
  destruct (c_st o); [destruct neg; exact A|..]; (eapply R_trans; [exact A|apply IH; lia]).
Qed.
Lemma keeps_light (P : ctx -> Prop) cls F : keeps P F -> keeps P (w_light cls F).
Proof. intros H w c Hc. specialize (H w c Hc). unfold w_light. destruct (F w c) as [w1 [[o e]|x|]]; exact H. Qed.
(** Production rules *)
Definition all_keep (rs : list (nat -> wfn frames)) (n : nat) : Prop := Forall (fun r => keeps (fun _ => True) (r n)) rs.
Lemma keeps_rules n rs astc asts p : all_keep rs n -> forall w, R w (fst (w_try_rules n rs astc w asts p)).
Proof.
  induction 1 as [|r rs H F IH]; intros w; cbn [w_try_rules]; [apply R_refl|]. specialize (H w (set_pos astc p) I).
  destruct (r n w (set_pos astc p)) as [w1 [[o [e|]]|x|]]; cbn [fst] in *; auto.
  destruct (c_st o); [destruct (_ && _); exact H|..]; (eapply R_trans; [exact H|apply IH]).
Qed.
Lemma keeps_positions n pr astc asts : all_keep (wpr_rules pr) n -> forall k i w, R w (fst (w_try_positions n pr astc w asts i k)).
Proof.
  intros H. induction k as [|k IH]; intros i w; cbn [w_try_positions]; [apply R_refl|]. cbv zeta.
  pose proof (keeps_rules n (wpr_rules pr) astc asts (if wpr_rtol pr then length asts - i else i)%nat H w) as A.
  destruct (w_try_rules n _ astc w asts _) as [w1 sc]; destruct sc; cbn [fst] in *; auto; eapply R_trans; try exact A; apply IH.
Qed.
Lemma keeps_precedences n prs tag asts : Forall (fun pr => all_keep (wpr_rules pr) n) prs -> forall w, R w (fst (w_try_precedences n prs tag w asts)).
Proof.
  induction 1 as [|pr prs H F IH]; intros w; cbn [w_try_precedences]; [apply R_refl|]. cbv zeta.
  pose proof (keeps_positions n pr (new_object_ctx (ast_slice asts) tag) asts H (S (length asts)) 0%nat w) as A.
  destruct (w_try_positions n pr _ w asts 0 _) as [w1 sc]; destruct sc; cbn [fst] in *; auto; eapply R_trans; try exact A; apply IH.
Qed.
Lemma keeps_production n prs check tag : Forall (fun pr => all_keep (wpr_rules pr) n) prs -> keeps (fun _ => True) (check n) ->
  forall k w asts, R w (fst (w_production n k prs check tag w asts)).
Proof.
  intros HP HC. induction k as [|k IH]; intros w asts; cbn [w_production]; [apply R_refl|]. cbv zeta.
  pose proof (keeps_precedences n prs tag asts HP w) as A.
  destruct (w_try_precedences n prs tag w asts) as [w1 [e|x| |l1|]]; cbn [fst] in *; auto.
  - pose proof (HC w1 (new_object_ctx (ast_slice l1) tag) I) as B. destruct (check n w1 _) as [w2 [[o [e|]]|x|]]; cbn [fst] in *; [|destruct (c_st o)|..];
      first [eapply R_trans; [exact A|exact B]|eapply R_trans; [exact A|eapply R_trans; [exact B|apply IH]]].
  - pose proof (HC w1 (new_object_ctx (ast_slice asts) tag) I) as B. destruct (check n w1 _) as [w2 [[o [e|]]|x|]]; cbn [fst] in *; [|destruct (c_st o)|..]; eapply R_trans; eauto.
Qed.
(** Children, whatever the context. *)
Lemma kids_any ex Fs : Forall (keeps (fun _ => True)) Fs -> kids_keep (fun _ => True) ex Fs.
Proof.
  intros H sv w c num _. split; [|destruct (snd _); exact I]. revert w c num. induction H as [|F Fs H HF IH]; intros w c num; cbn [w_children]; [apply R_refl|].
  specialize (H w c I). destruct (F w c) as [w1 [[o e]|x|]]; cbn [fst] in *; auto. cbv zeta.
  destruct (c_st (fix_status o e)); auto; destruct ex; auto; (eapply R_trans; [exact H|apply IH]).
Qed.
End Order.

(** ** At most [B] levels *)
Definition upto (B : nat) (w w1 : frames) : Prop := fst w1 = fst w /\ (snd w <= snd w1)%nat /\ (snd w1 <= Nat.max (snd w) (fst w + B))%nat.
Lemma upto_refl B w : upto B w w. Proof. unfold upto. lia. Qed.
Lemma upto_trans B a b c : upto B a b -> upto B b c -> upto B a c. Proof. unfold upto. intros (A1 & A2 & A3) (B1 & B2 & B3). rewrite A1 in B3. repeat split; lia. Qed.
Lemma upto_weak B B' w w1 : (B <= B')%nat -> upto B w w1 -> upto B' w w1. Proof. unfold upto. intros L (A1 & A2 & A3). repeat split; lia. Qed.
Lemma keeps_weak B B' (P Q : ctx -> Prop) F : (B <= B')%nat -> (forall c, Q c -> P c) -> keeps (upto B) P F -> keeps (upto B') Q F.
Proof. intros L H K w c Hc. eapply upto_weak; [exact L|]. apply K. auto. Qed.
Lemma stack_upto B (P : ctx -> Prop) F : keeps (upto B) P F -> keeps (upto (S B)) P (on_stack F).
Proof.
  intros H w c Hc. specialize (H (S (fst w), Nat.max (snd w) (S (fst w))) c Hc). unfold on_stack. destruct (F _ c) as [w1 r]. unfold upto in *. cbn [fst snd] in *. lia.
Qed.
(** A grammar without Indirects: its height. *)
Lemma highest_in e es : In e es -> (height e <= highest es)%nat.
Proof. induction es as [|x es IH]; cbn; [tauto|]. intros [->|H]; [lia|]. apply IH in H. unfold highest in *. lia. Qed.
Lemma static_kids es rho n : Forall (fun e => rule_free e -> forall rho n, keeps (upto (height e)) (fun _ => True) (ddenote rho n e)) es ->
  (fix all (es : list pexp) : Prop := match es with [] => True | e :: es => rule_free e /\ all es end) es ->
  forall ex, kids_keep (upto (highest es)) (fun _ => True) ex (map (ddenote rho n) es).
Proof.
  intros H A ex. apply kids_any; [apply upto_refl|apply upto_trans|]. apply Forall_map. apply Forall_forall. intros e I0.
  assert (Hr : rule_free e) by (clear -A I0; induction es as [|x es IH]; [contradiction|]; destruct A, I0; subst; auto).
  rewrite Forall_forall in H. eapply keeps_weak with (B := height e) (P := fun _ => True); [apply highest_in; exact I0|auto|]. apply H; auto.
Qed.
Lemma height_fix es : (fix highest (es : list pexp) : nat := match es with [] => 0%nat | e :: es => Nat.max (height e) (highest es) end) es = highest es.
Proof. induction es as [|e es IH]; [reflexivity|]. cbn. rewrite IH. reflexivity. Qed.
Lemma static_upto e : rule_free e -> forall rho n, keeps (upto (height e)) (fun _ => True) (ddenote rho n e).
Proof.
  assert (BASE : forall es cls fn props tr rho n, Forall (fun e => rule_free e -> forall rho n, keeps (upto (height e)) (fun _ => True) (ddenote rho n e)) es ->
    (fix all (es : list pexp) : Prop := match es with [] => True | e :: es => rule_free e /\ all es end) es ->
    keeps (upto (S (highest es))) (fun _ => True) (on_stack (w_base cls fn props (map (ddenote rho n) es) (option_map (map flat_tr) tr) n))).
  { intros es cls fn props tr rho n H A. apply stack_upto. apply keeps_base; auto using upto_refl; [apply upto_trans|apply static_kids; auto|apply keeps_flat; apply upto_refl]. }
  induction e using pexp_ind'; intros Hf rho nn; cbn [rule_free height ddenote] in *; rewrite ?height_fix; try contradiction.
  - apply stack_upto with (B := 0%nat). intros w c _. apply upto_refl.
  - apply (BASE es _ _ _ None); auto.
  - apply (BASE es _ _ _ (Some [GroupingTransform])); auto.
  - apply (BASE es _ _ _ None); auto.
  - apply (BASE es _ _ _ None); auto.
  - apply (BASE es _ _ _ None); auto.
  - intros w c _. apply keeps_behind with (i0 := mn) (P := fun _ => True); [apply upto_refl|apply upto_trans|apply (BASE es _ _ _ None); auto|auto|lia].
  - apply (BASE es _ _ _ None); auto.
  - replace (height e) with (highest [e]) by (cbn; lia). apply (BASE [e]); auto.
  - apply BASE; auto.
Qed.

(** ** Recursive grammars *)
Section Recursive.
Variables (sz : size) (s : bytes) (sl : option slicelike).
Notation dom := (dom sz s sl).
(** Children in sequence, with what they do without counting. *)
Inductive seqb (B : nat) : nat -> list (wfn frames) -> list (ctx -> out) -> Prop :=
| sb_nil : forall p, seqb B p [] []
| sb_keep : forall p F f Fs fs, dsim F f -> keeps (upto B) (dom p) F -> okf (pos_inv sz) f -> seqb B p Fs fs -> seqb B p (F :: Fs) (f :: fs)
| sb_eat : forall p F f Fs fs, dsim F f -> keeps (upto B) (dom p) F -> okf (pos_inv sz) f -> strict sz f -> seqb B (S p) Fs fs -> seqb B p (F :: Fs) (f :: fs).
Lemma dom_dn p c : dom (S p) c -> dom p c. Proof. intros H. eapply dom_weak; [|exact H]. lia. Qed.
Lemma okf_step f F p w c o e : dsim F f -> okf (pos_inv sz) f -> dom p c -> snd (F w c) = Ok (o, e) -> c_st (fix_status o e) = Matched ->
  dom p (fix_status o e) /\ fix_status o e = o /\ f c = Ok (o, None) /\ c_st o = Matched.
Proof.
  intros Hs Hk Hd E St. destruct (fix_m _ _ St) as [-> Hst]. cbn [fix_status]. rewrite (proj1 (dsim_eq F f) Hs) in E.
  specialize (Hk c (dom_bounds _ _ _ _ _ Hd)). rewrite E in Hk. destruct Hk as [Q _]. specialize (Q Hst eq_refl).
  split; [|auto]. eapply dom_step; eauto.
Qed.
Lemma seqb_kids B p Fs fs : seqb B p Fs fs -> kids_keep (upto B) (dom p) false Fs.
Proof.
  induction 1 as [p|p F f Fs fs Hs Hb Hk HS IH|p F f Fs fs Hs Hb Hk He HS IH]; intros sv w c num Hd; cbn [w_children]; [split; [apply upto_refl|exact Hd]|..];
    pose proof (Hb w c Hd) as A; pose proof (fun o e => okf_step f F p w c o e Hs Hk Hd) as St; destruct (F w c) as [w1 [[o e]|x|]]; cbn [fst snd] in *; auto; cbv zeta;
    specialize (St o e eq_refl); destruct (c_st (fix_status o e)) eqn:Es; cbn [fst snd]; auto; destruct (St eq_refl) as (D & E & R & M).
  - specialize (IH sv w1 _ (S num) D). destruct IH as [IH1 IH2]. split; [eapply upto_trans; eassumption|exact IH2].
  - assert (D2 : dom (S p) (fix_status o e)).
    { pose proof (He c o (dom_bounds _ _ _ _ _ Hd) R M) as L. rewrite E in D |- *. destruct D as (D1 & D3 & D4 & D5). destruct Hd as (_ & _ & D6 & _). repeat split; auto. lia. }
    specialize (IH sv w1 _ (S num) D2). destruct IH as [IH1 IH2]. split; [eapply upto_trans; eassumption|].
    destruct (snd _); auto. apply dom_dn. exact IH2.
Qed.
Lemma allb_kids B p Fs fs : Forall2 (fun F f => dsim F f /\ keeps (upto B) (dom p) F /\ okf (pos_inv sz) f) Fs fs -> kids_keep (upto B) (dom p) true Fs.
Proof.
  induction 1 as [|F f Fs fs (Hs & Hb & Hk) HS IH]; intros sv w c num Hd; cbn [w_children]; [split; [apply upto_refl|exact Hd]|].
  pose proof (Hb w c Hd) as A; pose proof (fun o e => okf_step f F p w c o e Hs Hk Hd) as St; destruct (F w c) as [w1 [[o e]|x|]]; cbn [fst snd] in *; auto; cbv zeta.
  specialize (St o e eq_refl). destruct (c_st (fix_status o e)) eqn:Es; cbn [fst snd]; auto.
  - destruct (St eq_refl) as (D & _). auto.
  - specialize (IH sv w1 c num Hd). destruct IH as [IH1 IH2]. split; [eapply upto_trans; eassumption|exact IH2].
Qed.
Lemma base_upto B p cls props Fs tr n : kids_keep (upto B) (dom p) (f_ex (flags_of props)) Fs -> keeps_tr (upto B) n tr ->
  keeps (upto (S B)) (dom p) (on_stack (w_base cls None props Fs tr n)).
Proof.
  intros HK HT. apply stack_upto. apply keeps_base; [apply upto_refl|apply upto_trans| | |exact HK|exact HT].
  - intros o num b k o2 err Ho E _. cbn in E. injection E as <- _. exact Ho.
  - intros c cls0 Hc. exact Hc.
Qed.

Variables (eat : nat -> Prop) (env : nat -> pexp).
Hypothesis Htidy : forall k, gram (tidy_spec sz) (env k).
Hypothesis Heat : forall k, eat k -> eats sz eat (env k).
Lemma run_ok n e : gram (tidy_spec sz) e -> okf (pos_inv sz) (run env n e).
Proof. intros H. apply run_okf; [intros k|]; apply tidy_pos; auto. Qed.
Lemma run_strict n e : gram (tidy_spec sz) e -> eats sz eat e -> strict sz (run env n e).
Proof. intros H E. apply eats_run with eat; auto; [intros k|]; apply tidy_pos; auto. Qed.
Lemma seqb_weak B B' p Fs fs : (B <= B')%nat -> seqb B p Fs fs -> seqb B' p Fs fs.
Proof. intros L. induction 1; [apply sb_nil|apply sb_keep|apply sb_eat]; auto; eapply keeps_weak with (P := dom _); eauto. Qed.
(** [B] levels are enough for the rules. *)
Lemma guarded_upto n B back :
  (forall here later e, guarded sz eat back here later e -> forall p, (forall j, here j -> keeps (upto B) (dom p) (drun_env env n j)) ->
     (forall j, later j -> keeps (upto B) (dom (S p)) (drun_env env n j)) -> (forall j, back j -> keeps (upto B) (dom 0) (drun_env env n j)) ->
     keeps (upto (height e + B)) (dom p) (drun env n e)) /\
  (forall here later es, guarded_seq sz eat back here later es -> forall p, (forall j, here j -> keeps (upto B) (dom p) (drun_env env n j)) ->
     (forall j, later j -> keeps (upto B) (dom (S p)) (drun_env env n j)) -> (forall j, back j -> keeps (upto B) (dom 0) (drun_env env n j)) ->
     seqb (highest es + B) p (map (drun env n) es) (map (run env n) es)) /\
  (forall here later es, guarded_all sz eat back here later es -> forall p, (forall j, here j -> keeps (upto B) (dom p) (drun_env env n j)) ->
     (forall j, later j -> keeps (upto B) (dom (S p)) (drun_env env n j)) -> (forall j, back j -> keeps (upto B) (dom 0) (drun_env env n j)) ->
     Forall2 (fun F f => dsim F f /\ keeps (upto (highest es + B)) (dom p) F /\ okf (pos_inv sz) f) (map (drun env n) es) (map (run env n) es)).
Proof.
  destruct (guarded_tidy sz eat back) as (T1 & T2 & T3).
  assert (W : forall p F f es k, Forall2 (fun F f => dsim F f /\ keeps (upto k) (dom p) F /\ okf (pos_inv sz) f) F f -> (k <= es)%nat ->
    Forall2 (fun F f => dsim F f /\ keeps (upto es) (dom p) F /\ okf (pos_inv sz) f) F f).
  { intros p F f es k H L. induction H as [|x y l l' (A & C & D)]; constructor; auto. split; [exact A|]. split; [|exact D]. apply keeps_weak with (B := k) (P := dom p); auto. }
  apply guarded_mutind.
  - intros here later cls fn P T M p _ _ _. apply stack_upto with (B := B). intros w c _. apply upto_refl.
  - intros here later es Hg IH p H1 H2 H3. cbn [height]. rewrite height_fix. apply base_upto; [|exact I]. eapply seqb_kids. apply IH; auto.
  - intros here later es Hg IH p H1 H2 H3. cbn [height]. rewrite height_fix. apply base_upto; [|exact (keeps_flat _ (upto_refl _) n (Some [GroupingTransform]))]. eapply seqb_kids. apply IH; auto.
  - intros here later es Hg IH p H1 H2 H3. cbn [height]. rewrite height_fix. apply base_upto; [|exact I]. eapply seqb_kids. apply IH; auto.
  - intros here later es Hg IH p H1 H2 H3. cbn [height]. rewrite height_fix. apply base_upto; [|exact I]. eapply seqb_kids. apply IH; auto.
  - intros here later es Hg IH p H1 H2 H3. cbn [height]. rewrite height_fix. apply base_upto; [|exact I]. eapply allb_kids. apply IH; auto.
  - intros here later neg mn mx es Hmn Hg IH p H1 H2 H3. cbn [height]. rewrite height_fix. intros w c Hd. unfold drun. cbn [ddenote].
    apply keeps_behind with (i0 := mn) (P := dom 0); [apply upto_refl|apply upto_trans| | |lia].
    + apply base_upto; [|exact I]. eapply seqb_kids. apply IH; auto. intros j Hj. eapply keeps_weak with (P := dom 0); [apply le_n|apply dom_dn|auto].
    + intros i Hi Hp. destruct Hd as (D1 & D2 & D3 & D4). unfold L_Rec.dom, c_pos, set_pos in *. cbn in *. repeat split; auto; lia.
  - intros here later t es Hg IH He p H1 H2 H3. cbn [height]. rewrite height_fix. apply base_upto; [|exact I]. eapply seqb_kids. apply IH; auto.
  - intros here later e tr Hg IH Htr p H1 H2 H3. cbn [height]. apply base_upto; [|apply keeps_flat; apply upto_refl]. apply seqb_kids with (fs := [run env n e]).
    apply sb_keep; [apply drun_sim|apply IH; auto|apply run_ok; eapply T1; eauto|apply sb_nil].
  - intros here later k Hk p H1 H2 H3. apply stack_upto with (B := B). apply keeps_light. auto.
  - intros. apply sb_nil.
  - intros here later e es Hg IHe Hs IHs p H1 H2 H3. cbn [map]. apply sb_keep; [apply drun_sim| |apply run_ok; eapply T1; eauto|].
    + eapply keeps_weak with (P := dom p); [|auto|apply IHe; auto]. cbn. lia.
    + eapply seqb_weak; [|apply IHs; auto]. cbn. unfold highest. lia.
  - intros here later e es Hg IHe He Hs IHs p H1 H2 H3. cbn [map]. apply sb_eat; [apply drun_sim| |apply run_ok; eapply T1; eauto|apply run_strict; auto; eapply T1; eauto|].
    + eapply keeps_weak with (P := dom p); [|auto|apply IHe; auto]. cbn. lia.
    + eapply seqb_weak; [|apply IHs; auto]; [cbn; unfold highest; lia|]. intros j Hj. eapply keeps_weak with (P := dom (S p)); [apply le_n|apply dom_dn|auto].
  - intros. constructor.
  - intros here later e es Hg IHe Hs IHs p H1 H2 H3. cbn [map]. constructor.
    + split; [apply drun_sim|]. split; [|apply run_ok; eapply T1; eauto]. eapply keeps_weak with (P := dom p); [|auto|apply IHe; auto]. cbn. lia.
    + eapply W; [apply IHs; auto|]. cbn. unfold highest. lia.
Qed.

Variables (layer rank : nat -> nat) (H R : nat).
Hypothesis Hrank : forall k, guarded sz eat (fun j => (layer j < layer k)%nat)
               (fun j => (layer j < layer k)%nat \/ layer j = layer k /\ (rank j < rank k)%nat)
               (fun j => (layer j <= layer k)%nat) (env k).
Hypothesis HH : forall k, (height (env k) <= H)%nat.
Hypothesis HR : forall k, (rank k < R)%nat.
Notation N := (sz s sl).
(** How many rules can be open at once from a position on. *)
Definition open_rules (k p : nat) : nat := (layer k * ((N + 1) * R) + (N - p) * R + rank k + 1)%nat.
Lemma void_keeps B p F : (N < p)%nat -> keeps (upto B) (dom p) F.
Proof. intros L w c (_ & _ & A & C). lia. Qed.
Lemma rules_upto n : forall k p, keeps (upto (H * open_rules k p)) (dom p) (drun_env env n k).
Proof.
  induction n as [|n IH]; intros k p; [intros w c _; apply upto_refl|].
  destruct (Nat.lt_ge_cases N p) as [L|L]; [apply void_keeps; exact L|].
  assert (A : keeps (upto (height (env k) + H * (open_rules k p - 1))) (dom p) (drun env n (env k))).
  { refine (proj1 (guarded_upto n (H * (open_rules k p - 1)) _) _ _ _ (Hrank k) p _ _ _).
    - intros j Hj. eapply keeps_weak with (P := dom p); [|auto|apply IH]. apply Nat.mul_le_mono_l. unfold open_rules. pose proof (HR j).
      destruct Hj as [Hj|[Hj Hj']]; [|rewrite Hj; lia].
      assert ((layer j + 1) * ((N + 1) * R) <= layer k * ((N + 1) * R))%nat by (apply Nat.mul_le_mono_r; lia).
      assert ((N - p) * R <= N * R)%nat by (apply Nat.mul_le_mono_r; lia). lia.
    - intros j Hj. destruct (Nat.lt_ge_cases N (S p)) as [L2|L2]; [apply void_keeps; exact L2|].
      eapply keeps_weak with (P := dom (S p)); [|auto|apply IH]. apply Nat.mul_le_mono_l. unfold open_rules. pose proof (HR j).
      assert (layer j * ((N + 1) * R) <= layer k * ((N + 1) * R))%nat by (apply Nat.mul_le_mono_r; lia).
      replace (N - p)%nat with (S (N - S p)) by lia. lia.
    - intros j Hj. eapply keeps_weak with (P := dom 0); [|auto|apply IH]. apply Nat.mul_le_mono_l. unfold open_rules. pose proof (HR j).
      assert ((layer j + 1) * ((N + 1) * R) <= layer k * ((N + 1) * R))%nat by (apply Nat.mul_le_mono_r; lia). rewrite Nat.sub_0_r. lia. }
  eapply keeps_weak with (P := dom p); [|auto|exact A]. specialize (HH k).
  assert (open_rules k p = S (open_rules k p - 1)) by (unfold open_rules; lia).
  replace (H * open_rules k p)%nat with (H * S (open_rules k p - 1))%nat by congruence. lia.
Qed.
End Recursive.
Lemma nesting_upto env n e c B (P : ctx -> Prop) : keeps (upto B) P (drun env n e) -> P c -> (nesting env n e c <= B)%nat.
Proof. intros K Hc. destruct (K (0, 0)%nat c Hc) as (_ & _ & A). unfold nesting. cbn [fst snd] in A. lia. Qed.
Lemma ranked_nesting sz eat layer rank H R L env n e c : ranked sz eat layer rank env -> guarded sz eat anyI anyI anyI e -> in_bounds sz c ->
  (forall k, height (env k) <= H /\ rank k < R /\ layer k < L)%nat ->
  (nesting env n e c <= height e + H * (L * (sz (c_str c) (c_slice c) + 1) * R))%nat.
Proof.
  intros (Heat & Hg) He Hi HL.
  assert (Ht : forall k, gram (tidy_spec sz) (env k)) by (intros k; eapply (proj1 (guarded_tidy _ _ _)); apply Hg).
  set (N := sz (c_str c) (c_slice c)).
  assert (K : forall p k, keeps (upto (H * (L * (N + 1) * R))) (dom sz (c_str c) (c_slice c) p) (drun_env env n k)).
  { intros p k. destruct (HL k) as (_ & A1 & A2).
    eapply keeps_weak with (P := dom sz (c_str c) (c_slice c) p); [|auto|apply (rules_upto sz (c_str c) (c_slice c) eat env Ht Heat layer rank H R Hg)].
    - apply Nat.mul_le_mono_l. unfold open_rules. fold N.
      assert ((layer k + 1) * ((N + 1) * R) <= L * ((N + 1) * R))%nat by (apply Nat.mul_le_mono_r; lia).
      assert ((N - p) * R <= N * R)%nat by (apply Nat.mul_le_mono_r; lia). rewrite <- Nat.mul_assoc. lia.
    - intros j. apply HL.
    - intros j. apply HL. }
  eapply nesting_upto; [|]. 
  - refine (proj1 (guarded_upto sz (c_str c) (c_slice c) eat env Ht Heat n _ anyI) _ _ _ He 0%nat _ _ _); auto.
  - repeat split; auto. lia.
Qed.
