(** Texts on which the parser calls of the formula examples nest deep (C80). *)
From Verif Require Export L_DepthFormula L_CountSum.

(** ** The memory only grows *)
Definition tame (w w1 : frames) : Prop := fst w1 = fst w /\ (snd w <= snd w1)%nat.
Lemma tame_refl w : tame w w. Proof. unfold tame. lia. Qed.
Lemma tame_trans a b c : tame a b -> tame b c -> tame a c. Proof. unfold tame. lia. Qed.
Notation tames := (keeps tame (fun _ : ctx => True)).
Lemma tame_stack F : tames F -> tames (on_stack F).
Proof. intros H w c Hc. specialize (H (S (fst w), Nat.max (snd w) (S (fst w))) c Hc). unfold on_stack. destruct (F _ c) as [w1 r]. unfold tame in *. cbn [fst snd] in *. lia. Qed.
Lemma tame_base cls fn props Fs tr n : Forall tames Fs -> keeps_tr tame n tr -> tames (on_stack (w_base cls fn props Fs tr n)).
Proof. intros H T. apply tame_stack. apply keeps_base; auto using tame_refl; [apply tame_trans|]. apply kids_any; auto using tame_refl. exact tame_trans. Qed.
Lemma tame_denote e : forall rho n, (forall j, tames (rho j)) -> tames (ddenote rho n e).
Proof.
  induction e using pexp_ind'; intros rho nn Hr;
    try (assert (Hcs : Forall tames (map (ddenote rho nn) es)) by (apply Forall_map; eapply Forall_impl; [|exact H]; auto)); cbn [ddenote];
    try (apply tame_base; [first [exact Hcs|constructor; auto]|apply (keeps_flat _ tame_refl)]).
  - apply tame_stack. intros w c _. apply tame_refl.
  - apply tame_base; [exact Hcs|exact I].
  - apply tame_base; [exact Hcs|]. apply (keeps_flat _ tame_refl nn (Some [GroupingTransform])).
  - apply tame_base; [exact Hcs|exact I].
  - apply tame_base; [exact Hcs|exact I].
  - apply tame_base; [exact Hcs|exact I].
  - intros w c _. apply keeps_behind with (i0 := mn) (P := fun _ => True); auto using tame_refl; [exact tame_trans| |lia]. apply tame_base; [exact Hcs|exact I].
  - apply tame_base; [exact Hcs|exact I].
  - apply tame_stack. apply keeps_light. apply Hr.
Qed.

Section Formula.
Variables (negT mulT addT : trans).
Notation prod := (formulaProductionRules negT mulT addT).
Notation dp := (d_rules negT mulT addT).
Notation genv := (grouped_env prod).
Notation denv := (fun _ : nat => d_grouped dp).
Lemma tame_dp n : keeps_tr tame n (Some [dp]).
Proof. constructor; [|constructor]. intros c w l. destruct (dp_upto negT mulT addT n c w l) as (A & B & _). split; assumption. Qed.
(** ** Children *)
Variable w : world.
Hypothesis envW : w_env w = genv.
Hypothesis envG : peg_env w.
Definition lowat (d : wexp frames) (cur : srcpos) (L : nat) : Prop := exists n0, forall n c, (n0 <= n)%nat -> okc w c -> c_sp c = cur ->
  forall m, (fst m + L <= snd (fst (dw_run denv n d m c)))%nat.
Definition lowkids (ex : bool) (ds : list (wexp frames)) (cur : srcpos) (L : nat) : Prop := exists n0, forall n c, (n0 <= n)%nat -> okc w c -> c_sp c = cur ->
  forall sv m num, (fst m + L <= snd (fst (w_children ex sv (map (dw_run denv n) ds) m c num)))%nat.
Definition twin (d : wexp frames) (e : pexp) : Prop := peg_gram e /\ (forall n, dsim (dw_run denv n d) (run genv n e)) /\ forall n, tames (dw_run denv n d).
Definition tamed (d : wexp frames) : Prop := forall n, tames (dw_run denv n d).
Lemma low_here ex d ds cur L : lowat d cur L -> Forall tamed ds -> lowkids ex (d :: ds) cur L.
Proof.
  intros (n0 & H) F. exists n0. intros n c Hn Hc Hs sv m num. specialize (H n c Hn Hc Hs m). cbn [map w_children].
  assert (K : forall ex sv w c num, tame w (fst (w_children ex sv (map (dw_run denv n) ds) w c num))).
  { intros ex0 sv0 w0 c0 num0. refine (proj1 (kids_any tame tame_refl tame_trans ex0 _ _ sv0 w0 c0 num0 I)). apply Forall_map. eapply Forall_impl; [|exact F]. intros a Ha. apply Ha. }
  destruct (dw_run denv n d m c) as [m1 [[o e]|x|]]; cbn [fst snd] in *; auto. cbv zeta.
  destruct (c_st (fix_status o e)); auto; destruct ex; auto; (match goal with |- context [w_children ?a ?b ?c ?d ?e ?f] => destruct (K a b d e f) as [_ X] end; lia).
Qed.
Lemma low_ok d e ds cur cur' l L : twin d e -> peg w e cur (RSucc cur' l) -> lowkids false ds cur' L -> lowkids false (d :: ds) cur L.
Proof.
  intros (G & Sm & T) P (n1 & H). destruct (proj1 (peg_complete_all w envG) e cur _ P G) as (n0 & C). exists (Nat.max n0 n1). intros n c Hn Hc Hs sv m num.
  destruct (C n ltac:(lia) c Hc Hs) as (o & err & E & (-> & St & Sp & _) & W). rewrite envW in E.
  pose proof (proj1 (dsim_eq _ _) (Sm n) m c) as Q. rewrite E in Q. pose proof (T n m c I) as Tm. cbn [map w_children].
  destruct (dw_run denv n d m c) as [m1 r]. cbn [fst snd] in Q, Tm. subst r. cbv zeta. cbn [fix_status]. rewrite St.
  specialize (H n o ltac:(lia) (conj W St) Sp sv m1 (S num)). destruct Tm as [<- _]. exact H.
Qed.
Lemma low_fail d e ds cur L : twin d e -> peg w e cur RFail -> lowkids true ds cur L -> lowkids true (d :: ds) cur L.
Proof.
  intros (G & Sm & T) P (n1 & H). destruct (proj1 (peg_complete_all w envG) e cur _ P G) as (n0 & C). exists (Nat.max n0 n1). intros n c Hn Hc Hs sv m num.
  destruct (C n ltac:(lia) c Hc Hs) as (o & err & E & (-> & St) & W). rewrite envW in E.
  pose proof (proj1 (dsim_eq _ _) (Sm n) m c) as Q. rewrite E in Q. pose proof (T n m c I) as Tm. cbn [map w_children].
  destruct (dw_run denv n d m c) as [m1 r]. cbn [fst snd] in Q, Tm. subst r. cbv zeta. cbn [fix_status]. rewrite St.
  specialize (H n c ltac:(lia) Hc Hs sv m1 num). destruct Tm as [<- _]. exact H.
Qed.
(** ** Calls *)
Lemma base_low cls props Fs tr n c L : (1 <= n)%nat -> more (f_qty (flags_of props)) 0 = true -> Forall tames Fs -> keeps_tr tame n tr ->
  (forall sv m num, (fst m + L <= snd (fst (w_children (f_ex (flags_of props)) sv Fs m (set_st (set_cls c cls) Matched) num)))%nat) ->
  forall m, (fst m + S L <= snd (fst (on_stack (w_base cls None props Fs tr n) m c)))%nat.
Proof.
  intros Hn Hq HF HT H m. unfold on_stack. set (m0 := (S (fst m), Nat.max (snd m) (S (fst m)))).
  assert (A : (fst m0 + L <= snd (fst (w_base cls None props Fs tr n m0 c)))%nat).
  { unfold w_base. cbv zeta. destruct n as [|n]; [lia|]. cbn [w_parent]. rewrite Hq.
    set (c0 := set_st (set_cls c cls) Matched) in *. set (b := length (c_stack (set_cls c cls))). specialize (H c0 m0 0%nat).
    set (FL := f_ex (flags_of props)) in *.
    assert (PK : forall fuel w o k, tame w (fst (w_parent fuel (f_qty (flags_of props)) FL None b Fs w o k))).
    { intros. apply (keeps_parent tame tame_refl tame_trans (fun _ => True)); auto. apply kids_any; auto using tame_refl. exact tame_trans. }
    assert (FIN : forall w1 r, (fst m0 + L <= snd w1)%nat -> (fst m0 + L <= snd (fst (match r with
      | PReturn r => (w1, r)
      | PDone o count => let o1 := after_loop (flags_of props) o count in match c_st o1 with
        | Matched => match call_fn None (-1) b (set_qty o1 count) with
          | Ok (o2, _) => match c_st o2 with
            | Matched => let o3 := if f_rew (flags_of props) then set_cls c cls else o2 in
              match tr with
              | Some ts => if Nat.ltb (length (c_stack o3)) b then (w1, Panic "slice bounds out of range") else
                 match w_run_trans (S n) (set_cls c cls) ts w1 (skipn b (c_stack o3)) with
                 | (w2, Ok (inl e)) => (w2, Ok (set_st o3 Errored, Some e))
                 | (w2, Ok (inr asts)) => (w2, Ok (set_stack o3 (firstn b (c_stack o3) ++ asts), None))
                 | (w2, Panic x) => (w2, Panic x)
                 | (w2, Fuel) => (w2, Fuel)
                 end
              | None => (w1, Ok (o3, None))
              end
            | _ => (w1, Ok (o2, None)) end
          | Panic x => (w1, Panic x) | Fuel => (w1, Fuel) end
        | _ => (w1, Ok (o1, None)) end
      end)))%nat).
    { intros w1 r X. destruct r as [r|o count]; [exact X|]. cbv zeta. destruct (c_st (after_loop _ o count)); auto. destruct (call_fn _ _ _ _) as [[o2 err]|x|]; auto.
      destruct (c_st o2); auto. destruct tr as [ts|]; auto. destruct (_ <? b)%nat; auto.
      match goal with |- context [w_run_trans (S n) ?cc ts w1 ?l] => pose proof (keeps_run_trans tame tame_refl tame_trans (S n) cc ts HT w1 l) as [_ B]; destruct (w_run_trans (S n) cc ts w1 l) as [w2 [[x|l1]|x|]] end; cbn [fst snd] in *; lia. }
    destruct (w_children FL c0 Fs m0 c0 0) as [w1 [r|cc|o1 num]]; cbn [fst snd] in H.
    - exact (FIN w1 (PReturn r) H).
    - exact (FIN w1 (PDone cc 0%nat) H).
    - destruct (_ && _); [exact (FIN w1 (PDone c0 0%nat) H)|]. cbn [call_fn]. destruct (c_st (set_qty o1 0)) eqn:Es.
      + destruct (PK n w1 (set_qty o1 0) 1%nat) as [_ Y]. destruct (w_parent n _ _ _ _ _ w1 _ 1) as [w2 r]. cbn [fst snd] in Y. apply (FIN w2 r). lia.
      + exact (FIN w1 (PDone c0 0%nat) H).
      + exact (FIN w1 (PReturn (Ok (set_qty o1 0, None))) H). }
  destruct (w_base cls None props Fs tr n m0 c) as [m1 r]. unfold m0 in A. cbn [fst snd] in *. lia.
Qed.
Lemma tamed_base n cls props ds tr : Forall (fun d => tames (dw_run denv n d)) ds -> keeps_tr tame n tr -> tames (on_stack (w_base cls None props (map (dw_run denv n) ds) tr n)).
Proof. intros H T. apply tame_base; [|exact T]. apply Forall_map. exact H. Qed.
Ltac tame_tac := repeat first [exact I|apply tame_dp|apply Forall_nil|apply Forall_cons
  |match goal with |- tames (dw_run denv ?n (WPure ?e)) => apply (tame_denote e); assumption
  | |- tames (dw_run denv ?n (WFlatGroup ?ds)) => apply (tamed_base n ":base:FlatGroup" [] ds None)
  | |- tames (dw_run denv ?n (WFirst ?ds)) => apply (tamed_base n ":base:First" [PThereExists] ds None)
  | |- tames (dw_run denv ?n (WRepeat ?t ?ds)) => apply (tamed_base n ":base:Repeat" [PTimes t] ds None)
  | |- tames (dw_run denv ?n (WTrans ?d ?tr)) => apply (tamed_base n ":base:Trans" [] [d] (Some tr))
  | |- tames (dw_run denv ?n (WIndirect ?j)) => apply tame_stack; apply keeps_light; auto
  | |- tames (dw_run denv ?n ?d) => let d1 := eval hnf in d in progress change (tames (dw_run denv n d1)) end].
Lemma tamed_env n : forall j, tames (dw_run_env denv n j).
Proof.
  induction n as [|n IH]; intros j; [intros m c _; apply tame_refl|]. change (tames (dw_run denv n (d_grouped dp))). tame_tac.
Qed.
Ltac tamed_tac := intros n; pose proof (tamed_env n); tame_tac.
Lemma tamed_pure e : tamed (WPure e). Proof. tamed_tac. Qed.
Lemma tamed_expression : tamed (d_expression dp). Proof. tamed_tac. Qed.
Lemma tamed_more : tamed d_more. Proof. tamed_tac. Qed.
Lemma tamed_inner : tamed d_inner. Proof. tamed_tac. Qed.
Lemma tamed_first : tamed (WFirst [WPure simpleExpression; WIndirect 0; WPure (EError "Value required")]). Proof. tamed_tac. Qed.
Lemma tamed_body : tamed (d_body negT mulT addT). Proof. tamed_tac. Qed.
Lemma tamed_try : tamed (d_try negT mulT addT). Proof. tamed_tac. Qed.
Lemma tamed_indirect : tamed (WIndirect 0). Proof. tamed_tac. Qed.
Lemma twin_pure e : peg_gram e -> twin (WPure e) e.
Proof. intros G. split; [exact G|]. split; [|apply tamed_pure]. intros n. apply ddenote_same. apply d_env_sim. Qed.
Lemma okc_start c cls : okc w c -> okc w (set_st (set_cls c cls) Matched). Proof. intros [A _]. split; [exact A|reflexivity]. Qed.
Lemma tamed_all n ds : Forall tamed ds -> Forall tames (map (dw_run denv n) ds).
Proof. intros H. apply Forall_map. eapply Forall_impl; [|exact H]. auto. Qed.
Lemma low_flat ds cur L : lowkids false ds cur L -> Forall tamed ds -> lowat (WFlatGroup ds) cur (S L).
Proof.
  intros (n0 & H) T. exists (S n0). intros n c Hn Hc Hs. apply (base_low ":base:FlatGroup" [] (map (dw_run denv n) ds) None); [lia|reflexivity|apply tamed_all; exact T|exact I|].
  apply H; [lia|apply okc_start; exact Hc|exact Hs].
Qed.
Lemma low_first ds cur L : lowkids true ds cur L -> Forall tamed ds -> lowat (WFirst ds) cur (S L).
Proof.
  intros (n0 & H) T. exists (S n0). intros n c Hn Hc Hs. apply (base_low ":base:First" [PThereExists] (map (dw_run denv n) ds) None); [lia|reflexivity|apply tamed_all; exact T|exact I|].
  apply H; [lia|apply okc_start; exact Hc|exact Hs].
Qed.
Lemma low_trans d cur L : lowkids false [d] cur L -> tamed d -> lowat (WTrans d [dp]) cur (S L).
Proof.
  intros (n0 & H) T. exists (S n0). intros n c Hn Hc Hs. apply (base_low ":base:Trans" [] (map (dw_run denv n) [d]) (Some [dp])); [lia|reflexivity|apply tamed_all; auto|apply tame_dp|].
  apply H; [lia|apply okc_start; exact Hc|exact Hs].
Qed.
Lemma low_rule cur L : lowat (d_grouped dp) cur L -> lowat (WIndirect 0) cur (S L).
Proof.
  intros (n0 & H). exists (S n0). intros n c Hn Hc Hs m. destruct n as [|n]; [lia|]. specialize (H n c ltac:(lia) Hc Hs (S (fst m), Nat.max (snd m) (S (fst m)))).
  change (dw_run denv (S n) (WIndirect 0)) with (on_stack (w_light ":base:Indirect" (dw_run denv n (d_grouped dp)))). unfold on_stack, w_light.
  destruct (dw_run denv n (d_grouped dp) _ c) as [m1 [[o e]|x|]]; cbn [fst snd] in *; lia.
Qed.
(** ** Opening parentheses *)
Notation parens k := (repeat 40%Z k).
Lemma parens_solid k : solid (parens k).
Proof. destruct k; [apply solid_nil|]. apply solid_head. cbn. lia. Qed.
Lemma number_no cur k : at_rest w cur (parens k) -> peg w simpleExpression cur RFail.
Proof.
  intros A. constructor. apply seq_fail. destruct (number_total w cur _ A) as [[P _]|(wd & b & v & z & T & _)]; [exact P|exfalso].
  destruct T as (E0 & W & _). destruct (int_word_head wd W) as (x & u & E & Hx). rewrite E in E0. clear E. rename E0 into E. destruct k; inversion E; subst; unfold dec_digit in Hx; lia.
Qed.
Lemma parens_inner cur k L : at_rest w cur (parens k) -> lowat (WIndirect 0) cur L -> lowat (d_expression dp) cur (3 + L).
Proof.
  intros A H. apply low_trans; [|apply tamed_inner]. apply low_here; [|constructor]. apply low_flat; [|constructor; [apply tamed_pure|constructor; [apply tamed_first|constructor; [apply tamed_more|constructor]]]].
  eapply low_ok with (e := EZeroOrMore [unaryOperator]); [apply twin_pure; formula_unfold; gram_tac| |].
  - eapply peg_rep_ok with (k := 0%nat); [|cbn; lia]. apply rep_stop; [left; reflexivity|]. apply seq_fail. eapply un_no; [|exact A]. intros (t & E). destruct k; discriminate.
  - apply low_here; [|constructor; [apply tamed_more|constructor]]. apply low_first; [|constructor; [apply tamed_pure|constructor; [apply tamed_indirect|constructor; [apply tamed_pure|constructor]]]].
    eapply low_fail with (e := simpleExpression); [apply twin_pure; formula_unfold; gram_tac|eapply number_no; exact A|].
    apply low_here; [exact H|constructor; [apply tamed_pure|constructor]].
Qed.
Lemma parens_low k : forall cur, at_rest w cur (parens k) -> lowat (WIndirect 0) cur (7 * k + 1).
Proof.
  induction k as [|k IH]; intros cur A.
  - exists 0%nat. intros n c _ _ _ m. change (dw_run denv n (WIndirect 0)) with (on_stack (w_light ":base:Indirect" (dw_run_env denv n 0))). unfold on_stack.
    destruct (keeps_light tame (fun _ => True) ":base:Indirect" _ (tamed_env n 0%nat) (S (fst m), Nat.max (snd m) (S (fst m))) c I) as [_ B]. destruct (w_light _ _ _ c) as [m1 r]. cbn [fst snd] in *. lia.
  - cbn [repeat] in A. destruct (paren_yes 40 w cur _ A) as (c1 & P1 & A1). destruct (sp_0_peg w c1 [] (parens k)) as (c2 & P2 & A2); [constructor|apply parens_solid|exact A1|].
    replace (7 * S k + 1)%nat with (1 + (3 + (3 + (7 * k + 1))))%nat by lia. apply low_rule.
    change (d_grouped dp) with (WFlatGroup [WPure (erase (SCharClass [bs "("])); d_try negT mulT addT]). apply low_flat; [|constructor; [apply tamed_pure|constructor; [apply tamed_try|constructor]]].
    eapply low_ok with (e := erase (SCharClass [bs "("])); [apply twin_pure; formula_unfold; gram_tac|exact P1|].
    apply low_here; [|constructor]. apply low_first; [|constructor; [apply tamed_body|constructor; [apply tamed_pure|constructor]]].
    apply low_here; [|constructor; [apply tamed_pure|constructor]]. apply low_flat; [|constructor; [apply tamed_pure|constructor; [apply tamed_expression|constructor; [apply tamed_pure|constructor; [apply tamed_pure|constructor]]]]].
    eapply low_ok with (e := erase sp_0); [apply twin_pure; formula_unfold; gram_tac|exact P2|].
    apply low_here; [|constructor; [apply tamed_pure|constructor; [apply tamed_pure|constructor]]]. eapply parens_inner; [exact A2|]. apply IH. exact A2.
Qed.
Lemma parens_program k cur : w_str w = parens k -> sp_pos cur = 0%nat -> lowat (d_program dp) cur (7 * k + 5).
Proof.
  intros Es Hc. destruct (start_peg w cur Hc) as (c1 & P1 & H1).
  assert (A1 : at_rest w c1 ([] ++ parens k)).
  { split; [split; [|rewrite H1; lia]|unfold rest_of; rewrite H1; exact Es]. rewrite Es. apply Forall_forall. intros x Hx. apply repeat_spec in Hx. subst x. unfold is_byte. lia. }
  destruct (sp_0_peg w c1 [] (parens k)) as (c2 & P2 & A2); [constructor|apply parens_solid|exact A1|].
  replace (7 * k + 5)%nat with (1 + (3 + (7 * k + 1)))%nat by lia. apply low_flat; [|constructor; [apply tamed_pure|constructor; [apply tamed_pure|constructor; [apply tamed_expression|constructor; [apply tamed_pure|constructor]]]]].
  eapply low_ok with (e := EStart); [apply twin_pure; exact start_gram|exact P1|]. eapply low_ok with (e := erase sp_0); [apply twin_pure; exact spaces_gram|exact P2|].
  apply low_here; [|constructor; [apply tamed_pure|constructor]]. eapply parens_inner; [exact A2|]. apply parens_low. exact A2.
Qed.
End Formula.
Lemma formula_low negT mulT addT k : good_trans negT -> good_trans mulT -> good_trans addT ->
  exists n0, forall n, (n0 <= n)%nat -> (7 * k + 5 <= formula_nesting negT mulT addT n (repeat 40%Z k))%nat.
Proof.
  intros G1 G2 G3. set (w := L_FormulaParse.f_world (formulaProductionRules negT mulT addT) (repeat 40%Z k)).
  assert (He : peg_env w) by (exact (grouped_gram _ (rules_good negT mulT addT G1 G2 G3))).
  destruct (parens_program negT mulT addT w eq_refl He k sp0 eq_refl eq_refl) as (n0 & H). exists n0. intros n Hn.
  exact (H n (new_string_ctx (repeat 40%Z k)) Hn ltac:(repeat split) eq_refl (0, 0)%nat).
Qed.
