(** C13: grammars without Match, library leaves and ProductionRule on the heap. *)
From Verif Require Export L_HeapRun.
From Verif Require Import L_LeafInv.

(** ** Library leaves append *)
Ltac app_tac := let c := fresh in intros ? c ? ?; unfold lift; destruct c as [str sl [pos len] q stk st0 cls0 tag]; cbn;
  repeat (leaf_split; cbn); intros E; try discriminate E; injection E as <- _; unfold pushes; cbn;
  try solve [eexists; reflexivity]; try solve [exists []; symmetry; apply app_nil_r].

Lemma app_char cls test : appends (lift (char_fn cls test)).
Proof. unfold char_fn, with_rest, ret, push_str. app_tac. Qed.
Lemma app_any : appends (lift any_fn).
Proof. unfold any_fn, with_rest, ret, push_str. app_tac. Qed.
Lemma app_end : appends (lift end_fn).
Proof. unfold end_fn, ret. app_tac. Qed.
Lemma app_seq s : appends (lift (seq_fn s)).
Proof. unfold seq_fn, ret, push_str. app_tac. Qed.
Lemma app_seqi fold s : appends (lift (seqi_fn fold s)).
Proof. unfold seqi_fn, ret, push_str. app_tac. Qed.
Lemma app_classN cc : appends (lift (char_classN_fn cc)).
Proof. unfold char_classN_fn, with_rest, ret, push_str. app_tac. Qed.
Lemma app_class cc : appends (lift (char_class_fn cc)).
Proof.
  intros n c o e. unfold lift, char_class_fn, ret. rewrite char_class_loop_spec.
  destruct c as [str sl [pos len] q stk st cls tag]. cbn.
  destruct (find (has_prefix_at str pos) cc) as [s|]; cbn; intros [= <- _]; unfold pushes; cbn; [eexists; reflexivity|].
  exists []. symmetry. apply app_nil_r.
Qed.
Lemma app_wb word : appends (lift (word_boundary_gen word)).
Proof. unfold word_boundary_gen, with_rest, ret. app_tac. Qed.
Lemma app_base P cls fn : base_leaf P cls fn -> appends fn.
Proof.
  destruct 1; [unfold error_fn|unfold unmatched_fn|unfold zero_fn|unfold start_fn]; app_tac.
Qed.
Lemma app_string P cls fn : string_leaf P cls fn -> appends fn.
Proof.
  destruct 1; [eapply app_base; eauto|..];
    first [apply app_any|apply app_end|apply app_seq|apply app_seqi|apply app_classN|apply app_class|apply app_wb|apply app_char].
Qed.
Lemma app_object P cls fn : object_leaf P cls fn -> appends fn.
Proof.
  destruct 1; [eapply app_base; eauto|..];
    unfold obj_any_fn, obj_end_fn, obj_seq_fn, obj_class_fn, obj_classN_fn, obj_classFn_fn, with_slice, push_val; app_tac.
Qed.
Lemma lib_appends cls fn : lib_leaf cls fn -> appends fn.
Proof. intros [H|H]; [eapply app_string|eapply app_object]; eauto. Qed.

(** ** Grammars without Match *)
Definition sg0 : nat -> Z * Z * Z := fun _ => (0, 0, 0).
Scheme implements_m := Minimality for implements Sort Prop
  with implements_all_m := Minimality for implements_all Sort Prop.
Combined Scheme implements_mut from implements_m, implements_all_m.

Lemma implements_reach g :
  (forall he e, implements g he e -> reach g sg0 he e 0 0 0) /\
  (forall hs es, implements_all g hs es -> reach_seq g sg0 hs es 0 0 0 /\ reach_alt g sg0 hs es 0 0).
Proof.
  apply implements_mut.
  - intros cls fn H. apply re_leaf; [exact H|]. intros n c o E _. destruct (H _ _ _ _ E) as (l & ->). rewrite app_length. lia.
  - intros ins. eapply re_weaken; [apply re_zero|lia|lia|lia].
  - intros hs es _ (A & B). apply re_flat. exact A.
  - intros hs es _ (A & B). eapply re_weaken; [eapply re_group; exact A|lia|lia|lia].
  - intros hs es _ (A & B). apply re_first; [exact B|lia|lia].
  - intros hs es _ (A & B). eapply re_ahead. exact A.
  - intros hs es _ (A & B). eapply re_aheadN. exact A.
  - intros neg mn mx hs es _ (A & B). eapply re_behind. exact A.
  - intros t hs es _ (A & B). eapply re_weaken; [eapply re_repeat; [exact A|lia]|lia|destruct (t_min t <=? 1); lia|destruct (t_min t <=? 0); lia].
  - intros he e hts ts _ IH F. eapply re_trans; [exact IH|exact F|lia|lia|lia|auto| |lia].
    intros n c l l' _ _. lia.
  - intros k. eapply re_weaken; [apply re_indirect|cbn; lia|cbn; lia|cbn; lia].
  - intros cls hfn fn props hs es hts ts I _ (A & B) F. apply re_base; auto.
  - split; constructor.
  - intros he e hs es _ IH _ (A & B). split; [|constructor; assumption].
    eapply is_cons; [exact IH|exact A| | | | | | |]; lia.
Qed.

Lemma copy_sound g henv env : (forall k, implements g (henv k) (env k)) ->
  forall n he e, implements g he e -> agrees (h_run g henv n he) (run env n e) 0 0 0.
Proof.
  intros H n he e He. apply (heap_run_sound g sg0).
  - intros k. apply (proj1 (implements_reach g)). apply H.
  - apply (proj1 (implements_reach g)). exact He.
Qed.

(** ** ProductionRule *)
Definition grown (h h' : heap) : Prop :=
  (length h <= length h')%nat /\ forall b, (b < length h)%nat -> cells h' b = cells h b.
Lemma grown_refl h : grown h h. Proof. split; auto. Qed.
Lemma grown_trans h h1 h2 : grown h h1 -> grown h1 h2 -> grown h h2.
Proof. intros (A & B) (C & D). split; [lia|]. intros b Hb. rewrite D by lia. apply B. exact Hb. Qed.
Lemma grown_kept h h' a k : grown h h' -> (a < length h)%nat -> kept h h' a k.
Proof.
  intros (A & B) H. split; [exact A|]. split; [intros b Hb; rewrite B by auto; reflexivity|]. split; [intros b Hb _; auto|].
  rewrite B by auto. reflexivity.
Qed.
Lemma grown_valid h h' s : grown h h' -> valid h s -> valid h' s.
Proof. intros (A & B) (C & D). split; [lia|]. rewrite B by auto. exact D. Qed.
Lemma grown_elems h h' s : grown h h' -> valid h s -> elems h' s = elems h s.
Proof. intros (A & B) (C & D). unfold elems. rewrite B by auto. reflexivity. Qed.
Lemma kept_grown h0 h h' a k : grown h0 h -> (length h0 <= a)%nat -> kept h h' a k -> grown h0 h'.
Proof.
  intros (A & B) H (C & D & E & F). split; [lia|]. intros b Hb. rewrite E by lia. apply B. exact Hb.
Qed.
Lemma alloc_grown h cap l h1 s : alloc h cap l = (h1, s) -> grown h h1.
Proof.
  intros E. unfold alloc in E. injection E as <- _. split; [rewrite app_length; lia|]. intros b Hb. apply cells_old. exact Hb.
Qed.
Lemma append_grown g h0 h s l h1 s1 : valid h s -> grown h0 h -> (length h0 <= s_arr s)%nat -> go_append g h s l = (h1, s1) ->
  elems h1 s1 = elems h s ++ l /\ valid h1 s1 /\ grown h0 h1 /\ (length h0 <= s_arr s1)%nat.
Proof.
  intros V G H E. apply append_spec in E; auto. destruct E as (E1 & E2 & E3 & E4 & _). split; [exact E1|]. split; [exact E2|].
  split; [eapply kept_grown; eauto|]. destruct E4 as [[-> _]|E4]; [exact H|]. destruct G. lia.
Qed.

Definition some_agrees (hp : hparser) (p : parser) : Prop := forall n, exists rs rf d, agrees (hp n) (p n) rs rf d.

Lemma some_grown hp p n h0 h x h' x' e : some_agrees hp p -> grown h0 h -> valid h (h_stk x) -> (length h0 <= s_arr (h_stk x))%nat ->
  hp n h x = Ok (h', x', e) -> exists o, p n (view h x) = Ok (o, e) /\ grown h0 h' /\ like x' o /\ valid h' (h_stk x) /\
    (e = None -> c_st o = Matched -> view h' x' = o /\ valid h' (h_stk x')).
Proof.
  intros A G V H E. destruct (A n) as (rs & rf & d & A'). specialize (A' h x V). rewrite E in A'. unfold answers in A'.
  destruct (p n (view h x)) as [[o e']|w|]; try contradiction. destruct A' as (-> & L & A'). exists o. split; [reflexivity|].
  assert (K : exists k, kept h h' (s_arr (h_stk x)) k).
  { destruct e'; [eexists; exact A'|]. destruct (c_st o); [destruct A' as (_ & _ & A' & _)|destruct A' as (A' & _)|]; eexists; exact A'. }
  destruct K as (k & K). split; [eapply kept_grown; eauto|]. split; [exact L|]. split; [eapply kept_valid; eauto|].
  intros -> Hm. rewrite Hm in A'. destruct A' as (B1 & B2 & _). auto.
Qed.

Definition prec_made (hpr : hprec) (pr : precedence) : Prop :=
  hpr_rtol hpr = pr_rtol pr /\ Forall2 some_agrees (hpr_rules hpr) (pr_rules pr).

(** The outcome of a scan that started with heap [h0]. *)
Definition scanned (h0 : heap) (r' : hscan) (r : scan) : Prop :=
  match r', r with
  | HSErr h1 e', SErr e => e' = e /\ grown h0 h1
  | HSBad w', SBad w => w' = w
  | HSFuel, SFuel => True
  | HSHit h1 s, SHit l => grown h0 h1 /\ valid h1 s /\ elems h1 s = l /\ (length h0 <= s_arr s)%nat
  | HSNone h1, SNone => grown h0 h1
  | _, _ => False
  end.
Definition dead (r' : hscan) : Prop := match r' with HSNone _ => False | _ => True end.

Section Prod.
  Variables (g : growth) (n : nat) (h0 : heap) (asts : slice) (astx : hctx).
  Hypothesis (Va : valid h0 asts) (Ha : (length h0 <= s_arr (h_stk astx))%nat) (H0 : s_len (h_stk astx) = 0%nat).

  Lemma rules_ok p hrs rs : Forall2 some_agrees hrs rs -> forall h, grown h0 h -> valid h (h_stk astx) ->
    scanned h0 (h_try_rules g n hrs astx asts p h) (try_rules n rs (view h astx) (elems h0 asts) p) /\
    forall h1, h_try_rules g n hrs astx asts p h = HSNone h1 -> valid h1 (h_stk astx).
  Proof.
    induction 1 as [|hr r hrs rs A F IH]; intros h G V; cbn [h_try_rules try_rules].
    { split; [exact G|]. intros h1 [= <-]. exact V. }
    assert (Ev : view h (hmap (fun c => set_pos c p) astx) = set_pos (view h astx) p)
      by (apply (view_hmap h (fun c => set_pos c p)); auto with blind).
    pose proof (fun h' x' e => some_grown hr r n h0 h (hmap (fun c => set_pos c p) astx) h' x' e A G V Ha) as S.
    pose proof (A n) as (q1 & q2 & q3 & A'). specialize (A' h (hmap (fun c => set_pos c p) astx) V). rewrite Ev in A', S.
    destruct (hr n h (hmap (fun c => set_pos c p) astx)) as [[[h1 o'] e']|w'|], (r n (set_pos (view h astx) p)) as [[o e]|w|];
      try (cbn in A'; contradiction).
    2: { cbn in A'. split; [exact A'|discriminate]. } 2: { split; [exact I|discriminate]. }
    destruct (S _ _ _ eq_refl) as (o2 & [= <- <-] & G1 & L & V1 & S4). clear S A'.
    destruct e as [e|]. { split; [split; auto|discriminate]. }
    rewrite (like_st _ _ L). destruct (c_st o) eqn:Es.
    - destruct (S4 eq_refl eq_refl) as (Eo & Vo). pose proof (f_equal c_sp Eo) as Ep. cbn in Ep.
      rewrite (valid_elems _ _ Va). replace (c_pos (h_ctx o')) with (c_pos o) by (unfold c_pos; rewrite <- Eo; reflexivity).
      destruct (Nat.leb_spec p (s_len asts)) as [Hp|Hp]; [|split; [reflexivity|discriminate]].
      destruct (Nat.leb_spec (c_pos o) (s_len asts)) as [Hq|Hq]; [|split; [reflexivity|discriminate]]. cbn [andb].
      destruct (alloc h1 (s_len asts) []) as [h2 z0] eqn:E0.
      pose proof (alloc_grown _ _ _ _ _ E0) as G2. apply alloc_spec in E0. destruct E0 as (Z1 & Z2 & _ & Z3 & _).
      destruct (go_append g h2 z0 (elems h2 (upto asts p))) as [h3 z1] eqn:E1.
      assert (Va1 : valid h1 asts) by (eapply grown_valid; eauto).
      apply (append_grown _ h1) in E1; auto; [|lia]. destruct E1 as (Y1 & Y2 & Y3 & Y4).
      destruct (go_append g h3 z1 (elems h3 (h_stk o'))) as [h4 z2] eqn:E2.
      apply (append_grown _ h1) in E2; auto. destruct E2 as (X1 & X2 & X3 & X4).
      destruct (go_append g h4 z2 (elems h4 (from asts (c_pos o)))) as [h5 z3] eqn:E3.
      apply (append_grown _ h1) in E3; auto. destruct E3 as (W1 & W2 & W3 & W4).
      split; [|discriminate]. split; [eapply grown_trans; eauto|]. split; [exact W2|]. split; [|destruct G1; lia].
      rewrite W1, X1, Y1, Z1. cbn [app]. rewrite <- app_assoc.
      rewrite (grown_elems h1 h2) by (auto using valid_upto). rewrite (grown_elems h1 h3) by auto.
      rewrite (grown_elems h1 h4) by (auto using valid_from). rewrite elems_upto, elems_from by auto.
      rewrite (grown_elems h0 h1) by auto. rewrite <- Eo. reflexivity.
    - assert (Ev1 : view h1 astx = view h astx).
      { unfold view, elems. rewrite H0. reflexivity. }
      rewrite <- Ev1. apply IH; auto.
    - assert (Ev1 : view h1 astx = view h astx).
      { unfold view, elems. rewrite H0. reflexivity. }
      rewrite <- Ev1. apply IH; auto.
  Qed.

  Lemma positions_ok hpr pr : prec_made hpr pr -> forall k i h, grown h0 h -> valid h (h_stk astx) ->
    scanned h0 (h_try_positions g n hpr astx asts i k h) (try_positions n pr (view h astx) (elems h0 asts) i k).
  Proof.
    intros (P1 & P2). induction k as [|k IH]; intros i h G V; cbn [h_try_positions try_positions]; [exact G|].
    rewrite P1, (valid_elems _ _ Va). set (p := if pr_rtol pr then (s_len asts - i)%nat else i).
    destruct (rules_ok p _ _ P2 h G V) as (A & B).
    destruct (h_try_rules g n (hpr_rules hpr) astx asts p h) eqn:E, (try_rules n (pr_rules pr) (view h astx) (elems h0 asts) p);
      cbn in A; try contradiction; try exact A.
    specialize (B _ eq_refl).
    match goal with |- context [h_try_positions _ _ _ _ _ _ _ ?hh] => assert (Ev1 : view hh astx = view h astx)
      by (unfold view, elems; rewrite H0; reflexivity) end.
    rewrite <- Ev1. apply IH; auto.
  Qed.
End Prod.

Lemma precedences_ok g n hprs prs tag asts : Forall2 prec_made hprs prs -> forall h0 h, valid h0 asts -> grown h0 h ->
  scanned h0 (h_try_precedences g n hprs tag asts h) (try_precedences n prs tag (elems h0 asts)).
Proof.
  induction 1 as [|hpr pr hprs prs A F IH]; intros h0 h V G; cbn [h_try_precedences try_precedences]; [exact G|].
  unfold h_new. rewrite (grown_elems h0 h) by auto.
  destruct (alloc h 1024 []) as [h1 s] eqn:E0. pose proof (alloc_grown _ _ _ _ _ E0) as G1.
  apply alloc_spec in E0. destruct E0 as (Z1 & Z2 & _ & Z3 & _ & Z4 & _).
  assert (G01 : grown h0 h1) by (eapply grown_trans; eauto).
  pose proof (positions_ok g n h0 asts (mkH (new_object_ctx (ast_slice (elems h0 asts)) tag) s) V) as P.
  cbn [h_stk] in P. specialize (P ltac:(destruct G; lia) Z4 hpr pr A (S (s_len asts)) 0%nat h1 G01 Z2).
  assert (Ev : view h1 (mkH (new_object_ctx (ast_slice (elems h0 asts)) tag) s) = new_object_ctx (ast_slice (elems h0 asts)) tag).
  { unfold view. cbn [h_stk h_ctx]. rewrite Z1. reflexivity. }
  rewrite Ev in P. rewrite (valid_elems _ _ V).
  destruct (h_try_positions g n hpr _ asts 0 (S (s_len asts)) h1), (try_positions n pr _ (elems h0 asts) 0 (S (s_len asts)));
    cbn in P; try contradiction; try exact P.
  apply IH; auto.
Qed.

Lemma production_ok g n hprs prs hcheck check tag s : Forall2 prec_made hprs prs -> some_agrees hcheck check ->
  forall k h0 h asts, valid h0 s -> grown h0 h -> valid h asts -> (asts = s \/ (length h0 <= s_arr asts)%nat) ->
  match h_production_loop g n k hprs hcheck tag asts h, production_loop n k prs check tag (elems h asts) with
  | Ok (h', inr s'), Ok (inr l) =>
      elems h' s' = l /\ valid h' s' /\ grown h0 h' /\ (s' = s \/ (length h0 <= s_arr s')%nat)
  | Ok (h', inl e'), Ok (inl e) => e' = e /\ grown h0 h'
  | Panic w', Panic w => w' = w
  | Fuel, Fuel => True
  | _, _ => False
  end.
Proof.
  intros A C. induction k as [|k IH]; intros h0 h asts V0 G V H; cbn [h_production_loop production_loop]; [exact I|].
  pose proof (precedences_ok g n hprs prs tag asts A h h V (grown_refl h)) as P.
  assert (Ck : forall h1 asts1 next' next, grown h h1 -> valid h1 asts1 -> (asts1 = s \/ (length h0 <= s_arr asts1)%nat) ->
    (forall h3, grown h1 h3 -> 
      match next' h3, next with
      | Ok (h', inr s'), Ok (inr l) =>
          elems h' s' = l /\ valid h' s' /\ grown h0 h' /\ (s' = s \/ (length h0 <= s_arr s')%nat)
      | Ok (h', inl e'), Ok (inl e) => e' = e /\ grown h0 h'
      | Panic w', Panic w => w' = w
      | Fuel, Fuel => True
      | _, _ => False
      end) ->
    match
        (let '(h2, x) := h_new h1 (new_object_ctx (ast_slice (elems h1 asts1)) tag) in
        match hcheck n h2 x with
        | Panic w => Panic w
        | Fuel => Fuel
        | Ok (h3, o, None) => match hst o with Matched => Ok (h3, inr asts1) | _ => next' h3 end
        | Ok (h3, _, Some _) => next' h3
        end),
        (match check n (new_object_ctx (ast_slice (elems h1 asts1)) tag) with
        | Panic w => Panic w
        | Fuel => Fuel
        | Ok (o, None) => match c_st o with Matched => tok (elems h1 asts1) | _ => next end
        | Ok (_, Some _) => next
        end) with
    | Ok (h', inr s'), Ok (inr l) =>
        elems h' s' = l /\ valid h' s' /\ grown h0 h' /\ (s' = s \/ (length h0 <= s_arr s')%nat)
    | Ok (h', inl e'), Ok (inl e) => e' = e /\ grown h0 h'
    | Panic w', Panic w => w' = w
    | Fuel, Fuel => True
    | _, _ => False
    end).
  { intros h1 asts1 next' next G1 V1 H1 N. unfold h_new.
    destruct (alloc h1 1024 []) as [h2 z] eqn:E0. pose proof (alloc_grown _ _ _ _ _ E0) as G2.
    apply alloc_spec in E0. destruct E0 as (Z1 & Z2 & _ & Z3 & _ & Z4 & _).
    set (c := new_object_ctx (ast_slice (elems h1 asts1)) tag).
    assert (Ev : view h2 (mkH c z) = c) by (unfold view; cbn [h_stk h_ctx]; rewrite Z1; reflexivity).
    pose proof (fun h' x' e => some_grown hcheck check n h1 h2 (mkH c z) h' x' e C G2 Z2 ltac:(cbn; lia)) as S.
    destruct (C n) as (q1 & q2 & q3 & C'). specialize (C' h2 (mkH c z) Z2). rewrite Ev in C', S.
    destruct (hcheck n h2 (mkH c z)) as [[[h3 o'] e']|w'|], (check n c) as [[o e]|w|]; try (cbn in C'; contradiction); auto.
    destruct (S _ _ _ eq_refl) as (o2 & [= <- <-] & G3 & L & _). destruct e as [e|]; [apply N; exact G3|].
    rewrite (like_st _ _ L). destruct (c_st o); try (apply N; exact G3).
    split; [apply grown_elems; auto|]. split; [eapply grown_valid; eauto|]. split; [|exact H1].
    eapply grown_trans; [exact G|]. eapply grown_trans; eauto. }
  destruct (h_try_precedences g n hprs tag asts h) as [h1 e'|w'| |h1 asts1|h1], (try_precedences n prs tag (elems h asts)) as [e|w| |l|];
    cbn in P; try contradiction; auto.
  - destruct P as (-> & P). split; [reflexivity|]. eapply grown_trans; eauto.
  - destruct P as (P1 & P2 & <- & P4). apply Ck; auto; [right; destruct G; lia|].
    intros h3 G3. rewrite <- (grown_elems h1 h3) by auto. apply IH; auto.
    + eapply grown_trans; [exact G|]. eapply grown_trans; eauto.
    + eapply grown_valid; eauto.
    + right. destruct G. lia.
  - rewrite <- (grown_elems h h1) by auto. apply Ck; auto; [eapply grown_valid; eauto|].
    intros h3 G3. split; [reflexivity|]. eapply grown_trans; [exact G|]. eapply grown_trans; eauto.
Qed.

Lemma production_faithful g hprs prs hcheck check : Forall2 prec_made hprs prs -> some_agrees hcheck check ->
  faithful (h_production g hprs hcheck) (ProductionRule prs check).
Proof.
  intros A C n c h s V. unfold h_production, ProductionRule.
  pose proof (production_ok g n hprs prs hcheck check (c_tag c) s A C n h h s V (grown_refl h) V (or_introl eq_refl)) as P.
  destruct (h_production_loop g n n hprs hcheck (c_tag c) s h) as [[h' [e'|s']]|w'|], (production_loop n n prs check (c_tag c) (elems h s)) as [[e|l]|w|];
    try contradiction; auto.
  - destruct P as (-> & P). split; [reflexivity|]. apply grown_kept; [exact P|apply V].
  - destruct P as (P1 & P2 & P3 & P4). split; [exact P1|]. split; [exact P2|]. split; [apply grown_kept; [exact P3|apply V]|].
    destruct P4 as [->|P4]; [left; auto|right; exact P4].
Qed.
