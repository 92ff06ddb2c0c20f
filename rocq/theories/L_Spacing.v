(** The space between the tokens of a formula does not matter (C85). *)
From Verif Require Export L_Compose S_Spacing.
Local Notation never := (fun _ : arith => False).
Local Notation dz := divides_by_zero.

(** ** Bytes that tokens start with *)
Definition hard (c : Z) : Prop := 48 <= c <= 57 \/ In c [40; 41; 42; 43; 45; 47].
Definition no_gap (q : bytes) : Prop := forall x, space_char x -> ~ begins x q.
Lemma hard_start c r : hard c -> no_gap (c :: r).
Proof.
  intros H x Hx (t & E). unfold hard in H. cbn [In] in H. unfold space_char in Hx. cbn [In] in Hx.
  repeat (destruct Hx as [<-|Hx]; [cbn [app] in E; injection E as E _; lia|]). destruct Hx.
Qed.
Lemma empty_start : no_gap [].
Proof. exact (proj2 (proj2 nothing_left)). Qed.
Lemma shape_start d : int_shape d -> exists c r, d = c :: r /\ 48 <= c <= 57.
Proof. intros [(r & -> & _)|(c & r & -> & Hc & _)]; [exists 48, r|exists c, r]; split; auto; lia. Qed.
Lemma lexeme_start w : lexeme w -> exists c r, w = c :: r /\ hard c.
Proof.
  intros [(g & d & -> & Sg & Sh)|H].
  - destruct (shape_start d Sh) as (c & r & -> & Hc). destruct Sg as [Sg|[Sg|Sg]]; subst g; eexists; eexists; (split; [reflexivity|]); [left; exact Hc|right; cbn; tauto|right; cbn; tauto].
  - cbn [In] in H. decompose [or] H; try contradiction; subst w; eexists; eexists; (split; [reflexivity|]); right; cbn; tauto.
Qed.
Lemma gap_first b : gap b -> b = [] \/ exists c r, b = c :: r /\ ~ hard c /\ ~ word_byte c.
Proof.
  intros [|x t Hx G]; [left; reflexivity|]. right. unfold space_char in Hx. cbn [In] in Hx.
  repeat (destruct Hx as [<-|Hx]; [cbn [app]; eexists; eexists; split; [reflexivity|]; unfold hard, word_byte; cbn [In]; lia|]). destruct Hx.
Qed.
(** What may follow an expression. *)
Definition follower (c : Z) : Prop := In c [41; 42; 43; 45; 47].
Definition ends (q : bytes) : Prop := q = [] \/ exists c r, q = c :: r /\ follower c.
Definition same_start (q q' : bytes) : Prop := (q = [] /\ q' = []) \/ exists c r r', q = c :: r /\ q' = c :: r' /\ follower c.
Lemma follower_hard c : follower c -> hard c.
Proof. unfold follower, hard. cbn. tauto. Qed.
Lemma same_clear q q' : same_start q q' -> no_gap q'.
Proof. intros [[_ ->]|(c & r & r' & _ & -> & H)]; [apply empty_start|apply hard_start, follower_hard; exact H]. Qed.
Lemma same_self q : ends q -> same_start q q.
Proof. intros [->|(c & r & -> & H)]; [left; auto|right; exists c, r, r; auto]. Qed.

(** ** Spellings *)
Lemma spelled_app l m : forall p, spelled (l ++ m) p <-> exists p1 p2, p = p1 ++ p2 /\ spelled l p1 /\ spelled m p2.
Proof.
  induction l as [|w l IH]; intros p; cbn [app]; split.
  - intros H. exists [], p. split; [reflexivity|]. split; [constructor|exact H].
  - intros (p1 & p2 & -> & H1 & H2). inversion H1; subst. exact H2.
  - intros H. inversion H as [|w' b l' s' G H']; subst. apply IH in H' as (p1 & p2 & -> & H1 & H2). exists (w ++ b ++ p1), p2. rewrite <- !app_assoc. split; [reflexivity|]. split; [constructor; assumption|exact H2].
  - intros (p1 & p2 & -> & H1 & H2). inversion H1 as [|w' b l' s' G H']; subst. rewrite <- !app_assoc. constructor; [exact G|]. apply IH. eauto.
Qed.
Lemma spelled_one w p : spelled [w] p <-> exists b, p = w ++ b /\ gap b.
Proof.
  split; [intros H; inversion H as [|w' b l s G H']; subst; inversion H'; subst; exists b; rewrite app_nil_r; auto|].
  intros (b & -> & G). replace (w ++ b) with (w ++ b ++ []) by (rewrite app_nil_r; reflexivity). constructor; [exact G|constructor].
Qed.
Lemma spelled_clear l p q : Forall lexeme l -> spelled l p -> no_gap q -> no_gap (p ++ q).
Proof.
  intros F H N. destruct H as [|w b l s G H]; [exact N|]. inversion F as [|? ? Lw _]; subst. destruct (lexeme_start w Lw) as (c & r & -> & Hc). rewrite <- !app_comm_cons. apply hard_start. exact Hc.
Qed.
Lemma gap_then b q : gap b -> no_gap q -> whole_gap (b ++ q) b q.
Proof. intros G N. split; [reflexivity|]. split; assumption. Qed.
Lemma gap_bytes b : gap b -> Forall is_byte b.
Proof.
  induction 1 as [|x t Hx G IH]; [constructor|]. apply Forall_app. split; [|exact IH]. unfold space_char in Hx. cbn [In] in Hx.
  repeat (destruct Hx as [<-|Hx]; [repeat constructor; unfold is_byte; lia|]). destruct Hx.
Qed.
Lemma lexeme_bytes w : lexeme w -> Forall is_byte w.
Proof.
  intros [(g & d & -> & Sg & Sh)|H].
  - apply Forall_app. split; [destruct Sg as [Sg|[Sg|Sg]]; subst g; repeat constructor; unfold is_byte; lia|].
    destruct Sh as [(r & -> & F)|(c & r & -> & Hc & F)]; (constructor; [unfold is_byte; lia|]); eapply Forall_impl; [|exact F|idtac|exact F]; cbn; intros x Hx; unfold is_byte; unfold dec_digit in *; lia.
  - cbn [In] in H. decompose [or] H; try contradiction; subst w; repeat constructor; unfold is_byte; lia.
Qed.
Lemma spelling_bytes l s : Forall lexeme l -> spelling l s -> Forall is_byte s.
Proof.
  intros F (b & t & -> & G & H). apply Forall_app. split; [apply gap_bytes; exact G|]. induction H as [|w b' l s G' H IH]; [constructor|]. inversion F; subst.
  apply Forall_app. split; [apply lexeme_bytes; assumption|]. apply Forall_app. split; [apply gap_bytes; exact G'|]. auto.
Qed.

(** ** Numbers and signs *)
Lemma number_lexeme s w q : number_at s w q -> lexeme w /\ exists p, s = p ++ q /\ spelled [w] p.
Proof.
  intros (t & b & -> & (-> & G & N) & I' & _). split; [left; exact I'|]. exists (w ++ b). split; [rewrite <- app_assoc; reflexivity|]. apply spelled_one. eauto.
Qed.
Lemma number_again s w q p' q' : number_at s w q -> spelled [w] p' -> same_start q q' -> number_at (p' ++ q') w q'.
Proof.
  intros (t & b & _ & _ & I' & _) H E. apply spelled_one in H as (b' & -> & G). exists (b' ++ q'), b'. split; [rewrite <- app_assoc; reflexivity|]. split; [apply gap_then; [exact G|eapply same_clear; exact E]|].
  split; [exact I'|]. intros c u Ec. destruct (gap_first b' G) as [->|(c' & r & -> & _ & Nw)]; cbn [app] in Ec; [|injection Ec as <- _; exact Nw].
  destruct E as [[_ ->]|(c' & r & r' & _ & -> & H)]; [discriminate|]. injection Ec as <- _. unfold follower in H. cbn [In] in H. unfold word_byte. lia.
Qed.
Lemma number_starts s w q : number_at s w q -> starts_number s.
Proof. intros (t & b & -> & _ & I' & N). exists w, t. split; [reflexivity|]. split; [exact I'|]. intros c u E. eapply N. exact E. Qed.
Lemma signs_lexemes s k u : signs s k u -> exists p, s = p ++ u /\ spelled (repeat [45] k) p.
Proof.
  induction 1 as [s N|t b u k q (-> & G & _) H (p & -> & Sp)]; [exists []; split; [reflexivity|constructor]|]. exists ([45] ++ b ++ p). split; [cbn; rewrite <- app_assoc; reflexivity|]. cbn [repeat]. constructor; assumption.
Qed.
Lemma minus_lexemes k : Forall lexeme (repeat [45] k).
Proof. induction k; cbn [repeat]; constructor; auto. right. cbn. tauto. Qed.
Lemma signs_again k : forall p u, spelled (repeat [45] k) p -> no_gap u -> ~ begins [45] u -> signs (p ++ u) k u.
Proof.
  induction k as [|k IH]; intros p u H N M; cbn [repeat] in H; inversion H as [|w b l s G H']; subst; [constructor; exact M|].
  rewrite <- !app_assoc. cbn [app]. eapply si_more; [apply gap_then; [exact G|]|apply IH; eassumption]. eapply spelled_clear; [apply minus_lexemes|exact H'|exact N].
Qed.
Lemma minus_digit x : starts_number (45 :: x) -> exists c r, x = c :: r /\ 48 <= c <= 57.
Proof.
  intros (w & t & E & (g & d & -> & Sg & Sh) & _). destruct (shape_start d Sh) as (c & r & -> & Hc). destruct Sg as [Sg|[Sg|Sg]]; subst g; cbn [app] in E; injection E as E; subst; try lia. exists c, (r ++ t). auto.
Qed.
Lemma open_no_number x : ~ starts_number (40 :: x).
Proof. intros (w & t & E & (g & d & -> & Sg & Sh) & _). destruct (shape_start d Sh) as (c & r & -> & Hc). destruct Sg as [Sg|[Sg|Sg]]; subst g; cbn [app] in E; injection E as E; lia. Qed.

(** ** Formulas that differ in how negative numbers are written *)
Inductive alike : arith -> arith -> Prop :=
| al_lit : forall z, alike (FLit z) (FLit z)
| al_neg : forall f g, alike f g -> alike (FNeg f) (FNeg g)
| al_bin : forall o f g f' g', alike f f' -> alike g g' -> alike (FBin o f g) (FBin o f' g')
| al_sign : forall z, int64 (- z) -> alike (FNeg (FLit z)) (FLit (- z)).
Lemma alike_evals f g : alike f g -> forall x, evals f x -> evals g x.
Proof.
  induction 1 as [z|f g H IH|o f g f' g' H1 IH1 H2 IH2|z Hz]; intros x E.
  - exact E.
  - inversion E; subst. econstructor; eauto.
  - inversion E; subst; econstructor; eauto.
  - inversion E as [|f x' r E' W| | | |]; subst. inversion E'; subst. rewrite (wraps_det _ _ _ W (wraps_self _ Hz)). constructor.
Qed.
Lemma alike_dz f g : alike f g -> dz f -> dz g.
Proof.
  induction 1 as [z|f g H IH|o f g f' g' H1 IH1 H2 IH2|z Hz]; intros D; inversion D; subst; try (constructor; auto; fail).
  - apply dz_here. eapply alike_evals; eauto.
  - match goal with X : dz (FLit _) |- _ => inversion X end.
Qed.
Lemma alike_signed f g : alike f g -> forall z, signed f z -> signed g z.
Proof.
  induction 1 as [z|f g H IH|o f g f' g' H1 IH1 H2 IH2|z Hz]; intros y Sy.
  - exact Sy.
  - inversion Sy; subst. econstructor; eauto.
  - inversion Sy.
  - inversion Sy as [|f x' r E' W]; subst. inversion E'; subst. rewrite (wraps_det _ _ _ W (wraps_self _ Hz)). constructor.
Qed.
Lemma alike_compound f g : alike f g -> compound f -> compound g.
Proof. induction 1; intros C; inversion C; subst; try (constructor; auto; fail). match goal with X : compound (FLit _) |- _ => inversion X end. Qed.
Lemma alike_postfix f g : alike f g -> forall l, postfix f l -> postfix g l.
Proof.
  induction 1 as [z|f g H IH|o f g f' g' H1 IH1 H2 IH2|z Hz]; intros l P.
  - exact P.
  - inversion P as [f0 y Sy|f0 l0 C P0|]; subst; [constructor; eapply alike_signed; [constructor; exact H|exact Sy]|]. constructor; [eapply alike_compound; eauto|auto].
  - inversion P as [f0 y Sy|f0 l0 C P0|]; subst; [inversion Sy|]. constructor; auto.
  - inversion P as [f0 y Sy|f0 l0 C P0|]; subst; [|inversion C]. constructor. eapply alike_signed; [apply al_sign; exact Hz|exact Sy].
Qed.
Lemma alike_negated k f g : alike f g -> alike (negated k f) (negated k g).
Proof. intros H. induction k; cbn [negated]; [exact H|constructor; assumption]. Qed.
Definition alike_pair (x y : fop * arith) : Prop := fst x = fst y /\ alike (snd x) (snd y).
Lemma alike_products f f' l t : alike f f' -> products f l t -> forall l', Forall2 alike_pair l l' -> exists t', products f' l' t' /\ alike t t'.
Proof.
  intros A H. induction H as [|l t o g M H IH]; intros l' F.
  - inversion F; subst. exists f'. split; [constructor|exact A].
  - apply Forall2_app_inv_l in F as (l1 & l2 & F1 & F2 & ->). inversion F2 as [|? [o' g'] ? ? [Eo Ag] F3]; subst. inversion F3; subst. cbn in Eo, Ag. subst o'. destruct (IH l1 F1) as (t' & P & At). exists (FBin o t' g'). split; [constructor; assumption|constructor; assumption].
Qed.
Lemma alike_sums f f' l t : alike f f' -> sums f l t -> forall l', Forall2 alike_pair l l' -> exists t', sums f' l' t' /\ alike t t'.
Proof.
  intros A H. induction H as [l t P|l t o g m u M H IH P]; intros l' F.
  - destruct (alike_products _ _ _ _ A P l' F) as (t' & P' & At). exists t'. split; [constructor; exact P'|exact At].
  - apply Forall2_app_inv_l in F as (l1 & l2 & F1 & F2 & ->). inversion F2 as [|? [o' g'] ? ? [Eo Ag] F3]; subst. cbn in Eo, Ag. subst o'.
    destruct (IH l1 F1) as (t' & P' & At). destruct (alike_products _ _ _ _ Ag P _ F3) as (u' & Pu & Au). exists (FBin o t' u'). split; [constructor; assumption|constructor; assumption].
Qed.

(** ** Readings *)
(** [again T l s q]: [s] is spelled by [l] and then [q]; and in all other spellings of [l]
    before a text that starts as [q] does there is a reading as [T] says. *)
Definition again (T : bytes -> bytes -> Prop) (l : list bytes) (s q : bytes) : Prop :=
  Forall lexeme l /\ (exists p, s = p ++ q /\ spelled l p) /\ forall p' q', spelled l p' -> same_start q q' -> T (p' ++ q') q'.
Definition number_token (s : bytes) (l : list bytes) (f : arith) (q : bytes) : Prop :=
  exists w z, l = [w] /\ f = FLit z /\ number_at s w q /\ int_numeral 10 (strip w) z /\ int64 z.
Lemma glue v w q z : number_at v w q -> ~ begins [45] v -> ~ begins [43] v -> int_numeral 10 (strip w) z -> int64 z ->
  number_at (45 :: v) (45 :: w) q /\ int_numeral 10 (strip (45 :: w)) (- z) /\ int64 (- z).
Proof.
  intros (t & b & -> & W & (g & d & -> & Sg & Sh) & N) M P' In' Hz. unfold sign in Sg. destruct Sg as [Sg|[Sg|Sg]]; subst g; [|exfalso; apply P'; cbn [app]; eexists; reflexivity|exfalso; apply M; cbn [app]; eexists; reflexivity].
  cbn [app] in *. destruct (shape_start d Sh) as (c & r & -> & Hc). cbn [strip filter] in *. assert (E : (c =? 95) = false) by (apply Z.eqb_neq; lia). rewrite E in In'. cbn [negb] in In'.
  destruct In' as [In'|[(t' & E' & _)|(t' & E' & _)]]; [|injection E' as E' _; lia|injection E' as E' _; lia].
  split; [|split].
  - exists t, b. split; [reflexivity|]. split; [exact W|]. split; [|exact N]. exists [45], (c :: r). split; [reflexivity|]. split; [right; right; reflexivity|exact Sh].
  - right. right. exists (c :: strip r). split; [cbn [Z.eqb negb]; rewrite E; reflexivity|]. rewrite Z.opp_involutive. exact In'.
  - pose proof (numeral_nonneg 10 _ _ ltac:(lia) In'). unfold int64 in *. lia.
Qed.
Lemma first_same l p q p' q' : l <> [] -> Forall lexeme l -> spelled l p -> spelled l p' -> forall c, begins [c] (p' ++ q') -> begins [c] (p ++ q).
Proof.
  intros Nl F H H' c (t & E). destruct l as [|w l]; [contradiction|]. inversion F as [|? ? Lw _]; subst. destruct (lexeme_start w Lw) as (d & r & -> & _).
  inversion H; subst. inversion H'; subst. cbn [app] in *. injection E as -> E. eexists. rewrite <- !app_comm_cons. reflexivity.
Qed.
(** An operand after an operator, spelled differently *)
Lemma operand_again num u k v m f q lp p' q' :
  operand_at num u k v -> primary_at never v m (Got f q) -> lp <> [] -> (if m then number_token v lp f q else exists l, lp = [40] :: l) ->
  again (fun x y => exists f', alike f f' /\ primary_at never x m (Got f' y)) lp v q ->
  spelled (repeat [45] k ++ lp) p' -> same_start q q' ->
  exists k' v' f', operand_at num (p' ++ q') k' v' /\ primary_at never v' m (Got f' q') /\ alike (negated k f) (negated k' f').
Proof.
  intros Oa Pm Nl Hm (F & (pv & -> & Sv) & Ag) Sp Ss. apply spelled_app in Sp as (ps & pp & -> & S1 & S2). rewrite <- app_assoc.
  destruct (Ag pp q' S2 Ss) as (f' & Af & Pm').
  assert (Cl : no_gap (pp ++ q')) by (eapply spelled_clear; [exact F|exact S2|eapply same_clear; exact Ss]).
  assert (Fs : forall c, begins [c] (pp ++ q') -> begins [c] (pv ++ q)) by (eapply first_same; eauto).
  remember (pv ++ q) as vv eqn:Ev. destruct Oa as [u Su|num u k v N Sg].
  - cbn [repeat] in S1. inversion S1; subst ps. cbn [app]. exists 0%nat, (pp ++ q'), f'. split; [|split; [exact Pm'|exact Af]]. destruct m.
    + destruct Hm as (w & z & -> & -> & Nv & _). apply oa_number. eapply number_starts. eapply number_again; eauto.
    + exfalso. destruct Hm as (l & ->). inversion Sv; subst. cbn [app] in Su. apply (open_no_number _ Su).
  - pose proof (signs_no_minus _ _ _ Sg) as Nm. assert (Nm' : ~ begins [45] (pp ++ q')) by (intros X; apply Nm, Fs, X).
    assert (Plain : (num = true -> ~ starts_number (ps ++ pp ++ q')) -> exists k' v' f', operand_at num (ps ++ pp ++ q') k' v' /\ primary_at never v' m (Got f' q') /\ alike (negated k f) (negated k' f')).
    { intros X. exists k, (pp ++ q'), f'. split; [apply oa_signs; [exact X|apply signs_again; assumption]|]. split; [exact Pm'|]. apply alike_negated. exact Af. }
    destruct num; [|apply Plain; discriminate]. specialize (N eq_refl).
    destruct k as [|k]; cbn [repeat] in S1; inversion S1 as [|w b l s G S1']; subst.
    + apply Plain. intros _ X. inversion Sg; subst. cbn [app] in X. destruct m.
      * destruct Hm as (w & z & -> & -> & Nv & _). apply N. eapply number_starts. exact Nv.
      * destruct Hm as (l & ->). inversion S2; subst. cbn [app] in X. apply (open_no_number _ X).
    + rewrite <- !app_assoc in *. cbn [app] in *. destruct (gap_first b G) as [->|(c & r & -> & Hc & _)].
      2: { apply Plain. intros _ X. apply minus_digit in X as (c' & r' & E & Hd). cbn [app] in E. injection E as <- _. apply Hc. left. exact Hd. }
      cbn [app] in *. destruct k as [|k]; cbn [repeat] in S1'; inversion S1' as [|w b l s' G' S1'']; subst.
      2: { apply Plain. intros _ X. apply minus_digit in X as (c' & r' & E & Hd). cbn [app] in E. injection E as <- _. lia. }
      cbn [app] in *. destruct m.
      * destruct Hm as (w & z & -> & -> & Nv & Iz & Hz). pose proof (number_again _ _ _ _ _ Nv S2 Ss) as Nv'.
        destruct (pp ++ q') as [|c x] eqn:Ex; [exfalso; destruct Nv' as (t & b & E & _ & (g & d & -> & _ & Sh) & _); destruct (shape_start d Sh) as (c & r & -> & _); destruct g; discriminate|].
        destruct (Z.eq_dec c 43) as [->|Nc].
        { apply Plain. intros _ X. apply minus_digit in X as (c' & r' & E & Hd). injection E as <- _. lia. }
        destruct (glue (c :: x) w q' z Nv') as (Ng & Ig & Hg); auto; [intros (t & E); injection E as -> _; contradiction|].
        exists 0%nat, (45 :: c :: x), (FLit (- z)). split; [apply oa_number; eapply number_starts; exact Ng|]. split; [eapply pm_number; eauto|]. cbn [negated]. apply al_sign. exact Hg.
      * apply Plain. intros _ X. destruct Hm as (l & ->). inversion S2; subst. apply minus_digit in X as (c' & r' & E & Hd). cbn [app] in E. injection E as <- _. lia.
Qed.
Lemma op_follower o : follower (op_byte o).
Proof. unfold follower. destruct o; cbn; tauto. Qed.
Lemma spaced_again :
  (forall s num r, primary_at never s num r -> forall f q, r = Got f q -> ends q -> exists l, l <> [] /\ (if num then number_token s l f q else exists l', l = [40] :: l') /\
     again (fun x y => exists f', alike f f' /\ primary_at never x num (Got f' y)) l s q) /\
  (forall s r, expression_at never s r -> forall f q, r = Got f q -> ends q -> exists l, l <> [] /\
     again (fun x y => exists f', alike f f' /\ expression_at never x (Got f' y)) l s q) /\
  (forall num s r, others_at never num s r -> forall ol q, r = Got ol q -> ends q -> ends s /\ exists l,
     again (fun x y => same_start s x /\ exists ol', Forall2 alike_pair ol ol' /\ others_at never num x (Got ol' y)) l s q).
Proof.
  apply (reading_mut never
    (fun s num r => forall f q, r = Got f q -> ends q -> exists l, l <> [] /\ (if num : bool then number_token s l f q else exists l', l = [40] :: l') /\ again (fun x y => exists f', alike f f' /\ primary_at never x num (Got f' y)) l s q)
    (fun s r => forall f q, r = Got f q -> ends q -> exists l, l <> [] /\ again (fun x y => exists f', alike f f' /\ expression_at never x (Got f' y)) l s q)
    (fun num s r => forall ol q, r = Got ol q -> ends q -> ends s /\ exists l, again (fun x y => same_start s x /\ exists ol', Forall2 alike_pair ol ol' /\ others_at never num x (Got ol' y)) l s q)); try discriminate.
  - intros s w q z N Iz Hz f q0 E Eq. injection E as <- <-. exists [w]. split; [discriminate|]. split; [exists w, z; auto|].
    destruct (number_lexeme _ _ _ N) as [Lw Sp]. split; [constructor; auto|]. split; [exact Sp|]. intros p' q' S' Ss. exists (FLit z). split; [constructor|]. eapply pm_number; eauto. eapply number_again; eauto.
  - intros t b u r r' W X IH C f q E Eq. subst r'. inversion C as [f0 v b0 q0 W'| |r0 Fa]; subst; [|contradiction].
    assert (Ec : ends (41 :: v)) by (right; exists 41, v; split; [reflexivity|unfold follower; cbn; tauto]).
    destruct (IH f (41 :: v) eq_refl Ec) as (l & Nl & Fl & (p & -> & Sp) & Ag). exists ([40] :: l ++ [[41]]). split; [discriminate|]. split; [eauto|].
    destruct W as (-> & G & _), W' as (-> & G' & _). split; [|split].
    + constructor; [right; cbn; tauto|]. apply Forall_app. split; [exact Fl|]. constructor; [right; cbn; tauto|constructor].
    + exists ([40] ++ b ++ p ++ [41] ++ b0). split; [rewrite <- !app_assoc; reflexivity|]. constructor; [exact G|]. apply spelled_app. exists p, ([41] ++ b0). split; [reflexivity|]. split; [exact Sp|]. apply spelled_one. eauto.
    + intros p' q' S' Ss. inversion S' as [|w b' l' s' G1 S1]; subst. apply spelled_app in S1 as (p1 & p2 & -> & S1 & S2). apply spelled_one in S2 as (b2 & -> & G2).
      assert (Sc : same_start (41 :: b0 ++ q) (41 :: b2 ++ q')) by (right; exists 41, (b0 ++ q), (b2 ++ q'); split; [reflexivity|]; split; [reflexivity|unfold follower; cbn; tauto]).
      destruct (Ag p1 _ S1 Sc) as (f' & Af & Xf). exists f'. split; [exact Af|]. rewrite <- !app_assoc. cbn [app]. eapply pm_group; [apply gap_then; [exact G1|]|exact Xf|].
      * eapply spelled_clear; [exact Fl|exact S1|eapply same_clear; exact Sc].
      * eapply cl_done. apply gap_then; [exact G2|eapply same_clear; exact Ss].
  - intros s k u num r Sg Pm IH Fa f q ->. contradiction.
  - intros s k u num f q r r' Sg Pm IH Ot IHo C f0 q0 -> Eq. inversion C as [ol t q1 Su Nt| |r0 Fa]; subst; [|destruct r; discriminate || contradiction].
    destruct (IHo ol q0 eq_refl Eq) as (Es & lo & Flo & (po & -> & So) & Ago). destruct (IH f _ eq_refl Es) as (lp & Nlp & Hm & Flp & (pp & Eu & Spp) & Agp).
    destruct (signs_lexemes _ _ _ Sg) as (ps & -> & Sps). exists (repeat [45] k ++ lp ++ lo). split; [destruct lp; [contradiction|]; destruct k; discriminate|]. split; [|split].
    + apply Forall_app. split; [apply minus_lexemes|]. apply Forall_app. auto.
    + exists (ps ++ pp ++ po). rewrite Eu. split; [rewrite <- !app_assoc; reflexivity|]. apply spelled_app. exists ps, (pp ++ po). split; [reflexivity|]. split; [exact Sps|]. apply spelled_app. eauto.
    + intros p' q' S' Ss. apply spelled_app in S' as (p1 & p23 & -> & S1 & S23). apply spelled_app in S23 as (p2 & p3 & -> & S2 & S3).
      destruct (Ago p3 q' S3 Ss) as (Ss' & ol' & F2 & Ot'). destruct (Agp p2 _ S2 Ss') as (f' & Af & Pm').
      destruct (alike_sums _ (negated k f') _ _ (alike_negated k _ _ Af) Su ol' F2) as (t' & Su' & At). exists t'. split; [exact At|]. rewrite <- !app_assoc.
      eapply (xp_chain _ _ k (p2 ++ p3 ++ q') num f' (p3 ++ q') (Got ol' q')); [|exact Pm'|exact Ot'|constructor; [exact Su'|auto]].
      apply signs_again; [exact S1| |].
      * eapply spelled_clear; [exact Flp|exact S2|eapply same_clear; exact Ss'].
      * intros X. apply (signs_no_minus _ _ _ Sg). rewrite Eu. eapply first_same; eauto.
  - intros num s N ol q E Eq. injection E as <- <-. split; [exact Eq|]. exists []. split; [constructor|]. split; [exists []; split; [reflexivity|constructor]|].
    intros p' q' S' Ss. inversion S'; subst. cbn [app]. split; [exact Ss|]. exists []. split; [constructor|]. constructor. intros o (t & E). apply (N o).
    destruct Ss as [[_ ->]|(c & r & r' & -> & -> & _)]; [discriminate|]. injection E as -> _. exists r. reflexivity.
  - intros num o t b u k v m r W Oa Pm IH Fa ol q E. destruct r; discriminate || contradiction.
  - intros num o t b u k v m f q r W Oa Pm IH Ot IHo ol0 q0 E Eq. destruct r as [ol q1| |]; try discriminate. cbn [before_all] in E. injection E as <- <-. split; [right; exists (op_byte o), t; split; [reflexivity|apply op_follower]|].
    destruct (IHo ol q1 eq_refl Eq) as (Es & lo & Flo & (po & -> & So) & Ago). destruct (IH f _ eq_refl Es) as (lp & Nlp & Hm & Agp). pose proof Agp as (Flp & (pp & Eu & Spp) & _).
    assert (Sg : exists ps, u = ps ++ v /\ spelled (repeat [45] k) ps) by (destruct Oa as [u Su|num u k v N Sg]; [exists []; split; [reflexivity|constructor]|apply signs_lexemes; exact Sg]).
    destruct Sg as (ps & Eu' & Sps). exists ([op_byte o] :: (repeat [45] k ++ lp) ++ lo). split; [|split].
    + constructor; [right; destruct o; cbn; tauto|]. apply Forall_app. split; [|exact Flo]. apply Forall_app. split; [apply minus_lexemes|exact Flp].
    + destruct W as (-> & G & _). exists ([op_byte o] ++ b ++ (ps ++ pp) ++ po). subst u v. split; [rewrite <- !app_assoc; reflexivity|]. constructor; [exact G|]. apply spelled_app. exists (ps ++ pp), po. split; [reflexivity|]. split; [|exact So]. apply spelled_app. eauto.
    + intros p' q' S' Ss. inversion S' as [|w b' l' s' G1 S1]; subst w l' p'. apply spelled_app in S1 as (p2 & p3 & -> & S2 & S3).
      split; [right; exists (op_byte o), t; eexists; split; [reflexivity|]; split; [rewrite <- !app_assoc; reflexivity|apply op_follower]|].
      destruct (Ago p3 q' S3 Ss) as (Ss' & ol' & F2 & Ot').
      destruct (operand_again num u k v m f (po ++ q1) lp p2 (p3 ++ q') Oa Pm Nlp Hm Agp S2 Ss') as (k' & v' & f' & Oa' & Pm' & Af).
      exists ((o, negated k' f') :: ol'). split; [constructor; [split; [reflexivity|exact Af]|exact F2]|]. rewrite <- !app_assoc. cbn [app].
      apply (ot_more never num o (b' ++ p2 ++ p3 ++ q') b' (p2 ++ p3 ++ q') k' v' m f' (p3 ++ q') (Got ol' q')); [apply gap_then; [exact G1|]|exact Oa'|exact Pm'|exact Ot'].
      eapply spelled_clear; [apply Forall_app; split; [apply minus_lexemes|exact Flp]|exact S2|eapply same_clear; exact Ss'].
Qed.
Lemma respelled s f : read_as s f -> exists l, Forall lexeme l /\ spelling l s /\ forall t, spelling l t -> exists g, read_as t g /\ alike f g.
Proof.
  intros (b & u & (-> & G & N) & X). destruct (proj1 (proj2 spaced_again) u _ X f [] eq_refl (or_introl eq_refl)) as (l & _ & Fl & (p & -> & Sp) & Ag). rewrite app_nil_r in *.
  exists l. split; [exact Fl|]. split; [exists b, p; auto|]. intros t (b' & p' & -> & G' & S').
  destruct (Ag p' [] S' (or_introl (conj eq_refl eq_refl))) as (g & A & Xg). rewrite app_nil_r in Xg. exists g. split; [|exact A]. exists b', p'. split; [apply gap_then; [exact G'|]|exact Xg].
  rewrite <- (app_nil_r p'). eapply spelled_clear; [exact Fl|exact S'|apply empty_start].
Qed.
