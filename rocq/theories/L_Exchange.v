(** Parts of a formula with the same value can be exchanged (C88). *)
From Verif Require Export L_Spacing.
Local Notation never := (fun _ : arith => False).
Local Notation dz := divides_by_zero.

(** ** Texts that differ in one parenthesis *)
Definition around (s q p : bytes) : bytes := p ++ 40 :: s ++ 41 :: q.
(** [z] and [y] have the same end, or are the same up to the parenthesis. *)
Definition differ (s t q z y : bytes) : Prop := z = y \/ exists p, z = around s q p /\ y = around t q p.
Lemma differ_sym s t q z y : differ s t q z y -> differ t s q y z.
Proof. intros [->|(p & -> & ->)]; [left; reflexivity|right; eauto]. Qed.
Lemma differ_peel s t q w z y : ~ In 40 w -> differ s t q (w ++ z) y -> exists y', y = w ++ y' /\ differ s t q z y'.
Proof.
  intros N [<-|(p & E & ->)]; [exists z; split; [reflexivity|left; reflexivity]|]. unfold around in E. symmetry in E. destruct (app_eq_app _ _ _ _ E) as (l & [[-> ->]|[-> E2]]).
  - exists (around t q l). split; [unfold around; rewrite <- app_assoc; reflexivity|]. right. exists l. auto.
  - destruct l as [|c l]; cbn [app] in E2.
    + exists (around t q []). rewrite app_nil_r in *. split; [reflexivity|]. right. exists []. split; [symmetry; exact E2|reflexivity].
    + exfalso. injection E2 as <- _. apply N. apply in_app_iff. right. left. reflexivity.
Qed.
Lemma differ_head s t q z y : differ s t q z y -> forall b, begins [b] y -> begins [b] z.
Proof. intros [->|(p & -> & ->)] b (x & E); [exists x; exact E|]. unfold around in *. destruct p as [|c p]; cbn [app] in *; injection E as -> _; eexists; reflexivity. Qed.
Lemma differ_begins s t q w z y : ~ In 40 w -> differ s t q z y -> begins w y -> begins w z.
Proof. intros N D (x & ->). apply differ_sym in D. destruct (differ_peel _ _ _ _ _ _ N D) as (y' & -> & _). exists y'. reflexivity. Qed.
Lemma differ_nil s t q z y : differ s t q z y -> z = [] <-> y = [].
Proof. intros [->|(p & -> & ->)]; [tauto|]. unfold around. destruct p; cbn; split; discriminate. Qed.

Lemma space_no40 x : space_char x -> ~ In 40 x.
Proof. unfold space_char. cbn [In]. intros H I. repeat (destruct H as [<-|H]; [cbn [In] in I; lia|]). destruct H. Qed.
Lemma gap_no40 b : gap b -> ~ In 40 b.
Proof. induction 1 as [|x t H G IH]; [intros []|]. intros I. apply in_app_iff in I. destruct I as [I|I]; [apply (space_no40 x H I)|auto]. Qed.
Lemma word_no40 w : integer_word w -> ~ In 40 w.
Proof.
  intros (g & d & -> & Sg & Sh) I. apply in_app_iff in I. destruct I as [I|I].
  - unfold sign in Sg. destruct Sg as [Sg|[Sg|Sg]]; subst g; cbn [In] in I; lia.
  - destruct Sh as [(r & -> & F)|(c & r & -> & Hc & F)]; destruct I as [I|I]; try lia; rewrite Forall_forall in F; specialize (F _ I); cbn in F; unfold dec_digit in F; lia.
Qed.
Lemma differ_gap s t q z y b u : differ s t q z y -> whole_gap z b u -> exists v, whole_gap y b v /\ differ s t q u v.
Proof.
  intros D (-> & G & N). destruct (differ_peel _ _ _ _ _ _ (gap_no40 b G) D) as (v & -> & Dv). exists v. split; [|exact Dv]. split; [reflexivity|]. split; [exact G|].
  intros x Hx B. apply (N x Hx). eapply differ_begins; [exact (space_no40 x Hx)|exact Dv|exact B].
Qed.
Lemma differ_next s t q z y : differ s t q z y -> (forall b u, z = b :: u -> ~ word_byte b) -> forall b u, y = b :: u -> ~ word_byte b.
Proof. intros D H b u ->. destruct (differ_head _ _ _ _ _ D b) as (x & ->); [exists u; reflexivity|]. eapply H. reflexivity. Qed.
Lemma differ_number s t q z y w u : differ s t q z y -> number_at z w u -> exists v, number_at y w v /\ differ s t q u v.
Proof.
  intros D (t0 & b & -> & W & I & N). destruct (differ_peel _ _ _ _ _ _ (word_no40 w I) D) as (y' & -> & D'). destruct (differ_gap _ _ _ _ _ _ _ D' W) as (v & Wv & Dv).
  exists v. split; [|exact Dv]. exists y', b. split; [reflexivity|]. split; [exact Wv|]. split; [exact I|]. eapply differ_next; eauto.
Qed.
Lemma differ_starts s t q z y : differ s t q z y -> starts_number z -> starts_number y.
Proof.
  intros D (w & t0 & -> & I & N). destruct (differ_peel _ _ _ _ _ _ (word_no40 w I) D) as (y' & -> & D'). exists w, y'. split; [reflexivity|]. split; [exact I|]. eapply differ_next; eauto.
Qed.
Lemma differ_no_operand s t q z y : differ s t q z y -> no_operand z -> no_operand y.
Proof. intros D [A B]. split; [intros C; apply A; eapply differ_head; eauto|intros C; apply B; eapply differ_starts; [apply differ_sym; exact D|exact C]]. Qed.
Lemma peel_one s t q c z y : c <> 40 -> differ s t q (c :: z) y -> exists y', y = c :: y' /\ differ s t q z y'.
Proof. intros N D. apply (differ_peel s t q [c] z y); [intros [E|[]]; congruence|exact D]. Qed.
Lemma differ_signs s t q z k u : signs z k u -> forall y, differ s t q z y -> exists v, signs y k v /\ differ s t q u v.
Proof.
  induction 1 as [z N|z b u k x W H IH]; intros y D.
  - exists y. split; [|exact D]. constructor. intros B. apply N. eapply differ_head; eauto.
  - destruct (peel_one s t q 45 _ _ ltac:(lia) D) as (y' & -> & D'). destruct (differ_gap _ _ _ _ _ _ _ D' W) as (v & Wv & Dv). destruct (IH v Dv) as (v' & Sv & Dv'). exists v'. split; [eapply si_more; eauto|exact Dv'].
Qed.
Lemma differ_operand s t q num z k u y : operand_at num z k u -> differ s t q z y -> exists v, operand_at num y k v /\ differ s t q u v.
Proof.
  intros H D. destruct H as [u Sn|num u k v N Sg].
  - exists y. split; [constructor; eapply differ_starts; eauto|exact D].
  - destruct (differ_signs _ _ _ _ _ _ Sg y D) as (v' & Sv & Dv). exists v'. split; [|exact Dv]. constructor; [|exact Sv]. intros E C. apply (N E). eapply differ_starts; [apply differ_sym; exact D|exact C].
Qed.

(** ** Formulas that differ in the same places *)
Section Twin.
Variables f1 f2 : arith.
Inductive twin : arith -> arith -> Prop :=
| tw_here : twin f1 f2
| tw_lit : forall z, twin (FLit z) (FLit z)
| tw_neg : forall f g, twin f g -> twin (FNeg f) (FNeg g)
| tw_bin : forall o f g f' g', twin f f' -> twin g g' -> twin (FBin o f g) (FBin o f' g').
Lemma twin_refl f : twin f f.
Proof. induction f; constructor; auto. Qed.
Lemma twin_negated k f g : twin f g -> twin (negated k f) (negated k g).
Proof. intros H. induction k; cbn [negated]; [exact H|constructor; assumption]. Qed.
Definition twin_pair (x y : fop * arith) : Prop := fst x = fst y /\ twin (snd x) (snd y).
Lemma twin_products f f' l t : twin f f' -> products f l t -> forall l', Forall2 twin_pair l l' -> exists t', products f' l' t' /\ twin t t'.
Proof.
  intros A H. induction H as [|l t o g M H IH]; intros l' F.
  - inversion F; subst. exists f'. split; [constructor|exact A].
  - apply Forall2_app_inv_l in F as (l1 & l2 & F1 & F2 & ->). inversion F2 as [|? [o' g'] ? ? [Eo Ag] F3]; subst. inversion F3; subst. cbn in Eo, Ag. subst o'. destruct (IH l1 F1) as (t' & P & At). exists (FBin o t' g'). split; [constructor; assumption|apply tw_bin; assumption].
Qed.
Lemma twin_sums f f' l t : twin f f' -> sums f l t -> forall l', Forall2 twin_pair l l' -> exists t', sums f' l' t' /\ twin t t'.
Proof.
  intros A H. induction H as [l t P|l t o g m u M H IH P]; intros l' F.
  - destruct (twin_products _ _ _ _ A P l' F) as (t' & P' & At). exists t'. split; [constructor; exact P'|exact At].
  - apply Forall2_app_inv_l in F as (l1 & l2 & F1 & F2 & ->). inversion F2 as [|? [o' g'] ? ? [Eo Ag] F3]; subst. cbn in Eo, Ag. subst o'.
    destruct (IH l1 F1) as (t' & P' & At). destruct (twin_products _ _ _ _ Ag P _ F3) as (u' & Pu & Au). exists (FBin o t' u'). split; [constructor; assumption|apply tw_bin; assumption].
Qed.
(** What does not change *)
Lemma twin_evals v : evals f1 v -> evals f2 v -> forall f g, twin f g -> forall x, evals f x -> evals g x.
Proof.
  intros E1 E2 f g H. induction H as [|z|f g H IH|o f g f' g' H1 IH1 H2 IH2]; intros x E.
  - rewrite (evals_det _ _ _ E E1). exact E2.
  - exact E.
  - inversion E; subst. econstructor; eauto.
  - inversion E; subst; econstructor; eauto.
Qed.
Lemma twin_dz v : evals f1 v -> evals f2 v -> forall f g, twin f g -> dz f -> dz g.
Proof.
  intros E1 E2 f g H. induction H as [|z|f g H IH|o f g f' g' H1 IH1 H2 IH2]; intros D.
  - exfalso. eapply evals_no_div; eauto.
  - exact D.
  - inversion D; subst. constructor. auto.
  - inversion D; subst; [apply dz_here; eapply twin_evals; eauto|apply dz_left; auto|apply dz_right; auto].
Qed.
Lemma twin_postfix l : postfix f1 l -> postfix f2 l -> forall f g, twin f g -> forall m, postfix f m -> postfix g m.
Proof.
  intros P1 P2.
  assert (S12 : forall z, signed f1 z -> signed f2 z) by (intros z Sz; apply number_signed; rewrite (postfix_det _ _ _ (pf_num _ _ Sz) P1); exact P2).
  assert (C12 : compound f1 -> compound f2).
  { intros C. destruct (signed_or_compound f2) as [(z & Sz)|C2]; [exfalso|exact C2]. pose proof (postfix_det _ _ _ P2 (pf_num _ _ Sz)) as El. rewrite El in P1. apply number_signed in P1. exact (signed_simple _ _ P1 C). }
  assert (TS : forall f g, twin f g -> forall z, signed f z -> signed g z).
  { intros f g H. induction H as [|z|f g H IH|o f g f' g' H1 IH1 H2 IH2]; intros y Sy; auto; inversion Sy; subst. econstructor; eauto. }
  assert (TC : forall f g, twin f g -> compound f -> compound g).
  { intros f g H. induction H as [|z|f g H IH|o f g f' g' H1 IH1 H2 IH2]; intros C; auto; [inversion C; subst; constructor; auto|constructor]. }
  intros f g H. induction H as [|z|f g H IH|o f g f' g' H1 IH1 H2 IH2]; intros m P.
  - rewrite (postfix_det _ _ _ P P1). exact P2.
  - exact P.
  - inversion P as [f0 y Sy|f0 l0 C P0|]; subst; [constructor; eapply TS; [apply tw_neg; exact H|exact Sy]|]. constructor; [eapply TC; eauto|auto].
  - inversion P as [f0 y Sy|f0 l0 C P0|]; subst; [inversion Sy|]. constructor; auto.
Qed.
End Twin.

(** ** Readings of both texts *)
Section Exchange.
Variable stops : arith -> Prop.
Variables (s t q : bytes) (f1 f2 : arith).
Hypothesis same_stops : forall f g, twin f1 f2 f g -> (stops f <-> stops g).
Hypothesis bytes_s : Forall is_byte s.
Hypothesis bytes_q : Forall is_byte q.
Hypothesis reads_s : exists b u, whole_gap s b u /\ expression_at stops u (Got f1 []).
Hypothesis reads_t : exists b u, whole_gap t b u /\ expression_at stops u (Got f2 []).
Definition both {A B} (R : A -> B -> Prop) (r : part A) (r' : part B) : Prop :=
  match r, r' with
  | Got x z, Got y z' => R x y /\ differ s t q z z'
  | Bad e z, Bad e' z' => e = e' /\ differ s t q z z'
  | Zero, Zero => True
  | _, _ => False
  end.
Definition twins := Forall2 (twin_pair f1 f2).
Lemma twins_refl l : twins l l.
Proof. induction l as [|[o f] l IH]; constructor; [split; [reflexivity|apply twin_refl]|exact IH]. Qed.
Lemma both_refl {A} (R : A -> A -> Prop) r : (forall x, R x x) -> both R r r.
Proof. intros H. destruct r; cbn; auto; (split; [auto|left; reflexivity]). Qed.
Lemma both_failed {A B} (R : A -> B -> Prop) r r' : both R r r' -> failed r -> failed r'.
Proof. destruct r, r'; cbn; auto. Qed.
Lemma the_group r num : primary_at stops (around s q []) num r -> exists z b, whole_gap q b z /\ num = false /\ r = Got f1 z.
Proof.
  destruct reads_s as (b0 & u0 & W0 & X0). intros H. unfold around in H. cbn [app] in H. inversion H as [z w y n N|z w y n N|t0 b u r0 r' W X C]; subst.
  - exfalso. apply (open_no_number (s ++ 41 :: q)). eapply number_starts. exact N.
  - exfalso. apply (open_no_number (s ++ 41 :: q)). eapply number_starts. exact N.
  - destruct (whole_func _ _ _ _ _ W (gap_end _ _ _ q W0)) as [-> ->]. assert (B : Forall is_byte (s ++ 41 :: q)) by (apply Forall_app; split; [exact bytes_s|constructor; [unfold is_byte; lia|exact bytes_q]]).
    pose proof (expression_func _ _ _ _ (whole_bytes _ _ _ B W) X (proj1 (proj2 (inside_end stops q)) _ _ X0 I)) as E. cbn [longer app] in E. subst r0.
    inversion C as [f v b' y Wy|f y Nb|r0 F]; subst; [|exfalso; apply Nb; exists q; reflexivity|destruct F]. exists y, b'. auto.
Qed.
Lemma other_group z b : whole_gap q b z -> primary_at stops (around t q []) false (Got f2 z).
Proof.
  intros W. destruct reads_t as (b0 & u0 & W0 & X0). unfold around. cbn [app]. eapply pm_group; [apply gap_end; exact W0|exact (proj1 (proj2 (inside_end stops q)) _ _ X0 I)|]. cbn [longer app]. eapply cl_done. exact W.
Qed.
Lemma exchange_readings :
  (forall z num r, primary_at stops z num r -> forall y, differ s t q z y -> exists r', primary_at stops y num r' /\ both (twin f1 f2) r r') /\
  (forall z r, expression_at stops z r -> forall y, differ s t q z y -> exists r', expression_at stops y r' /\ both (twin f1 f2) r r') /\
  (forall num z r, others_at stops num z r -> forall y, differ s t q z y -> exists r', others_at stops num y r' /\ both twins r r').
Proof.
  apply (reading_mut stops (fun z num r => forall y, differ s t q z y -> exists r', primary_at stops y num r' /\ both (twin f1 f2) r r')
    (fun z r => forall y, differ s t q z y -> exists r', expression_at stops y r' /\ both (twin f1 f2) r r')
    (fun num z r => forall y, differ s t q z y -> exists r', others_at stops num y r' /\ both twins r r')).
  - intros z w u n N In Hn y D. destruct (differ_number _ _ _ _ _ _ _ D N) as (v & Nv & Dv). exists (Got (FLit n) v). split; [eapply pm_number; eauto|]. split; [constructor|exact Dv].
  - intros z w u n N In Hn y D. destruct (differ_number _ _ _ _ _ _ _ D N) as (v & Nv & Dv). eexists. split; [eapply pm_range; eauto|]. split; [reflexivity|exact Dv].
  - intros t0 b u r r' W X IH C y D. destruct D as [<-|(p & E & ->)]; [exists r'; split; [eapply pm_group; eauto|apply both_refl, twin_refl]|]. destruct p as [|c p].
    + assert (H : primary_at stops (around s q []) false r') by (rewrite <- E; eapply pm_group; eauto). destruct (the_group _ _ H) as (z & b' & Wz & _ & ->).
      exists (Got f2 z). split; [eapply other_group; exact Wz|]. split; [constructor|left; reflexivity].
    + unfold around in E. cbn [app] in E. injection E as <- E. assert (D : differ s t q t0 (around t q p)) by (right; exists p; split; [exact E|reflexivity]).
      destruct (differ_gap _ _ _ _ _ _ _ D W) as (v & Wv & Dv). destruct (IH v Dv) as (r2 & X2 & B2).
      assert (K : exists r'', closing (around t q p) r2 r'' /\ both (twin f1 f2) r' r'').
      { destruct C as [f x b' z Wz|f x Nb|r F].
        - destruct r2 as [g x2|e x2|]; cbn [both] in B2; try contradiction. destruct B2 as [Tw Dx]. destruct (peel_one s t q 41 _ _ ltac:(lia) Dx) as (x' & -> & Dx'). destruct (differ_gap _ _ _ _ _ _ _ Dx' Wz) as (z' & Wz' & Dz). exists (Got g z'). split; [eapply cl_done; exact Wz'|split; assumption].
        - destruct r2 as [g x2|e x2|]; cbn [both] in B2; try contradiction. destruct B2 as [Tw Dx]. eexists. split; [apply cl_open; intros B; apply Nb; eapply differ_head; eauto|]. split; [reflexivity|exact D].
        - exists r2. split; [apply cl_failed; eapply both_failed; eauto|exact B2]. }
      destruct K as (r'' & C'' & B''). exists r''. split; [|exact B'']. change (around t q (40 :: p)) with (40 :: around t q p). eapply pm_group; eauto.
  - intros z k u Sg No y D. destruct (differ_signs _ _ _ _ _ _ Sg y D) as (v & Sv & Dv). eexists. split; [eapply xp_none; [exact Sv|eapply differ_no_operand; eauto]|]. split; [reflexivity|exact Dv].
  - intros z k u num r Sg _ IH F y D. destruct (differ_signs _ _ _ _ _ _ Sg y D) as (v & Sv & Dv). destruct (IH v Dv) as (r' & P & B). exists r'. split; [eapply xp_failed; eauto; eapply both_failed; eauto|exact B].
  - intros z k u num f x r r' Sg _ IH _ IHo C y D. destruct (differ_signs _ _ _ _ _ _ Sg y D) as (v & Sv & Dv). destruct (IH v Dv) as (r1 & P & B). destruct r1 as [g x2|e x2|]; cbn [both] in B; try contradiction. destruct B as [Tw Dx].
    destruct (IHo x2 Dx) as (r2 & O2 & B2). apply (twin_negated _ _ k) in Tw.
    assert (K : exists r'', combined stops (negated k g) r2 r'' /\ both (twin f1 f2) r' r'').
    { destruct C as [l t1 x1 Su Ns|l t1 x1 Su Ss|r F].
      - destruct r2 as [l2 x3|e x3|]; cbn [both] in B2; try contradiction. destruct B2 as [Tl Dx3]. destruct (twin_sums _ _ _ _ _ _ Tw Su l2 Tl) as (t2 & Su2 & T2). exists (Got t2 x3). split; [constructor; [exact Su2|]; intros Z; apply Ns; apply (same_stops _ _ T2); exact Z|split; assumption].
      - destruct r2 as [l2 x3|e x3|]; cbn [both] in B2; try contradiction. destruct B2 as [Tl Dx3]. destruct (twin_sums _ _ _ _ _ _ Tw Su l2 Tl) as (t2 & Su2 & T2). exists Zero. split; [|exact I]. eapply cb_stop; [exact Su2|]. apply (same_stops _ _ T2). exact Ss.
      - exists (instead r2). split; [apply cb_failed; eapply both_failed; eauto|]. destruct r, r2; cbn in *; auto. }
    destruct K as (r'' & C'' & B''). exists r''. split; [eapply xp_chain; eauto|exact B''].
  - intros num z N y D. exists (Got [] y). split; [|split; [constructor|exact D]]. constructor. intros o B. apply (N o). eapply differ_head; eauto.
  - intros num o t0 b u k v W O' No y D. destruct (peel_one s t q (op_byte o) _ _ ltac:(destruct o; cbn; lia) D) as (y' & -> & D'). destruct (differ_gap _ _ _ _ _ _ _ D' W) as (u' & Wu & Du). destruct (differ_operand _ _ _ _ _ _ _ _ O' Du) as (v' & Ov & Dv).
    eexists. split; [eapply ot_none; eauto; eapply differ_no_operand; eauto|]. split; [reflexivity|exact Du].
  - intros num o t0 b u k v m r W O' _ IH F y D. destruct (peel_one s t q (op_byte o) _ _ ltac:(destruct o; cbn; lia) D) as (y' & -> & D'). destruct (differ_gap _ _ _ _ _ _ _ D' W) as (u' & Wu & Du). destruct (differ_operand _ _ _ _ _ _ _ _ O' Du) as (v' & Ov & Dv).
    destruct (IH v' Dv) as (r' & P & B). exists (instead r'). split; [eapply ot_failed; eauto; eapply both_failed; eauto|]. destruct r, r'; cbn in *; auto.
  - intros num o t0 b u k v m f x r W O' _ IH _ IHo y D. destruct (peel_one s t q (op_byte o) _ _ ltac:(destruct o; cbn; lia) D) as (y' & -> & D'). destruct (differ_gap _ _ _ _ _ _ _ D' W) as (u' & Wu & Du). destruct (differ_operand _ _ _ _ _ _ _ _ O' Du) as (v' & Ov & Dv).
    destruct (IH v' Dv) as (r1 & P & B). destruct r1 as [g x2|e x2|]; cbn [both] in B; try contradiction. destruct B as [Tw Dx]. destruct (IHo x2 Dx) as (r2 & O2 & B2). exists (before_all (o, negated k g) r2). split; [eapply ot_more; eauto|].
    destruct r, r2; cbn in *; auto. destruct B2 as [Tl Dx3]. split; [|exact Dx3]. constructor; [|exact Tl]. split; [reflexivity|]. cbn. apply twin_negated. exact Tw.
Qed.
(** Values stay, errors stay where they are or as far from the end. *)
Lemma exchange {A} (yields : arith -> A -> Prop) p a : (forall f g, twin f1 f2 f g -> forall x, yields f x -> yields g x) ->
  reading stops yields (around s q p) a -> exists a', reading stops yields (around t q p) a' /\
  match a with
  | Failure e p1 q1 => exists p2 q2, a' = Failure e p2 q2 /\ around s q p = p1 ++ q1 /\ around t q p = p2 ++ q2 /\ (p1 = p2 \/ q1 = q2)
  | _ => a' = a
  end.
Proof.
  intros Y H. assert (D : differ s t q (around s q p) (around t q p)) by (right; exists p; auto).
  destruct H as [b u f x W X Hy|b u f z W X N|b u e p1 z W X E|b u W X]; destruct (differ_gap _ _ _ _ _ _ _ D W) as (v & Wv & Dv); destruct (proj1 (proj2 exchange_readings) _ _ X v Dv) as (r' & X' & B); destruct r' as [g x2|e' x2|]; cbn [both] in B; try contradiction.
  - destruct B as [Tw Dx]. assert (x2 = []) by (apply (differ_nil _ _ _ _ _ Dx); reflexivity). subst x2. exists (Value x). split; [eapply rd_value; eauto|reflexivity].
  - destruct B as [Tw Dx]. eexists. split; [eapply rd_more; [exact Wv|exact X'|]; intros Z; apply N; apply (differ_nil _ _ _ _ _ Dx); exact Z|]. exists [], (around t q p). repeat split; auto.
  - destruct B as [<- Dx]. assert (K : exists p2, around t q p = p2 ++ x2 /\ (p1 = p2 \/ z = x2)).
    { destruct Wv as (Ev & _). assert (Sx : exists w, v = w ++ x2) by exact (proj1 (proj2 (all_leave stops)) _ _ X'). destruct Sx as (w & ->). exists (b ++ w). rewrite <- app_assoc. split; [exact Ev|].
      destruct Dx as [->|(p' & -> & ->)]; [right; reflexivity|left]. apply (app_inv_tail (around s q p')). rewrite <- E. unfold around in *. rewrite app_assoc in Ev. change (p' ++ 40 :: t ++ 41 :: q) with (p' ++ (40 :: t ++ 41 :: q)) in Ev. rewrite app_assoc in Ev. apply app_inv_tail in Ev. rewrite Ev. rewrite <- !app_assoc. reflexivity. }
    destruct K as (p2 & E2 & K). exists (Failure (Some e) p2 x2). split; [eapply rd_bad; eauto|]. exists p2, x2. auto.
  - exists Crash. split; [eapply rd_zero; eauto|reflexivity].
Qed.
End Exchange.
