(** Exact numbers of calls: the counted semantics is functional and complete. *)
From Verif Require Export S_Count L_Count L_Csv L_Laws.

Section Det.
Variable w : world.
Hypothesis Hpeg : peg_env w.
Notation PG := (Forall peg_gram).
Lemma pegk_det_all :
  (forall e cur r d, pegk w e cur r d -> peg_gram e -> forall r' d', pegk w e cur r' d' -> d = d') /\
  (forall es cur r d, pegks w es cur r d -> PG es -> forall r' d', pegks w es cur r' d' -> d = d') /\
  (forall es cur r d, pegkc w es cur r d -> PG es -> forall r' d', pegkc w es cur r' d' -> d = d') /\
  (forall t es k cur q d, pegkr w t es k cur q d -> PG es -> forall q' d', pegkr w t es k cur q' d' -> d = d') /\
  (forall es ps r d, pegkb w es ps r d -> PG es -> forall r' d', pegkb w es ps r' d' -> d = d').
Proof.
  apply (pegk_mutind w (fun e cur r d _ => peg_gram e -> forall r' d', pegk w e cur r' d' -> d = d')
    (fun es cur r d _ => PG es -> forall r' d', pegks w es cur r' d' -> d = d') (fun es cur r d _ => PG es -> forall r' d', pegkc w es cur r' d' -> d = d')
    (fun t es k cur q d _ => PG es -> forall q' d', pegkr w t es k cur q' d' -> d = d') (fun es ps r d _ => PG es -> forall r' d', pegkb w es ps r' d' -> d = d')).
  - intros cls fn n cur o err E Hg r' d' H. inversion H; reflexivity.
  - intros es cur r d _ IH Hg r' d' H. unfold peg_gram in Hg. simpl in Hg. rewrite fold_and_Forall in Hg. inversion H; subst. f_equal. eauto.
  - intros es cur r d _ IH Hg r' d' H. unfold peg_gram in Hg. simpl in Hg. rewrite fold_and_Forall in Hg. inversion H; subst. f_equal. eauto.
  - intros cur _ r' d' H. inversion H; reflexivity.
  - intros e es cur r d _ IH Hg r' d' H. unfold peg_gram in Hg. simpl in Hg. rewrite fold_and_Forall in Hg. inversion H; subst. f_equal. destruct Hg. eauto.
  - intros es cur r d _ IH Hg r' d' H. unfold peg_gram in Hg. simpl in Hg. rewrite fold_and_Forall in Hg. inversion H; subst. f_equal. eauto.
  - intros es cur r d _ IH Hg r' d' H. unfold peg_gram in Hg. simpl in Hg. rewrite fold_and_Forall in Hg. inversion H; subst. f_equal. eauto.
  - intros neg mn mx es cur r d _ IH Hg r' d' H. unfold peg_gram in Hg. simpl in Hg. rewrite fold_and_Forall in Hg. inversion H; subst. destruct Hg. eauto.
  - intros t es cur q d _ IH Hg r' d' H. unfold peg_gram in Hg. simpl in Hg. rewrite fold_and_Forall in Hg. inversion H; subst. f_equal. destruct Hg. eauto.
  - intros e tr cur r r1 d x _ IH _ X Hg r' d' H. apply weighs_no in X. unfold peg_gram in Hg. simpl in Hg. inversion H; subst.
    match goal with Y : weighs _ _ _ _ ?y |- _ => apply weighs_no in Y; subst y end. f_equal. f_equal. destruct Hg as [Hg _]. eauto.
  - intros k cur r d _ IH Hg r' d' H. inversion H; subst. f_equal. eapply IH; eauto.
  - intros cur _ r' d' H. inversion H; reflexivity.
  - intros e es cur cur1 l d r d2 H1 IH1 _ IH2 Hg r' d' H. inversion Hg; subst.
    assert (D : forall r0 d0, pegk w e cur r0 d0 -> r0 = RSucc cur1 l) by
      (intros r0 d0 P; apply (peg_det w e cur r0 _ Hpeg); auto; [eapply pegk_peg; eauto|eapply pegk_peg; exact H1]).
    inversion H; subst; match goal with P : pegk w e cur _ _ |- _ => pose proof (D _ _ P) as E; try discriminate end.
    injection E as -> ->. f_equal; eauto.
  - intros e es cur d H1 IH1 Hg r' d' H. inversion Hg; subst.
    assert (D : forall r0 d0, pegk w e cur r0 d0 -> r0 = RFail) by
      (intros r0 d0 P; apply (peg_det w e cur r0 _ Hpeg); auto; [eapply pegk_peg; eauto|eapply pegk_peg; exact H1]).
    inversion H; subst; match goal with P : pegk w e cur _ _ |- _ => pose proof (D _ _ P) as E; try discriminate end. eauto.
  - intros e es cur cur1 x d H1 IH1 Hg r' d' H. inversion Hg; subst.
    assert (D : forall r0 d0, pegk w e cur r0 d0 -> r0 = RErr cur1 x) by
      (intros r0 d0 P; apply (peg_det w e cur r0 _ Hpeg); auto; [eapply pegk_peg; eauto|eapply pegk_peg; exact H1]).
    inversion H; subst; match goal with P : pegk w e cur _ _ |- _ => pose proof (D _ _ P) as E; try discriminate end. eauto.
  - intros cur _ r' d' H. inversion H; reflexivity.
  - intros e es cur cur1 l d H1 IH1 Hg r' d' H. inversion Hg; subst.
    assert (D : forall r0 d0, pegk w e cur r0 d0 -> r0 = RSucc cur1 l) by
      (intros r0 d0 P; apply (peg_det w e cur r0 _ Hpeg); auto; [eapply pegk_peg; eauto|eapply pegk_peg; exact H1]).
    inversion H; subst; match goal with P : pegk w e cur _ _ |- _ => pose proof (D _ _ P) as E; try discriminate end. eauto.
  - intros e es cur cur1 x d H1 IH1 Hg r' d' H. inversion Hg; subst.
    assert (D : forall r0 d0, pegk w e cur r0 d0 -> r0 = RErr cur1 x) by
      (intros r0 d0 P; apply (peg_det w e cur r0 _ Hpeg); auto; [eapply pegk_peg; eauto|eapply pegk_peg; exact H1]).
    inversion H; subst; match goal with P : pegk w e cur _ _ |- _ => pose proof (D _ _ P) as E; try discriminate end. eauto.
  - intros e es cur r d d2 H1 IH1 _ IH2 Hg r' d' H. inversion Hg; subst.
    assert (D : forall r0 d0, pegk w e cur r0 d0 -> r0 = RFail) by
      (intros r0 d0 P; apply (peg_det w e cur r0 _ Hpeg); auto; [eapply pegk_peg; eauto|eapply pegk_peg; exact H1]).
    inversion H; subst; match goal with P : pegk w e cur _ _ |- _ => pose proof (D _ _ P) as E; try discriminate end. f_equal; eauto.
  - intros t es k cur Hk Hg q' d' H. inversion H; subst; try reflexivity; lia.
  - intros t es k cur d Hk H1 IH Hg q' d' H.
    assert (D : forall r0 d0, pegks w es cur r0 d0 -> r0 = RFail) by
      (intros r0 d0 P; apply (pegs_det w es cur r0 _ Hpeg); auto; [eapply pegks_pegs; eauto|eapply pegks_pegs; exact H1]).
    inversion H; subst; try lia; match goal with P : pegks w es cur _ _ |- _ => pose proof (D _ _ P) as E; try discriminate end. eauto.
  - intros t es k cur cur1 x d Hk H1 IH Hg q' d' H.
    assert (D : forall r0 d0, pegks w es cur r0 d0 -> r0 = RErr cur1 x) by
      (intros r0 d0 P; apply (pegs_det w es cur r0 _ Hpeg); auto; [eapply pegks_pegs; eauto|eapply pegks_pegs; exact H1]).
    inversion H; subst; try lia; match goal with P : pegks w es cur _ _ |- _ => pose proof (D _ _ P) as E; try discriminate end. eauto.
  - intros t es k cur cur1 l q d d2 Hk H1 IH1 _ IH2 Hg q' d' H.
    assert (D : forall r0 d0, pegks w es cur r0 d0 -> r0 = RSucc cur1 l) by
      (intros r0 d0 P; apply (pegs_det w es cur r0 _ Hpeg); auto; [eapply pegks_pegs; eauto|eapply pegks_pegs; exact H1]).
    inversion H; subst; try lia; match goal with P : pegks w es cur _ _ |- _ => pose proof (D _ _ P) as E; try discriminate end.
    injection E as -> ->. f_equal; eauto.
  - intros es _ r' d' H. inversion H; reflexivity.
  - intros es p ps cur1 l d H1 IH Hg r' d' H.
    assert (D : forall r0 d0, pegks w es p r0 d0 -> r0 = RSucc cur1 l) by
      (intros r0 d0 P; apply (pegs_det w es p r0 _ Hpeg); auto; [eapply pegks_pegs; eauto|eapply pegks_pegs; exact H1]).
    inversion H; subst; match goal with P : pegks w es p _ _ |- _ => pose proof (D _ _ P) as E; try discriminate end. f_equal; eauto.
  - intros es p ps cur1 x d H1 IH Hg r' d' H.
    assert (D : forall r0 d0, pegks w es p r0 d0 -> r0 = RErr cur1 x) by
      (intros r0 d0 P; apply (pegs_det w es p r0 _ Hpeg); auto; [eapply pegks_pegs; eauto|eapply pegks_pegs; exact H1]).
    inversion H; subst; match goal with P : pegks w es p _ _ |- _ => pose proof (D _ _ P) as E; try discriminate end. f_equal; eauto.
  - intros es p ps r d d2 H1 IH1 _ IH2 Hg r' d' H.
    assert (D : forall r0 d0, pegks w es p r0 d0 -> r0 = RFail) by
      (intros r0 d0 P; apply (pegs_det w es p r0 _ Hpeg); auto; [eapply pegks_pegs; eauto|eapply pegks_pegs; exact H1]).
    inversion H; subst; match goal with P : pegks w es p _ _ |- _ => pose proof (D _ _ P) as E; try discriminate end.
    cbn. do 2 f_equal; eauto. 
Qed.
End Det.

(** What the counted semantics counts, runs count. *)
Lemma counts_cost w e c r d : peg_env w -> peg_gram e -> in_world w c -> c_st c = Matched -> pegk w e (c_sp c) r d ->
  exists n0, forall n, (n0 <= n)%nat -> exists o err, run (w_env w) n e c = Ok (o, err) /\ returns (c_stack c) o err r /\ cost (w_env w) n e c = d.
Proof.
  intros He Hg Hw Hst P. destruct (proj1 (peg_complete_all w He) e _ r (pegk_peg _ _ _ _ _ P) Hg) as [n0 H].
  exists n0. intros n Hn. destruct (H n Hn c (conj Hw Hst) eq_refl) as (o & err & E & Hr & _). exists o, err. split; auto. split; auto.
  destruct (cost_counts (w_env w) e n c o err He Hg Hst E) as (r' & P' & _).
  assert (W : mkW (c_str c) (c_slice c) (c_tag c) (w_env w) = w). { destruct Hw as (E1 & E2 & E3). destruct w. cbn in *. congruence. }
  rewrite W in P'. exact (proj1 (pegk_det_all w He) e _ _ _ P' Hg _ _ P).
Qed.

(** ** An exponential number of calls *)
Lemma leaf_counts w cls fn cur r : peg w (ELight cls fn) cur r -> pegk w (ELight cls fn) cur r 1.
Proof. intros H. inversion H; subst. econstructor; eassumption. Qed.
Lemma klit_yes s w cur t : at_rest w cur (s ++ t) -> exists cur' l, pegk w (SSeq s) cur (RSucc cur' l) 1 /\ at_rest w cur' t.
Proof. intros A. destruct (lit_yes s w cur t A) as (cur' & l & P & A'). exists cur', l. split; auto. apply leaf_counts. exact P. Qed.
Lemma klit_no s w cur t : at_rest w cur t -> ~ begins s t -> pegk w (SSeq s) cur RFail 1.
Proof. intros A N. apply leaf_counts. eapply lit_no; eauto. Qed.
Lemma pks_one w e cur r d : pegk w e cur r d -> pegks w [e] cur r d.
Proof.
  intros H. destruct r as [cur1 l| |cur1 x]; [|apply sk_fail; exact H|apply sk_err; exact H].
  rewrite <- (app_nil_r l). replace d with (d + 0)%nat by lia. eapply (sk_ok w e [] cur cur1 l d (RSucc cur1 []) 0); [exact H|constructor].
Qed.
Lemma repeat_snoc {A} (x : A) k t : repeat x (S k) ++ t = repeat x k ++ x :: t.
Proof. induction k as [|k IH]; [reflexivity|]. cbn [repeat app] in *. rewrite IH. reflexivity. Qed.
Lemma paren_not_plus t : ~ begins (bs "+") (41 :: t).
Proof. intros [x E]. vm_compute in E. discriminate. Qed.

Section Nest.
Variables (w : world) (E : nat -> nat) (sum_rule : pexp).
Hypothesis H0 : w_env w 0%nat = sum_rule.
Hypothesis H1 : w_env w 1%nat = sum_term.
Hypothesis Hs : forall cur t d, (exists cur' l, pegk w sum_term cur (RSucc cur' l) d /\ at_rest w cur' t) -> ~ begins (bs "+") t ->
  exists cur' l, pegk w sum_rule cur (RSucc cur' l) (E d) /\ at_rest w cur' t.
Fixpoint term_cost (k : nat) : nat := match k with O => 4 | S k' => E (term_cost k') + 5 end%nat.
Lemma nest_counts k : forall t cur, ~ begins (bs "+") t -> at_rest w cur (repeat 40 k ++ 49 :: repeat 41 k ++ t) ->
  exists cur' l, pegk w sum_term cur (RSucc cur' l) (term_cost k) /\ at_rest w cur' t.
Proof.
  induction k as [|k IH]; intros t cur N A.
  - cbn [repeat app] in A. destruct (klit_yes (bs "1") w cur t A) as (cur' & l & P & A'). exists cur', l. split; auto.
    apply (pk_first w _ _ cur _ 3). apply (ck_next w _ _ cur _ 2 1); [|apply ck_ok; exact P]. apply (pk_flat w _ cur _ 1). apply sk_fail.
    eapply klit_no; [exact A|]. intros [x X]. vm_compute in X. discriminate.
  - assert (A1 : at_rest w cur (bs "(" ++ repeat 40 k ++ 49 :: repeat 41 k ++ 41 :: t)).
    { rewrite <- (repeat_snoc 41 k t). exact A. }
    destruct (klit_yes _ w cur _ A1) as (c1 & l1 & P1 & A2).
    destruct (Hs c1 (41 :: t) (term_cost k) (IH (41 :: t) c1 (paren_not_plus t) A2) (paren_not_plus t)) as (c2 & l2 & P2 & A3).
    destruct (klit_yes (bs ")") w c2 t A3) as (c3 & l3 & P3 & A4).
    exists c3, (l1 ++ l2 ++ l3). split; [|exact A4]. cbn [term_cost]. replace (E (term_cost k) + 5)%nat with (S (S (1 + (S (E (term_cost k)) + 1))))%nat by lia.
    apply pk_first. apply ck_ok. apply pk_flat.
    apply (sk_ok w _ _ cur c1 l1 1 (RSucc c3 (l2 ++ l3)) _ P1).
    apply (sk_ok w _ _ c1 c2 l2 _ (RSucc c3 l3) _); [apply pk_indirect; rewrite H0; exact P2|]. apply pks_one. exact P3.
Qed.
End Nest.
Definition world_of (env : nat -> pexp) (s : bytes) : world := mkW s None VNil env.

Lemma slow_sum w cur t d : w_env w 1%nat = sum_term -> (exists cur' l, pegk w sum_term cur (RSucc cur' l) d /\ at_rest w cur' t) -> ~ begins (bs "+") t ->
  exists cur' l, pegk w sum_slow cur (RSucc cur' l) (2 * d + 5) /\ at_rest w cur' t.
Proof.
  intros H1 (cur' & l & P & A) N. exists cur', l. split; [|exact A].
  replace (2 * d + 5)%nat with (S (S (S d + 1) + S d)) by lia. apply pk_first.
  assert (Q : pegk w (EIndirect 1) cur (RSucc cur' l) (S d)) by (apply pk_indirect; rewrite H1; exact P).
  apply ck_next; [|apply ck_ok; exact Q]. apply pk_flat. apply (sk_ok w _ _ cur cur' l _ RFail _ Q). apply sk_fail. eapply klit_no; eauto.
Qed.
Lemma fast_sum w cur t d : w_env w 1%nat = sum_term -> (exists cur' l, pegk w sum_term cur (RSucc cur' l) d /\ at_rest w cur' t) -> ~ begins (bs "+") t ->
  exists cur' l, pegk w sum_fast cur (RSucc cur' l) (d + 6) /\ at_rest w cur' t.
Proof.
  intros H1 (cur' & l & P & A) N. exists cur', (l ++ []). split; [|exact A].
  replace (d + 6)%nat with (S (S d + S (2 + 1))) by lia. apply pk_flat.
  apply (sk_ok w _ _ cur cur' l _ (RSucc cur' []) _); [apply pk_indirect; rewrite H1; exact P|].
  apply pks_one. apply pk_first. apply ck_next; [|apply ck_ok; apply pk_flat; constructor].
  apply pk_flat. apply sk_fail. eapply klit_no; eauto.
Qed.
Lemma slow_gram k : peg_gram (slow_rules k).
Proof. destruct k; cbn [slow_rules]; [unfold sum_slow|unfold sum_term]; unfold SSeq; gram_tac. Qed.
Lemma fast_gram k : peg_gram (fast_rules k).
Proof. destruct k; cbn [fast_rules]; [unfold sum_fast|unfold sum_term]; unfold SSeq; gram_tac. Qed.
Lemma sums_rewrite k : rewrites (slow_rules k) (fast_rules k).
Proof.
  destruct k; [|apply rw_refl]. cbn [slow_rules fast_rules]. unfold sum_slow, sum_fast.
  apply rw_trans with (EFirst [EFlatGroup [EIndirect 1; SSeq (bs "+"); EIndirect 0]; EFlatGroup [EIndirect 1]]).
  - apply rw_first. apply ra_cons; [apply rw_refl|]. apply ra_cons; [|constructor]. apply rw_sym, rw_law. constructor.
  - apply rw_trans with (EFirst [EFlatGroup [EIndirect 1; EFirst [EFlatGroup [SSeq (bs "+"); EIndirect 0]; EFlatGroup []]]]).
    + apply rw_first. apply (ra_factor (EIndirect 1) [SSeq (bs "+"); EIndirect 0] [] []). exact I.
    + apply rw_law. constructor.
Qed.
Lemma nested_bytes k : Forall is_byte (nested k).
Proof.
  unfold nested. apply Forall_app. split; [|constructor; [unfold is_byte; lia|]]; apply Forall_forall; intros x I; apply repeat_spec in I; subst; unfold is_byte; lia.
Qed.
Lemma nested_start env k : at_rest (world_of env (nested k)) sp0 (repeat 40 k ++ 49 :: repeat 41 k ++ []).
Proof. rewrite app_nil_r. split; [split; [apply nested_bytes|cbn; lia]|reflexivity]. Qed.
Lemma end_not_plus : ~ begins (bs "+") [].
Proof. intros [x E]. discriminate. Qed.
Definition whole (k : nat) (o : ctx) (err : option gerr) : Prop := err = None /\ c_st o = Matched /\ c_pos o = length (nested k).
Lemma rest_pos env k cur : at_rest (world_of env (nested k)) cur [] -> sp_pos cur = length (nested k).
Proof.
  intros [[_ G] R]. unfold rest_of in R. cbn [world_of w_str] in *. apply (f_equal (@length Z)) in R. rewrite skipn_length in R. cbn [length] in R. lia.
Qed.
Lemma nested_cost env e k D : (forall j, peg_gram (env j)) -> peg_gram e ->
  (exists cur' l, pegk (world_of env (nested k)) e sp0 (RSucc cur' l) D /\ at_rest (world_of env (nested k)) cur' []) ->
  exists n0, forall n, (n0 <= n)%nat -> exists o err, run env n e (new_string_ctx (nested k)) = Ok (o, err) /\ whole k o err /\
    cost env n e (new_string_ctx (nested k)) = D.
Proof.
  intros He Hg (cur' & l & P & A). destruct (counts_cost (world_of env (nested k)) e (new_string_ctx (nested k)) _ D He Hg ltac:(repeat split) eq_refl P) as (n0 & H).
  exists n0. intros n Hn. destruct (H n Hn) as (o & err & R & (-> & Hst & Hsp & _) & Hc). exists o, None. split; [exact R|]. split; [|exact Hc].
  split; [reflexivity|]. split; [exact Hst|]. unfold c_pos. rewrite Hsp. apply (rest_pos env). exact A.
Qed.
Lemma slow_terms k : (term_cost (fun d => 2 * d + 5) k + 10 = 14 * 2 ^ k)%nat.
Proof. induction k as [|k IH]; [reflexivity|]. cbn [term_cost Nat.pow]. lia. Qed.
Lemma fast_terms k : (term_cost (fun d => d + 6) k = 11 * k + 4)%nat.
Proof. induction k as [|k IH]; [reflexivity|]. cbn [term_cost]. lia. Qed.
Lemma slow_cost k : exists n0, forall n, (n0 <= n)%nat -> exists o err, run slow_rules n sum_slow (new_string_ctx (nested k)) = Ok (o, err) /\ whole k o err /\
  (cost slow_rules n sum_slow (new_string_ctx (nested k)) + 15 = 28 * 2 ^ k)%nat.
Proof.
  set (w := world_of slow_rules (nested k)).
  destruct (nested_cost slow_rules sum_slow k (2 * term_cost (fun d => 2 * d + 5) k + 5)%nat slow_gram (slow_gram 0)) as (n0 & H).
  - apply (slow_sum w); [reflexivity| |exact end_not_plus].
    apply (nest_counts w (fun d => 2 * d + 5)%nat sum_slow); [reflexivity| |exact end_not_plus|apply nested_start].
    intros cur t d Q N. apply slow_sum; auto.
  - exists n0. intros n Hn. destruct (H n Hn) as (o & err & R & W & C). exists o, err. split; [exact R|]. split; [exact W|]. rewrite C. pose proof (slow_terms k). lia.
Qed.
Lemma fast_cost k : exists n0, forall n, (n0 <= n)%nat -> exists o err, run fast_rules n sum_fast (new_string_ctx (nested k)) = Ok (o, err) /\ whole k o err /\
  (cost fast_rules n sum_fast (new_string_ctx (nested k)) = 11 * k + 10)%nat.
Proof.
  set (w := world_of fast_rules (nested k)).
  destruct (nested_cost fast_rules sum_fast k (term_cost (fun d => d + 6) k + 6)%nat fast_gram (fast_gram 0)) as (n0 & H).
  - apply (fast_sum w); [reflexivity| |exact end_not_plus].
    apply (nest_counts w (fun d => d + 6)%nat sum_fast); [reflexivity| |exact end_not_plus|apply nested_start].
    intros cur t d Q N. apply fast_sum; auto.
  - exists n0. intros n Hn. destruct (H n Hn) as (o & err & R & W & C). exists o, err. split; [exact R|]. split; [exact W|]. rewrite C. pose proof (fast_terms k). lia.
Qed.

(** 2^k outgrows every polynomial. *)
Lemma two_pow_ge n : (n + 1 <= 2 ^ n)%nat.
Proof. induction n as [|n IH]; [cbn; lia|]. cbn [Nat.pow]. lia. Qed.
Lemma outgrows C D : exists k, (C * (2 * k + 2) ^ D + 15 < 28 * 2 ^ k)%nat.
Proof.
  set (j := (2 * D + C)%nat). set (m := (2 * j)%nat). exists (2 ^ m)%nat.
  assert (A : ((m + 2) * D + C <= 2 ^ m)%nat).
  { assert (2 ^ m = 2 ^ j * 2 ^ j)%nat as -> by (unfold m; replace (2 * j)%nat with (j + j)%nat by lia; apply Nat.pow_add_r).
    pose proof (two_pow_ge j) as Q. apply Nat.le_trans with ((j + 1) * (j + 1))%nat; [|apply Nat.mul_le_mono; exact Q].
    apply Nat.le_trans with ((j + 1) * (2 * D + C))%nat; [unfold m; nia|]. apply Nat.mul_le_mono_l. unfold j. lia. }
  assert (B : ((2 * 2 ^ m + 2) ^ D <= 2 ^ ((m + 2) * D))%nat).
  { rewrite Nat.pow_mul_r. apply Nat.pow_le_mono_l. replace (m + 2)%nat with (S (S m)) by lia. cbn [Nat.pow]. pose proof (two_pow_ge m). lia. }
  assert (E : (C * (2 * 2 ^ m + 2) ^ D <= 2 ^ 2 ^ m)%nat).
  { apply Nat.le_trans with (2 ^ C * 2 ^ ((m + 2) * D))%nat.
    - apply Nat.mul_le_mono; [pose proof (two_pow_ge C); lia|exact B].
    - rewrite <- Nat.pow_add_r. apply Nat.pow_le_mono_r; lia. }
  pose proof (two_pow_ge (2 ^ m)) as F. revert E F. generalize (C * (2 * 2 ^ m + 2) ^ D)%nat, (2 ^ 2 ^ m)%nat. intros x y. lia.
Qed.
Lemma nested_length k : length (nested k) = (2 * k + 1)%nat.
Proof. unfold nested. rewrite app_length. cbn [length]. rewrite !repeat_length. lia. Qed.

(** ** A quadratic number of calls without recursion *)
Lemma a_begins n : begins (bs "a") (repeat 97 (S n)).
Proof. exists (repeat 97 n). reflexivity. Qed.
Lemma a_not : ~ begins (bs "a") [].
Proof. intros [x E]. discriminate. Qed.
Lemma letters_count w n : forall cur k, at_rest w cur (repeat 97 n) ->
  exists cur' l, pegkr w qtyZeroOrMoreTimes [SSeq (bs "a")] k cur (inr (cur', l, (k + n)%nat)) (n + 1) /\ at_rest w cur' [].
Proof.
  induction n as [|n IH]; intros cur k A.
  - exists cur, []. rewrite Nat.add_0_r. split; [|exact A]. apply rk_stop; [cbn; lia|]. apply sk_fail. eapply klit_no; [exact A|exact a_not].
  - destruct (klit_yes (bs "a") w cur (repeat 97 n) A) as (c1 & l1 & P1 & A1). destruct (IH c1 (S k) A1) as (c2 & l2 & P2 & A2).
    exists c2, (l1 ++ l2). split; [|exact A2]. replace (k + S n)%nat with (S k + n)%nat by lia. change (S n + 1)%nat with (1 + (n + 1))%nat.
    apply (rk_more w _ _ k cur c1 l1 (inr (c2, l2, (S k + n)%nat)) 1 (n + 1)); [cbn; lia|apply pks_one; exact P1|exact P2].
Qed.
Lemma ahead_count w n cur : at_rest w cur (repeat 97 n) -> pegk w (ELookAhead [EZeroOrMore [SSeq (bs "a")]]) cur (RSucc cur []) (n + 3).
Proof.
  intros A. destruct (letters_count w n cur 0 A) as (c1 & l & P & _). replace (n + 3)%nat with (S (S (n + 1))) by lia.
  apply (pk_ahead w _ cur (RSucc c1 l)). apply pks_one.
  pose proof (pk_repeat w _ _ cur _ _ P) as Q. cbn [repeated] in Q. destruct (Z.ltb_spec (Z.of_nat (0 + n)) (t_min qtyZeroOrMoreTimes)); [cbn in *; lia|exact Q].
Qed.
Fixpoint far_cost (n : nat) : nat := match n with O => 4 | S m => (n + 4) + far_cost m end%nat.
Lemma far_count w n : forall cur k, at_rest w cur (repeat 97 n) ->
  exists cur' l, pegkr w qtyZeroOrMoreTimes [ELookAhead [EZeroOrMore [SSeq (bs "a")]]; SSeq (bs "a")] k cur (inr (cur', l, (k + n)%nat)) (far_cost n) /\ at_rest w cur' [].
Proof.
  induction n as [|n IH]; intros cur k A; pose proof (ahead_count w _ cur A) as P0.
  - exists cur, []. rewrite Nat.add_0_r. split; [|exact A]. apply rk_stop; [cbn; lia|].
    apply (sk_ok w _ _ cur cur [] 3 RFail 1 P0). apply sk_fail. eapply klit_no; [exact A|exact a_not].
  - destruct (klit_yes (bs "a") w cur (repeat 97 n) A) as (c1 & l1 & P1 & A1). destruct (IH c1 (S k) A1) as (c2 & l2 & P2 & A2).
    exists c2, (([] ++ l1) ++ l2). split; [|exact A2]. replace (k + S n)%nat with (S k + n)%nat by lia. cbn [far_cost].
    apply (rk_more w _ _ k cur c1 ([] ++ l1) (inr (c2, l2, (S k + n)%nat)) (S n + 4) (far_cost n)); [cbn; lia| |exact P2].
    replace (S n + 4)%nat with (S n + 3 + 1)%nat by lia. apply (sk_ok w _ _ cur cur [] (S n + 3) (RSucc c1 l1) 1 P0). apply pks_one. exact P1.
Qed.
Lemma far_value n : (2 * far_cost n = n * n + 9 * n + 8)%nat.
Proof. induction n as [|n IH]; [reflexivity|]. cbn [far_cost]. lia. Qed.
Lemma look_far_gram : peg_gram look_far.
Proof. unfold look_far, EZeroOrMore, SSeq. gram_tac. Qed.
Lemma look_far_cost env n : (forall j, peg_gram (env j)) -> exists n0, forall m, (n0 <= m)%nat -> exists o, run env m look_far (new_string_ctx (repeat 97 n)) = Ok (o, None) /\
  c_st o = Matched /\ c_pos o = n /\ (2 * cost env m look_far (new_string_ctx (repeat 97%Z n)) = n * n + 9 * n + 10)%nat.
Proof.
  intros He. set (w := world_of env (repeat 97 n)).
  assert (A : at_rest w sp0 (repeat 97 n)).
  { split; [split; [|cbn; lia]|reflexivity]. cbn. apply Forall_forall. intros x I. apply repeat_spec in I. subst. unfold is_byte. lia. }
  destruct (far_count w n sp0 0 A) as (c1 & l & P & A1).
  assert (Q : pegk w look_far sp0 (RSucc c1 l) (S (far_cost n))).
  { pose proof (pk_repeat w _ _ sp0 _ _ P) as Q. cbn [repeated] in Q. destruct (Z.ltb_spec (Z.of_nat (0 + n)) (t_min qtyZeroOrMoreTimes)); [cbn in *; lia|exact Q]. }
  destruct (counts_cost w look_far (new_string_ctx (repeat 97 n)) _ _ He look_far_gram ltac:(repeat split) eq_refl Q) as (n0 & H).
  exists n0. intros m Hm. destruct (H m Hm) as (o & err & R & (-> & Hst & Hsp & _) & Hc). exists o. split; [exact R|]. split; [exact Hst|]. split.
  - unfold c_pos. rewrite Hsp. destruct A1 as [[_ G] E]. unfold rest_of in E. cbn [w world_of w_str] in *. apply (f_equal (@length Z)) in E.
    rewrite skipn_length, repeat_length in *. cbn [length] in E. lia.
  - cbn [w world_of w_env] in Hc. rewrite Hc. pose proof (far_value n). lia.
Qed.
