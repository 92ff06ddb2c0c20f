(** Lemmas for the exact behaviour of WordBoundary (C19). *)
From Verif Require Import L_Text.
From Verif Require Export S_Bound.

Lemma passed_bytes r cs : utf8_char r cs -> passed_over r -> Forall (fun b => wb_lead b = false) cs.
Proof.
  unfold passed_over. destruct 1; intros Hr; try lia. repeat constructor; unfold wb_lead, in_rng; lia.
Qed.
Lemma passed_text rs u : utf8 rs u -> Forall passed_over rs -> Forall (fun b => wb_lead b = false) u.
Proof.
  induction 1 as [|r cs rs s Hc _ IH]; intros F; [constructor|]. inversion F; subst. apply Forall_app. split; [eapply passed_bytes; eauto|auto].
Qed.
Lemma find_prev_skip str t u : Forall (fun b => wb_lead b = false) u -> forall p, firstn p str = t ++ u -> (p <= length str)%nat ->
  find_prev str p = find_prev str (length t).
Proof.
  induction u as [|x u IH] using rev_ind; intros F p E Hp.
  - rewrite app_nil_r in E. apply (f_equal (@length Z)) in E. rewrite firstn_length in E. f_equal. lia.
  - apply Forall_app in F. destruct F as [F Fx]. inversion Fx; subst.
    assert (Lp : p = S (length t + length u)). { apply (f_equal (@length Z)) in E. rewrite firstn_length, !app_length in E. simpl in E. lia. }
    rewrite Lp. cbn [find_prev].
    assert (En : nth (length t + length u) str 0 = x).
    { rewrite <- (firstn_skipn p str), E, app_assoc, <- app_assoc, app_nth2; rewrite app_length; [|lia]. rewrite Nat.sub_diag. reflexivity. }
    rewrite En. replace (wb_lead x) with false by (symmetry; auto). apply IH; auto; [|lia].
    apply (f_equal (firstn (length t + length u))) in E. rewrite firstn_firstn in E. replace (Nat.min (length t + length u) p) with (length t + length u)%nat in E by lia.
    rewrite E, app_assoc, firstn_app, app_length, Nat.sub_diag. cbn [firstn]. rewrite app_nil_r. apply firstn_all2. rewrite app_length. lia.
Qed.
Lemma seen_find str p r : (p <= length str)%nat -> seen_before str p r -> exists l, l <> 0%nat /\ find_prev str p = (r, l).
Proof.
  intros Hp (t & cs & u & rs & E & Hc & Hk & Hu & F). exists (length cs). pose proof (char_len _ _ Hc) as Lc. split; [lia|].
  assert (Lp : (p = length (t ++ cs) + length u)%nat).
  { apply (f_equal (@length Z)) in E. rewrite firstn_length, !app_length in E. rewrite app_length. lia. }
  rewrite app_assoc in E. rewrite (find_prev_skip str (t ++ cs) u (passed_text _ _ Hu F) p E Hp).
  apply (find_prev_char str (length (t ++ cs)) t r cs); [|lia|exact Hc|unfold passed_over in Hk; lia].
  apply (f_equal (firstn (length (t ++ cs)))) in E. rewrite firstn_firstn in E. replace (Nat.min (length (t ++ cs)) p) with (length (t ++ cs)) in E by lia.
  rewrite E, firstn_app, Nat.sub_diag. cbn [firstn]. rewrite app_nil_r. apply firstn_all.
Qed.
Lemma passed_dec r : {passed_over r} + {~ passed_over r}.
Proof. unfold passed_over. destruct (Z_le_dec 262144 r), (Z_lt_dec r 786432), (Z_le_dec 1048576 r); (left; lia) || (right; lia). Qed.
Lemma split_seen rs s : utf8 rs s -> Forall passed_over rs \/
  exists t r cs u rs', s = t ++ cs ++ u /\ utf8_char r cs /\ ~ passed_over r /\ utf8 rs' u /\ Forall passed_over rs'.
Proof.
  induction 1 as [|r cs rs s Hc Hs IH]; [left; constructor|]. destruct IH as [F|(t & r' & cs' & u & rs' & -> & A)].
  - destruct (passed_dec r) as [P|P]; [left; constructor; auto|]. right. exists [], r, cs, s, rs. auto.
  - right. exists (cs ++ t), r', cs', u, rs'. rewrite <- app_assoc. auto.
Qed.
Lemma none_find str p : boundary str p -> (forall r, ~ seen_before str p r) -> find_prev str p = (0, 0%nat).
Proof.
  intros (Hp & (rs & H) & _) N. destruct (split_seen _ _ H) as [F|(t & r & cs & u & rs' & E & A)].
  - rewrite (find_prev_skip str [] (firstn p str) (passed_text _ _ H F) p eq_refl Hp). reflexivity.
  - exfalso. apply (N r). exists t, cs, u, rs'. auto.
Qed.
Lemma seen_dec str p : boundary str p -> (exists r, seen_before str p r) \/ forall r, ~ seen_before str p r.
Proof.
  intros (Hp & (rs & H) & _). destruct (split_seen _ _ H) as [F|(t & r & cs & u & rs' & E & A)].
  - right. intros r S. destruct (seen_find _ _ _ Hp S) as (l & L & E).
    rewrite (find_prev_skip str [] (firstn p str) (passed_text _ _ H F) p eq_refl Hp) in E. injection E as _ <-. congruence.
  - left. exists r, t, cs, u, rs'. auto.
Qed.

Lemma word_boundary_exact env n cls (word : Z -> bool) (W : Z -> Prop) c : (forall r, word r = true <-> W r) ->
  boundary (c_str c) (c_pos c) ->
  exists o, run env n (ELight cls (lift (word_boundary_gen word))) c = Ok (o, None) /\ c_st o <> Errored /\
    (c_st o = Matched <->
      (c_pos c = 0%nat /\ after_word W (c_str c) (c_pos c)) \/
      (exists r, seen_before (c_str c) (c_pos c) r /\
         ((W r /\ ~ after_word W (c_str c) (c_pos c)) \/ (~ W r /\ after_word W (c_str c) (c_pos c))))).
Proof.
  intros HW Hb. unfold run. cbn [denote]. unfold light_base_parser, lift, word_boundary_gen, with_rest. cbv zeta.
  change (c_pos (set_st (set_len c 0) Unmatched)) with (c_pos c). change (c_str (set_st (set_len c 0) Unmatched)) with (c_str c).
  pose proof Hb as (Hl & _ & _). pose proof Hl as Hl'. apply Nat.leb_le in Hl'. rewrite Hl'.
  destruct (decode_rune (skipn (c_pos c) (c_str c))) as [r l] eqn:D.
  assert (A : (l = 0%nat /\ c_pos c = length (c_str c) /\ ~ after_word W (c_str c) (c_pos c)) \/
              (l <> 0%nat /\ c_pos c <> length (c_str c) /\ (after_word W (c_str c) (c_pos c) <-> word r = true))).
  { destruct (Nat.eq_dec l 0) as [Zq|Zq].
    - left. pose proof (decode_zero (skipn (c_pos c) (c_str c))) as Dz. rewrite D in Dz. simpl in Dz. destruct Dz as [Dz _].
      specialize (Dz Zq). split; auto. pose proof (skipn_length (c_pos c) (c_str c)) as L. rewrite Dz in L. simpl in L. split; [lia|].
      intros (t & r' & cs & E & Hc & _). rewrite Dz in E. symmetry in E. revert E. eapply char_not_nil; eauto.
    - right. destruct (boundary_char _ _ _ _ Hb D Zq) as (cs & t & E & Hc & ->). split; auto.
      rewrite (after_iff W _ _ _ _ _ E Hc), HW. split; [|tauto].
      intros F. rewrite F, skipn_all in E. symmetry in E. revert E. eapply char_not_nil; eauto. }
  assert (P0 : c_pos c = 0%nat -> forall q, ~ seen_before (c_str c) (c_pos c) q).
  { intros -> q S. destruct (seen_find _ _ _ (Nat.le_0_l _) S) as (l0 & L0 & E0). cbn in E0. injection E0 as _ <-. congruence. }
  destruct (Nat.eqb_spec (c_pos c) 0) as [Zq|Zq].
  - specialize (P0 Zq). unfold ret. destruct A as [(-> & A2 & A3)|(A1 & A2 & A3)].
    + simpl. eexists. split; [reflexivity|]. split; [discriminate|]. simpl. split; [discriminate|].
      intros [[_ X]|(q & S & _)]; [contradiction|exfalso; eapply P0; eauto].
    + replace (Nat.ltb 0 l) with true by (symmetry; apply Nat.ltb_lt; lia). cbn [andb].
      destruct (word r) eqn:Wr; eexists; (split; [reflexivity|]); (split; [discriminate|]); cbn [c_st set_st set_len].
      * split; auto. intros _. left. tauto.
      * split; [discriminate|]. intros [[_ X]|(q & S & _)]; [apply A3 in X; discriminate|exfalso; eapply P0; eauto].
  - destruct (seen_dec _ _ Hb) as [(q & S)|N].
    + destruct (seen_find _ _ _ Hl S) as (pl & Lp & E). rewrite E. unfold ret.
      assert (U : forall q', seen_before (c_str c) (c_pos c) q' -> q' = q).
      { intros q' S'. destruct (seen_find _ _ _ Hl S') as (pl' & _ & E'). congruence. }
      assert (R : ((c_pos c = 0%nat /\ after_word W (c_str c) (c_pos c)) \/
                   (exists r, seen_before (c_str c) (c_pos c) r /\
                      ((W r /\ ~ after_word W (c_str c) (c_pos c)) \/ (~ W r /\ after_word W (c_str c) (c_pos c))))) <->
                  ((W q /\ ~ after_word W (c_str c) (c_pos c)) \/ (~ W q /\ after_word W (c_str c) (c_pos c)))).
      { split; [intros [[? _]|(q' & S' & X)]; [congruence|rewrite (U _ S') in X; exact X]|intros X; right; eauto]. }
      destruct A as [(-> & A2 & A3)|(A1 & A2 & A3)].
      * rewrite (proj2 (Nat.eqb_eq _ _) A2). replace (Nat.ltb 0 pl) with true by (symmetry; apply Nat.ltb_lt; lia). cbn [andb].
        specialize (HW q). destruct (word q) eqn:Wq; eexists; (split; [reflexivity|]); (split; [discriminate|]); cbn [c_st set_st set_len]; rewrite R.
        -- split; auto. intros _. left. tauto.
        -- split; [discriminate|]. intros [[X _]|[_ X]]; [apply HW in X; discriminate|contradiction].
      * rewrite (proj2 (Nat.eqb_neq _ _) A2), (proj2 (Nat.eqb_neq _ _) A1), (proj2 (Nat.eqb_neq _ _) Lp). cbn [andb negb].
        specialize (HW q). destruct (word q) eqn:Wq, (word r) eqn:Wr; cbn [andb negb orb]; eexists; (split; [reflexivity|]); (split; [discriminate|]);
          cbn [c_st set_st set_len]; rewrite R, A3, <- HW; (split; [intros X; try discriminate X|intros [[X Y]|[X Y]]; try reflexivity; exfalso; congruence]).
        -- left. split; [reflexivity|discriminate].
        -- right. split; [discriminate|reflexivity].
    + rewrite (none_find _ _ Hb N). cbn [Nat.ltb Nat.leb andb negb Nat.eqb]. unfold ret.
      assert (R : ~ ((c_pos c = 0%nat /\ after_word W (c_str c) (c_pos c)) \/
                   (exists r, seen_before (c_str c) (c_pos c) r /\
                      ((W r /\ ~ after_word W (c_str c) (c_pos c)) \/ (~ W r /\ after_word W (c_str c) (c_pos c)))))).
      { intros [[? _]|(q & S & _)]; [congruence|eapply N; eauto]. }
      rewrite andb_false_r. destruct (Nat.eqb (c_pos c) (length (c_str c))); eexists; (split; [reflexivity|]); (split; [discriminate|]); cbn [c_st set_st set_len];
        (split; [discriminate|contradiction]).
Qed.
