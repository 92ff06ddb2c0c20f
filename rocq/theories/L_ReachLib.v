(** Lemmas for C79: what the parsers and transformers of the library look at. *)
From Verif Require Export L_Reach.

Lemma decode_four l : decode_rune l = decode_rune (firstn 4 l).
Proof. destruct l as [|a [|b [|c [|d l]]]]; reflexivity. Qed.
Lemma near_mono K K' u p : (K <= K')%nat -> near K u p -> near K' u p.
Proof. intros L H m n c d E V. apply H; auto. lia. Qed.

Section Two.
Variables (m : nat) (u : bytes) (c d : ctx).
Hypothesis V : view m u c d.
Notation p := (c_pos c).
Lemma two_len x : (x <= m)%nat -> (length u + x <=? length (c_str d))%nat = (x <=? length (c_str c))%nat.
Proof.
  intros L. destruct V as ((t & -> & E) & _). rewrite app_length. apply (f_equal (@length Z)) in E. rewrite !firstn_length in E.
  destruct (Nat.leb_spec x (length (c_str c))), (Nat.leb_spec (length u + x) (length u + length t)); auto; lia.
Qed.
Lemma two_rest x j : (x + j <= m)%nat -> firstn j (skipn (length u + x) (c_str d)) = firstn j (skipn x (c_str c)).
Proof.
  intros L. destruct V as ((t & -> & E) & _). rewrite skipn_app, (skipn_all2 (n := length u + x)) by lia. replace (length u + x - length u)%nat with x by lia. cbn [app].
  rewrite !firstn_skipn_comm. f_equal. replace (x + j)%nat with (Nat.min (x + j) m) by lia. rewrite <- !firstn_firstn, E. reflexivity.
Qed.
Lemma two_decode x : (x + 4 <= m)%nat -> decode_rune (skipn (length u + x) (c_str d)) = decode_rune (skipn x (c_str c)).
Proof. intros L. rewrite decode_four, two_rest, <- decode_four by lia. reflexivity. Qed.
Lemma two_sub x j : (x + j <= m)%nat -> sub (c_str d) (length u + x) (length u + x + j) = sub (c_str c) x (x + j).
Proof. intros L. unfold sub. replace (length u + x + j - (length u + x))%nat with j by lia. replace (x + j - x)%nat with j by lia. apply two_rest; auto. Qed.
Lemma two_prefix s : (p + length s <= m)%nat -> has_prefix_at (c_str d) (c_pos d) s = has_prefix_at (c_str c) p s.
Proof.
  intros L. unfold has_prefix_at. rewrite (view_pos _ _ _ _ V), <- Nat.add_assoc, two_len, Nat.add_assoc, two_sub by lia. reflexivity.
Qed.
End Two.
Lemma view_same_sp m u c d : view m u c d -> u = [] -> c_sp c = c_sp d.
Proof.
  intros (_ & _ & _ & P & L & _) ->. cbn in P. unfold c_pos, c_len in *. destruct (c_sp c), (c_sp d). cbn in *. congruence.
Qed.
Lemma view_push m u cls c d s l : view m u c d -> view m u (push_str cls c s l) (push_str cls d s l).
Proof.
  intros V. unfold push_str. cbv zeta. apply view_st, view_at; [apply view_stack; auto|].
  - apply stsame_app; [apply (view_stack_eq _ _ _ _ V)|]. split; [reflexivity|]. intros E. rewrite (view_same_sp _ _ _ _ V E). reflexivity.
  - rewrite (view_pos _ _ _ _ V). lia.
Qed.
Lemma char_near u cls test : near 4 u (lift (char_fn cls test)).
Proof.
  intros m n c d L V. unfold lift, char_fn, with_rest. apply (view_st _ _ _ _ Unmatched) in V. cbv zeta. change (c_pos c) with (c_pos (set_st c Unmatched)) in L.
  revert L V. generalize (set_st c Unmatched), (set_st d Unmatched). clear c d. intros c d L V.
  rewrite (view_pos _ _ _ _ V), (two_len _ _ _ _ V), (two_decode _ _ _ _ V) by lia. destruct (_ <=? _)%nat; [|reflexivity].
  destruct (decode_rune _) as [ch k]. destruct (k =? 0)%nat; [cbn; auto|]. destruct (test ch); cbn; split; auto. apply view_push; auto.
Qed.
Ltac start_near V L := unfold lift; apply (view_st _ _ _ _ Unmatched) in V; cbv zeta;
  match type of L with (c_pos ?c + _ <= _)%nat => change (c_pos c) with (c_pos (set_st c Unmatched)) in L;
    match type of V with view _ _ _ (set_st ?d Unmatched) => revert L V; generalize (set_st c Unmatched), (set_st d Unmatched); clear c d; intros c d L V end end.
Lemma any_near u : near 4 u (lift any_fn).
Proof. apply (char_near u ":string:Any" (fun _ => true)). Qed.
Lemma two_end m u c d : view m u c d -> (c_pos c + 1 <= m)%nat -> (c_pos d =? length (c_str d))%nat = (c_pos c =? length (c_str c))%nat.
Proof.
  intros V L. pose proof (two_len m u c d V (c_pos c) ltac:(lia)) as A. pose proof (two_len m u c d V (c_pos c + 1) L) as B. rewrite (view_pos _ _ _ _ V).
  destruct (Nat.leb_spec (length u + c_pos c) (length (c_str d))), (Nat.leb_spec (c_pos c) (length (c_str c))), (Nat.leb_spec (length u + (c_pos c + 1)) (length (c_str d))),
    (Nat.leb_spec (c_pos c + 1) (length (c_str c))), (Nat.eqb_spec (length u + c_pos c) (length (c_str d))), (Nat.eqb_spec (c_pos c) (length (c_str c))); try discriminate; auto; lia.
Qed.
Lemma end_near u : near 1 u (lift end_fn).
Proof.
  intros m n c d L V. unfold end_fn. start_near V L. rewrite (two_end _ _ _ _ V L). destruct (_ =? _)%nat; cbn; auto. split; auto. apply view_st, view_len; auto.
Qed.
Lemma seq_near u s : near (length s) u (lift (seq_fn s)).
Proof.
  intros m n c d L V. unfold seq_fn. start_near V L.
  rewrite (view_pos _ _ _ _ V), (two_sub _ _ _ _ V), <- Nat.add_assoc, (two_len _ _ _ _ V) by lia. destruct (_ <=? _)%nat; [|cbn; auto].
  destruct (bytes_eqb _ _); cbn; auto. split; auto. apply view_push; auto.
Qed.
Lemma seqi_near u fold s : near (length s) u (lift (seqi_fn fold s)).
Proof.
  intros m n c d L V. unfold seqi_fn. start_near V L.
  rewrite (view_pos _ _ _ _ V), (two_sub _ _ _ _ V), <- Nat.add_assoc, (two_len _ _ _ _ V) by lia. destruct (_ <=? _)%nat; [|cbn; auto].
  destruct (equal_fold _ _ _ _); cbn; auto. split; auto. apply view_push; auto.
Qed.
Lemma max_cons (s : bytes) cc : list_max (map (@length Z) (s :: cc)) = Nat.max (length s) (list_max (map (@length Z) cc)).
Proof. reflexivity. Qed.
Lemma class_near u cc : near (list_max (map (@length Z) cc)) u (lift (char_class_fn cc)).
Proof.
  intros m n c d L V. unfold char_class_fn. start_near V L. cbn [vout ret]. split; auto. induction cc as [|s cc IH]; cbn [char_class_loop]; auto.
  rewrite max_cons in L. rewrite (two_prefix _ _ _ _ V) by lia. destruct (has_prefix_at _ _ _); [|apply IH; lia].
  rewrite (view_pos _ _ _ _ V), (two_sub _ _ _ _ V) by lia. apply view_push; auto.
Qed.
Lemma classN_near u cc : near (Nat.max 4 (list_max (map (@length Z) cc))) u (lift (char_classN_fn cc)).
Proof.
  intros m n c d L V. unfold char_classN_fn. start_near V L.
  assert (E : existsb (has_prefix_at (c_str d) (c_pos d)) cc = existsb (has_prefix_at (c_str c) (c_pos c)) cc).
  { assert (L' : (c_pos c + list_max (map (@length Z) cc) <= m)%nat) by lia. clear L. induction cc as [|s cc IH]; auto. rewrite max_cons in L'. cbn [existsb].
    rewrite (two_prefix _ _ _ _ V) by lia. rewrite IH by lia. reflexivity. }
  rewrite E. clear E. destruct (existsb (has_prefix_at (c_str c) (c_pos c)) cc); [cbn; auto|]. unfold with_rest.
  rewrite (view_pos _ _ _ _ V), (two_len _ _ _ _ V), (two_decode _ _ _ _ V) by lia. destruct (_ <=? _)%nat; [|reflexivity].
  destruct (decode_rune _) as [ch k]. destruct (k =? 0)%nat; cbn; auto. split; auto. apply view_push; auto.
Qed.
Lemma start_near_ok : near 0 [] (lift start_fn).
Proof.
  intros m n c d L V. unfold start_fn. start_near V L. rewrite (view_pos _ _ _ _ V). cbn [length Nat.add]. destruct (_ =? _)%nat; cbn; auto. split; auto. apply view_st, view_len; auto.
Qed.
Lemma two_prev m c d : view m [] c d -> forall i, (i + 4 <= m)%nat -> find_prev (c_str d) i = find_prev (c_str c) i.
Proof.
  intros V. induction i as [|i IH]; intros L; cbn [find_prev]; auto.
  assert (E : nth i (c_str d) 0 = nth i (c_str c) 0).
  { pose proof (two_rest _ _ _ _ V i 1 ltac:(lia)) as R. cbn [length Nat.add] in R. clear -R. revert R. generalize (c_str c), (c_str d). intros s t R.
    rewrite <- (firstn_skipn i s), <- (firstn_skipn i t) at 1. assert (N : forall l : bytes, nth i l 0 = hd 0 (firstn 1 (skipn i l))).
    { clear. intros l. revert i. induction l as [|x l IH]; intros [|i]; auto. cbn [nth skipn]. apply IH. }
    rewrite !firstn_skipn, !N, R. reflexivity. }
  rewrite E, IH by lia. pose proof (two_decode _ _ _ _ V i ltac:(lia)) as D. cbn [length Nat.add] in D. rewrite D. reflexivity.
Qed.
Lemma boundary_near word : near 4 [] (lift (word_boundary_gen word)).
Proof.
  intros m n c d L V. unfold word_boundary_gen, lift. cbv zeta.
  assert (V1 : view m [] (set_st (set_len c 0) Unmatched) (set_st (set_len d 0) Unmatched)) by (apply view_st, view_len; auto).
  change (c_pos c) with (c_pos (set_st (set_len c 0) Unmatched)) in L. revert L V1. generalize (set_st (set_len c 0) Unmatched), (set_st (set_len d 0) Unmatched). clear c d V. intros c d L V.
  unfold with_rest. rewrite (two_end _ _ _ _ V) by lia. pose proof (view_pos _ _ _ _ V) as P. cbn [length Nat.add] in P. pose proof (two_len _ _ _ _ V (c_pos c) ltac:(lia)) as A.
  pose proof (two_decode _ _ _ _ V (c_pos c) ltac:(lia)) as D. cbn [length Nat.add] in A, D. rewrite P, A, D, (two_prev _ _ _ V) by lia. clear P A D.
  destruct (c_pos c <=? length (c_str c))%nat; [|reflexivity]. destruct (decode_rune _) as [ch k]. destruct (c_pos c =? 0)%nat.
  { destruct (_ && _); cbn; split; auto. apply view_st; auto. }
  destruct (find_prev _ _) as [pch pk]. destruct (_ =? _)%nat.
  { destruct (_ && _); cbn; split; auto. apply view_st; auto. }
  destruct (_ && _); [|cbn; auto]. destruct (_ || _); cbn; split; auto. apply view_st; auto.
Qed.
Lemma match_near u n cases : Forall far_case cases -> near 0 u (match_fn n cases).
Proof.
  intros H m fuel c d L V. unfold match_fn. cbv zeta. rewrite <- (view_stack_len _ _ _ _ V).
  assert (V1 : view m u (set_st (set_len c 0) Unmatched) (set_st (set_len d 0) Unmatched)) by (apply view_st, view_len; auto).
  revert V1. generalize (set_st (set_len c 0) Unmatched), (set_st (set_len d 0) Unmatched). intros c1 d1 V1. rewrite <- (view_stack_len _ _ _ _ V1).
  assert (E : find (fun cs => case_if cs (c_stack c1)) cases = find (fun cs => case_if cs (c_stack d1)) cases).
  { clear -H V1. induction H as [|x l [A _] F IH]; cbn; auto. rewrite (A _ _ (proj1 (view_stack_eq _ _ _ _ V1))), IH. reflexivity. }
  rewrite E. clear E. destruct (find (fun cs => case_if cs (c_stack d1)) cases) as [cs|] eqn:X; [|cbn; auto]. apply find_some in X as [X _]. rewrite Forall_forall in H. destruct (H _ X) as [_ T].
  destruct (_ || _); [exact eq_refl|]. set (k := Z.to_nat _).
  pose proof (far_run m u fuel _ T c1 d1 _ _ V1 (stsame_skipn _ k _ _ (view_stack_eq _ _ _ _ V1))) as R.
  destruct (run_trans fuel c1 _ _) as [[e|l]|x|], (run_trans fuel d1 _ _) as [[e'|l']|y|]; cbn in R; try contradiction; cbn; subst; auto.
  - split; auto. apply view_st; auto.
  - split; auto. apply view_st, view_stack; auto. apply stsame_app; auto. apply stsame_firstn, (view_stack_eq _ _ _ _ V1).
Qed.
Lemma zero_near u l : near 0 u (lift (zero_fn l)).
Proof.
  intros m n c d L V. cbn. split; auto. apply view_st, view_len, view_stack; auto. apply stsame_app; [apply (view_stack_eq _ _ _ _ V)|].
  split; [unfold lsame; rewrite !blur_set_asp; reflexivity|]. intros E. rewrite (view_same_sp _ _ _ _ V E). reflexivity.
Qed.
Lemma library_near b K p : library_reads b K p -> forall u, (b = true -> u = []) -> near K u p.
Proof.
  destruct 1; intros u Hu; try (rewrite (Hu eq_refl)); auto using zero_near, match_near, start_near_ok, any_near, end_near, seq_near, seqi_near, char_near, class_near, classN_near, boundary_near.
  - intros m n c d L V. cbn. split; auto. apply view_st, view_len; auto.
  - intros m n c d L V. cbn. split; auto. apply view_st, view_len; auto.
Qed.
(** ** Transformers *)
Lemma tr_far t : library_tr t -> far_tr t.
Proof. intros H. split; [apply tr_blind; exact H|]. destruct H; reflexivity. Qed.
Lemma far_of t : blind_tr t -> (forall n c l, t n c l = t n (neutral c) l) -> far_tr t.
Proof. split; auto. Qed.
Lemma rules_far neg mul add : blind_tr neg -> blind_tr mul -> blind_tr add -> far_tr (formulaProductionRules neg mul add).
Proof. intros A B C. split; [apply rules_blind; auto|reflexivity]. Qed.
