(** Proofs for C02-C06. *)
From Verif Require Export L_LeafInv.

(** ** The loops in terms of [seq_runs], [seq_fails] and [iters] *)
Lemma children_seq saved fs : forall c num,
  match children_loop false saved fs c num with
  | CEnd o n => seq_runs fs c o /\ n = (num + length fs)%nat
  | CBreak x => x = saved /\ seq_fails fs c
  | CReturn (Ok (o, err)) => c_st o = Errored
  | CReturn _ => True
  end.
Proof.
  induction fs as [|f fs IH]; intros c num; simpl; [split; [constructor|lia]|].
  destruct (f c) as [[o err]|w|] eqn:E; auto.
  destruct (c_st (fix_status o err)) eqn:Es; auto.
  - destruct err; [discriminate|]. simpl in *. specialize (IH o (S num)).
    destruct (children_loop false saved fs o (S num)) as [[[o1 e1]|w|]|x|o1 n]; auto.
    + destruct IH as [-> IH]. split; auto. eapply sf_later; eauto.
    + destruct IH as [IH ->]. split; [|simpl; lia]. econstructor; eauto.
  - destruct err; [discriminate|]. simpl in *. split; auto. eapply sf_here; eauto.
Qed.
Lemma seq_children saved fs c o : seq_runs fs c o -> forall num,
  children_loop false saved fs c num = CEnd o (num + length fs).
Proof.
  induction 1 as [|f fs c o c' H1 H2 H3 IH]; intros num; simpl; [f_equal; lia|].
  rewrite H1. simpl. rewrite H2, IH. f_equal. lia.
Qed.
Lemma fails_children saved fs c : seq_fails fs c -> forall num,
  children_loop false saved fs c num = CBreak saved.
Proof.
  induction 1 as [f fs c o H1 H2|f fs c o H1 H2 H3 IH]; intros num; simpl; rewrite H1; simpl; rewrite H2; auto.
Qed.
Lemma seq_runs_st fs c o : seq_runs fs c o -> c_st c = Matched -> c_st o = Matched.
Proof. induction 1; auto. Qed.
Lemma iters_st fs k c o : iters fs k c o -> c_st c = Matched -> c_st o = Matched.
Proof. induction 1; auto. intros. simpl. eapply seq_runs_st; eauto. Qed.

Lemma parent_iters t fs b fuel : forall c0 o count, c_st o = Matched -> iters fs count c0 o ->
  match parent_loop fuel t false None b fs o count with
  | PReturn (Ok (o1, err)) => c_st o1 = Errored
  | PReturn _ => True
  | PDone o1 k => iters fs k c0 o1 /\ c_st o1 = Matched /\ (count <= k)%nat /\
      (k = count \/ t_max t < 0 \/ Z.of_nat k <= t_max t) /\
      (0 <= t_max t <= Z.of_nat k \/ seq_fails fs o1)
  end.
Proof.
  induction fuel; intros c0 o count Hst Hit; simpl; destruct (more t count) eqn:Em; auto;
    try (apply more_false in Em; auto 8).
  apply more_true in Em.
  pose proof (children_seq o fs o 0) as H. destruct (children_loop false o fs o 0) as [[[o1 e1]|w|]|x|o1 n]; auto.
  - destruct H as [-> H]. auto 8.
  - destruct H as [H _]. simpl. pose proof (seq_runs_st _ _ _ H Hst) as Hs1. rewrite Hs1.
    assert (Hi : iters fs (S count) c0 (set_qty o1 count)) by (econstructor; eauto).
    specialize (IHfuel c0 (set_qty o1 count) (S count) Hs1 Hi).
    destruct (parent_loop fuel t false None b fs (set_qty o1 count) (S count)) as [[[o2 e2]|w|]|o2 k]; auto.
    destruct IHfuel as (H1 & H2 & H3 & H4 & H5). repeat split; auto; [lia|]. destruct H4 as [->|H4]; auto.
    right. destruct Em; [auto|right; lia].
Qed.

Lemma iters_parent t fs b k c0 o : iters fs k c0 o -> c_st c0 = Matched ->
  (t_max t < 0 \/ Z.of_nat k <= t_max t) -> forall fuel,
  parent_loop (k + fuel) t false None b fs c0 0 = parent_loop fuel t false None b fs o k.
Proof.
  induction 1 as [|k c0 c1 c2 Hi IH Hs]; intros Hst Hm fuel; auto.
  replace (S k + fuel)%nat with (k + S fuel)%nat by lia. rewrite IH; [|auto|destruct Hm; [auto|right; lia]].
  simpl. assert (Em : more t k = true) by (apply more_true; destruct Hm; [auto|right; lia]).
  rewrite Em, (seq_children _ _ _ _ Hs). simpl.
  rewrite (seq_runs_st _ _ _ Hs (iters_st _ _ _ _ Hi Hst)). reflexivity.
Qed.

(** ** C02 *)
Definition repeat_result (t : times) (k : nat) (c1 : ctx) : ctx :=
  if t_min t <=? Z.of_nat k then set_qty c1 k else set_st c1 Unmatched.

Lemma repeat_finish t fs fuel c : forall o k, c_st o = Matched ->
  parent_loop fuel t false None (length (c_stack c)) fs (enter ":base:Repeat" c) 0 = PDone o k ->
  Repeat t fs fuel c = Ok (repeat_result t k o, None).
Proof.
  intros o k Hst H. unfold Repeat, base_parser. cbn [flags_of fold_left flag_step f_neg f_ex f_rew f_qty set_cls c_stack].
  change (set_st (set_cls c ":base:Repeat") Matched) with (enter ":base:Repeat" c). rewrite H.
  unfold after_loop, repeat_result. cbn.
  destruct (Z.leb_spec (t_min t) (Z.of_nat k)) as [L|L].
  - replace (Z.of_nat k <? t_min t) with false by lia. rewrite andb_false_r. simpl. rewrite Hst. reflexivity.
  - replace (0 <=? t_min t) with true by lia. replace (Z.of_nat k <? t_min t) with true by lia. simpl. reflexivity.
Qed.

Lemma repeat_only_if t fs fuel c o err : Repeat t fs fuel c = Ok (o, err) -> c_st o <> Errored ->
  err = None /\ exists k c1, iters fs k (enter ":base:Repeat" c) c1 /\
    (t_max t < 0 \/ Z.of_nat k <= t_max t) /\
    (Z.of_nat k = t_max t \/ seq_fails fs c1) /\ o = repeat_result t k c1.
Proof.
  intros H Hne. pose proof (parent_iters t fs (length (c_stack c)) fuel (enter ":base:Repeat" c) (enter ":base:Repeat" c) 0 eq_refl (it_0 _ _)) as HP.
  destruct (parent_loop fuel t false None (length (c_stack c)) fs (enter ":base:Repeat" c) 0) as [r|o1 k] eqn:E.
  - exfalso. unfold Repeat, base_parser in H. cbn [flags_of fold_left flag_step f_neg f_ex f_rew f_qty set_cls c_stack] in H.
    change (set_st (set_cls c ":base:Repeat") Matched) with (enter ":base:Repeat" c) in H. rewrite E in H. subst r. auto.
  - destruct HP as (H1 & H2 & H3 & H4 & H5). rewrite (repeat_finish t fs fuel c o1 k H2 E) in H.
    inversion H; subst. split; auto. exists k, o1. repeat split; auto.
    + destruct H4 as [->|H4]; auto. simpl. lia.
    + destruct H5 as [H5|H5]; auto. destruct H4 as [->|[H4|H4]]; left; lia.
Qed.

Lemma repeat_if t fs fuel c k c1 : iters fs k (enter ":base:Repeat" c) c1 -> (k < fuel)%nat ->
  (Z.of_nat k = t_max t \/ ((t_max t < 0 \/ Z.of_nat k < t_max t) /\ seq_fails fs c1)) ->
  Repeat t fs fuel c = Ok (repeat_result t k c1, None).
Proof.
  intros Hi Hf Hs. pose proof (iters_st _ _ _ _ Hi eq_refl) as Hst. apply repeat_finish; auto.
  replace fuel with (k + S (fuel - S k))%nat by lia. rewrite (iters_parent t fs _ k _ c1); auto.
  - simpl. destruct Hs as [Hs|[Hm Hs]].
    + replace (more t k) with false by (symmetry; apply more_false; lia). reflexivity.
    + replace (more t k) with true by (symmetry; apply more_true; auto). rewrite fails_children; auto.
  - destruct Hs as [Hs|[[Hm|Hm] _]]; auto; right; lia.
Qed.

(** ** C03 *)
Lemma rewind_zero cls props fs fuel c o : f_rew (flags_of props) = true ->
  base_parser cls None props fs None fuel c = Ok (o, None) -> c_st o = Matched ->
  o = set_cls c cls \/ (c_st o <> Matched).
Proof.
  intros Hr H Hm. unfold base_parser in H. rewrite Hr in H.
  destruct (parent_loop fuel _ _ _ _ _ _ _) as [r|o1 k] eqn:E.
  - left. exfalso. subst r.
    assert (G : forall fuel q ex b cs c0 k0, forall r, parent_loop fuel q ex None b cs c0 k0 = PReturn (Ok (r, None)) -> c_st r = Errored).
    { clear. assert (G0 : forall ex saved cs c0 num r e, children_loop ex saved cs c0 num = CReturn (Ok (r, e)) -> c_st r = Errored).
      { induction cs as [|f cs IH]; simpl; intros c0 num r e H; [discriminate|].
        destruct (f c0) as [[o1 e1]|w|]; try (inversion H; fail).
        destruct (c_st (fix_status o1 e1)) eqn:Es; try (destruct ex; eauto; discriminate).
        inversion H; subst; auto. }
      induction fuel; simpl; intros q ex b cs c0 k0 r H; destruct (more q k0); try discriminate.
      destruct (children_loop ex c0 cs c0 0) as [r1|x|o1 n] eqn:E; try discriminate.
      - inversion H; subst. eauto.
      - destruct (_ && _); try discriminate. destruct (c_st o1) eqn:Es; try discriminate; eauto.
        inversion H; subst; auto. }
    apply G in E. congruence.
  - destruct (c_st (after_loop _ _ _)) eqn:E1; try (inversion H; subst; congruence).
    simpl in H. rewrite E1 in H. inversion H; auto.
Qed.

Lemma lookahead_zero (fs : list (ctx -> out)) fuel c o :
  LookAhead fs fuel c = Ok (o, None) -> c_st o = Matched -> c_sp o = c_sp c /\ c_stack o = c_stack c.
Proof. intros H Hm. destruct (rewind_zero _ [PRewind] _ _ _ _ eq_refl H Hm) as [->|]; [auto|contradiction]. Qed.
Lemma lookaheadN_zero (fs : list (ctx -> out)) fuel c o :
  LookAheadN fs fuel c = Ok (o, None) -> c_st o = Matched -> c_sp o = c_sp c /\ c_stack o = c_stack c.
Proof. intros H Hm. destruct (rewind_zero _ [PRewind; PNegative] _ _ _ _ eq_refl H Hm) as [->|]; [auto|contradiction]. Qed.
Lemma behind_zero neg p c : forall k i o, look_behind_loop neg p c i k = Ok (o, None) -> c_st o = Matched ->
  c_sp o = c_sp c /\ c_stack o = c_stack c.
Proof.
  induction k; simpl; intros i o H Hm; [inversion H; auto|].
  destruct (_ <? 0); eauto. destruct (p _) as [[o1 [e|]]|w|]; try discriminate.
  destruct (c_st o1); eauto. destruct neg; inversion H; subst; auto; discriminate.
Qed.

(** ** C04 *)
Lemma choice_skip saved fs gs c num : Forall (fun f => skipped f c) fs ->
  children_loop true saved (fs ++ gs) c num = children_loop true saved gs c num.
Proof.
  induction 1 as [|f fs (o & E & Es) Hfs IH]; simpl; auto. rewrite E. simpl. rewrite Es. auto.
Qed.
Lemma first_skip fs gs fuel c : Forall (fun f => skipped f (enter ":base:First" c)) fs -> gs <> [] ->
  First (fs ++ gs) fuel c = First gs fuel c.
Proof.
  intros H Hg. unfold First, base_parser.
  cbn [flags_of fold_left flag_step f_neg f_ex f_rew f_qty set_cls c_stack].
  change (set_st (set_cls c ":base:First") Matched) with (enter ":base:First" c).
  replace (parent_loop fuel qtyOnce true None (length (c_stack c)) (fs ++ gs) (enter ":base:First" c) 0)
    with (parent_loop fuel qtyOnce true None (length (c_stack c)) gs (enter ":base:First" c) 0); auto.
  destruct fuel; simpl; auto. rewrite (choice_skip _ _ _ _ _ H).
  destruct (children_loop true (enter ":base:First" c) gs (enter ":base:First" c) 0) as [r|x|o1 n]; auto.
  rewrite app_length. replace (Nat.ltb 0 (length fs + length gs)) with true
    by (symmetry; apply Nat.ltb_lt; destruct gs; [congruence|simpl; lia]).
  replace (Nat.ltb 0 (length gs)) with true
    by (symmetry; apply Nat.ltb_lt; destruct gs; [congruence|simpl; lia]).
  simpl. destruct (Nat.eqb n 0); auto. destruct (c_st o1); auto.
  destruct fuel; reflexivity.
Qed.
Lemma first_none fs fuel c : Forall (fun f => skipped f (enter ":base:First" c)) fs -> fs <> [] -> (0 < fuel)%nat ->
  First fs fuel c = Ok (set_st (enter ":base:First" c) Unmatched, None).
Proof.
  intros H Hg Hf. unfold First, base_parser.
  cbn [flags_of fold_left flag_step f_neg f_ex f_rew f_qty set_cls c_stack].
  change (set_st (set_cls c ":base:First") Matched) with (enter ":base:First" c).
  destruct fuel; [lia|]. simpl. rewrite <- (app_nil_r fs), (choice_skip _ fs [] _ _ H). simpl.
  rewrite app_nil_r. destruct fs; [congruence|]. reflexivity.
Qed.
Lemma first_hit f fs fuel c o : f (enter ":base:First" c) = Ok (o, None) -> c_st o = Matched -> (0 < fuel)%nat ->
  First (f :: fs) fuel c = Ok (set_qty o 1, None).
Proof.
  intros H Hm Hf. unfold First, base_parser.
  cbn [flags_of fold_left flag_step f_neg f_ex f_rew f_qty set_cls c_stack].
  change (set_st (set_cls c ":base:First") Matched) with (enter ":base:First" c).
  destruct fuel; [lia|]. simpl. rewrite H. simpl. rewrite Hm. simpl. rewrite ?Hm.
  destruct fuel; simpl; repeat (rewrite Hm; simpl); destruct o; reflexivity.
Qed.
Lemma seq_rollback cls fs fuel c : seq_fails fs (enter cls c) -> (0 < fuel)%nat ->
  base_parser cls None [] fs None fuel c = Ok (set_st (enter cls c) Unmatched, None).
Proof.
  intros H Hf. unfold base_parser. cbn [flags_of fold_left f_neg f_ex f_rew f_qty set_cls c_stack].
  change (set_st (set_cls c cls) Matched) with (enter cls c).
  destruct fuel; [lia|]. simpl. rewrite (fails_children _ _ _ H). simpl. reflexivity.
Qed.

(** ** C05 *)
Lemma children_err ex saved fs : forall c num o x,
  children_loop ex saved fs c num = CReturn (Ok (o, x)) -> c_st o = Errored.
Proof.
  induction fs as [|f fs IH]; simpl; intros c0 num r e H; [discriminate|].
  destruct (f c0) as [[o1 e1]|w|]; try (inversion H; fail).
  destruct (c_st (fix_status o1 e1)) eqn:Es; try (destruct ex; eauto; discriminate).
  inversion H; subst; auto.
Qed.
Lemma parent_err q ex fn b fs : forall fuel c k o x,
  parent_loop fuel q ex fn b fs c k = PReturn (Ok (o, x)) -> c_st o = Errored.
Proof.
  induction fuel; simpl; intros c k o x H; destruct (more q k); try discriminate.
  destruct (children_loop ex c fs c 0) as [r1|c1|o1 n] eqn:E; try discriminate.
  - inversion H; subst. eapply children_err; eauto.
  - destruct (_ && _); try discriminate.
    destruct (call_fn fn _ b _) as [[o2 e2]|w|]; try discriminate.
    destruct (c_st o2) eqn:Es; try discriminate; eauto. inversion H; subst; auto.
Qed.
Lemma base_err_st cls fn props fs tr fuel c o x :
  base_parser cls fn props fs tr fuel c = Ok (o, Some x) -> c_st o = Errored.
Proof.
  unfold base_parser. destruct (parent_loop _ _ _ _ _ _ _ _) as [r|o1 k] eqn:E.
  - intros ->. eapply parent_err; eauto.
  - destruct (c_st (after_loop _ _ _)); try discriminate.
    destruct (call_fn fn _ _ _) as [[o2 e2]|w|]; try discriminate.
    destruct (c_st o2); try discriminate. destruct tr as [ts|]; try discriminate.
    match goal with |- context [if ?b then Panic _ else _] => destruct b end; try discriminate.
    destruct (run_trans _ _ _ _) as [[e|l]|w|]; try discriminate. intros H; inversion H; subst. reflexivity.
Qed.
Lemma light_err_st cls f c o x : light_base_parser cls f c = Ok (o, Some x) -> c_st o = Errored.
Proof.
  unfold light_base_parser. destruct (f c) as [[o1 e]|w|]; try discriminate. intros H. inversion H; subst. reflexivity.
Qed.
Lemma run_err_st env n e c o x : run env n e c = Ok (o, Some x) -> c_st o = Errored.
Proof.
  unfold run. destruct e; simpl; unfold FlatGroup, Group, First, LookAhead, LookAheadN, Repeat, Trans, Indirect;
    eauto using base_err_st, light_err_st.
  unfold look_behind_base. set (k := Z.to_nat (mx - mn + 1)). clearbody k. revert mn.
  induction k; simpl; intros mn H; [discriminate|]. destruct (_ <? 0); eauto.
  destruct (base_parser _ _ _ _ _ _ _) as [[o1 [e1|]]|w|] eqn:E; try discriminate.
  - inversion H; subst. eapply base_err_st; eauto.
  - destruct (c_st o1); eauto. destruct neg; discriminate.
Qed.

(** Running a prefix successfully, then an erring parser. *)
Lemma children_run ex saved fs gs : forall c c' num, ex = false -> seq_runs fs c c' ->
  children_loop ex saved (fs ++ gs) c num = children_loop ex saved gs c' (num + length fs).
Proof.
  induction fs as [|f fs IH]; simpl; intros c c' num -> H; inversion H as [|? ? ? o ? E1 E2 E3]; subst.
  - f_equal. lia.
  - rewrite E1. simpl. rewrite E2. rewrite (IH o c' (S num)); auto. f_equal. lia.
Qed.
Lemma seq_err_parent q b fs g hs fuel c c' o x : more q 0 = true -> (0 < fuel)%nat ->
  seq_runs fs c c' -> g c' = Ok (o, Some x) ->
  parent_loop fuel q false None b (fs ++ g :: hs) c 0 = PReturn (Ok (set_st o Errored, Some x)).
Proof.
  intros Hm Hf Hs Hg. destruct fuel; [lia|]. simpl. rewrite Hm, (children_run _ _ _ _ _ _ _ eq_refl Hs). simpl.
  rewrite Hg. reflexivity.
Qed.
Lemma seq_err_base cls props tr fs g hs fuel c c' o x :
  f_ex (flags_of props) = false -> f_qty (flags_of props) = qtyOnce -> (0 < fuel)%nat ->
  seq_runs fs (enter cls c) c' -> g c' = Ok (o, Some x) ->
  base_parser cls None props (fs ++ g :: hs) tr fuel c = Ok (set_st o Errored, Some x).
Proof.
  intros H1 H2 Hf Hs Hg. unfold base_parser. rewrite H1, H2.
  change (set_st (set_cls c cls) Matched) with (enter cls c).
  erewrite seq_err_parent; eauto.
Qed.

Lemma calls_err env n e c m e' c' : calls env n e c m e' c' -> forall o x,
  run env m e' c' = Ok (o, Some x) ->
  exists o', run env n e c = Ok (o', Some x) /\ c_st o' = Errored /\ c_sp o' = c_sp o /\ c_stack o' = c_stack o.
Proof.
  destruct 1; intros o x Hr.
  1-4: exists (set_st o Errored); split; [|repeat split]; unfold run in *; simpl; rewrite map_app; simpl;
    (unfold FlatGroup, Group, LookAhead, LookAheadN; eapply seq_err_base; eauto).
  - exists (set_st o Errored); split; [|repeat split].
    change (run env n (EFirst (pre ++ e :: post)) c) with (First (map (run env n) (pre ++ e :: post)) n c).
    set (F := run env n) in *. clearbody F. rewrite map_app. simpl map.
    unfold First, base_parser. cbn [flags_of fold_left flag_step f_neg f_ex f_rew f_qty].
    change (set_st (set_cls c ":base:First") Matched) with (enter ":base:First" c).
    destruct n; [lia|]. simpl parent_loop.
    rewrite choice_skip; [|rewrite Forall_map; auto].
    simpl children_loop. rewrite Hr. reflexivity.
  - exists (set_st o Errored); split; [|repeat split]. unfold run in *; simpl.
    unfold Repeat, base_parser. cbn [flags_of fold_left flag_step f_neg f_ex f_rew f_qty set_cls c_stack].
    change (set_st (set_cls c ":base:Repeat") Matched) with (enter ":base:Repeat" c).
    replace (parent_loop n t false None (length (c_stack c)) (map (denote (run_env env n) n) (pre ++ e :: post)) (enter ":base:Repeat" c) 0)
      with (parent_loop (k + S (n - S k)) t false None (length (c_stack c)) (map (denote (run_env env n) n) (pre ++ e :: post)) (enter ":base:Repeat" c) 0)
      by (f_equal; lia).
    rewrite (iters_parent t _ _ k _ c1 H); [|reflexivity|destruct H0; [auto|right; lia]].
    simpl parent_loop. replace (more t k) with true by (symmetry; apply more_true; auto).
    rewrite map_app at 1. rewrite (children_run _ _ _ _ _ _ _ eq_refl H2). simpl children_loop. rewrite Hr. reflexivity.
  - exists (set_st o Errored); split; [|repeat split]. 
    change (run env n (ELookBehind neg mn mx (pre ++ e :: post)) c)
      with (look_behind_base neg mn mx (map (run env n) (pre ++ e :: post)) n c).
    set (F := run env n) in *. clearbody F. unfold look_behind_base.
    set (cls := (if neg then ":base:LookBehindN" else ":base:LookBehind")%string) in *.
    set (p := base_parser _ _ _ _ _ _).
    assert (Hp : p (set_pos c (Z.to_nat (Z.of_nat (c_pos c) - i))) = Ok (set_st o Errored, Some x)).
    { unfold p. rewrite map_app. simpl. eapply seq_err_base; eauto. }
    assert (Hq : forall j, mn <= j < i -> j <= Z.of_nat (c_pos c) ->
       exists o1, p (set_pos c (Z.to_nat (Z.of_nat (c_pos c) - j))) = Ok (o1, None) /\ c_st o1 = Unmatched).
    { intros j Hj1 Hj2. specialize (H1 j Hj1 Hj2). unfold p, base_parser. cbn [flags_of fold_left flag_step f_neg f_ex f_rew f_qty].
      set (c2 := set_pos c (Z.to_nat (Z.of_nat (c_pos c) - j))) in *.
      change (set_st (set_cls c2 cls) Matched) with (enter cls c2).
      destruct n; [lia|]. simpl parent_loop. rewrite (fails_children _ _ _ H1). simpl. eauto. }
    assert (G : forall k j, mn <= j <= i -> j + Z.of_nat k = mx + 1 ->
      look_behind_loop neg p c j k = Ok (set_st o Errored, Some x)).
    { induction k; intros j Hj1 Hj2; [lia|]. simpl.
      destruct (Z.ltb_spec (Z.of_nat (c_pos c) - j) 0) as [L|L].
      - apply IHk; lia.
      - destruct (Z.eq_dec j i) as [->|Hne]; [rewrite Hp; reflexivity|].
        destruct (Hq j) as (o1 & E & Es); [lia|lia|]. rewrite E, Es. apply IHk; lia. }
    apply G; lia.
  - exists (set_st o Errored); split; [|repeat split]. unfold run in *; simpl. unfold Trans.
    apply (seq_err_base ":base:Trans" [] (variadic tr) [] (denote (run_env env n) n e) [] n c (enter ":base:Trans" c)); auto. constructor.
  - exists (set_cls (set_st o Errored) ":base:Indirect"); split; [|repeat split]. unfold run in *. simpl.
    unfold Indirect, light_base_parser. rewrite Hr. reflexivity.
Qed.

Lemma reaches_err env n e c m e' c' : reaches env n e c m e' c' -> forall o x,
  run env m e' c' = Ok (o, Some x) ->
  exists o', run env n e c = Ok (o', Some x) /\ c_st o' = Errored /\ c_sp o' = c_sp o /\ c_stack o' = c_stack o.
Proof.
  induction 1; intros o x Hr.
  - exists o. repeat split; auto. eapply run_err_st; eauto.
  - destruct (IHreaches o x Hr) as (o1 & E & _ & Hsp & Hstk).
    destruct (calls_err _ _ _ _ _ _ _ H o1 x E) as (o2 & E2 & Hs2 & Hsp2 & Hstk2).
    exists o2. repeat split; auto; congruence.
Qed.

(** ** C06 *)
Definition honest (f : ctx -> out) : Prop :=
  forall c o, c_st c = Matched -> f c = Ok (o, None) -> c_st o <> Errored.

Lemma children_honest ex saved fs : Forall honest fs -> forall c num, c_st c = Matched ->
  match children_loop ex saved fs c num with
  | CReturn (Ok (_, err)) => err <> None
  | CEnd o _ => c_st o = Matched
  | _ => True
  end.
Proof.
  induction 1 as [|f fs Hf Hfs IH]; intros c num Hc; simpl; auto.
  specialize (Hf c). destruct (f c) as [[o err]|w|]; auto.
  destruct (c_st (fix_status o err)) eqn:Es.
  - destruct ex; auto. apply IH. auto.
  - destruct ex; auto. apply IH; auto.
  - destruct err; [discriminate|]. simpl in Es. exfalso. eapply Hf; eauto.
Qed.
Lemma children_break ex saved fs : forall c num x, children_loop ex saved fs c num = CBreak x -> x = saved.
Proof.
  induction fs as [|f fs IH]; simpl; intros c num x H; [discriminate|].
  destruct (f c) as [[o e]|w|]; try discriminate.
  destruct (c_st (fix_status o e)); try discriminate; destruct ex; eauto; try discriminate; congruence.
Qed.
Lemma parent_honest q ex b fs : Forall honest fs -> forall fuel c k, c_st c = Matched ->
  match parent_loop fuel q ex None b fs c k with
  | PReturn (Ok (_, err)) => err <> None
  | PDone o _ => c_st o = Matched
  | _ => True
  end.
Proof.
  intros Hfs. induction fuel; intros c k Hc; simpl; destruct (more q k); auto.
  pose proof (children_honest ex c fs Hfs c 0 Hc) as H.
  pose proof (children_break ex c fs c 0) as Hb.
  destruct (children_loop ex c fs c 0) as [[[o e]|w|]|x|o n]; auto; [rewrite (Hb x eq_refl); auto|].
  destruct (_ && _); auto. simpl. rewrite H. apply IHfuel. auto.
Qed.

Lemma base_honest cls props fs tr fuel : Forall honest fs -> honest (base_parser cls None props fs tr fuel).
Proof.
  intros Hfs c o Hc. unfold base_parser.
  pose proof (parent_honest (f_qty (flags_of props)) (f_ex (flags_of props)) (length (c_stack (set_cls c cls))) fs Hfs fuel
    (set_st (set_cls c cls) Matched) 0 eq_refl) as H.
  destruct (parent_loop _ _ _ _ _ _ _ _) as [r|o1 k].
  - intros ->. congruence.
  - intros E. assert (Ha : c_st (after_loop (flags_of props) o1 k) <> Errored).
    { unfold after_loop. destruct (_ && _), (f_neg _); simpl; try rewrite H; simpl; congruence. }
    destruct (c_st (after_loop (flags_of props) o1 k)) eqn:Ea; try congruence; try (inversion E; subst; congruence).
    simpl in E. rewrite Ea in E.
    assert (Hm : c_st (if f_rew (flags_of props) then set_cls c cls else set_qty (after_loop (flags_of props) o1 k) k) <> Errored)
      by (destruct (f_rew _); simpl; congruence).
    destruct tr as [ts|]; [|inversion E; subst; auto].
    match type of E with context [if ?b then Panic _ else _] => destruct b end; try discriminate.
    destruct (run_trans _ _ _ _) as [[e|l]|w|]; try discriminate. inversion E; subst. auto.
Qed.
Lemma light_honest cls f : honest f -> honest (light_base_parser cls f).
Proof.
  intros H c o Hc. unfold light_base_parser. specialize (H c). destruct (f c) as [[o1 e]|w|]; try discriminate.
  intros E. inversion E; subst. simpl. specialize (H o1 Hc eq_refl). destruct (c_st o1) eqn:Es; simpl; congruence.
Qed.
Lemma denote_honest e : gram honest_spec e -> forall rho n, (forall k, honest (rho k)) -> honest (denote rho n e).
Proof.
  induction e using pexp_ind'; intros Hg rho nn Hrho; simpl in Hg |- *;
    unfold FlatGroup, Group, First, LookAhead, LookAheadN, Repeat, Trans, Indirect;
    try rewrite fold_and_Forall in Hg;
    try (assert (Hcs : Forall honest (map (denote rho nn) es)) by
      (rewrite Forall_map; eapply Forall_impl;
         [|eapply Forall_mp; [exact H|first [exact Hg|exact (proj2 Hg)]]]; simpl; intros a Ha; apply Ha; assumption));
    try (apply base_honest; assumption).
  - apply light_honest. intros c o Hc Ho. eapply Hg; eauto.
  - unfold look_behind_base. set (p := base_parser _ _ _ _ _ _). intros c o Hc.
    set (k := Z.to_nat (mx - mn + 1)). clearbody k. clear Hg. revert mn.
    induction k; simpl; intros mn E; [inversion E; subst; destruct neg; simpl; congruence|].
    destruct (_ <? 0); eauto. destruct (p _) as [[o1 [e1|]]|w|]; try discriminate.
    destruct (c_st o1); eauto. destruct neg; inversion E; subst; simpl; congruence.
  - apply base_honest. constructor; auto. apply IHe; tauto.
  - apply light_honest. auto.
  - destruct Hg as [-> Hg]. apply base_honest; auto.
Qed.
Lemma run_honest env e n : (forall k, gram honest_spec (env k)) -> gram honest_spec e -> honest (run env n e).
Proof.
  intros He Hg. assert (H : forall n k, honest (run_env env n k)).
  { induction n0; intros k; [intros c o _; discriminate|]. simpl. apply denote_honest; auto. }
  apply denote_honest; auto.
Qed.
Lemma status_iff_error env e n c o err :
  (forall k, gram honest_spec (env k)) -> gram honest_spec e -> c_st c = Matched ->
  run env n e c = Ok (o, err) -> (c_st o = Errored <-> err <> None).
Proof.
  intros He Hg Hc Hr. split.
  - intros Hs ->. eapply (run_honest env e n); eauto.
  - destruct err as [x|]; [|congruence]. intros _. eapply run_err_st; eauto.
Qed.

(** ** Forms used by the property theorems *)
Lemma repeat_result_facts t k c1 : c_st c1 = Matched ->
  (c_st (repeat_result t k c1) = Matched <-> t_min t <= Z.of_nat k) /\
  c_st (repeat_result t k c1) <> Errored /\
  (c_st (repeat_result t k c1) = Matched -> c_qty (repeat_result t k c1) = k) /\
  c_sp (repeat_result t k c1) = c_sp c1 /\ c_stack (repeat_result t k c1) = c_stack c1.
Proof.
  intros H. unfold repeat_result. destruct (t_min t <=? Z.of_nat k) eqn:E.
  - apply Z.leb_le in E. simpl. rewrite H. repeat split; auto; discriminate.
  - apply Z.leb_gt in E. simpl. repeat split; auto; try discriminate. intros. lia.
Qed.
Lemma repeat_only_if' t fs fuel c o err : Repeat t fs fuel c = Ok (o, err) -> c_st o <> Errored ->
  err = None /\ exists k c1, iters fs k (enter ":base:Repeat" c) c1 /\
    (t_max t < 0 \/ Z.of_nat k <= t_max t) /\
    (Z.of_nat k = t_max t \/ seq_fails fs c1) /\
    (c_st o = Matched <-> t_min t <= Z.of_nat k) /\
    (c_st o = Matched -> c_qty o = k) /\ c_sp o = c_sp c1 /\ c_stack o = c_stack c1.
Proof.
  intros H He. destruct (repeat_only_if _ _ _ _ _ _ H He) as (-> & k & c1 & Hi & H1 & H2 & ->).
  split; auto. exists k, c1. assert (Hst : c_st c1 = Matched) by (eapply iters_st; [exact Hi|reflexivity]).
  destruct (repeat_result_facts t k c1 Hst) as (F1 & _ & F2 & F3 & F4). auto 8.
Qed.
Lemma repeat_if' t fs fuel c k c1 : iters fs k (enter ":base:Repeat" c) c1 -> (k < fuel)%nat ->
  (Z.of_nat k = t_max t \/ ((t_max t < 0 \/ Z.of_nat k < t_max t) /\ seq_fails fs c1)) ->
  exists o, Repeat t fs fuel c = Ok (o, None) /\
    (c_st o = Matched <-> t_min t <= Z.of_nat k) /\ c_st o <> Errored /\
    (c_st o = Matched -> c_qty o = k).
Proof.
  intros Hi Hk Hm. exists (repeat_result t k c1). split; [apply repeat_if; auto|].
  assert (Hst : c_st c1 = Matched) by (eapply iters_st; [exact Hi|reflexivity]).
  destruct (repeat_result_facts t k c1 Hst) as (F1 & F0 & F2 & F3 & F4). auto.
Qed.

Lemma first_skip_run env pre post n c :
  Forall (fun e => skipped (run env n e) (enter ":base:First" c)) pre -> post <> [] ->
  run env n (EFirst (pre ++ post)) c = run env n (EFirst post) c.
Proof.
  intros H Hp. change (First (map (run env n) (pre ++ post)) n c = First (map (run env n) post) n c).
  rewrite map_app. apply first_skip; [apply Forall_map; exact H|]. destruct post; simpl; congruence.
Qed.
Lemma first_none_run env es n c :
  Forall (fun e => skipped (run env n e) (enter ":base:First" c)) es -> es <> [] -> (0 < n)%nat ->
  exists o, run env n (EFirst es) c = Ok (o, None) /\ c_st o = Unmatched /\
    c_sp o = c_sp c /\ c_stack o = c_stack c.
Proof.
  intros H Hp Hn. exists (set_st (enter ":base:First" c) Unmatched). split; [|repeat split].
  change (First (map (run env n) es) n c = Ok (set_st (enter ":base:First" c) Unmatched, None)).
  apply first_none; auto; [apply Forall_map; exact H|]. destruct es; simpl; congruence.
Qed.
Lemma seq_rollback_run env es n c :
  seq_fails (map (run env n) es) (enter ":base:FlatGroup" c) -> (0 < n)%nat ->
  exists o, run env n (EFlatGroup es) c = Ok (o, None) /\ c_st o = Unmatched /\
    c_sp o = c_sp c /\ c_stack o = c_stack c.
Proof.
  intros H Hn. exists (set_st (enter ":base:FlatGroup" c) Unmatched). split; [|repeat split].
  exact (seq_rollback ":base:FlatGroup" (map (run env n) es) n c H Hn).
Qed.
Lemma reaches_err' env n e c m e' c' : reaches env n e c m e' c' -> forall o x,
  run env m e' c' = Ok (o, Some x) ->
  exists o', run env n e c = Ok (o', Some x) /\ c_st o' = Errored /\ c_sp o' = c_sp o.
Proof. intros H o x E. destruct (reaches_err _ _ _ _ _ _ _ H o x E) as (o' & H1 & H2 & H3 & _). eauto. Qed.

Lemma zero_leaves env n c o e :
  e = EStart \/ e = SEnd \/ e = SWordBoundary ->
  run env n e c = Ok (o, None) -> c_st o = Matched ->
  c_pos o = c_pos c /\ c_stack o = c_stack c.
Proof.
  intros [-> | [-> | ->]]; unfold run; cbn [denote EStart SEnd SWordBoundary];
    unfold light_base_parser, lift, start_fn, end_fn, word_boundary_fn, word_boundary_gen, with_rest, ret;
    destruct c as [str sl [pos len] q stk st cls tag]; cbn;
    repeat (leaf_split; cbn); intros E; inversion E; subst; cbn; intros; try discriminate; auto.
Qed.
Lemma zero_zero env n ins c : exists o,
  run env n (EZero ins) c = Ok (o, None) /\ c_st o = Matched /\ c_pos o = c_pos c /\
  c_stack o = c_stack c ++ map (fun a => mkAst (a_op a) (a_cls a) (a_ty a) (a_val a) (c_sp c)) ins.
Proof. eexists. repeat split. Qed.
