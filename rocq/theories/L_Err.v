(** Proofs for C57: where errors come from. *)
From Verif Require Export S_Err L_Core.

Lemma seq_err_inv saved (f : pexp -> ctx -> out) es : forall c num o x, children_loop false saved (map f es) c num = CReturn (Ok (o, Some x)) ->
  exists pre e post c' o', es = pre ++ e :: post /\ seq_runs (map f pre) c c' /\ f e c' = Ok (o', Some x) /\ c_sp o = c_sp o'.
Proof.
  induction es as [|e es IH]; intros c num o x H; cbn [map children_loop] in H; [discriminate|].
  destruct (f e c) as [[o1 e1]|w|] eqn:E; try discriminate.
  destruct (c_st (fix_status o1 e1)) eqn:Es; try discriminate.
  - destruct e1 as [x1|]; [discriminate Es|]. cbn [fix_status] in *. apply IH in H as (pre & e' & post & c' & o' & -> & Hs & Hf & Hp).
    exists (e :: pre), e', post, c', o'. repeat split; auto. cbn [map]. econstructor; eauto.
  - inversion H; subst. exists [], e, es, c, o1. repeat split; auto. constructor.
Qed.
Lemma choice_err_inv saved (f : pexp -> ctx -> out) es : forall c num o x, children_loop true saved (map f es) c num = CReturn (Ok (o, Some x)) ->
  exists pre e post o', es = pre ++ e :: post /\ Forall (fun p => exists o, f p c = Ok (o, None) /\ c_st o = Unmatched) pre /\
    f e c = Ok (o', Some x) /\ c_sp o = c_sp o'.
Proof.
  induction es as [|e es IH]; intros c num o x H; cbn [map children_loop] in H; [discriminate|].
  destruct (f e c) as [[o1 e1]|w|] eqn:E; try discriminate.
  destruct (c_st (fix_status o1 e1)) eqn:Es; try discriminate.
  - destruct e1 as [x1|]; [discriminate Es|]. cbn [fix_status] in *. apply IH in H as (pre & e' & post & o' & -> & Hs & Hf & Hp).
    exists (e :: pre), e', post, o'. repeat split; auto. constructor; eauto.
  - inversion H; subst. exists [], e, es, o1. repeat split; auto.
Qed.
Lemma loop_err_inv q ex b fs c0 : (ex = true -> q = qtyOnce) -> forall fuel k c o x, (ex = false -> iters fs k c0 c) ->
  parent_loop fuel q ex None b fs c k = PReturn (Ok (o, Some x)) ->
  exists k' c1, (k <= k')%nat /\ (k' < k + fuel)%nat /\ more q k' = true /\ (ex = false -> iters fs k' c0 c1) /\ (k' = k -> c1 = c) /\
    children_loop ex c1 fs c1 0 = CReturn (Ok (o, Some x)).
Proof.
  intros Hq. induction fuel; intros k c o x Hi H; cbn [parent_loop] in H; destruct (more q k) eqn:Em; try discriminate.
  destruct (children_loop ex c fs c 0) as [r|c1|o1 num] eqn:E; try discriminate.
  - inversion H; subst. exists k, c. repeat split; auto; lia.
  - destruct (ex && _ && _); try discriminate. cbn [call_fn] in H. change (c_st (set_qty o1 k)) with (c_st o1) in H.
    destruct (c_st o1) eqn:Es; try discriminate. apply IHfuel in H.
    + destruct H as (k' & c1 & H1 & H2 & H3 & H4 & H5 & H6). exists k', c1. repeat split; auto; lia.
    + intros ->. econstructor; [apply Hi; auto|]. pose proof (children_seq c fs c 0) as Hs. rewrite E in Hs. apply Hs.
Qed.

Lemma base_err_inv cls props fs tr n c o x : base_parser cls None props fs tr n c = Ok (o, Some x) ->
  parent_loop n (f_qty (flags_of props)) (f_ex (flags_of props)) None (length (c_stack c)) fs (enter cls c) 0 = PReturn (Ok (o, Some x)) \/
  exists ts o1 k, tr = Some ts /\
    parent_loop n (f_qty (flags_of props)) (f_ex (flags_of props)) None (length (c_stack c)) fs (enter cls c) 0 = PDone o1 k /\
    c_st (after_loop (flags_of props) o1 k) = Matched /\
    let o3 := if f_rew (flags_of props) then set_cls c cls else after_loop (flags_of props) o1 k in
    (length (c_stack c) <= length (c_stack o3))%nat /\ c_sp o = c_sp o3 /\
    run_trans n (set_cls c cls) ts (skipn (length (c_stack c)) (c_stack o3)) = Ok (inl x).
Proof.
  unfold base_parser. cbn zeta. change (c_stack (set_cls c cls)) with (c_stack c). change (set_st (set_cls c cls) Matched) with (enter cls c).
  destruct (parent_loop _ _ _ _ _ _ _ _) as [r|o1 k]; [intros ->; auto|]. intros H. right.
  destruct (c_st (after_loop (flags_of props) o1 k)) eqn:Es; try discriminate.
  cbn [call_fn] in H. change (c_st (set_qty (after_loop (flags_of props) o1 k) k)) with (c_st (after_loop (flags_of props) o1 k)) in H.
  rewrite Es in H. cbv iota in H. destruct tr as [ts|]; [|destruct (f_rew _); discriminate].
  match type of H with (if ?q then _ else _) = _ => destruct q eqn:El; [discriminate|] end.
  apply Nat.ltb_ge in El.
  match type of H with match ?q with _ => _ end = _ => destruct q as [[e|l]|w|] eqn:Et; try discriminate end.
  inversion H; subst. exists ts, o1, k. repeat split; auto.
  - destruct (f_rew _); exact El.
  - destruct (f_rew _); reflexivity.
  - destruct (f_rew _); exact Et.
Qed.

Lemma trans_err_inv n c ts : forall l x, run_trans n c ts l = Ok (inl x) ->
  exists ts1 t ts2 l1, ts = ts1 ++ t :: ts2 /\ run_trans n c ts1 l = Ok (inr l1) /\ t n c l1 = Ok (inl x).
Proof.
  induction ts as [|t ts IH]; intros l x H; cbn [run_trans] in H; [discriminate|].
  destruct (t n c l) as [[e|l1]|w|] eqn:E; try discriminate.
  - inversion H; subst. exists [], t, ts, l. auto.
  - apply IH in H as (ts1 & t1 & ts2 & l2 & -> & H1 & H2). exists (t :: ts1), t1, ts2, l2. repeat split; auto.
    cbn [run_trans]. rewrite E. auto.
Qed.

(** A single iteration. *)
Lemma once_err_inv ex b fs c fuel o x : parent_loop fuel qtyOnce ex None b fs c 0 = PReturn (Ok (o, Some x)) ->
  (0 < fuel)%nat /\ children_loop ex c fs c 0 = CReturn (Ok (o, Some x)).
Proof.
  intros H. apply (loop_err_inv qtyOnce ex b fs c) in H; auto; [|constructor].
  destruct H as (k' & c1 & H1 & H2 & H3 & H4 & H5 & H6). assert (k' = 0%nat) by (apply more_true in H3; cbn in H3; lia). subst k'.
  rewrite (H5 eq_refl) in H6. split; [lia|auto].
Qed.
Lemma seq_once_err_inv b (f : pexp -> ctx -> out) es c fuel o x : parent_loop fuel qtyOnce false None b (map f es) c 0 = PReturn (Ok (o, Some x)) ->
  exists pre e post c' o', es = pre ++ e :: post /\ (0 < fuel)%nat /\ seq_runs (map f pre) c c' /\ f e c' = Ok (o', Some x) /\ c_sp o = c_sp o'.
Proof.
  intros H. apply once_err_inv in H as [L H]. apply seq_err_inv in H as (pre & e & post & c' & o' & H1 & H2 & H3 & H4). exists pre, e, post, c', o'. auto.
Qed.

Lemma behind_err_inv neg cls fs n c : forall k i o x,
  look_behind_loop neg (base_parser cls None [PRewind] fs None n) c i k = Ok (o, Some x) ->
  exists j, i <= j < i + Z.of_nat k /\ j <= Z.of_nat (c_pos c) /\
    base_parser cls None [PRewind] fs None n (set_pos c (Z.to_nat (Z.of_nat (c_pos c) - j))) = Ok (o, Some x) /\
    forall j', i <= j' < j -> j' <= Z.of_nat (c_pos c) ->
      exists o', base_parser cls None [PRewind] fs None n (set_pos c (Z.to_nat (Z.of_nat (c_pos c) - j'))) = Ok (o', None) /\ c_st o' <> Matched.
Proof.
  induction k as [|k IH]; intros i o x H; cbn [look_behind_loop] in H; [destruct neg; discriminate|].
  destruct (Z.ltb_spec (Z.of_nat (c_pos c) - i) 0) as [L|L].
  - apply IH in H as (j & H1 & H2 & _). lia.
  - destruct (base_parser cls None [PRewind] fs None n (set_pos c (Z.to_nat (Z.of_nat (c_pos c) - i)))) as [[o1 [e1|]]|w|] eqn:E; try discriminate.
    + inversion H; subst. exists i. repeat split; auto; try lia.
    + destruct (c_st o1) eqn:Es; try (destruct neg; discriminate).
      all: apply IH in H as (j & H1 & H2 & H3 & H4); exists j; repeat split; auto; try lia.
      all: intros j' Hj Hp; destruct (Z.eq_dec j' i) as [->|N]; [exists o1; split; auto; congruence|apply H4; lia].
Qed.

Lemma comb_honest e : gram comb_spec e -> gram honest_spec e.
Proof. apply gram_weaken; cbn; auto. unfold noBase; tauto. Qed.
Lemma seq_runs_st' fs c c' : seq_runs fs c c' -> c_st c = Matched -> c_st c' = Matched.
Proof. induction 1; auto. Qed.
Lemma iters_st fs k c c' : iters fs k c c' -> c_st c = Matched -> c_st c' = Matched.
Proof. induction 1 as [|k c c1 c2 Hi IH Hs]; intros Hc; auto. exact (seq_runs_st' _ _ _ Hs (IH Hc)). Qed.
Lemma children_return' ex saved fs : forall c num r e, children_loop ex saved fs c num = CReturn (Ok (r, e)) -> c_st r = Errored.
Proof.
  induction fs as [|f cs IH]; cbn [children_loop]; intros c0 num r e H; [discriminate|].
  destruct (f c0) as [[o1 e1]|w|]; try (inversion H; fail).
  destruct (c_st (fix_status o1 e1)) eqn:Es; try (destruct ex; eauto; discriminate). inversion H; subst; auto.
Qed.
Lemma once_done b f fuel c o k : parent_loop fuel qtyOnce false None b [f] c 0 = PDone o k ->
  c_st (after_loop (flags_of []) o k) = Matched -> exists o', f c = Ok (o', None) /\ c_st o' = Matched /\ o = set_qty o' 0 /\ k = 1%nat.
Proof.
  destruct fuel as [|fuel]; cbn [parent_loop]; change (more qtyOnce 0) with true; cbv iota; [discriminate|]. cbn [children_loop].
  destruct (f c) as [[o1 e1]|w|]; try discriminate. destruct (c_st (fix_status o1 e1)) eqn:Es; try discriminate.
  - destruct (fix_m _ _ Es) as [-> Hst]. cbn [andb call_fn fix_status]. change (c_st (set_qty o1 0)) with (c_st o1). rewrite Hst.
    destruct fuel; cbn [parent_loop]; change (more qtyOnce 1) with false; cbv iota; intros H; inversion H; subst; intros _; exists o1; auto.
  - intros H; inversion H; subst. discriminate.
Qed.

Section Origin.
Variable env : nat -> pexp.
Hypothesis Henv : forall k, gram comb_spec (env k).

Definition origin (n : nat) (e : pexp) (c : ctx) (x : gerr) (p : srcpos) : Prop :=
  exists m e' c', reaches env n e c m e' c' /\ raises env m e' c' x p.
Lemma origin_step n e c m e' c' x p : calls env n e c m e' c' -> origin m e' c' x p -> origin n e c x p.
Proof. intros H (m1 & e1 & c1 & H1 & H2). exists m1, e1, c1. split; auto. eapply reach_step; eauto. Qed.

Lemma behind_unmatched cls es n c : Forall (gram comb_spec) es -> c_st c = Matched -> forall o,
  base_parser cls None [PRewind] (map (run env n) es) None n c = Ok (o, None) -> c_st o <> Matched ->
  seq_fails (map (run env n) es) (enter cls c).
Proof.
  intros Hg Hc o H Ho. assert (Hh : gram honest_spec (EBase cls None [PRewind] es None)).
  { split; [reflexivity|]. apply fold_and_Forall. eapply Forall_impl; [|exact Hg]. intros e. apply comb_honest. }
  assert (Hn : c_st o <> Errored).
  { intros E. apply (proj1 (status_iff_error env (EBase cls None [PRewind] es None) n c o None (fun k => comb_honest _ (Henv k)) Hh Hc H)) in E. congruence. }
  revert H. unfold base_parser. cbn [flags_of fold_left flag_step f_neg f_ex f_rew f_qty]. change (set_st (set_cls c cls) Matched) with (enter cls c).
  destruct n as [|n]; [discriminate|]. cbn [parent_loop]. change (more qtyOnce 0) with true. cbv iota.
  pose proof (children_seq (enter cls c) (map (run env (S n)) es) (enter cls c) 0) as Hs.
  destruct (children_loop false (enter cls c) (map (run env (S n)) es) (enter cls c) 0) as [r|c1|o1 num] eqn:E.
  - intros ->. apply children_return' in E. congruence.
  - intros _. apply Hs.
  - destruct Hs as [Hs _]. apply seq_runs_st' in Hs; [|reflexivity]. cbn [andb call_fn]. change (c_st (set_qty o1 0)) with (c_st o1). rewrite Hs.
    destruct n; cbn [parent_loop]; change (more qtyOnce 1) with false; cbv iota; unfold after_loop; cbn; rewrite Hs; cbn; rewrite ?Hs; intros H;
      inversion H; subst; cbn in Ho; congruence.
Qed.

Lemma denote_origin n : (forall k c o x, c_st c = Matched -> run_env env n k c = Ok (o, Some x) -> exists m, n = S m /\ origin m (env k) c x (c_sp o)) ->
  forall e, gram comb_spec e -> forall c o x, c_st c = Matched -> run env n e c = Ok (o, Some x) -> origin n e c x (c_sp o).
Proof.
  intros HR.
  assert (FL : forall es, fold_right (fun x q => x /\ q) True (map (gram comb_spec) es) -> Forall (gram comb_spec) es) by (intros; apply fold_and_Forall; auto).
  induction e as [cls fn|es IH|es IH|es IH|es IH|es IH|neg mn mx es IH|t es IH|e tr IH|k|cls fn props es tr IH] using pexp_ind'; intros Hg c o x Hc H.
  all: cbn [gram] in Hg.
  - exists n, (ELight cls fn), c. split; [constructor|]. unfold run in H. cbn [denote] in H. unfold light_base_parser in H.
    destruct (fn n c) as [[o1 e1]|w|] eqn:E; try discriminate. inversion H; subst. apply (ra_leaf env n cls fn c o1 x). exact E.
  - apply FL in Hg. change (run env n (EFlatGroup es)) with (base_parser ":base:FlatGroup" None [] (map (run env n) es) None n) in H.
    apply base_err_inv in H as [H|(ts & o1 & k & X & _)]; [|discriminate].
    apply seq_once_err_inv in H as (pre & e & post & c' & o' & -> & L & Hs & Hr & ->).
    apply Forall_app in Hg as [_ Hg]. apply Forall_app in IH as [_ IH]. inversion Hg; subst. inversion IH; subst.
    eapply origin_step; [apply call_flat; eauto|]. eauto using seq_runs_st'.
  - apply FL in Hg. change (run env n (EGroup es)) with (base_parser ":base:Group" None [] (map (run env n) es) (Some [GroupingTransform]) n) in H.
    apply base_err_inv in H as [H|(ts & o1 & k & X & _ & _ & _ & _ & Y)]; [|inversion X; subst; discriminate].
    apply seq_once_err_inv in H as (pre & e & post & c' & o' & -> & L & Hs & Hr & ->).
    apply Forall_app in Hg as [_ Hg]. apply Forall_app in IH as [_ IH]. inversion Hg; subst. inversion IH; subst.
    eapply origin_step; [apply call_group; eauto|]. eauto using seq_runs_st'.
  - apply FL in Hg. change (run env n (EFirst es)) with (base_parser ":base:First" None [PThereExists] (map (run env n) es) None n) in H.
    apply base_err_inv in H as [H|(ts & o1 & k & X & _)]; [|discriminate].
    apply once_err_inv in H as [L H]. apply choice_err_inv in H as (pre & e & post & o' & -> & Hs & Hr & ->).
    apply Forall_app in Hg as [_ Hg]. apply Forall_app in IH as [_ IH]. inversion Hg; subst. inversion IH; subst.
    eapply origin_step; [apply call_first; eauto|]. eauto.
  - apply FL in Hg. change (run env n (ELookAhead es)) with (base_parser ":base:LookAhead" None [PRewind] (map (run env n) es) None n) in H.
    apply base_err_inv in H as [H|(ts & o1 & k & X & _)]; [|discriminate].
    apply seq_once_err_inv in H as (pre & e & post & c' & o' & -> & L & Hs & Hr & ->).
    apply Forall_app in Hg as [_ Hg]. apply Forall_app in IH as [_ IH]. inversion Hg; subst. inversion IH; subst.
    eapply origin_step; [apply call_ahead; eauto|]. eauto using seq_runs_st'.
  - apply FL in Hg. change (run env n (ELookAheadN es)) with (base_parser ":base:LookAheadN" None [PRewind; PNegative] (map (run env n) es) None n) in H.
    apply base_err_inv in H as [H|(ts & o1 & k & X & _)]; [|discriminate].
    apply seq_once_err_inv in H as (pre & e & post & c' & o' & -> & L & Hs & Hr & ->).
    apply Forall_app in Hg as [_ Hg]. apply Forall_app in IH as [_ IH]. inversion Hg; subst. inversion IH; subst.
    eapply origin_step; [apply call_aheadN; eauto|]. eauto using seq_runs_st'.
  - destruct Hg as [_ Hg]. apply FL in Hg.
    change (run env n (ELookBehind neg mn mx es)) with (look_behind_base neg mn mx (map (run env n) es) n) in H. unfold look_behind_base in H.
    set (cls := (if neg then ":base:LookBehindN" else ":base:LookBehind")%string) in *.
    apply behind_err_inv in H as (j & Hj & Hp & Hb & Hbefore).
    assert (Hfails : forall j', mn <= j' < j -> j' <= Z.of_nat (c_pos c) ->
      seq_fails (map (run env n) es) (enter cls (set_pos c (Z.to_nat (Z.of_nat (c_pos c) - j'))))).
    { intros j' H1 H2. destruct (Hbefore j' H1 H2) as (o' & E & Hst). eapply behind_unmatched; eauto. }
    apply base_err_inv in Hb as [H|(ts & o1 & k & X & _)]; [|discriminate].
    apply seq_once_err_inv in H as (pre & e & post & c' & o' & -> & L & Hs & Hr & ->).
    apply Forall_app in Hg as [_ Hg]. apply Forall_app in IH as [_ IH]. inversion Hg; subst. inversion IH; subst.
    eapply origin_step; [apply (call_behind env n neg mn mx pre e post c j c'); auto; lia|]. eauto using seq_runs_st'.
  - destruct Hg as [_ Hg]. apply FL in Hg. change (run env n (ERepeat t es)) with (base_parser ":base:Repeat" None [PTimes t] (map (run env n) es) None n) in H.
    apply base_err_inv in H as [H|(ts & o1 & k & X & _)]; [|discriminate].
    apply (loop_err_inv _ _ _ _ (enter ":base:Repeat" c)) in H; [|discriminate|constructor].
    destruct H as (k & c1 & _ & L & Hm & Hi & _ & H). specialize (Hi eq_refl).
    apply seq_err_inv in H as (pre & e & post & c' & o' & -> & Hs & Hr & ->).
    apply Forall_app in Hg as [_ Hg]. apply Forall_app in IH as [_ IH]. inversion Hg; subst. inversion IH; subst.
    eapply origin_step; [eapply (call_repeat env n t pre e post c k c1 c'); eauto; apply more_true; exact Hm|].
    eauto using seq_runs_st', iters_st.
  - destruct Hg as [Hg _]. change (run env n (ETrans e tr)) with (base_parser ":base:Trans" None [] [run env n e] (variadic tr) n) in H.
    apply base_err_inv in H as [H|(ts & o1 & k & X & Hd & Hst & Hl & Hp & Ht)].
    + apply (seq_once_err_inv _ (run env n) [e]) in H as (pre & e1 & post & c' & o' & E & L & Hs & Hr & ->).
      destruct pre as [|? pre]; [|destruct pre; discriminate]. inversion E; subst. inversion Hs; subst.
      eapply origin_step; [apply call_trans; auto|]. apply IH; auto.
    + cbn [f_rew flags_of fold_left] in Hl, Hp, Ht. destruct (once_done _ _ _ _ _ _ Hd Hst) as (o' & Hr & Hm & -> & ->).
      assert (tr = ts) by (destruct tr; cbn in X; congruence). subst ts.
      unfold after_loop in Hl, Hp, Ht. cbn in Hl, Hp, Ht.
      apply trans_err_inv in Ht as (ts1 & t & ts2 & l1 & -> & H1 & H2). rewrite Hp.
      exists n, (ETrans e (ts1 ++ t :: ts2)), c. split; [constructor|]. econstructor; eauto.
      destruct n; [discriminate Hd|lia].
  - unfold run in H. cbn [denote] in H. unfold Indirect, light_base_parser in H.
    destruct (run_env env n k c) as [[o1 e1]|w|] eqn:E; try discriminate. inversion H; subst.
    destruct (HR k c o1 x Hc E) as (m & -> & Ho). eapply origin_step; [constructor|]. exact Ho.
  - destruct Hg as [[] _].
Qed.
Lemma env_origin n : forall k c o x, c_st c = Matched -> run_env env n k c = Ok (o, Some x) -> exists m, n = S m /\ origin m (env k) c x (c_sp o).
Proof.
  induction n as [|n IH]; intros k c o x Hc H; [discriminate|]. exists n. split; auto. exact (denote_origin n IH (env k) (Henv k) c o x Hc H).
Qed.
Lemma error_origin n e c o x : gram comb_spec e -> c_st c = Matched -> run env n e c = Ok (o, Some x) -> origin n e c x (c_sp o).
Proof. intros. eapply denote_origin; eauto. apply env_origin. Qed.
End Origin.

(** The other direction. *)
Lemma trans_prefix n c t ts2 x : forall ts1 l l1, run_trans n c ts1 l = Ok (inr l1) -> t n c l1 = Ok (inl x) ->
  run_trans n c (ts1 ++ t :: ts2) l = Ok (inl x).
Proof.
  induction ts1 as [|t1 ts1 IH]; intros l l1 H1 H2; cbn [run_trans app] in *; [inversion H1; subst; rewrite H2; auto|].
  destruct (t1 n c l) as [[e|l2]|w|]; try discriminate. eauto.
Qed.
Lemma raises_run env n e c x p : raises env n e c x p -> exists o, run env n e c = Ok (o, Some x) /\ c_sp o = p.
Proof.
  intros [n0 cls fn c0 o x0 E|n0 e0 ts1 t ts2 c0 o l x0 L Hr Hm Hl H1 H2].
  - unfold run. cbn [denote]. unfold light_base_parser. rewrite E. cbn. eexists. split; [reflexivity|]. reflexivity.
  - change (run env n0 (ETrans e0 (ts1 ++ t :: ts2)) c0) with (base_parser ":base:Trans" None [] [run env n0 e0] (variadic (ts1 ++ t :: ts2)) n0 c0).
    unfold base_parser. cbn [flags_of fold_left f_neg f_ex f_rew f_qty flag_step]. change (c_stack (set_cls c0 ":base:Trans")) with (c_stack c0).
    change (set_st (set_cls c0 ":base:Trans") Matched) with (enter ":base:Trans" c0).
    assert (E : parent_loop n0 qtyOnce false None (length (c_stack c0)) [run env n0 e0] (enter ":base:Trans" c0) 0 = PDone (set_qty o 0) 1).
    { destruct n0 as [|n0]; [lia|]. cbn [parent_loop children_loop]. change (more qtyOnce 0) with true. cbv iota. rewrite Hr. cbn [fix_status]. rewrite Hm. cbn [andb call_fn].
      change (c_st (set_qty o 0)) with (c_st o). rewrite Hm. destruct n0; reflexivity. }
    rewrite E. unfold after_loop. cbn. rewrite Hm.
    assert (V : variadic (ts1 ++ t :: ts2) = Some (ts1 ++ t :: ts2)) by (destruct ts1; reflexivity). rewrite V.
    cbn. rewrite ?Hm.
    match goal with |- context [if ?q then Panic _ else _] => replace q with false by (symmetry; apply Nat.ltb_ge; exact Hl) end.
    rewrite (trans_prefix _ _ _ _ _ _ _ l H1 H2). eexists. split; reflexivity.
Qed.
Lemma origin_iff env n e c x p : (forall k, gram comb_spec (env k)) -> gram comb_spec e -> c_st c = Matched ->
  ((exists o, run env n e c = Ok (o, Some x) /\ c_sp o = p) <-> exists m e' c', reaches env n e c m e' c' /\ raises env m e' c' x p).
Proof.
  intros Henv Hg Hc. split.
  - intros (o & H & <-). eapply error_origin; eauto.
  - intros (m & e' & c' & Hr & Hx). apply raises_run in Hx as (o & Ho & <-).
    destruct (reaches_err' _ _ _ _ _ _ _ Hr _ _ Ho) as (o' & H1 & _ & H2). eauto.
Qed.

(** Giving up. *)
Lemma children_break' ex saved fs : forall c num r, children_loop ex saved fs c num = CBreak r -> r = saved.
Proof.
  induction fs as [|f cs IH]; cbn [children_loop]; intros c0 num r H; [discriminate|].
  destruct (f c0) as [[o1 e1]|w|]; try discriminate.
  destruct (c_st (fix_status o1 e1)) eqn:Es; try discriminate; destruct ex; eauto; try discriminate. inversion H; auto.
Qed.
Lemma once_un ex b fs c fuel o k : parent_loop fuel qtyOnce ex None b fs c 0 = PDone o k ->
  (o = c /\ k = 0%nat) \/ (k = 1%nat /\ c_st o = Matched).
Proof.
  intros H. destruct fuel as [|fuel]; cbn [parent_loop] in H; change (more qtyOnce 0) with true in H; cbv iota in H; [discriminate|].
  destruct (children_loop ex c fs c 0) as [r|c1|o1 num] eqn:E; try discriminate.
  - apply children_break' in E. inversion H; subst. auto.
  - match type of H with (if ?q then _ else _) = _ => destruct q; [inversion H; auto|] end.
    cbn [call_fn] in H. change (c_st (set_qty o1 0)) with (c_st o1) in H. destruct (c_st o1) eqn:Es; try discriminate; [|inversion H; auto].
    right. destruct fuel; cbn [parent_loop] in H; change (more qtyOnce 1) with false in H; cbv iota in H; inversion H; subst; auto.
Qed.
Lemma base_un cls props fs tr n c o x : f_neg (flags_of props) = false -> f_qty (flags_of props) = qtyOnce -> c_st c = Matched ->
  base_parser cls None props fs tr n c = Ok (o, x) -> c_st o = Unmatched -> c_sp o = c_sp c /\ c_stack o = c_stack c.
Proof.
  unfold base_parser. cbn zeta. change (c_stack (set_cls c cls)) with (c_stack c). change (set_st (set_cls c cls) Matched) with (enter cls c).
  intros Hn Hq Hc. rewrite Hq.
  destruct (parent_loop _ _ _ _ _ _ _ _) as [r|o1 k] eqn:E.
  - intros -> Hu. exfalso. destruct n as [|n]; cbn [parent_loop] in E; change (more qtyOnce 0) with true in E; cbv iota in E; [discriminate|].
    destruct (children_loop _ (enter cls c) fs (enter cls c) 0) as [r|c1|o1 num] eqn:E1; try discriminate.
    + inversion E; subst. apply children_return' in E1. congruence.
    + match type of E with (if ?q then _ else _) = _ => destruct q; [discriminate|] end. cbn [call_fn] in E.
      change (c_st (set_qty o1 0)) with (c_st o1) in E. destruct (c_st o1) eqn:Es; try discriminate; [|inversion E; subst; cbn in Hu; congruence].
      destruct n; cbn [parent_loop] in E; change (more qtyOnce 1) with false in E; cbv iota in E; discriminate.
  - apply once_un in E as [[-> ->]|[-> Hst]].
    + unfold after_loop. rewrite Hn, Hq. cbn. intros H; inversion H; subst. auto.
    + unfold after_loop. rewrite Hn, Hq. cbn. rewrite Hst. cbn [call_fn]; cbn; rewrite ?Hst.
      destruct tr as [ts|].
      * match goal with |- (if ?q then _ else _) = _ -> _ => destruct q; [discriminate|] end.
        match goal with |- match ?q with _ => _ end = _ -> _ => destruct q as [[e|l]|w|]; try discriminate end.
        all: intros H; inversion H; subst; cbn; try discriminate. destruct (f_rew _); cbn; rewrite ?Hst, ?Hc; discriminate.
      * intros H; inversion H; subst. destruct (f_rew _); cbn; rewrite ?Hst, ?Hc; discriminate.
Qed.
Lemma gives_up_pos env n e c o x : gives_up e -> c_st c = Matched -> run env n e c = Ok (o, x) -> c_st o = Unmatched ->
  c_sp o = c_sp c /\ c_stack o = c_stack c.
Proof.
  destruct e; cbn [gives_up]; try tauto; intros _ Hc H; (eapply base_un; [| |exact Hc|exact H]); reflexivity.
Qed.
