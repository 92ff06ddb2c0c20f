(** A generic induction over grammars for invariants of runs, and its instances. *)
From Verif Require Export S_Core L_Leaf.

(** [I]: contexts a parser may be called with; [Q]: entry to matched result; [N]:
    entry to any result; [PP]: panics are allowed. *)
Record inv := mkInv {
  I_ : ctx -> Prop;
  Q_ : ctx -> ctx -> Prop;
  N_ : ctx -> ctx -> Prop;
  PP : Prop;
  Zok : Z -> Z -> Prop;
  OKL : list ast -> Prop;
  q_refl : forall c, I_ c -> Q_ c c;
  q_trans : forall a b c, Q_ a b -> Q_ b c -> Q_ a c;
  q_n : forall a b, I_ a -> Q_ a b -> N_ a b;
  qn_n : forall a b c, Q_ a b -> N_ b c -> N_ a c;
  q_i : forall a b, I_ a -> Q_ a b -> I_ b;
  (* the fields Quantity, MatchStatus, ClassName do not matter *)
  i_adm : forall c q s k, I_ c -> I_ (set_qty c q) /\ I_ (set_st c s) /\ I_ (set_cls c k);
  q_adm : forall c o q s k, Q_ c o -> Q_ c (set_qty o q) /\ Q_ c (set_st o s) /\ Q_ c (set_cls o k);
  q_adm_l : forall c o q s k, (Q_ (set_qty c q) o -> Q_ c o) /\ (Q_ (set_st c s) o -> Q_ c o) /\ (Q_ (set_cls c k) o -> Q_ c o);
  n_adm : forall c o q s k, N_ c o -> N_ c (set_qty o q) /\ N_ c (set_st o s) /\ N_ c (set_cls o k);
  n_adm_l : forall c o q s k, (N_ (set_qty c q) o -> N_ c o) /\ (N_ (set_st c s) o -> N_ c o) /\ (N_ (set_cls c k) o -> N_ c o);
  (* look-behind *)
  i_back : forall c mn mx i, Zok mn mx -> mn <= i <= mx -> I_ c -> 0 <= Z.of_nat (c_pos c) - i ->
             I_ (set_pos c (Z.to_nat (Z.of_nat (c_pos c) - i)));
  n_back : forall c mn mx i o, Zok mn mx -> mn <= i <= mx -> I_ c -> 0 <= Z.of_nat (c_pos c) - i ->
             N_ (set_pos c (Z.to_nat (Z.of_nat (c_pos c) - i))) o -> N_ c o;
  (* transformers *)
  okl_group : forall l, OKL l -> OKL [group_ast l];
  q_okl : forall c o, I_ c -> Q_ c o -> OKL (skipn (length (c_stack c)) (c_stack o));
  q_stack : forall c o l, OKL l -> Q_ c o -> Q_ c (set_stack o (firstn (length (c_stack c)) (c_stack o) ++ l));
  q_len : forall c o, I_ c -> Q_ c o -> (length (c_stack c) <= length (c_stack o))%nat \/ PP }.

Section Inv.
Variable J : inv.

Definition okr (c : ctx) (a : out) : Prop :=
  match a with
  | Ok (o, err) => (c_st o = Matched -> err = None -> Q_ J c o) /\ N_ J c o
  | Panic _ => PP J
  | Fuel => True
  end.
Definition okf (f : ctx -> out) : Prop := forall c, I_ J c -> okr c (f c).

Lemma i_qty c q : I_ J c -> I_ J (set_qty c q). Proof. intros. apply (i_adm J c q Matched ""); auto. Qed.
Lemma i_st c s : I_ J c -> I_ J (set_st c s). Proof. intros. apply (i_adm J c 0%nat s ""); auto. Qed.
Lemma i_cls c k : I_ J c -> I_ J (set_cls c k). Proof. intros. apply (i_adm J c 0%nat Matched k); auto. Qed.
Lemma q_qty c o q : Q_ J c o -> Q_ J c (set_qty o q). Proof. intros. apply (q_adm J c o q Matched ""); auto. Qed.
Lemma q_st c o s : Q_ J c o -> Q_ J c (set_st o s). Proof. intros. apply (q_adm J c o 0%nat s ""); auto. Qed.
Lemma q_cls c o k : Q_ J c o -> Q_ J c (set_cls o k). Proof. intros. apply (q_adm J c o 0%nat Matched k); auto. Qed.
Lemma n_qty c o q : N_ J c o -> N_ J c (set_qty o q). Proof. intros. apply (n_adm J c o q Matched ""); auto. Qed.
Lemma n_st c o s : N_ J c o -> N_ J c (set_st o s). Proof. intros. apply (n_adm J c o 0%nat s ""); auto. Qed.
Lemma n_cls c o k : N_ J c o -> N_ J c (set_cls o k). Proof. intros. apply (n_adm J c o 0%nat Matched k); auto. Qed.
Lemma ql_qty c o q : Q_ J (set_qty c q) o -> Q_ J c o. Proof. apply (q_adm_l J c o q Matched ""). Qed.
Lemma ql_st c o s : Q_ J (set_st c s) o -> Q_ J c o. Proof. apply (q_adm_l J c o 0%nat s ""). Qed.
Lemma ql_cls c o k : Q_ J (set_cls c k) o -> Q_ J c o. Proof. apply (q_adm_l J c o 0%nat Matched k). Qed.
Lemma nl_qty c o q : N_ J (set_qty c q) o -> N_ J c o. Proof. apply (n_adm_l J c o q Matched ""). Qed.
Lemma nl_st c o s : N_ J (set_st c s) o -> N_ J c o. Proof. apply (n_adm_l J c o 0%nat s ""). Qed.
Lemma nl_cls c o k : N_ J (set_cls c k) o -> N_ J c o. Proof. apply (n_adm_l J c o 0%nat Matched k). Qed.

Lemma fix_n c o err : N_ J c o -> N_ J c (fix_status o err).
Proof. destruct err; simpl; auto using n_st. Qed.
Lemma fix_m o err : c_st (fix_status o err) = Matched -> err = None /\ c_st o = Matched.
Proof. destruct err; simpl; auto. discriminate. Qed.

Lemma okf_light cls f : okf f -> okf (light_base_parser cls f).
Proof.
  intros H c Hi. specialize (H c Hi). unfold light_base_parser. destruct (f c) as [[o err]|w|]; auto. simpl in *.
  destruct H as [Hq Hn]. split.
  - intros Hm ->. simpl in *. apply q_cls. destruct (c_st o) eqn:E; try (apply q_qty); auto; simpl in *; congruence.
  - apply n_cls. pose proof (fix_n _ _ err Hn). destruct (c_st (fix_status o err)); auto using n_qty.
Qed.

(** What the CHILDREN loop guarantees, relative to the context [a] the whole
    parser was entered with. *)
Lemma okf_children ex saved cs : Forall okf cs -> forall a o num, I_ J a -> Q_ J a o -> Q_ J a saved ->
  match children_loop ex saved cs o num with
  | CReturn r => (forall o1 err, r = Ok (o1, err) -> N_ J a o1 /\ c_st o1 <> Matched) /\ (forall w, r = Panic w -> PP J)
  | CBreak c => c = saved
  | CEnd o1 n => Q_ J a o1 /\ (c_st o = Matched -> c_st o1 = Matched)
  end.
Proof.
  induction 1 as [|f cs Hf Hcs IH]; intros a o num Hi Ho Hs; simpl; [auto|].
  assert (Hio : I_ J o) by (eapply q_i; eauto).
  specialize (Hf o Hio). destruct (f o) as [[o1 err]|w|]; simpl in Hf.
  - destruct Hf as [Hq Hn]. pose proof (fix_n _ _ err Hn) as Hn1. pose proof (fix_m o1 err) as Hm.
    destruct (c_st (fix_status o1 err)) eqn:Est.
    + destruct (Hm eq_refl) as [-> Hst]. simpl in *. assert (Q_ J a o1) by (eapply q_trans; [exact Ho|]; auto).
      destruct ex; auto.
      specialize (IH a o1 (S num) Hi H Hs). destruct (children_loop _ _ _ _ _); auto. destruct IH; auto.
    + destruct ex; [apply IH; auto|reflexivity].
    + split; [|discriminate]. intros o2 err2 E. inversion E; subst. split; [|congruence].
      eapply qn_n; [exact Ho|assumption].
  - split; [discriminate|]. intros w' _. auto.
  - split; intros; discriminate.
Qed.

Definition okfn (fn : option impl_fn) : Prop :=
  match fn with None => True | Some f => forall num b, okf (f num b) end.

Lemma ok_call fn num b a o : okfn fn -> I_ J a -> Q_ J a o -> c_st o = Matched ->
  match call_fn fn num b o with
  | Ok (o1, err) => (c_st o1 = Matched -> Q_ J a o1) /\ N_ J a o1
  | Panic _ => PP J
  | Fuel => True
  end.
Proof.
  intros Hf Hi Ho Hm. destruct fn as [f|]; simpl.
  - assert (Hio : I_ J o) by (eapply q_i; eauto). specialize (Hf num b o Hio).
    destruct (f num b o) as [[o1 err]|w|]; simpl in *; auto. destruct Hf as [Hq Hn]. split.
    + intros Hst. destruct (fix_m _ _ Hst) as [-> Hst1]. simpl. eapply q_trans; eauto.
    + eapply qn_n; eauto using fix_n.
  - split; auto. apply q_n; auto.
Qed.

Lemma okf_parent q ex fn b cs : Forall okf cs -> okfn fn -> forall fuel a o count, I_ J a -> Q_ J a o -> c_st o = Matched ->
  match parent_loop fuel q ex fn b cs o count with
  | PReturn r => (forall o1 err, r = Ok (o1, err) -> N_ J a o1 /\ c_st o1 <> Matched) /\ (forall w, r = Panic w -> PP J)
  | PDone o1 k => Q_ J a o1 /\ c_st o1 = Matched
  end.
Proof.
  intros Hcs Hfn. induction fuel; intros a o count Hi Ho Hm; simpl.
  - destruct (more q count); auto. split; intros; discriminate.
  - destruct (more q count); auto.
    pose proof (okf_children ex o cs Hcs a o 0 Hi Ho Ho) as H.
    destruct (children_loop ex o cs o 0) as [r|c|o1 num]; auto; [subst; auto|].
    destruct H as [Hq Hst]. destruct (ex && _ && _); auto.
    pose proof (ok_call fn (Z.of_nat num) b a (set_qty o1 count) Hfn Hi (q_qty _ _ _ Hq) (Hst Hm)) as Hc.
    destruct (call_fn fn (Z.of_nat num) b (set_qty o1 count)) as [[o2 err]|w|].
    + destruct Hc as [Hq2 Hn2]. destruct (c_st o2) eqn:E2; [apply IHfuel; auto|auto|].
      split; [|discriminate]. intros o3 err3 E. inversion E; subst. split; auto. congruence.
    + split; [discriminate|]. intros; auto.
    + split; intros; discriminate.
Qed.

Definition okt (t : trans) : Prop := forall n c l, OKL J l ->
  match t n c l with Ok (inr l') => OKL J l' | Panic _ => PP J | _ => True end.
Lemma ok_run_trans n c tr : allP okt tr -> forall l, OKL J l ->
  match run_trans n c tr l with Ok (inr l') => OKL J l' | Panic _ => PP J | _ => True end.
Proof.
  induction tr as [|t tr IH]; simpl; intros H l Hl; auto. destruct H as [Ht H].
  specialize (Ht n c l Hl). destruct (t n c l) as [[e|l1]|w'|]; auto. apply IH; auto.
Qed.

Lemma okf_base cls fn props cs tr fuel : Forall okf cs -> okfn fn ->
  (match tr with None => True | Some ts => allP okt ts end) ->
  okf (base_parser cls fn props cs tr fuel).
Proof.
  intros Hcs Hfn Htr c Hi. unfold base_parser.
  set (f := flags_of props). set (c1 := set_cls c cls). set (b := length (c_stack c1)).
  assert (Hi1 : I_ J c1) by (apply i_cls; auto).
  assert (Hq1 : Q_ J c1 (set_st c1 Matched)) by (apply q_st, q_refl; auto).
  pose proof (okf_parent (f_qty f) (f_ex f) fn b cs Hcs Hfn fuel c1 (set_st c1 Matched) 0 Hi1 Hq1 eq_refl) as H.
  destruct (parent_loop fuel _ _ _ _ _ _ _) as [r|o k].
  - destruct H as [H1 H2]. unfold okr. destruct r as [[o1 err]|w|]; auto.
    + destruct (H1 o1 err eq_refl) as [Hn Hm]. split; [intros; congruence|]. eapply nl_cls; eauto.
    + eapply H2; reflexivity.
  - destruct H as [Hq Hm].
    assert (Ha : Q_ J c1 (after_loop f o k)).
    { unfold after_loop. destruct (_ && _), (f_neg f); simpl; auto using q_st; rewrite Hm; auto using q_st. }
    destruct (c_st (after_loop f o k)) eqn:E1.
    2,3: simpl; split; [intros; congruence|]; apply (nl_cls c _ cls); fold c1; apply q_n; auto.
    pose proof (ok_call fn (-1) b c1 (set_qty (after_loop f o k) k) Hfn Hi1 (q_qty _ _ _ Ha) E1) as Hc.
    destruct (call_fn fn (-1) b _) as [[o2 err]|w|]; auto.
    destruct Hc as [Hq2 Hn2]. destruct (c_st o2) eqn:E2.
    2,3: simpl; split; [intros; congruence|]; apply (nl_cls c _ cls); fold c1; auto.
    assert (Hq3 : Q_ J c1 (if f_rew f then c1 else o2)) by (destruct (f_rew f); [apply q_refl|]; auto).
    set (o3 := if f_rew f then c1 else o2) in *.
    destruct tr as [ts|].
    + destruct (Nat.ltb_spec (length (c_stack o3)) b) as [L|L].
      * simpl. destruct (q_len J c1 o3 Hi1 Hq3); auto. unfold b in L. lia.
      * pose proof (ok_run_trans fuel c1 ts Htr (skipn b (c_stack o3)) (q_okl J c1 o3 Hi1 Hq3)) as Et.
        destruct (run_trans fuel c1 ts (skipn b (c_stack o3))) as [[e|asts]|w|]; [| | |exact Logic.I].
        -- simpl. split; [discriminate|]. apply (nl_cls c _ cls); fold c1. apply n_st, q_n; auto.
        -- simpl. pose proof (q_stack J c1 o3 asts Et Hq3) as Hq4. split.
           ++ intros _ _. apply (ql_cls c _ cls); fold c1; auto.
           ++ apply (nl_cls c _ cls); fold c1; apply q_n; auto.
        -- exact Et.
    + simpl. split; [intros _ _; eapply ql_cls; eauto|apply (nl_cls c _ cls); fold c1; apply q_n; auto].
Qed.

Lemma okf_behind neg mn mx cs fuel : Zok J mn mx -> Forall okf cs -> okf (look_behind_base neg mn mx cs fuel).
Proof.
  intros Hz Hcs c Hi. unfold look_behind_base.
  set (p := base_parser _ _ _ _ _ _). assert (Hp : okf p) by (apply okf_base; simpl; auto).
  assert (G : forall k i, mn <= i -> i + Z.of_nat k <= mx + 1 -> okr c (look_behind_loop neg p c i k)).
  { induction k; intros i Hi1 Hi2; simpl.
    - split; [intros _ _|apply n_st, q_n; auto; apply q_refl; auto]. apply q_st, q_refl; auto.
    - destruct (Z.ltb_spec (Z.of_nat (c_pos c) - i) 0) as [L|L]; [apply IHk; lia|].
      assert (Hb : I_ J (set_pos c (Z.to_nat (Z.of_nat (c_pos c) - i)))) by (eapply i_back; eauto; lia).
      specialize (Hp _ Hb). destruct (p _) as [[o [e|]]|w|]; simpl in Hp; auto.
      + simpl. split; [discriminate|]. apply (n_back J c mn mx i); [exact Hz|lia|auto|lia|apply Hp].
      + destruct (c_st o) eqn:Est; try (apply IHk; lia).
        destruct neg; simpl.
        * split; [discriminate|]. apply n_st. apply (n_back J c mn mx i); [exact Hz|lia|auto|lia|apply Hp].
        * split; [intros; apply q_refl; auto|apply q_n; auto; apply q_refl; auto]. }
  destruct (Z.leb_spec mn mx) as [L|L].
  - apply G; lia.
  - replace (Z.to_nat (mx - mn + 1)) with 0%nat by lia. simpl.
    split; [intros _ _|apply n_st, q_n; auto; apply q_refl; auto]. apply q_st, q_refl; auto.
Qed.

Definition inv_spec : gspec :=
  mkGS (fun _ fn => forall n, okf (fn n)) okt
       (Zok J) anyR anyI
       (fun _ fn _ tr => okfn fn /\ match tr with None => True | Some ts => allP okt ts end).

Lemma denote_inv e : gram inv_spec e -> forall rho n, (forall k, okf (rho k)) -> okf (denote rho n e).
Proof.
  induction e using pexp_ind'; intros Hg rho nn Hrho; simpl in Hg |- *;
    unfold FlatGroup, Group, First, LookAhead, LookAheadN, Repeat, Trans, Indirect;
    try rewrite fold_and_Forall in Hg;
    try (assert (Hcs : Forall okf (map (denote rho nn) es)) by
      (rewrite Forall_map; eapply Forall_impl;
         [|eapply Forall_mp; [exact H|first [exact Hg|exact (proj2 Hg)]]]; simpl; intros a Ha; apply Ha; assumption)).
  - apply okf_light. apply Hg.
  - apply okf_base; simpl; auto.
  - apply okf_base; simpl; auto. split; auto. intros ? ? ? E; simpl. apply okl_group; auto.
  - apply okf_base; simpl; auto.
  - apply okf_base; simpl; auto.
  - apply okf_base; simpl; auto.
  - apply okf_behind; auto. apply Hg.
  - apply okf_base; simpl; auto.
  - destruct Hg as [Hg1 Hg2]. apply okf_base; simpl; auto. destruct tr; simpl in *; auto.
  - apply okf_light. apply Hrho.
  - destruct Hg as [[Hg1 Hg2] Hg3]. apply okf_base; auto.
Qed.

Lemma run_inv env e : (forall k, gram inv_spec (env k)) -> gram inv_spec e -> forall n, okf (run env n e).
Proof.
  intros He Hg. assert (H : forall n k, okf (run_env env n k)).
  { induction n; intros k; [intros c _; exact Logic.I|]. simpl. apply denote_inv; auto. }
  intros n. apply denote_inv; auto.
Qed.
End Inv.
