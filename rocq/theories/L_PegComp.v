(** Completeness: every derivation of [peg] is computed by the code. *)
From Verif Require Export L_Peg.

Section Comp.
Variable w : world.
Hypothesis Henv : peg_env w.
Let R n := run (w_env w) n.

Definition comp1 (e : pexp) (cur : srcpos) (r : result) : Prop :=
  peg_gram e -> exists n0, forall n, (n0 <= n)%nat -> forall c, okc w c -> c_sp c = cur ->
    exists o err, R n e c = Ok (o, err) /\ returns (c_stack c) o err r /\ in_world w o.
Definition comps (es : list pexp) (cur : srcpos) (r : result) : Prop :=
  Forall peg_gram es -> exists n0, forall n, (n0 <= n)%nat -> forall c saved num, okc w c -> c_sp c = cur ->
    match r with
    | RSucc cur1 l => exists o1 num1, children_loop false saved (map (R n) es) c num = CEnd o1 num1 /\
        okc w o1 /\ c_sp o1 = cur1 /\ c_stack o1 = c_stack c ++ l
    | RFail => children_loop false saved (map (R n) es) c num = CBreak saved
    | RErr cur1 x => exists o1, children_loop false saved (map (R n) es) c num = CReturn (Ok (o1, Some x)) /\
        c_st o1 = Errored /\ c_sp o1 = cur1 /\ in_world w o1
    end.
Definition compc (es : list pexp) (cur : srcpos) (r : result) : Prop :=
  Forall peg_gram es -> exists n0, forall n, (n0 <= n)%nat -> forall c saved num, okc w c -> c_sp c = cur ->
    match r with
    | RSucc cur1 l => exists o1, children_loop true saved (map (R n) es) c num = CEnd o1 (S num) /\
        okc w o1 /\ c_sp o1 = cur1 /\ c_stack o1 = c_stack c ++ l
    | RFail => children_loop true saved (map (R n) es) c num = CEnd c num
    | RErr cur1 x => exists o1, children_loop true saved (map (R n) es) c num = CReturn (Ok (o1, Some x)) /\
        c_st o1 = Errored /\ c_sp o1 = cur1 /\ in_world w o1
    end.
Definition compr (t : times) (es : list pexp) (k : nat) (cur : srcpos)
    (r : (srcpos * gerr) + (srcpos * list ast * nat)) : Prop :=
  Forall peg_gram es -> exists n0, forall n fuel, (n0 <= n)%nat -> (n0 <= fuel)%nat ->
    forall bottom c, okc w c -> c_sp c = cur ->
    match r with
    | inr (cur1, l, k1) => exists o1, parent_loop fuel t false None bottom (map (R n) es) c k = PDone o1 k1 /\
        okc w o1 /\ c_sp o1 = cur1 /\ c_stack o1 = c_stack c ++ l
    | inl (cur1, x) => exists o1, parent_loop fuel t false None bottom (map (R n) es) c k = PReturn (Ok (o1, Some x)) /\
        c_st o1 = Errored /\ c_sp o1 = cur1 /\ in_world w o1
    end.
(** The look-behind judgement, for any suffix of the list of positions. *)
Definition compb (es : list pexp) (ps : list srcpos) (r : result) : Prop :=
  Forall peg_gram es -> exists n0, forall n, (n0 <= n)%nat -> forall neg c i k, okc w c ->
    behind (c_sp c) i k = ps ->
    let p := base_parser (if neg : bool then ":base:LookBehindN" else ":base:LookBehind")
                None [PRewind] (map (R n) es) None n in
    match r with
    | RSucc _ _ => exists o, look_behind_loop neg p c i k = Ok (o, None) /\ in_world w o /\
        if neg then c_st o = Unmatched else o = c
    | RFail => look_behind_loop neg p c i k = Ok (set_st c (if neg then Matched else Unmatched), None)
    | RErr cur1 x => exists o1, look_behind_loop neg p c i k = Ok (o1, Some x) /\
        c_st o1 = Errored /\ c_sp o1 = cur1 /\ in_world w o1
    end.

(** One iteration of the loop with {1,1}. *)
Lemma once_of_seq es cur r : comps es cur r -> Forall peg_gram es ->
  exists n0, forall n fuel, (n0 <= n)%nat -> (n0 <= fuel)%nat ->
    forall bottom c, okc w c -> c_sp c = cur ->
    match r with
    | RSucc cur1 l => exists o1, parent_loop fuel qtyOnce false None bottom (map (R n) es) c 0 = PDone o1 1 /\
        okc w o1 /\ c_sp o1 = cur1 /\ c_stack o1 = c_stack c ++ l
    | RFail => parent_loop fuel qtyOnce false None bottom (map (R n) es) c 0 = PDone c 0
    | RErr cur1 x => exists o1, parent_loop fuel qtyOnce false None bottom (map (R n) es) c 0 = PReturn (Ok (o1, Some x)) /\
        c_st o1 = Errored /\ c_sp o1 = cur1 /\ in_world w o1
    end.
Proof.
  intros Hc Hg. destruct (Hc Hg) as [n0 H]. exists (S n0). intros n fuel Hn Hf bottom c Ho Hsp.
  specialize (H n ltac:(lia) c c 0%nat Ho Hsp). destruct fuel; [lia|]. simpl.
  destruct r as [cur1 l| |cur1 x].
  - destruct H as (o1 & num & E & Ho1 & Hs1 & Hst). rewrite E. simpl. destruct Ho1 as [Hw Hm]. rewrite Hm.
    exists (set_qty o1 0). split; [destruct fuel; reflexivity|]. repeat split; auto; apply Hw.
  - rewrite H. reflexivity.
  - destruct H as (o1 & E & H). rewrite E. exists o1. auto.
Qed.

Lemma base_err cls props cs tr fuel c o x :
  parent_loop fuel (f_qty (flags_of props)) (f_ex (flags_of props)) None (length (c_stack c)) cs (set_st (set_cls c cls) Matched) 0
    = PReturn (Ok (o, Some x)) ->
  base_parser cls None props cs tr fuel c = Ok (o, Some x).
Proof. intros E. unfold base_parser. simpl. simpl in E. rewrite E. reflexivity. Qed.

(** Sequence forms with a final transformation. *)
Lemma seq_comp es cur r cls tr : comps es cur r -> Forall peg_gram es ->
  exists n0, forall n, (n0 <= n)%nat -> forall c, okc w c -> c_sp c = cur ->
    match r with
    | RSucc cur1 l => exists o1, okc w o1 /\ c_sp o1 = cur1 /\ c_stack o1 = c_stack c ++ l /\
        base_parser cls None [] (map (R n) es) tr n c =
          match tr with
          | None => Ok (o1, None)
          | Some ts => match run_trans n (set_cls c cls) ts l with
                       | Panic why => Panic why
                       | Fuel => Fuel
                       | Ok (inl e) => Ok (set_st o1 Errored, Some e)
                       | Ok (inr asts) => Ok (set_stack o1 (c_stack c ++ asts), None)
                       end
          end
    | RFail => exists o, base_parser cls None [] (map (R n) es) tr n c = Ok (o, None) /\ c_st o = Unmatched /\ in_world w o
    | RErr cur1 x => exists o1, base_parser cls None [] (map (R n) es) tr n c = Ok (o1, Some x) /\
        c_st o1 = Errored /\ c_sp o1 = cur1 /\ in_world w o1
    end.
Proof.
  intros Hc Hg. destruct (once_of_seq _ _ _ Hc Hg) as [n0 H]. exists n0. intros n Hn c Ho Hsp.
  specialize (H n n Hn Hn (length (c_stack c)) (set_st (set_cls c cls) Matched) (okc_start _ _ _ Ho) Hsp).
  destruct r as [cur1 l| |cur1 x].
  - destruct H as (o1 & E & Ho1 & Hs1 & Hst). exists (set_qty o1 1). repeat split; auto; try apply Ho1.
    rewrite (base_times cls qtyOnce _ tr n c [] eq_refl); rewrite E; [|intros ? ? E1; inversion E1; subst; apply Ho1].
    simpl. simpl in Hst. destruct tr as [ts|]; simpl; auto.
    rewrite (proj2 (Nat.ltb_ge _ _)) by (rewrite Hst, app_length; lia).
    rewrite Hst, app_split_skip, app_split_first. reflexivity.
  - rewrite (base_times cls qtyOnce _ tr n c [] eq_refl); rewrite H; [|intros ? ? E1; inversion E1; subst; reflexivity].
    simpl. eexists; split; [reflexivity|]. split; auto. apply Ho.
  - destruct H as (o1 & E & H). exists o1. split; auto. apply base_err. exact E.
Qed.

Lemma returns_light s o err r cls : returns s o err r ->
  exists o', (let out1 := fix_status o err in
   Ok (set_cls (match c_st out1 with Matched => set_qty out1 1 | _ => out1 end) cls, err)) = Ok (o', err) /\
   returns s o' err r /\ (in_world w o -> in_world w o').
Proof.
  intros H. eexists. split; [reflexivity|]. destruct r; simpl in H.
  - destruct H as (-> & Hst & H). simpl. rewrite Hst. split; simpl; auto.
  - destruct H as (-> & Hst). simpl. rewrite Hst. split; simpl; auto.
  - destruct H as (-> & Hst & H). simpl. split; simpl; auto.
Qed.

Lemma Forall_of_gram es : fold_right (fun x q => x /\ q) True (map (gram peg_spec) es) -> Forall peg_gram es.
Proof. rewrite fold_and_Forall. auto. Qed.

Lemma pipeline_run c tr l r : pipeline c tr l r -> allP mono_trans tr ->
  exists n0, forall n, (n0 <= n)%nat -> run_trans n c tr l = Ok r.
Proof.
  induction 1 as [l|n t tr l e E|n t tr l l1 r E H IH]; simpl; intros Hm.
  - exists 0%nat. auto.
  - exists n. intros m Hm'. destruct Hm as [Ht _]. destruct (Ht n m c l Hm') as [F|F]; [congruence|].
    rewrite F, E. reflexivity.
  - destruct Hm as [Ht Htr]. destruct (IH Htr) as [n1 H1]. exists (Nat.max n n1). intros m Hm'.
    destruct (Ht n m c l ltac:(lia)) as [F|F]; [congruence|]. rewrite F, E. apply H1. lia.
Qed.

Ltac expose :=
  match goal with
  | |- context [R ?n (EFlatGroup ?es) ?c] => change (R n (EFlatGroup es) c) with (base_parser ":base:FlatGroup" None [] (map (R n) es) None n c)
  | |- context [R ?n (EGroup ?es) ?c] => change (R n (EGroup es) c) with (base_parser ":base:Group" None [] (map (R n) es) (Some [GroupingTransform]) n c)
  | |- context [R ?n (EFirst ?es) ?c] => change (R n (EFirst es) c) with (base_parser ":base:First" None [PThereExists] (map (R n) es) None n c)
  | |- context [R ?n (ELookAhead ?es) ?c] => change (R n (ELookAhead es) c) with (base_parser ":base:LookAhead" None [PRewind] (map (R n) es) None n c)
  | |- context [R ?n (ELookAheadN ?es) ?c] => change (R n (ELookAheadN es) c) with (base_parser ":base:LookAheadN" None [PRewind; PNegative] (map (R n) es) None n c)
  | |- context [R ?n (ELookBehind ?neg ?mn ?mx ?es) ?c] => change (R n (ELookBehind neg mn mx es) c) with (look_behind_base neg mn mx (map (R n) es) n c)
  | |- context [R ?n (ERepeat ?t ?es) ?c] => change (R n (ERepeat t es) c) with (base_parser ":base:Repeat" None [PTimes t] (map (R n) es) None n c)
  | |- context [R ?n (ETrans ?e ?tr) ?c] => change (R n (ETrans e tr) c) with (base_parser ":base:Trans" None [] (map (R n) [e]) (variadic tr) n c)
  end.

Lemma peg_complete_all :
  (forall e cur r, peg w e cur r -> comp1 e cur r) /\
  (forall es cur r, pegs w es cur r -> comps es cur r) /\
  (forall es cur r, pegc w es cur r -> compc es cur r) /\
  (forall t es k cur r, pegr w t es k cur r -> compr t es k cur r) /\
  (forall es ps r, pegb w es ps r -> compb es ps r).
Proof.
  apply peg_mutind.
  - (* leaf *)
    intros cls fn n cur o err E [Hm Hl]. exists n. intros m Hnm c Ho Hsp.
    unfold R, run; simpl. unfold light_base_parser.
    destruct (Hm n m (fresh w cur) Hnm) as [F|F]; [congruence|]. rewrite E in F.
    destruct (Hl m c (proj2 Ho)) as [Hs Hw].
    replace (mkCtx (c_str c) (c_slice c) (c_sp c) 0 [] Matched "" (c_tag c)) with (fresh w cur) in Hs
      by (unfold fresh; destruct Ho as [(E1 & E2 & E3) _]; congruence).
    rewrite F in Hs. destruct (fn m c) as [[o1 e1]|why|]; simpl in Hs; try contradiction.
    destruct Hs as (-> & Hsp1 & Hs1 & Hs2). destruct (Hw o1 err eq_refl) as (W1 & W2 & W3).
    eexists _, _. split; [reflexivity|].
    destruct Ho as [(E1 & E2 & E3) _].
    assert (Hin : in_world w o1) by (unfold in_world; intuition congruence).
    destruct err as [x|]; simpl.
    + repeat split; auto; apply Hin.
    + destruct (Hs1 eq_refl) as [Hst1 Hne]. rewrite <- Hst1.
      destruct (c_st o1) eqn:Eo; simpl; try congruence; repeat split; auto; apply Hin.
  - (* flat *)
    intros es cur r Hp IH Hg. apply Forall_of_gram in Hg.
    destruct (seq_comp es cur r ":base:FlatGroup" None IH Hg) as [n0 H]. exists n0.
    intros n Hn c Ho Hsp. specialize (H n Hn c Ho Hsp). expose.
    destruct r as [cur1 l| |cur1 x].
    + destruct H as (o1 & [Hw Hm] & Hs1 & Hst & E). exists o1, None. rewrite E. simpl; auto 10.
    + destruct H as (o & E & Hst & Hw). exists o, None. rewrite E. simpl; auto 10.
    + destruct H as (o & E & Hst & Hs & Hw). exists o, (Some x). rewrite E. simpl; auto 10.
  - (* group *)
    intros es cur cur1 l Hp IH Hg. apply Forall_of_gram in Hg.
    destruct (seq_comp es cur _ ":base:Group" (Some [GroupingTransform]) IH Hg) as [n0 H]. exists n0.
    intros n Hn c Ho Hsp. specialize (H n Hn c Ho Hsp).
    destruct H as (o1 & [Hw Hm] & Hs1 & Hst & E). expose. rewrite E. simpl.
    eexists _, _. split; [reflexivity|]. simpl; auto 10.
  - intros es cur Hp IH Hg. apply Forall_of_gram in Hg.
    destruct (seq_comp es cur _ ":base:Group" (Some [GroupingTransform]) IH Hg) as [n0 H]. exists n0.
    intros n Hn c Ho Hsp. specialize (H n Hn c Ho Hsp).
    destruct H as (o1 & E & Hst & Hw). expose. rewrite E.
    eexists _, _. split; [reflexivity|]. simpl; auto 10.
  - intros es cur cur1 x Hp IH Hg. apply Forall_of_gram in Hg.
    destruct (seq_comp es cur _ ":base:Group" (Some [GroupingTransform]) IH Hg) as [n0 H]. exists n0.
    intros n Hn c Ho Hsp. specialize (H n Hn c Ho Hsp).
    destruct H as (o1 & E & Hst & Hs & Hw). expose. rewrite E.
    eexists _, _. split; [reflexivity|]. simpl; auto 10.
  - (* first, no alternatives *)
    intros cur Hg. exists 1%nat. intros n Hn c Ho Hsp. expose.
    destruct n; [lia|]. unfold base_parser; simpl. destruct n; simpl;
      (eexists _, _; split; [reflexivity|]; simpl; rewrite app_nil_r; split; [auto|apply Ho]).
  - (* first *)
    intros e es cur r Hp IH Hg. apply Forall_of_gram in Hg.
    destruct (IH Hg) as [n0 H]. exists (S (S n0)). intros n Hn c Ho Hsp.
    set (c1 := set_st (set_cls c ":base:First") Matched).
    specialize (H n ltac:(lia) c1 c1 0%nat (okc_start _ _ _ Ho) Hsp).
    expose. unfold base_parser.
    destruct n; [lia|].
    cbn [flags_of fold_left flag_step f_qty f_ex f_rew f_neg parent_loop]. fold c1.
    replace (more qtyOnce 0) with true by reflexivity.
    destruct r as [cur1 l| |cur1 x].
    + destruct H as (o1 & E & [Hw Hm] & Hs1 & Hst). rewrite E.
      destruct n; [lia|]. do 4 (simpl; rewrite ?Hm).
      eexists _, _. split; [reflexivity|]. simpl; auto 10.
    + rewrite H. simpl. eexists _, _. split; [reflexivity|]. simpl. split; auto; apply Ho.
    + destruct H as (o1 & E & H1 & H2 & H3). rewrite E. eexists _, _. split; [reflexivity|]. simpl; auto 10.
  - (* look-ahead *)
    intros es cur cur1 l Hp IH Hg. apply Forall_of_gram in Hg.
    destruct (once_of_seq es cur _ IH Hg) as [n0 H]. exists n0. intros n Hn c Ho Hsp.
    specialize (H n n Hn Hn (length (c_stack c)) (set_st (set_cls c ":base:LookAhead") Matched) (okc_start _ _ _ Ho) Hsp).
    destruct H as (o1 & E & [Hw Hm] & Hs1 & Hst). expose. unfold base_parser. simpl. rewrite E. simpl.
    unfold after_loop; simpl. rewrite Hm. simpl. rewrite ?Hm.
    eexists _, _. split; [reflexivity|]. simpl. rewrite app_nil_r. destruct Ho; auto.
  - intros es cur Hp IH Hg. apply Forall_of_gram in Hg.
    destruct (once_of_seq es cur _ IH Hg) as [n0 H]. exists n0. intros n Hn c Ho Hsp.
    specialize (H n n Hn Hn (length (c_stack c)) (set_st (set_cls c ":base:LookAhead") Matched) (okc_start _ _ _ Ho) Hsp).
    expose. unfold base_parser. simpl. rewrite H. simpl.
    eexists _, _. split; [reflexivity|]. simpl. destruct Ho; auto.
  - intros es cur cur1 x Hp IH Hg. apply Forall_of_gram in Hg.
    destruct (once_of_seq es cur _ IH Hg) as [n0 H]. exists n0. intros n Hn c Ho Hsp.
    specialize (H n n Hn Hn (length (c_stack c)) (set_st (set_cls c ":base:LookAhead") Matched) (okc_start _ _ _ Ho) Hsp).
    destruct H as (o1 & E & Hm & Hs1 & Hw). expose. unfold base_parser. simpl. rewrite E. simpl.
    eexists _, _. split; [reflexivity|]. simpl; auto 10.
  - (* negative look-ahead *)
    intros es cur cur1 l Hp IH Hg. apply Forall_of_gram in Hg.
    destruct (once_of_seq es cur _ IH Hg) as [n0 H]. exists n0. intros n Hn c Ho Hsp.
    specialize (H n n Hn Hn (length (c_stack c)) (set_st (set_cls c ":base:LookAheadN") Matched) (okc_start _ _ _ Ho) Hsp).
    destruct H as (o1 & E & [Hw Hm] & Hs1 & Hst). expose. unfold base_parser. simpl. rewrite E. simpl.
    unfold after_loop; simpl. rewrite Hm. simpl.
    eexists _, _. split; [reflexivity|]. simpl; auto 10.
  - intros es cur Hp IH Hg. apply Forall_of_gram in Hg.
    destruct (once_of_seq es cur _ IH Hg) as [n0 H]. exists n0. intros n Hn c Ho Hsp.
    specialize (H n n Hn Hn (length (c_stack c)) (set_st (set_cls c ":base:LookAheadN") Matched) (okc_start _ _ _ Ho) Hsp).
    expose. unfold base_parser. simpl. rewrite H. simpl.
    eexists _, _. split; [reflexivity|]. simpl. rewrite app_nil_r. destruct Ho; auto.
  - intros es cur cur1 x Hp IH Hg. apply Forall_of_gram in Hg.
    destruct (once_of_seq es cur _ IH Hg) as [n0 H]. exists n0. intros n Hn c Ho Hsp.
    specialize (H n n Hn Hn (length (c_stack c)) (set_st (set_cls c ":base:LookAheadN") Matched) (okc_start _ _ _ Ho) Hsp).
    destruct H as (o1 & E & Hm & Hs1 & Hw). expose. unfold base_parser. simpl. rewrite E. simpl.
    eexists _, _. split; [reflexivity|]. simpl; auto 10.
  - (* look-behind *)
    intros mn mx es cur p Hp IH Hg. destruct Hg as [_ Hg]. apply Forall_of_gram in Hg.
    destruct (IH Hg) as [n0 H]. exists n0. intros n Hn c Ho Hsp.
    specialize (H n Hn false c mn (Z.to_nat (mx - mn + 1)) Ho ltac:(congruence)). simpl in H.
    destruct H as (o & E & Hw & ->). exists c, None. expose. unfold look_behind_base.
    rewrite E. split; auto. simpl. rewrite app_nil_r. destruct Ho; auto.
  - intros mn mx es cur Hp IH Hg. destruct Hg as [_ Hg]. apply Forall_of_gram in Hg.
    destruct (IH Hg) as [n0 H]. exists n0. intros n Hn c Ho Hsp.
    specialize (H n Hn false c mn (Z.to_nat (mx - mn + 1)) Ho ltac:(congruence)). simpl in H.
    expose. unfold look_behind_base. rewrite H.
    eexists _, _. split; [reflexivity|]. simpl. destruct Ho; auto.
  - intros mn mx es cur p Hp IH Hg. destruct Hg as [_ Hg]. apply Forall_of_gram in Hg.
    destruct (IH Hg) as [n0 H]. exists n0. intros n Hn c Ho Hsp.
    specialize (H n Hn true c mn (Z.to_nat (mx - mn + 1)) Ho ltac:(congruence)). simpl in H.
    destruct H as (o & E & Hw & Hst). exists o, None. expose. unfold look_behind_base.
    rewrite E. split; auto. simpl; auto 10.
  - intros mn mx es cur Hp IH Hg. destruct Hg as [_ Hg]. apply Forall_of_gram in Hg.
    destruct (IH Hg) as [n0 H]. exists n0. intros n Hn c Ho Hsp.
    specialize (H n Hn true c mn (Z.to_nat (mx - mn + 1)) Ho ltac:(congruence)). simpl in H.
    expose. unfold look_behind_base. rewrite H.
    eexists _, _. split; [reflexivity|]. simpl. rewrite app_nil_r. destruct Ho; auto.
  - intros neg mn mx es cur cur1 x Hp IH Hg. destruct Hg as [_ Hg]. apply Forall_of_gram in Hg.
    destruct (IH Hg) as [n0 H]. exists n0. intros n Hn c Ho Hsp.
    specialize (H n Hn neg c mn (Z.to_nat (mx - mn + 1)) Ho ltac:(congruence)). simpl in H.
    destruct H as (o & E & H1 & H2 & H3). exists o, (Some x). expose. unfold look_behind_base.
    rewrite E. split; auto. simpl; auto 10.
  - (* repeat *)
    intros t es cur k cur1 l Hp IH Hk Hg. destruct Hg as [_ Hg]. apply Forall_of_gram in Hg.
    destruct (IH Hg) as [n0 H]. exists n0. intros n Hn c Ho Hsp.
    specialize (H n n Hn Hn (length (c_stack c)) (set_st (set_cls c ":base:Repeat") Matched) (okc_start _ _ _ Ho) Hsp).
    simpl in H. destruct H as (o1 & E & [Hw Hm] & Hs1 & Hst).
    expose. rewrite (base_times _ t _ _ _ _ [PTimes t] eq_refl); rewrite E; [|intros ? ? E1; inversion E1; subst; auto].
    rewrite (proj2 (Z.ltb_ge _ _)) by auto. simpl.
    eexists _, _. split; [reflexivity|]. simpl; auto 10.
  - intros t es cur k cur1 l Hp IH Hk Hg. destruct Hg as [_ Hg]. apply Forall_of_gram in Hg.
    destruct (IH Hg) as [n0 H]. exists n0. intros n Hn c Ho Hsp.
    specialize (H n n Hn Hn (length (c_stack c)) (set_st (set_cls c ":base:Repeat") Matched) (okc_start _ _ _ Ho) Hsp).
    simpl in H. destruct H as (o1 & E & [Hw Hm] & Hs1 & Hst).
    expose. rewrite (base_times _ t _ _ _ _ [PTimes t] eq_refl); rewrite E; [|intros ? ? E1; inversion E1; subst; auto].
    rewrite (proj2 (Z.ltb_lt _ _)) by auto. simpl.
    eexists _, _. split; [reflexivity|]. simpl; auto 10.
  - intros t es cur cur1 x Hp IH Hg. destruct Hg as [_ Hg]. apply Forall_of_gram in Hg.
    destruct (IH Hg) as [n0 H]. exists n0. intros n Hn c Ho Hsp.
    specialize (H n n Hn Hn (length (c_stack c)) (set_st (set_cls c ":base:Repeat") Matched) (okc_start _ _ _ Ho) Hsp).
    simpl in H. destruct H as (o1 & E & H1 & H2 & H3).
    exists o1, (Some x). expose. rewrite (base_err _ _ _ _ _ _ o1 x) by exact E. simpl; auto 10.
  - (* trans *)
    intros e tr cur cur1 l l1 Hp IH Hpl Hg. destruct Hg as [Hg1 Hg2].
    assert (Hc : comps [e] cur (RSucc cur1 l)).
    { intros _. destruct (IH Hg1) as [n0 H]. exists n0. intros n Hn c saved num Ho Hsp.
      destruct (H n Hn c Ho Hsp) as (o & err & E & (-> & Hm & Hs & Hst) & Hw). simpl. rewrite E. rewrite fix_none, Hm.
      exists o, (S num). repeat split; auto; apply Hw. }
    destruct (seq_comp [e] cur _ ":base:Trans" (variadic tr) Hc ltac:(constructor; auto)) as [n0 H].
    destruct (pipeline_run _ _ _ _ Hpl) as [n1 H1]; [eapply allP_impl; [|exact Hg2]; simpl; tauto|].
    exists (Nat.max n0 n1). intros n Hn c Ho Hsp. specialize (H n ltac:(lia) c Ho Hsp). specialize (H1 n ltac:(lia)).
    destruct H as (o1 & [Hw Hm] & Hs1 & Hst & E). expose. rewrite E.
    destruct tr as [|t tr]; cbv [variadic].
    + inversion Hpl; subst. eexists _, _. split; [reflexivity|]. simpl; auto 10.
    + rewrite (run_trans_ctx n (t :: tr) l (set_cls c ":base:Trans") (fresh w cur));
          [|eapply allP_impl; [|exact Hg2]; simpl; tauto|destruct Ho as [(E1 & E2 & E3) _]; simpl; congruence..].
      rewrite H1. eexists _, _. split; [reflexivity|]. simpl; auto 10.
  - intros e tr cur cur1 l x Hp IH Hpl Hg. destruct Hg as [Hg1 Hg2].
    assert (Hc : comps [e] cur (RSucc cur1 l)).
    { intros _. destruct (IH Hg1) as [n0 H]. exists n0. intros n Hn c saved num Ho Hsp.
      destruct (H n Hn c Ho Hsp) as (o & err & E & (-> & Hm & Hs & Hst) & Hw). simpl. rewrite E. rewrite fix_none, Hm.
      exists o, (S num). repeat split; auto; apply Hw. }
    destruct (seq_comp [e] cur _ ":base:Trans" (variadic tr) Hc ltac:(constructor; auto)) as [n0 H].
    destruct (pipeline_run _ _ _ _ Hpl) as [n1 H1]; [eapply allP_impl; [|exact Hg2]; simpl; tauto|].
    exists (Nat.max n0 n1). intros n Hn c Ho Hsp. specialize (H n ltac:(lia) c Ho Hsp). specialize (H1 n ltac:(lia)).
    destruct H as (o1 & [Hw Hm] & Hs1 & Hst & E). expose. rewrite E.
    destruct tr as [|t tr]; cbv [variadic].
    + inversion Hpl.
    + rewrite (run_trans_ctx n (t :: tr) l (set_cls c ":base:Trans") (fresh w cur));
          [|eapply allP_impl; [|exact Hg2]; simpl; tauto|destruct Ho as [(E1 & E2 & E3) _]; simpl; congruence..].
      rewrite H1. eexists _, _. split; [reflexivity|]. simpl; auto 10.
  - intros e tr cur Hp IH Hg. destruct Hg as [Hg1 Hg2].
    assert (Hc : comps [e] cur RFail).
    { intros _. destruct (IH Hg1) as [n0 H]. exists n0. intros n Hn c saved num Ho Hsp.
      destruct (H n Hn c Ho Hsp) as (o & err & E & (-> & Hm) & Hw). simpl. rewrite E. rewrite fix_none, Hm. auto. }
    destruct (seq_comp [e] cur _ ":base:Trans" (variadic tr) Hc ltac:(constructor; auto)) as [n0 H].
    exists n0. intros n Hn c Ho Hsp. specialize (H n Hn c Ho Hsp).
    destruct H as (o1 & E & Hst & Hw). expose. rewrite E.
    eexists _, _. split; [reflexivity|]. simpl; auto 10.
  - intros e tr cur cur1 x Hp IH Hg. destruct Hg as [Hg1 Hg2].
    assert (Hc : comps [e] cur (RErr cur1 x)).
    { intros _. destruct (IH Hg1) as [n0 H]. exists n0. intros n Hn c saved num Ho Hsp.
      destruct (H n Hn c Ho Hsp) as (o & err & E & (-> & Hm & Hs) & Hw). simpl. rewrite E. rewrite fix_err, Hm by auto.
      exists o. auto. }
    destruct (seq_comp [e] cur _ ":base:Trans" (variadic tr) Hc ltac:(constructor; auto)) as [n0 H].
    exists n0. intros n Hn c Ho Hsp. specialize (H n Hn c Ho Hsp).
    destruct H as (o1 & E & Hst & Hs & Hw). expose. rewrite E.
    eexists _, _. split; [reflexivity|]. simpl; auto 10.
  - (* indirect *)
    intros k cur r Hp IH _. destruct (IH (Henv k)) as [n0 H]. exists (S n0). intros n Hn c Ho Hsp.
    destruct n; [lia|]. destruct (H n ltac:(lia) c Ho Hsp) as (o & err & E & Hr & Hw).
    unfold R, run in *. simpl. unfold Indirect, light_base_parser. rewrite E.
    destruct (returns_light _ _ _ _ ":base:Indirect" Hr) as (o' & E' & Hr' & Hw').
    exists o', err. rewrite <- E'. auto.
  - (* sequence *)
    intros cur _. exists 0%nat. intros n _ c saved num Ho Hsp. simpl. exists c, num.
    rewrite app_nil_r. auto.
  - intros e es cur cur1 l cur2 l2 Hp IH Hps IHs Hg. inversion Hg; subst.
    destruct (IH H1) as [n0 H]. destruct (IHs H2) as [n1 Hs]. exists (Nat.max n0 n1).
    intros n Hn c saved num Ho Hsp.
    destruct (H n ltac:(lia) c Ho Hsp) as (o & err & E & (-> & Hm & Hs0 & Hst) & Hw). simpl. rewrite E, fix_none, Hm.
    destruct (Hs n ltac:(lia) o saved (S num) (conj Hw Hm) Hs0) as (o1 & num1 & E1 & Ho1 & Hs1 & Hst1).
    exists o1, num1. repeat split; auto; try apply Ho1. rewrite Hst1, Hst, app_assoc. reflexivity.
  - intros e es cur cur1 l Hp IH Hps IHs Hg. inversion Hg; subst.
    destruct (IH H1) as [n0 H]. destruct (IHs H2) as [n1 Hs]. exists (Nat.max n0 n1).
    intros n Hn c saved num Ho Hsp.
    destruct (H n ltac:(lia) c Ho Hsp) as (o & err & E & (-> & Hm & Hs0 & Hst) & Hw). simpl. rewrite E, fix_none, Hm.
    apply (Hs n ltac:(lia) o saved (S num) (conj Hw Hm) Hs0).
  - intros e es cur cur1 l cur2 x Hp IH Hps IHs Hg. inversion Hg; subst.
    destruct (IH H1) as [n0 H]. destruct (IHs H2) as [n1 Hs]. exists (Nat.max n0 n1).
    intros n Hn c saved num Ho Hsp.
    destruct (H n ltac:(lia) c Ho Hsp) as (o & err & E & (-> & Hm & Hs0 & Hst) & Hw). simpl. rewrite E, fix_none, Hm.
    apply (Hs n ltac:(lia) o saved (S num) (conj Hw Hm) Hs0).
  - intros e es cur Hp IH Hg. inversion Hg; subst.
    destruct (IH H1) as [n0 H]. exists n0. intros n Hn c saved num Ho Hsp.
    destruct (H n ltac:(lia) c Ho Hsp) as (o & err & E & (-> & Hm) & Hw). simpl. rewrite E, fix_none, Hm. auto.
  - intros e es cur cur1 x Hp IH Hg. inversion Hg; subst.
    destruct (IH H1) as [n0 H]. exists n0. intros n Hn c saved num Ho Hsp.
    destruct (H n ltac:(lia) c Ho Hsp) as (o & err & E & (-> & Hm & Hs) & Hw). simpl. rewrite E, fix_err, Hm by auto.
    exists o. auto.
  - (* choice *)
    intros cur _. exists 0%nat. intros n _ c saved num Ho Hsp. reflexivity.
  - intros e es cur cur1 l Hp IH Hg. inversion Hg; subst.
    destruct (IH H1) as [n0 H]. exists n0. intros n Hn c saved num Ho Hsp.
    destruct (H n ltac:(lia) c Ho Hsp) as (o & err & E & (-> & Hm & Hs & Hst) & Hw). simpl. rewrite E, fix_none, Hm.
    exists o. repeat split; auto; apply Hw.
  - intros e es cur cur1 x Hp IH Hg. inversion Hg; subst.
    destruct (IH H1) as [n0 H]. exists n0. intros n Hn c saved num Ho Hsp.
    destruct (H n ltac:(lia) c Ho Hsp) as (o & err & E & (-> & Hm & Hs) & Hw). simpl. rewrite E, fix_err, Hm by auto.
    exists o. auto.
  - intros e es cur r Hp IH Hps IHs Hg. inversion Hg; subst.
    destruct (IH H1) as [n0 H]. destruct (IHs H2) as [n1 Hs]. exists (Nat.max n0 n1).
    intros n Hn c saved num Ho Hsp.
    destruct (H n ltac:(lia) c Ho Hsp) as (o & err & E & (-> & Hm) & Hw). simpl. rewrite E, fix_none, Hm.
    apply (Hs n ltac:(lia) c saved num Ho Hsp).
  - (* repetition *)
    intros t es k cur Hk Hg. exists 0%nat. intros n fuel _ _ bottom c Ho Hsp.
    exists c. rewrite app_nil_r. split; [|auto]. apply more_false in Hk. destruct fuel; simpl; rewrite Hk; auto.
  - intros t es k cur Hk Hp IH Hg. destruct (IH Hg) as [n0 H]. exists (S n0). intros n fuel Hn Hf bottom c Ho Hsp.
    apply more_true in Hk. destruct fuel; [lia|]. simpl. rewrite Hk.
    specialize (H n ltac:(lia) c c 0%nat Ho Hsp). simpl in H. rewrite H. exists c. rewrite app_nil_r. auto.
  - intros t es k cur cur1 x Hk Hp IH Hg. destruct (IH Hg) as [n0 H]. exists (S n0). intros n fuel Hn Hf bottom c Ho Hsp.
    apply more_true in Hk. destruct fuel; [lia|]. simpl. rewrite Hk.
    specialize (H n ltac:(lia) c c 0%nat Ho Hsp). simpl in H. destruct H as (o1 & E & H). rewrite E. exists o1. auto.
  - intros t es k cur cur1 l cur2 l2 k2 Hk Hp IH Hr IHr Hg. destruct (IH Hg) as [n0 H]. destruct (IHr Hg) as [n1 Hr1].
    exists (S (Nat.max n0 n1)). intros n fuel Hn Hf bottom c Ho Hsp.
    apply more_true in Hk. destruct fuel; [lia|]. simpl. rewrite Hk.
    specialize (H n ltac:(lia) c c 0%nat Ho Hsp). simpl in H. destruct H as (o1 & num1 & E & [Hw Hm] & Hs1 & Hst). rewrite E. simpl.
    rewrite Hm. specialize (Hr1 n fuel ltac:(lia) ltac:(lia) bottom (set_qty o1 k) (conj Hw Hm) Hs1). simpl in Hr1.
    destruct Hr1 as (o2 & E2 & Ho2 & Hs2 & Hst2). exists o2. repeat split; auto; try apply Ho2.
    rewrite Hst2, Hst, app_assoc. reflexivity.
  - intros t es k cur cur1 l cur2 x Hk Hp IH Hr IHr Hg. destruct (IH Hg) as [n0 H]. destruct (IHr Hg) as [n1 Hr1].
    exists (S (Nat.max n0 n1)). intros n fuel Hn Hf bottom c Ho Hsp.
    apply more_true in Hk. destruct fuel; [lia|]. simpl. rewrite Hk.
    specialize (H n ltac:(lia) c c 0%nat Ho Hsp). simpl in H. destruct H as (o1 & num1 & E & [Hw Hm] & Hs1 & Hst). rewrite E. simpl.
    rewrite Hm. apply (Hr1 n fuel ltac:(lia) ltac:(lia) bottom (set_qty o1 k) (conj Hw Hm) Hs1).
  - (* look-behind positions *)
    intros es Hg. exists 0%nat. intros n _ neg c i k Ho Hb. simpl.
    revert i Hb. induction k; intros i Hb; simpl; auto 10. simpl in Hb. unfold c_pos.
    destruct (Z.of_nat (sp_pos (c_sp c)) - i <? 0); [auto|discriminate].
  - intros es p ps cur1 l Hp IH Hg. destruct (once_of_seq es p _ IH Hg) as [n0 H]. exists n0.
    intros n Hn neg c i k Ho. revert i. induction k; intros i Hb; simpl in Hb; [discriminate|]. simpl. unfold c_pos.
    destruct (Z.of_nat (sp_pos (c_sp c)) - i <? 0); [auto|]. inversion Hb; subst p ps.
    set (cls := if neg then ":base:LookBehindN"%string else ":base:LookBehind"%string).
    set (c1 := set_pos c _). 
    specialize (H n n Hn Hn (length (c_stack c)) (set_st (set_cls c1 cls) Matched) (okc_start _ _ _ (Ho : okc w c1)) eq_refl).
    destruct H as (o1 & E & [Hw Hm] & Hs1 & Hst). unfold base_parser. simpl. simpl in E. rewrite E. unfold after_loop. simpl.
    rewrite Hm. simpl. rewrite ?Hm. simpl. rewrite (proj2 Ho).
    destruct neg; eexists; (split; [reflexivity|]; simpl; split; [apply Ho|auto]).
  - intros es p ps cur1 x Hp IH Hg. destruct (once_of_seq es p _ IH Hg) as [n0 H]. exists n0.
    intros n Hn neg c i k Ho. revert i. induction k; intros i Hb; simpl in Hb; [discriminate|]. simpl. unfold c_pos.
    destruct (Z.of_nat (sp_pos (c_sp c)) - i <? 0); [auto|]. inversion Hb; subst p ps.
    set (cls := if neg then ":base:LookBehindN"%string else ":base:LookBehind"%string).
    set (c1 := set_pos c _). 
    specialize (H n n Hn Hn (length (c_stack c)) (set_st (set_cls c1 cls) Matched) (okc_start _ _ _ (Ho : okc w c1)) eq_refl).
    destruct H as (o1 & E & H). rewrite (base_err _ _ _ _ _ _ o1 x) by exact E. exists o1. auto.
  - intros es p ps r Hp IH Hpb IHb Hg. destruct (once_of_seq es p _ IH Hg) as [n0 H]. destruct (IHb Hg) as [n1 Hb1].
    exists (Nat.max n0 n1).
    intros n Hn neg c i k Ho. revert i. induction k; intros i Hb; simpl in Hb; [discriminate|]. simpl. unfold c_pos.
    destruct (Z.of_nat (sp_pos (c_sp c)) - i <? 0); [apply IHk; auto|]. inversion Hb; subst p ps.
    set (cls := if neg then ":base:LookBehindN"%string else ":base:LookBehind"%string).
    set (c1 := set_pos c _). 
    specialize (H n n ltac:(lia) ltac:(lia) (length (c_stack c)) (set_st (set_cls c1 cls) Matched) (okc_start _ _ _ (Ho : okc w c1)) eq_refl).
    assert (E : base_parser cls None [PRewind] (map (R n) es) None n c1 = Ok (set_st (set_st (set_cls c1 cls) Matched) Unmatched, None)).
    { unfold base_parser. simpl. simpl in H. rewrite H. reflexivity. }
    rewrite E. simpl. apply (Hb1 n ltac:(lia) neg c (i + 1) k Ho eq_refl).
Qed.

End Comp.
