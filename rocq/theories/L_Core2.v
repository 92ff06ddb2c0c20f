(** Proofs for C12 and C25 (independence of the past), and C11 (termination). *)
From Verif Require Export L_Core.

(** ** C12 *)
Definition rel (s s' : list ast) (o o' : ctx) : Prop :=
  same_view o o' /\ exists l, c_stack o = s ++ l /\ c_stack o' = s' ++ l.
Definition outs (s s' : list ast) (a b : out) : Prop :=
  match a, b with
  | Ok (o, e), Ok (o', e') =>
      e = e' /\ c_st o = c_st o' /\ c_sp o = c_sp o' /\
      (c_str o = c_str o' /\ c_slice o = c_slice o' /\ c_tag o = c_tag o') /\
      (c_st o = Matched -> exists l, c_stack o = s ++ l /\ c_stack o' = s' ++ l)
  | Panic x, Panic y => x = y
  | Fuel, Fuel => True
  | _, _ => False
  end.
Definition lockstep (f f' : ctx -> out) : Prop :=
  forall c c', same_view c c' -> outs (c_stack c) (c_stack c') (f c) (f' c').

Lemma fix_outs s s' o o' e e' : outs s s' (Ok (o, e)) (Ok (o', e')) ->
  outs s s' (Ok (fix_status o e, e)) (Ok (fix_status o' e', e')).
Proof. simpl. intros (-> & H1 & H2 & H3 & H4). destruct e'; simpl; repeat split; try tauto. discriminate. Qed.

Lemma outs_shift s s' l o o' e e' : outs (s ++ l) (s' ++ l) (Ok (o, e)) (Ok (o', e')) -> outs s s' (Ok (o, e)) (Ok (o', e')).
Proof.
  simpl. intros (H0 & H1 & H2 & H3 & H4). repeat split; try tauto. intros Hm. destruct (H4 Hm) as (l1 & E1 & E2).
  exists (l ++ l1). rewrite !app_assoc. auto.
Qed.

Lemma outs_rel s s' o o' e e' : outs s s' (Ok (o, e)) (Ok (o', e')) -> c_st o = Matched -> rel s s' o o'.
Proof.
  simpl. intros (H0 & H1 & H2 & H3 & H4) Hm. split; auto. repeat split; try tauto. congruence.
Qed.

Definition crel (s s' : list ast) (a b : cres) : Prop :=
  match a, b with
  | CReturn x, CReturn y => outs s s' x y /\ (forall o e, x = Ok (o, e) -> c_st o <> Matched)
  | CBreak x, CBreak y => rel s s' x y
  | CEnd x n, CEnd y m => rel s s' x y /\ n = m
  | _, _ => False
  end.

Lemma children_rel s s' ex cs cs' : Forall2 lockstep cs cs' -> forall saved saved' o o' num,
  rel s s' saved saved' -> rel s s' o o' ->
  crel s s' (children_loop ex saved cs o num) (children_loop ex saved' cs' o' num).
Proof.
  induction 1 as [|f f' cs cs' Hf Hcs IH]; intros saved saved' o o' num Hs Ho; simpl; auto.
  destruct Ho as [Hv (l & E1 & E2)]. pose proof (Hf o o' Hv) as H. rewrite E1, E2 in H.
  destruct (f o) as [[o1 e]|w|], (f' o') as [[o1' e']|w'|]; simpl in H; try contradiction; simpl.
  - apply (fix_outs (s ++ l) (s' ++ l) o1 o1' e e') in H. apply outs_shift in H.
    assert (He : e = e') by apply H. subst e'.
    assert (Hst : c_st (fix_status o1 e) = c_st (fix_status o1' e)) by apply H.
    rewrite <- Hst. destruct (c_st (fix_status o1 e)) eqn:Es.
    + apply outs_rel in H; auto. destruct ex; simpl; auto.
    + destruct ex; simpl; auto. apply IH; auto. split; eauto.
    + simpl. split; [exact H|]. intros o2 e2 E. inversion E; subst. congruence.
  - split; auto. discriminate.
  - split; auto. discriminate.
Qed.

Definition prel (s s' : list ast) (a b : pres) : Prop :=
  match a, b with
  | PReturn x, PReturn y => outs s s' x y
  | PDone x n, PDone y m => rel s s' x y /\ n = m
  | _, _ => False
  end.

Lemma rel_qty s s' o o' q : rel s s' o o' -> rel s s' (set_qty o q) (set_qty o' q).
Proof. auto. Qed.

Lemma parent_rel s s' q ex b b' cs cs' : Forall2 lockstep cs cs' -> forall fuel o o' k, rel s s' o o' ->
  prel s s' (parent_loop fuel q ex None b cs o k) (parent_loop fuel q ex None b' cs' o' k).
Proof.
  intros Hcs. pose proof (Forall2_len _ _ _ Hcs) as Hlen.
  induction fuel; intros o o' k Ho; simpl; destruct (more q k); simpl; auto.
  pose proof (children_rel s s' ex cs cs' Hcs o o' o o' 0 Ho Ho) as H.
  destruct (children_loop ex o cs o 0) as [r|x|o1 n], (children_loop ex o' cs' o' 0) as [r'|x'|o1' n']; simpl in H; try contradiction; simpl; auto.
  - tauto.
  - destruct H as [H <-]. rewrite Hlen. destruct (_ && _); simpl; auto.
    assert (Hm : c_st o1 = Matched) by apply H. assert (Hm' : c_st o1' = Matched) by apply H. rewrite Hm, Hm'. apply IHfuel; auto.
Qed.

Lemma base_rel cls cls' props cs cs' tr fuel : Forall2 lockstep cs cs' ->
  (match tr with None => True | Some ts => allP trans_ok ts end) ->
  lockstep (base_parser cls None props cs tr fuel) (base_parser cls' None props cs' tr fuel).
Proof.
  intros Hcs Htr c c' Hv. unfold base_parser. set (s := c_stack c). set (s' := c_stack c').
  assert (Hc : rel s s' (set_cls c cls) (set_cls c' cls')).
  { split; [exact Hv|]. exists []. rewrite !app_nil_r. auto. }
  assert (H0 : rel s s' (set_st (set_cls c cls) Matched) (set_st (set_cls c' cls') Matched)).
  { split; [|apply Hc]. destruct Hv as (?&?&?&?&?&?). repeat split; auto. }
  pose proof (parent_rel s s' (f_qty (flags_of props)) (f_ex (flags_of props)) (length (c_stack (set_cls c cls))) (length (c_stack (set_cls c' cls'))) cs cs' Hcs fuel _ _ 0 H0) as H.
  destruct (parent_loop fuel _ _ _ _ cs _ _) as [r|o k], (parent_loop fuel _ _ _ _ cs' _ _) as [r'|o' k']; simpl in H; try contradiction; auto.
  destruct H as [Ho <-]. set (f := flags_of props) in *.
  destruct Ho as [(V1 & V2 & V3 & V4 & V5 & V6) (l & E1 & E2)].
  assert (Ha : c_st (after_loop f o k) = c_st (after_loop f o' k) /\
     c_sp (after_loop f o k) = c_sp (after_loop f o' k) /\
     c_str (after_loop f o k) = c_str (after_loop f o' k) /\
     c_slice (after_loop f o k) = c_slice (after_loop f o' k) /\
     c_tag (after_loop f o k) = c_tag (after_loop f o' k) /\
     c_stack (after_loop f o k) = s ++ l /\ c_stack (after_loop f o' k) = s' ++ l).
  { unfold after_loop. destruct (_ && _), (f_neg f); simpl; rewrite ?V5, ?V6; simpl; repeat split; auto; congruence. }
  destruct Ha as (A1 & A2 & A3 & A4 & A5 & A6 & A7). rewrite <- A1. simpl call_fn. cbn match.
  destruct (c_st (after_loop f o k)) eqn:Es.
  2,3: simpl; rewrite <- A1, Es; repeat split; auto; discriminate.
  cbn [set_qty c_st]. rewrite Es, <- A1.
  assert (H3 : rel s s' (if f_rew f then set_cls c cls else set_qty (after_loop f o k) k)
                        (if f_rew f then set_cls c' cls' else set_qty (after_loop f o' k) k)).
  { destruct (f_rew f); auto. split; [|exists l; auto]. repeat split; auto; simpl; congruence. }
  destruct H3 as [(W1 & W2 & W3 & W4 & W5 & W6) (l3 & F1 & F2)].
  set (o3 := if f_rew f then set_cls c cls else _) in *. set (o3' := if f_rew f then set_cls c' cls' else _) in *.
  change (c_stack (set_cls c cls)) with s. change (c_stack (set_cls c' cls')) with s'.
  destruct tr as [ts|].
  - rewrite F1, F2, !app_length.
    replace (Nat.ltb (length s + length l3) (length s)) with false by (symmetry; apply Nat.ltb_ge; lia).
    replace (Nat.ltb (length s' + length l3) (length s')) with false by (symmetry; apply Nat.ltb_ge; lia).
    rewrite !app_split_skip, !app_split_first.
    rewrite (run_trans_ctx fuel ts l3 (set_cls c cls) (set_cls c' cls') Htr); try apply Hv.
    destruct (run_trans fuel (set_cls c' cls') ts l3) as [[e|l4]|w|]; simpl; auto.
    + repeat split; auto; discriminate.
    + repeat split; eauto. congruence.
  - simpl. repeat split; eauto. congruence.
Qed.

Lemma light_rel cls f f' : lockstep f f' -> lockstep (light_base_parser cls f) (light_base_parser cls f').
Proof.
  intros H c c' Hv. specialize (H c c' Hv). unfold light_base_parser.
  destruct (f c) as [[o e]|w|], (f' c') as [[o' e']|w'|]; simpl in H; try contradiction; auto.
  apply fix_outs in H. destruct H as (-> & H1 & H2 & H3 & H4).
  rewrite <- H1. destruct (c_st (fix_status o e')) eqn:Es; simpl; repeat split; try tauto; try congruence.
Qed.

Lemma leaf_rel fn n : leaf_ok fn -> forall c c', same_view c c' ->
  match fn n c, fn n c' with
  | Ok (o, e), Ok (o', e') => e = e' /\ c_sp o = c_sp o' /\
      (c_str o = c_str o' /\ c_slice o = c_slice o' /\ c_tag o = c_tag o') /\
      (e = None -> c_st o = c_st o') /\
      (e = None -> c_st o = Matched -> exists l, c_stack o = c_stack c ++ l /\ c_stack o' = c_stack c' ++ l)
  | Panic x, Panic y => x = y
  | Fuel, Fuel => True
  | _, _ => False
  end.
Proof.
  intros H c c' (V1 & V2 & V3 & V4 & V5 & V6).
  destruct (H n c V5) as [Ha Hs]. destruct (H n c' V6) as [Ha' Hs'].
  rewrite V1, V2, V3, V4 in Ha. unfold same_answer in *.
  destruct (fn n (mkCtx (c_str c') (c_slice c') (c_sp c') 0 [] Matched "" (c_tag c'))) as [[b eb]|w|];
  destruct (fn n c) as [[o e]|w1|], (fn n c') as [[o' e']|w'|]; try contradiction; try congruence; auto.
  destruct Ha as (-> & A1 & A2 & A3), Ha' as (-> & B1 & B2 & B3).
  destruct (Hs o eb eq_refl) as (S1 & S2 & S3), (Hs' o' eb eq_refl) as (T1 & T2 & T3).
  repeat split; try congruence.
  - intros He. destruct (A2 He), (B2 He). congruence.
  - intros He Hm. exists (c_stack b). split; auto. apply B3; auto. destruct (A2 He), (B2 He). congruence.
Qed.

Lemma denote_rel e : peg_gram e -> forall rho n, (forall k, lockstep (rho k) (rho k)) ->
  lockstep (denote rho n e) (denote rho n e).
Proof.
  unfold peg_gram. induction e using pexp_ind'; intros Hg rho nn Hrho; simpl in Hg |- *;
    unfold FlatGroup, Group, First, LookAhead, LookAheadN, Repeat, Trans, Indirect;
    try rewrite fold_and_Forall in Hg;
    try (assert (Hcs : Forall2 lockstep (map (denote rho nn) es) (map (denote rho nn) es)) by
      (apply Forall2_map; eapply Forall_impl;
         [|eapply Forall_mp; [exact H|first [exact Hg|exact (proj2 Hg)]]]; simpl; intros a Ha; apply Ha; assumption));
    try (apply base_rel; simpl; auto; fail).
  - intros c c' Hv. pose proof (leaf_rel fn nn (proj2 Hg) c c' Hv) as H. unfold light_base_parser.
    destruct (fn nn c) as [[o e]|w|], (fn nn c') as [[o' e']|w'|]; try contradiction; auto.
    destruct H as (-> & H1 & H2 & H3 & H4). destruct e'; simpl.
    + repeat split; try tauto. discriminate.
    + rewrite <- (H3 eq_refl). destruct (c_st o) eqn:Es; simpl; repeat split; try tauto; try (rewrite Es; auto); auto; try congruence.
  - apply base_rel; simpl; auto. split; auto. intros ? ? ? ? ? ? ? ?. reflexivity.
  - unfold look_behind_base. set (p := base_parser _ _ _ _ _ _).
    assert (Hp : lockstep p p) by (apply base_rel; simpl; auto). intros c c' Hv.
    set (k := Z.to_nat (mx - mn + 1)). clearbody k. clear Hg. revert mn.
    induction k; simpl; intros mn.
    + destruct Hv as (V1 & V2 & V3 & V4 & V5 & V6). repeat split; auto.
      intros _. exists []. rewrite !app_nil_r. auto.
    + assert (Hps : c_pos c = c_pos c') by (unfold c_pos; destruct Hv as (?&?&?&?&?&?); congruence).
      rewrite <- Hps. destruct (_ <? 0); [apply IHk|].
      assert (Hv2 : same_view (set_pos c (Z.to_nat (Z.of_nat (c_pos c) - mn))) (set_pos c' (Z.to_nat (Z.of_nat (c_pos c) - mn)))).
      { destruct Hv as (V1 & V2 & V3 & V4 & V5 & V6). unfold same_view, set_pos, c_len. simpl. rewrite V4. repeat split; auto. }
      specialize (Hp _ _ Hv2).
      destruct (p _) as [[o e]|w|], (p _) as [[o' e']|w'|]; simpl in Hp; try contradiction; auto.
      destruct Hp as (-> & H1 & H2 & H3 & H4). destruct e'; simpl.
      * repeat split; try tauto.
      * rewrite <- H1. destruct (c_st o) eqn:Es; auto. destruct neg; simpl.
        -- repeat split; try tauto; discriminate.
        -- destruct Hv as (V1 & V2 & V3 & V4 & V5 & V6). repeat split; auto; [congruence|].
           intros _. exists []. rewrite !app_nil_r. auto.
  - destruct Hg as [Hg1 Hg2]. apply base_rel; auto. destruct tr; simpl in *; auto.
    split; [apply Hg2|]. eapply allP_impl; [|apply Hg2]. intros ? H; apply H.
  - apply light_rel. auto.
  - destruct Hg as [[] _].
Qed.

Lemma run_rel env e n : (forall k, peg_gram (env k)) -> peg_gram e -> lockstep (run env n e) (run env n e).
Proof.
  intros He Hg. assert (H : forall n k, lockstep (run_env env n k) (run_env env n k)).
  { induction n0; intros k; [intros c c' _; exact I|]. simpl. apply denote_rel; auto. }
  apply denote_rel; auto.
Qed.

Lemma past_irrelevant env e n c c' : (forall k, peg_gram (env k)) -> peg_gram e -> same_view c c' ->
  same_outcome (c_stack c) (c_stack c') (run env n e c) (run env n e c').
Proof.
  intros He Hg Hv. pose proof (run_rel env e n He Hg c c' Hv) as H. unfold outs, same_outcome in *.
  destruct (run env n e c) as [[o x]|w|], (run env n e c') as [[o' x']|w'|]; auto. tauto.
Qed.

(** ** C25 *)
Lemma base_group cls fs fuel c :
  base_parser cls None [] fs (Some [GroupingTransform]) fuel c =
  match base_parser cls None [] fs None fuel c with
  | Ok (o, None) =>
      match c_st o with
      | Matched =>
          if Nat.ltb (length (c_stack o)) (length (c_stack c)) then Panic "slice bounds out of range"
          else Ok (set_stack o (firstn (length (c_stack c)) (c_stack o) ++ [group_ast (skipn (length (c_stack c)) (c_stack o))]), None)
      | _ => Ok (o, None)
      end
  | r => r
  end.
Proof.
  unfold base_parser. cbn [flags_of fold_left f_neg f_ex f_rew f_qty set_cls c_stack].
  destruct (parent_loop fuel _ _ _ _ fs _ _) as [r|o k] eqn:E.
  - destruct r as [[o e]|w|]; auto. apply parent_err in E. rewrite E. destruct e; auto.
  - destruct (c_st (after_loop _ o k)) eqn:Es; rewrite ?Es; auto. simpl. rewrite Es. simpl. rewrite Es. reflexivity.
Qed.

Lemma group_flat env es n c : (forall k, peg_gram (env k)) -> Forall peg_gram es -> c_st c = Matched ->
  match run env n (EFlatGroup es) c, run env n (EGroup es) c with
  | Ok (o, e), Ok (o', e') =>
      e = e' /\ c_st o = c_st o' /\ c_sp o = c_sp o' /\
      (c_st o = Matched -> exists l, c_stack o = c_stack c ++ l /\ c_stack o' = c_stack c ++ [group_ast l])
  | Panic x, Panic y => x = y
  | Fuel, Fuel => True
  | _, _ => False
  end.
Proof.
  intros He Hg Hc.
  change (run env n (EFlatGroup es) c) with (base_parser ":base:FlatGroup" None [] (map (run env n) es) None n c).
  change (run env n (EGroup es) c) with (base_parser ":base:Group" None [] (map (run env n) es) (Some [GroupingTransform]) n c).
  assert (Hcs : Forall2 lockstep (map (run env n) es) (map (run env n) es)).
  { apply Forall2_map. eapply Forall_impl; [|exact Hg]. intros a Ha. apply run_rel; auto. }
  pose proof (base_rel ":base:FlatGroup" ":base:Group" [] _ _ None n Hcs I c c) as H.
  assert (Hv : same_view c c) by (repeat split; auto). specialize (H Hv).
  rewrite base_group.
  destruct (base_parser ":base:FlatGroup" None [] (map (run env n) es) None n c) as [[o e]|w|] eqn:E;
  destruct (base_parser ":base:Group" None [] (map (run env n) es) None n c) as [[o' e']|w'|]; simpl in H; try contradiction; auto.
  destruct H as (-> & H1 & H2 & H3 & H4). destruct e' as [e'|].
  - apply base_err_st in E. repeat split; auto. congruence.
  - rewrite <- H1. destruct (c_st o) eqn:Es.
    + destruct (H4 eq_refl) as (l & E1 & E2). rewrite E2, app_length.
      replace (Nat.ltb (length (c_stack c) + length l) (length (c_stack c))) with false by (symmetry; apply Nat.ltb_ge; lia).
      rewrite app_split_first, app_split_skip. simpl. repeat split; eauto; congruence.
    + repeat split; auto. discriminate.
    + repeat split; auto. discriminate.
Qed.

(** ** C11, termination *)

(** Parsers indexed by fuel. *)
Definition grows (F : parser) : Prop := forall n m, (n <= m)%nat -> le_fn (F n) (F m).
Definition answers_on (sz : size) (F : parser) : Prop := forall c, in_bounds sz c -> exists n, F n c <> Fuel.
Definition steps_in (sz : size) (F : parser) : Prop := forall n, okf (pos_inv sz) (F n).
Definition fine (sz : size) (F : parser) : Prop := grows F /\ answers_on sz F /\ steps_in sz F.
Definition at_ (n : nat) (Fs : list parser) : list (ctx -> out) := map (fun F => F n) Fs.

Lemma grows_Forall2 Fs n m : Forall grows Fs -> (n <= m)%nat -> Forall2 le_fn (at_ n Fs) (at_ m Fs).
Proof. intros H L. apply Forall2_map. eapply Forall_impl; [|exact H]. intros F HF. apply HF; auto. Qed.

Lemma okf_at sz Fs n : Forall (fine sz) Fs -> Forall (okf (pos_inv sz)) (at_ n Fs).
Proof. intros H. apply Forall_map. eapply Forall_impl; [|exact H]. intros F HF. apply HF. Qed.

Lemma children_total sz ex Fs : Forall (fine sz) Fs -> forall c num, in_bounds sz c ->
  exists n, forall saved m, (n <= m)%nat -> children_loop ex saved (at_ m Fs) c num <> CReturn Fuel.
Proof.
  intros H. assert (Hg : Forall grows Fs) by (eapply Forall_impl; [|exact H]; intros F HF; apply HF).
  induction H as [|F Fs HF HFs IH]; intros c num Hi; [exists 0%nat; simpl; discriminate|].
  destruct HF as (G & A & P). destruct (A c Hi) as [n Hn]. inversion Hg; subst. specialize (IH H2).
  pose proof (P n c Hi) as Hp.
  destruct (F n c) as [[o e]|w|] eqn:E; [| |congruence].
  - assert (Hm : forall m, (n <= m)%nat -> F m c = Ok (o, e)) by (intros m L; destruct (G n m L c); congruence).
    destruct Hp as [Hq Hn1]. simpl in *.
    destruct (c_st (fix_status o e)) eqn:Es.
    + destruct (fix_m _ _ Es) as [-> Hst]. destruct (Hq Hst eq_refl) as (Q1 & Q2 & Q3).
      destruct (IH o (S num) Q2) as [n2 Hn2]. exists (Nat.max n n2). intros saved m L. rewrite Hm by lia. rewrite Es.
      destruct ex; [discriminate|]. apply Hn2. lia.
    + destruct (IH c num Hi) as [n2 Hn2]. exists (Nat.max n n2). intros saved m L. rewrite Hm by lia. rewrite Es.
      destruct ex; [apply Hn2; lia|discriminate].
    + exists n. intros saved m L. rewrite Hm by lia. rewrite Es. discriminate.
  - exists n. intros saved m L. simpl. destruct (G n m L c) as [E1|E1]; [congruence|]. rewrite E1, E. discriminate.
Qed.

(** Existence of enough fuel for the loop.  [measure]: an upper bound on the
    number of iterations left. *)
Lemma parent_total sz q ex b Fs : Forall (fine sz) Fs ->
  (t_max q < 0 -> ex = false /\ forall n c c', in_bounds sz c -> seq_runs (at_ n Fs) c c' -> (c_pos c < c_pos c')%nat) ->
  forall d c k, in_bounds sz c -> c_st c = Matched ->
  (if t_max q <? 0 then (sz (c_str c) (c_slice c) - c_pos c <= d)%nat else (Z.to_nat (t_max q - Z.of_nat k) <= d)%nat) ->
  exists n, forall m fuel, (n <= m)%nat -> (n <= fuel)%nat -> parent_loop fuel q ex None b (at_ m Fs) c k <> PReturn Fuel.
Proof.
  intros HF Hc. induction d as [d IHd] using lt_wf_ind; intros c k Hi Hst Hd.
  assert (Hgr : Forall grows Fs) by (eapply Forall_impl; [|exact HF]; intros F HF'; apply HF').
  destruct (more q k) eqn:Em; [|exists 0%nat; intros m fuel _ _; destruct fuel; simpl; rewrite Em; discriminate].
  assert (Em' := Em). apply more_true in Em.
  destruct (children_total sz ex Fs HF c 0 Hi) as [n1 Hn1].
  assert (Hsame : forall m, (n1 <= m)%nat -> children_loop ex c (at_ m Fs) c 0 = children_loop ex c (at_ n1 Fs) c 0).
  { intros m L. destruct (children_mono ex c _ _ (grows_Forall2 Fs n1 m Hgr L) c 0) as [E|E]; [exfalso; exact (Hn1 c n1 (le_n _) E)|auto]. }
  assert (Hr : Q_ (pos_inv sz) c c) by (apply q_refl; exact Hi).
  pose proof (okf_children (pos_inv sz) ex c (at_ n1 Fs) (okf_at sz Fs n1 HF) c c 0 Hi Hr Hr) as Hk.
  pose proof (Hn1 c n1 (le_n _)) as Hnf.
  destruct (children_loop ex c (at_ n1 Fs) c 0) as [r|x|o1 num] eqn:Ec.
  1,2: exists (S n1); intros m fuel L1 L2; destruct fuel; [lia|]; simpl; rewrite Em', Hsame by lia; congruence.
  destruct Hk as ((Q1 & Q2 & Q3) & Q4). specialize (Q4 Hst).
  destruct d as [|d].
  - (* no iteration left *)
    destruct (Z.ltb_spec (t_max q) 0) as [L|L]; [|lia].
    destruct (Hc L) as [-> Hcons].
    pose proof (children_seq c (at_ n1 Fs) c 0) as Hs. rewrite Ec in Hs.
    specialize (Hcons n1 c o1 Hi (proj1 Hs)). unfold in_bounds in *.
    destruct Q1 as (S1 & S2 & _). rewrite S1, S2 in Q2. lia.
  - destruct (IHd d (Nat.lt_succ_diag_r d) (set_qty o1 k) (S k)) as [n2 Hn2]; auto.
    { destruct (Z.ltb_spec (t_max q) 0) as [L|L]; [|lia].
      destruct (Hc L) as [-> Hcons].
      pose proof (children_seq c (at_ n1 Fs) c 0) as Hs. rewrite Ec in Hs.
      specialize (Hcons n1 c o1 Hi (proj1 Hs)). unfold in_bounds in *. simpl.
      destruct Q1 as (S1 & S2 & _). rewrite S1, S2 in *.
      change (c_pos (set_qty o1 k)) with (c_pos o1). lia. }
    exists (S (Nat.max n1 n2)). intros m fuel L1 L2. destruct fuel; [lia|]. simpl.
    rewrite Em', Hsame by lia.
    destruct (_ && _); [discriminate|]. rewrite Q4. apply Hn2; lia.
Qed.

Lemma run_trans_total c tr : allP (fun t => total_trans t /\ mono_trans t) tr -> forall l,
  exists n, forall m, (n <= m)%nat -> run_trans m c tr l <> Fuel.
Proof.
  induction tr as [|t tr IH]; simpl; intros H l; [exists 0%nat; discriminate|].
  destruct H as [[Ht Hm] H]. destruct (Ht c l) as [n Hn].
  assert (Hs : forall m, (n <= m)%nat -> t m c l = t n c l) by (intros m L; destruct (Hm n m c l L); congruence).
  destruct (t n c l) as [[e|l1]|w|] eqn:E; [| | |congruence].
  - exists n. intros m L. rewrite Hs by auto. discriminate.
  - destruct (IH H l1) as [n2 Hn2]. exists (Nat.max n n2). intros m L. rewrite Hs by lia. apply Hn2. lia.
  - exists n. intros m L. rewrite Hs by auto. discriminate.
Qed.

Definition tr_total (tr : option (list trans)) : Prop :=
  match tr with None => True | Some ts => allP (fun t => total_trans t /\ mono_trans t) ts end.

Lemma base_total sz cls props Fs tr : Forall (fine sz) Fs -> tr_total tr ->
  (t_max (f_qty (flags_of props)) < 0 -> f_ex (flags_of props) = false /\
     forall n c c', in_bounds sz c -> seq_runs (at_ n Fs) c c' -> (c_pos c < c_pos c')%nat) ->
  fine sz (fun n => base_parser cls None props (at_ n Fs) tr n).
Proof.
  intros HF Htr Hc.
  assert (Hmono : forall n m, (n <= m)%nat -> le_fn (base_parser cls None props (at_ n Fs) tr n) (base_parser cls None props (at_ m Fs) tr m)).
  { intros n m L. apply base_mono; auto.
    - apply grows_Forall2; auto. eapply Forall_impl; [|exact HF]. intros F HF'. apply HF'.
    - destruct tr; simpl in *; auto. eapply allP_impl; [|exact Htr]. simpl. tauto. }
  assert (Hok : forall n, okf (pos_inv sz) (base_parser cls None props (at_ n Fs) tr n)).
  { intros n. apply okf_base; simpl; auto using okf_at. destruct tr; auto. apply allP_okt_True; [reflexivity|intros; exact I]. }
  split; [exact Hmono|]. split; [|exact Hok].
  intros c Hi. unfold base_parser. set (q := f_qty (flags_of props)) in *.
  set (b := length (c_stack (set_cls c cls))). set (c1 := set_st (set_cls c cls) Matched).
  assert (Hi1 : in_bounds sz c1) by exact Hi.
  destruct (parent_total sz q (f_ex (flags_of props)) b Fs HF Hc
     (if t_max q <? 0 then (sz (c_str c1) (c_slice c1) - c_pos c1)%nat else Z.to_nat (t_max q - Z.of_nat 0)) c1 0 Hi1 eq_refl) as [n1 Hn1].
  { destruct (t_max q <? 0); lia. }
  assert (Hsame : forall m, (n1 <= m)%nat -> parent_loop m q (f_ex (flags_of props)) None b (at_ m Fs) c1 0
     = parent_loop n1 q (f_ex (flags_of props)) None b (at_ n1 Fs) c1 0).
  { intros m L. destruct (parent_mono q (f_ex (flags_of props)) None b (at_ n1 Fs) (at_ m Fs)
       (grows_Forall2 Fs n1 m ltac:(eapply Forall_impl; [|exact HF]; intros F HF'; apply HF') L) n1 m c1 0%nat L) as [E|E]; auto.
    exfalso. exact (Hn1 n1 n1 (le_n _) (le_n _) E). }
  pose proof (Hn1 n1 n1 (le_n _) (le_n _)) as Hnf.
  destruct (parent_loop n1 q (f_ex (flags_of props)) None b (at_ n1 Fs) c1 0) as [r|o k] eqn:Ep.
  - exists n1. rewrite Hsame by auto. congruence.
  - set (o1 := after_loop (flags_of props) o k) in *.
    destruct (c_st o1) eqn:Es.
    2,3: exists n1; rewrite Hsame by auto; fold o1; rewrite Es; discriminate.
    destruct tr as [ts|].
    + set (o3 := if f_rew (flags_of props) then set_cls c cls else set_qty o1 k).
      destruct (run_trans_total (set_cls c cls) ts Htr (skipn b (c_stack o3))) as [n2 Hn2].
      exists (Nat.max n1 n2). rewrite Hsame by lia. fold o1. rewrite Es. simpl. rewrite Es. fold o3.
      destruct (Nat.ltb _ _); [discriminate|]. specialize (Hn2 (Nat.max n1 n2) ltac:(lia)).
      destruct (run_trans _ _ _ _) as [[e|l]|w|]; congruence.
    + exists n1. rewrite Hsame by auto. fold o1. rewrite Es. simpl. rewrite Es. discriminate.
Qed.

Lemma light_fine sz cls F : fine sz F -> fine sz (fun n => light_base_parser cls (F n)).
Proof.
  intros (G & A & P). split; [|split].
  - intros n m L. apply light_mono. apply G; auto.
  - intros c Hi. destruct (A c Hi) as [n Hn]. exists n. unfold light_base_parser. destruct (F n c) as [[o e]|w|]; congruence.
  - intros n. apply okf_light. apply P.
Qed.

Lemma behind_fine sz neg mn mx Fs : 0 <= mn -> Forall (fine sz) Fs ->
  fine sz (fun n => look_behind_base neg mn mx (at_ n Fs) n).
Proof.
  intros Hmn HF. set (cls := (if neg then ":base:LookBehindN" else ":base:LookBehind")%string).
  pose proof (base_total sz cls [PRewind] Fs None HF I) as Hb. simpl in Hb.
  destruct Hb as (G & A & P); [lia|]. split; [|split].
  - intros n m L c. apply behind_mono. apply G; auto.
  - intros c Hi. unfold look_behind_base. fold cls.
    assert (H : forall k i, 0 <= i -> exists n, forall m, (n <= m)%nat -> look_behind_loop neg (base_parser cls None [PRewind] (at_ m Fs) None m) c i k <> Fuel).
    { induction k; intros i Hi0; simpl; [exists 0%nat; discriminate|].
      destruct (Z.ltb_spec (Z.of_nat (c_pos c) - i) 0) as [L|L]; [apply IHk; lia|].
      assert (Hi2 : in_bounds sz (set_pos c (Z.to_nat (Z.of_nat (c_pos c) - i)))) by (unfold in_bounds, c_pos in *; simpl in *; lia).
      destruct (A _ Hi2) as [n1 Hn1]. destruct (IHk (i + 1)) as [n2 Hn2]; [lia|].
      exists (Nat.max n1 n2). intros m Lm.
      destruct (G n1 m ltac:(lia) (set_pos c (Z.to_nat (Z.of_nat (c_pos c) - i)))) as [E|E]; [congruence|]. rewrite E.
      destruct (base_parser cls None [PRewind] (at_ n1 Fs) None n1 _) as [[o [e|]]|w|]; try discriminate; [|congruence].
      destruct (c_st o); try (apply Hn2; lia). destruct neg; discriminate. }
    destruct (H (Z.to_nat (mx - mn + 1)) mn Hmn) as [n Hn]. exists n. apply Hn. auto.
  - intros n. apply okf_behind; simpl; auto. apply okf_at; auto.
Qed.

Lemma at_map env es n : at_ n (map (fun e => fun n => run env n e) es) = map (run env n) es.
Proof. unfold at_. rewrite map_map. reflexivity. Qed.

Lemma fine_ext sz F G : (forall n c, F n c = G n c) -> fine sz F -> fine sz G.
Proof.
  intros E (A & B & C). split; [|split].
  - intros n m L c. rewrite <- !E. apply A; auto.
  - intros c Hi. destruct (B c Hi) as [n Hn]. exists n. rewrite <- E. auto.
  - intros n c Hi. rewrite <- E. apply C; auto.
Qed.

Lemma run_fine sz env : forall r, (forall k, (k < r)%nat -> gram (total_spec sz env k) (env k)) ->
  forall e, gram (total_spec sz env r) e -> fine sz (fun n => run env n e).
Proof.
  induction r as [r IHr] using lt_wf_ind. intros Henv.
  assert (Hrule : forall k, (k < r)%nat -> fine sz (fun n => run env n (env k))).
  { intros k L. apply (IHr k L); [|apply Henv; auto]. intros j Lj. apply Henv. lia. }
  induction e using pexp_ind'; intros Hg; simpl in Hg; try rewrite fold_and_Forall in Hg.
  all: try (assert (Hcs : Forall (fine sz) (map (fun e => fun n => run env n e) es)) by
      (rewrite Forall_map; eapply Forall_mp; [exact H|first [exact Hg|exact (proj2 Hg)]])).
  - apply (light_fine sz cls fn). destruct Hg as (P & T & M). split; [|split].
    + intros n m L c. apply (M n m c L).
    + intros c _. apply T.
    + intros n c Hi. unfold okr. pose proof (P n c) as P'. destruct (fn n c) as [[o e]|w|]; simpl; auto.
      destruct (P' o e Hi eq_refl) as (P1 & P2 & P3). auto 6.
  - eapply fine_ext; [|apply (base_total sz ":base:FlatGroup" [] _ None Hcs I); simpl; lia].
    intros n c. cbv beta. rewrite at_map. reflexivity.
  - eapply fine_ext; [|apply (base_total sz ":base:Group" [] _ (Some [GroupingTransform]) Hcs); simpl; [|lia]].
    + intros n c. cbv beta. rewrite at_map. reflexivity.
    + split; auto. split; [intros ? ?; exists 0%nat; discriminate|]. intros ? ? ? ? ?; right; reflexivity.
  - eapply fine_ext; [|apply (base_total sz ":base:First" [PThereExists] _ None Hcs I); simpl; lia].
    intros n c. cbv beta. rewrite at_map. reflexivity.
  - eapply fine_ext; [|apply (base_total sz ":base:LookAhead" [PRewind] _ None Hcs I); simpl; lia].
    intros n c. cbv beta. rewrite at_map. reflexivity.
  - eapply fine_ext; [|apply (base_total sz ":base:LookAheadN" [PRewind; PNegative] _ None Hcs I); simpl; lia].
    intros n c. cbv beta. rewrite at_map. reflexivity.
  - eapply fine_ext; [|apply (behind_fine sz neg mn mx _ (proj1 Hg) Hcs)].
    intros n c. cbv beta. rewrite at_map. reflexivity.
  - eapply fine_ext; [|apply (base_total sz ":base:Repeat" [PTimes t] _ None Hcs I); simpl].
    + intros n c. cbv beta. rewrite at_map. reflexivity.
    + intros L. split; auto. intros n c c' Hi. rewrite at_map. apply (proj1 Hg L n c c' Hi).
  - destruct Hg as [Hg1 Hg2].
    eapply fine_ext; [|apply (base_total sz ":base:Trans" [] [fun n => run env n e] (variadic tr)); simpl; [|destruct tr; simpl in *; auto|lia]].
    + intros n c. reflexivity.
    + constructor; auto.
  - assert (Hk : (k < r)%nat) by exact Hg.
    destruct (Hrule k Hk) as (G & A & P).
    assert (Hf : fine sz (fun n => run_env env n k)).
    { split; [|split].
      - intros n m L c. destruct n; [left; reflexivity|]. destruct m; [lia|]. apply (G n m); lia.
      - intros c Hi. destruct (A c Hi) as [n Hn]. exists (S n). exact Hn.
      - intros n. destruct n; [intros c _; exact I|]. apply (P n). }
    apply (light_fine sz ":base:Indirect" _ Hf).
  - destruct Hg as [[] _].
Qed.

Lemma terminates sz env r e c :
  (forall k, (k < r)%nat -> gram (total_spec sz env k) (env k)) -> gram (total_spec sz env r) e ->
  in_bounds sz c -> exists n a, a <> Fuel /\ forall m, (n <= m)%nat -> run env m e c = a.
Proof.
  intros He Hg Hi. destruct (run_fine sz env r He e Hg) as (G & A & _).
  destruct (A c Hi) as [n Hn]. exists n, (run env n e c). split; auto.
  intros m L. destruct (G n m L c) as [E|E]; congruence.
Qed.

(** ** C11, divergence *)
Lemma repeat_diverges t fs (S_ : ctx -> Prop) : t_max t < 0 ->
  (forall c k, S_ c -> c_st c = Matched -> exists c', seq_runs fs c c' /\ S_ (set_qty c' k)) ->
  forall c n, S_ (enter ":base:Repeat" c) -> Repeat t fs n c = Fuel.
Proof.
  intros Ht Hs c n Hc. unfold Repeat, base_parser. cbn [flags_of fold_left flag_step f_neg f_ex f_rew f_qty set_cls c_stack].
  change (set_st (set_cls c ":base:Repeat") Matched) with (enter ":base:Repeat" c).
  assert (G : forall fuel b c k, S_ c -> c_st c = Matched -> parent_loop fuel t false None b fs c k = PReturn Fuel).
  { induction fuel; intros b c0 k H0 Hm; simpl; replace (more t k) with true by (symmetry; apply more_true; auto); auto.
    destruct (Hs c0 k H0 Hm) as (c' & Hr & Hs'). rewrite (seq_children _ _ _ _ Hr). simpl.
    rewrite (seq_runs_st _ _ _ Hr Hm). apply IHfuel; auto. apply (seq_runs_st _ _ _ Hr Hm). }
  rewrite G; auto.
Qed.

Lemma zero_width_diverges w t es p len : peg_env w -> Forall peg_gram es -> t_max t < 0 ->
  (forall len, exists len' l, pegs w es (mkSP p len) (RSucc (mkSP p len') l)) ->
  forall n c, in_world w c -> c_sp c = mkSP p len -> run (w_env w) n (ERepeat t es) c = Fuel.
Proof.
  intros He Hg Ht Hz n c Hw Hsp.
  change (run (w_env w) n (ERepeat t es) c) with (Repeat t (map (run (w_env w) n) es) n c).
  unfold Repeat, base_parser. cbn [flags_of fold_left flag_step f_neg f_ex f_rew f_qty set_cls c_stack].
  change (set_st (set_cls c ":base:Repeat") Matched) with (enter ":base:Repeat" c).
  set (env := w_env w) in *. set (fs := map (run env n) es).
  assert (G : forall fuel b c k, okc w c -> sp_pos (c_sp c) = p -> parent_loop fuel t false None b fs c k = PReturn Fuel).
  { induction fuel; intros b c0 k H0 Hp; simpl; replace (more t k) with true by (symmetry; apply more_true; auto); auto.
    destruct (Hz (sp_len (c_sp c0))) as (len' & l & Hd).
    assert (Hcur : c_sp c0 = mkSP p (sp_len (c_sp c0))) by (destruct (c_sp c0); simpl in *; congruence).
    destruct (proj1 (proj2 (peg_complete_all w He)) es _ _ Hd Hg) as [n0 Hn0].
    destruct (Hn0 (Nat.max n n0) ltac:(lia) c0 c0 0%nat H0 Hcur) as (o1 & num & E1 & Ho1 & Hsp1 & _).
    assert (Hmono : Forall2 le_fn fs (map (run env (Nat.max n n0)) es)).
    { apply Forall2_map. eapply Forall_impl; [|exact Hg]. intros a Ha. apply run_mono; try lia.
      - intros k0. apply peg_gram_mono. apply He.
      - apply peg_gram_mono; auto. }
    destruct (children_mono false c0 _ _ Hmono c0 0) as [E|E]; [rewrite E; auto|].
    fold env in E1. rewrite E1 in E. rewrite <- E. simpl. destruct Ho1 as [Hw1 Hm1]. rewrite Hm1. apply IHfuel; [split; auto|].
    simpl. rewrite Hsp1. reflexivity. }
  rewrite G; auto.
  - split; auto.
  - simpl. rewrite Hsp. reflexivity.
Qed.
