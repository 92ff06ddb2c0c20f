(** Proofs for C56: recursive grammars. *)
From Verif Require Export S_Rec L_Core2.

(** ** What a consuming parser does *)
Section Eats.
Variables (sz : size) (eat : nat -> Prop).

Lemma children_return ex saved fs : forall c num r e, children_loop ex saved fs c num = CReturn (Ok (r, e)) -> c_st r = Errored.
Proof.
  induction fs as [|f cs IH]; simpl; intros c0 num r e H; [discriminate|].
  destruct (f c0) as [[o1 e1]|w|]; try (inversion H; fail).
  destruct (c_st (fix_status o1 e1)) eqn:Es; try (destruct ex; eauto; discriminate). inversion H; subst; auto.
Qed.
Lemma parent_return q ex b fs : forall fuel c k r e, parent_loop fuel q ex None b fs c k = PReturn (Ok (r, e)) -> c_st r = Errored.
Proof.
  induction fuel; simpl; intros c0 k0 r e H; destruct (more q k0); try discriminate.
  destruct (children_loop ex c0 fs c0 0) as [r1|x|o1 n] eqn:E; try discriminate.
  - inversion H; subst. eapply children_return; eauto.
  - destruct (_ && _); try discriminate. destruct (c_st o1) eqn:Es; try discriminate; eauto. inversion H; subst; auto.
Qed.

Lemma q_pos c o : Q_ (pos_inv sz) c o -> same_source c o /\ in_bounds sz o /\ (c_pos c <= c_pos o)%nat.
Proof. auto. Qed.

Lemma parent_eats q ex b fs : Forall (okf (pos_inv sz)) fs ->
  (forall c o1 num, in_bounds sz c -> c_st c = Matched -> children_loop ex c fs c 0 = CEnd o1 num ->
     ex && Nat.ltb 0 (length fs) && Nat.eqb num 0 = false -> (c_pos c < c_pos o1)%nat) ->
  forall fuel c k o k', in_bounds sz c -> c_st c = Matched -> parent_loop fuel q ex None b fs c k = PDone o k' ->
  (k <= k')%nat /\ (c_pos c <= c_pos o)%nat /\ ((k < k')%nat -> (c_pos c < c_pos o)%nat).
Proof.
  intros Hok Hc. induction fuel; intros c k o k' Hi Hst H; simpl in H; destruct (more q k); try discriminate;
    try (injection H as <- <-; repeat split; lia).
  assert (Hr : Q_ (pos_inv sz) c c) by (apply q_refl; exact Hi).
  pose proof (okf_children (pos_inv sz) ex c fs Hok c c 0 Hi Hr Hr) as Hk.
  destruct (children_loop ex c fs c 0) as [r|x|o1 num] eqn:E; try discriminate.
  - injection H as <- <-. apply children_break in E as ->. repeat split; lia.
  - destruct (ex && Nat.ltb 0 (length fs) && Nat.eqb num 0) eqn:Ex; [injection H as <- <-; repeat split; lia|].
    destruct Hk as ((Q1 & Q2 & Q3) & Q4). specialize (Q4 Hst). cbn [call_fn] in H. cbn [set_qty c_st] in H. rewrite Q4 in H.
    pose proof (Hc c o1 num Hi Hst E Ex) as Hlt.
    destruct (IHfuel (set_qty o1 k) (S k) o k' Q2 Q4 H) as (A & B & C). change (c_pos (set_qty o1 k)) with (c_pos o1) in *. repeat split; lia.
Qed.

Lemma base_eats cls props fs tr fuel c o : f_neg (flags_of props) = false -> f_rew (flags_of props) = false -> 1 <= t_min (f_qty (flags_of props)) ->
  Forall (okf (pos_inv sz)) fs ->
  (forall c o1 num, in_bounds sz c -> c_st c = Matched -> children_loop (f_ex (flags_of props)) c fs c 0 = CEnd o1 num ->
     f_ex (flags_of props) && Nat.ltb 0 (length fs) && Nat.eqb num 0 = false -> (c_pos c < c_pos o1)%nat) ->
  in_bounds sz c -> base_parser cls None props fs tr fuel c = Ok (o, None) -> c_st o = Matched -> (c_pos c < c_pos o)%nat.
Proof.
  intros Hn Hw Hm Hok Hc Hi H Hs. unfold base_parser in H. cbn zeta in H.
  destruct (parent_loop _ _ _ _ _ _ _ _) as [r|o1 k] eqn:E.
  - subst r. apply parent_return in E. congruence.
  - destruct (parent_eats _ _ _ _ Hok Hc fuel (set_st (set_cls c cls) Matched) 0 o1 k Hi eq_refl E) as (_ & _ & Hlt).
    change (c_pos (set_st (set_cls c cls) Matched)) with (c_pos c) in Hlt.
    unfold after_loop in H. rewrite Hn, Hw in H.
    destruct (Z.ltb_spec (Z.of_nat k) (t_min (f_qty (flags_of props)))) as [L|L].
    + replace (0 <=? t_min (f_qty (flags_of props))) with true in H by lia. cbn in H. injection H as <-. discriminate Hs.
    + rewrite andb_false_r in H. cbv iota in H. assert (Hp : (c_pos c < c_pos o1)%nat) by (apply Hlt; lia). clear Hlt.
      destruct (c_st o1) eqn:Es; [|injection H as <-; congruence|injection H as <-; congruence].
      cbn [call_fn] in H. change (c_st (set_qty o1 k)) with (c_st o1) in H. rewrite Es in H. cbv iota in H.
      destruct tr as [ts|]; [|cbv iota in H; inversion H; subst; exact Hp].
      match type of H with (if ?q then _ else _) = _ => destruct q; [discriminate|] end.
      match type of H with match ?q with _ => _ end = _ => destruct q as [[e|l]|w|]; try discriminate end.
      inversion H; subst. exact Hp.
Qed.

(** A sequence that passes a consuming parser. *)
Lemma seq_eats fs f : Forall (okf (pos_inv sz)) fs -> In f fs ->
  (forall c o, in_bounds sz c -> f c = Ok (o, None) -> c_st o = Matched -> (c_pos c < c_pos o)%nat) ->
  forall c c', in_bounds sz c -> seq_runs fs c c' -> (c_pos c < c_pos c')%nat.
Proof.
  intros Hok Hin Hf c c' Hi Hr. induction Hr as [c|g fs c o c' Hg Hm Hr IH]; [contradiction|].
  inversion Hok as [|? ? Hg1 Hok']; subst. pose proof (Hg1 c Hi) as Hq. unfold okr in Hq. rewrite Hg in Hq. destruct Hq as [Hq _].
  destruct (Hq Hm eq_refl) as (_ & Hi' & Hle).
  assert (Hrest : (c_pos o <= c_pos c')%nat).
  { clear -Hok' Hr Hi'. induction Hr as [c|g fs c o c' Hg Hm Hr IH]; [lia|]. inversion Hok' as [|? ? Hg1 Hok1]; subst.
    pose proof (Hg1 c Hi') as Hq. unfold okr in Hq. rewrite Hg in Hq. destruct Hq as [Hq _]. destruct (Hq Hm eq_refl) as (_ & Hi & Hle).
    specialize (IH Hok1 Hi). lia. }
  destruct Hin as [->|Hin].
  - specialize (Hf c o Hi Hg Hm). lia.
  - specialize (IH Hok' Hin Hi'). lia.
Qed.

Lemma choice_eats fs saved : (forall f, In f fs -> forall c o, in_bounds sz c -> f c = Ok (o, None) -> c_st o = Matched -> (c_pos c < c_pos o)%nat) ->
  forall c num o1 num', in_bounds sz c -> children_loop true saved fs c num = CEnd o1 num' -> num' <> num -> (c_pos c < c_pos o1)%nat.
Proof.
  intros Hf. induction fs as [|f fs IH]; intros c num o1 num' Hi H Hn; cbn [children_loop] in H; [injection H as <- <-; congruence|].
  destruct (f c) as [[o e]|w|] eqn:E; try discriminate. destruct (c_st (fix_status o e)) eqn:Es; try discriminate.
  - injection H as <- <-. destruct (fix_m _ _ Es) as [-> Hst]. cbn [fix_status]. eapply (Hf f); eauto. left; auto.
  - eapply IH; eauto. intros g Hg. apply Hf. right; auto.
Qed.

Variable env : nat -> pexp.
Hypothesis Hpos : forall k, gram (pos_spec sz) (env k).
Hypothesis Heat : forall k, eat k -> eats sz eat (env k).

Lemma run_okf e n : gram (pos_spec sz) e -> okf (pos_inv sz) (run env n e).
Proof. intros H. apply run_inv; [intros k|]; apply pos_weaken; auto. Qed.
Lemma run_okfs es n : Forall (gram (pos_spec sz)) es -> Forall (okf (pos_inv sz)) (map (run env n) es).
Proof. intros H. apply Forall_map. eapply Forall_impl; [|exact H]. intros e He. apply run_okf. auto. Qed.

Definition strict (f : ctx -> out) : Prop := forall c o, in_bounds sz c -> f c = Ok (o, None) -> c_st o = Matched -> (c_pos c < c_pos o)%nat.

Lemma eats_denote n : (forall k, eat k -> strict (run_env env n k)) -> forall e, eats sz eat e -> gram (pos_spec sz) e -> strict (run env n e).
Proof.
  intros HR. assert (Hseq : forall es e0, Forall (gram (pos_spec sz)) es -> In e0 es -> strict (run env n e0) ->
      forall c o1 num, in_bounds sz c -> c_st c = Matched -> children_loop false c (map (run env n) es) c 0 = CEnd o1 num ->
      false && Nat.ltb 0 (length (map (run env n) es)) && Nat.eqb num 0 = false -> (c_pos c < c_pos o1)%nat).
  { intros es e0 Hg Hin He c o1 num Hi _ E _. pose proof (children_seq c (map (run env n) es) c 0) as Hs. rewrite E in Hs. destruct Hs as [Hs _].
    refine (seq_eats _ (run env n e0) (run_okfs es n Hg) _ He c o1 Hi Hs). apply in_map; auto. }
  induction 1; intros Hg c o Hi Hr Hm; cbn [gram] in Hg; try rewrite fold_and_Forall in Hg.
  - unfold run in Hr. cbn [denote] in Hr. unfold light_base_parser in Hr. destruct (fn n c) as [[o1 e1]|w|] eqn:E; try discriminate.
    destruct e1 as [x|]; [injection Hr as <- ?; discriminate|]. injection Hr as <-. cbn [fix_status] in *.
    destruct (c_st o1) eqn:Es; cbn [set_cls c_st set_qty] in Hm; try congruence. apply (H n c o1 Hi E Es).
  - assert (Hgs : Forall (gram (pos_spec sz)) es) by exact Hg.
    refine (base_eats ":base:FlatGroup" [] (map (run env n) es) None n c o eq_refl eq_refl ltac:(cbn; lia) (run_okfs _ _ Hgs) _ Hi Hr Hm).
    refine (Hseq es e Hgs H (IHeats _)). eapply Forall_forall in Hgs; eauto.
  - assert (Hgs : Forall (gram (pos_spec sz)) es) by exact Hg.
    refine (base_eats ":base:Group" [] (map (run env n) es) (Some [GroupingTransform]) n c o eq_refl eq_refl ltac:(cbn; lia) (run_okfs _ _ Hgs) _ Hi Hr Hm).
    refine (Hseq es e Hgs H (IHeats _)). eapply Forall_forall in Hgs; eauto.
  - assert (Hgs : Forall (gram (pos_spec sz)) es) by exact Hg.
    refine (base_eats ":base:First" [PThereExists] (map (run env n) es) None n c o eq_refl eq_refl ltac:(cbn; lia) (run_okfs _ _ Hgs) _ Hi Hr Hm).
    intros c1 o1 num Hi1 _ E Ex. refine (choice_eats _ c1 _ c1 0 o1 num Hi1 E _).
    + intros f Hf. apply in_map_iff in Hf as (e & <- & He). apply (H1 e He). eapply Forall_forall in Hgs; eauto.
    + intros ->. rewrite map_length in Ex. destruct es; [congruence|discriminate].
  - destruct Hg as [_ Hg]. try rewrite fold_and_Forall in Hg.
    refine (base_eats ":base:Repeat" [PTimes t] (map (run env n) es) None n c o eq_refl eq_refl H (run_okfs _ _ Hg) _ Hi Hr Hm).
    refine (Hseq es e Hg H0 (IHeats _)). eapply Forall_forall in Hg; eauto.
  - destruct Hg as [Hg _].
    refine (base_eats ":base:Trans" [] [run env n e] (variadic tr) n c o eq_refl eq_refl ltac:(cbn; lia) _ _ Hi Hr Hm).
    + constructor; auto. apply run_okf; auto.
    + refine (Hseq [e] e _ (or_introl eq_refl) (IHeats Hg)). auto.
  - specialize (HR k H). unfold run in Hr. cbn [denote] in Hr. unfold Indirect, light_base_parser in Hr.
    destruct (run_env env n k c) as [[o1 e1]|w|] eqn:E; try discriminate.
    destruct e1 as [x|]; [injection Hr as <- ?; discriminate|]. injection Hr as <-. cbn [fix_status] in *.
    destruct (c_st o1) eqn:Es; cbn [set_cls c_st set_qty] in Hm; try congruence. apply (HR c o1 Hi E Es).
Qed.
Lemma eats_rule n : forall k, eat k -> strict (run_env env n k).
Proof.
  induction n; intros k Hk c o Hi Hr Hm; [discriminate|]. exact (eats_denote n IHn (env k) (Heat k Hk) (Hpos k) c o Hi Hr Hm).
Qed.
Lemma eats_run n e : eats sz eat e -> gram (pos_spec sz) e -> strict (run env n e).
Proof. intros He Hg. apply eats_denote; auto. apply eats_rule. Qed.
End Eats.

(** ** Termination from a position on *)
Scheme guarded_ind2 := Induction for guarded Sort Prop
  with guarded_seq_ind2 := Induction for guarded_seq Sort Prop
  with guarded_all_ind2 := Induction for guarded_all Sort Prop.
Combined Scheme guarded_mutind from guarded_ind2, guarded_seq_ind2, guarded_all_ind2.

(** The conditions on leaves, transformers and look-behinds. *)
Definition tidy_spec (sz : size) : gspec :=
  mkGS (fun _ fn => pos_leaf sz fn /\ mono_parser fn) mono_trans (fun mn _ => 0 <= mn) anyR anyI noBase.
Lemma guarded_tidy sz eat back :
  (forall here later e, guarded sz eat back here later e -> gram (tidy_spec sz) e) /\
  (forall here later es, guarded_seq sz eat back here later es -> Forall (gram (tidy_spec sz)) es) /\
  (forall here later es, guarded_all sz eat back here later es -> Forall (gram (tidy_spec sz)) es).
Proof.
  apply guarded_mutind; intros; cbn [gram g_leaf g_trans g_behind g_repeat g_indirect g_base tidy_spec];
    rewrite ?fold_and_Forall; unfold anyR, anyI; auto.
  split; auto. eapply allP_impl; [|eassumption]. intros t Ht. apply Ht.
Qed.
Lemma tidy_pos sz e : gram (tidy_spec sz) e -> gram (pos_spec sz) e.
Proof. apply gram_weaken; cbn; auto; try tauto. unfold noBase; tauto. Qed.
Lemma tidy_mono sz e : gram (tidy_spec sz) e -> mono_gram e.
Proof. apply gram_weaken; cbn; auto; unfold anyZ, anyR, anyI, noBase; try tauto. Qed.

Section Total.
Variables (sz : size) (s : bytes) (sl : option slicelike).
(** Contexts over one source from a position on. *)
Definition dom (p : nat) (c : ctx) : Prop := c_str c = s /\ c_slice c = sl /\ (p <= c_pos c)%nat /\ (c_pos c <= sz s sl)%nat.
Definition ans (p : nat) (F : parser) : Prop := forall c, dom p c -> exists n, F n c <> Fuel.
Definition fit (F : parser) : Prop := grows F /\ steps_in sz F.
Definition chews (F : parser) : Prop := forall n, strict sz (F n).
Inductive seqok : nat -> list parser -> Prop :=
| so_nil : forall p, seqok p []
| so_keep : forall p F Fs, fit F -> ans p F -> seqok p Fs -> seqok p (F :: Fs)
| so_eat : forall p F Fs, fit F -> ans p F -> chews F -> seqok (S p) Fs -> seqok p (F :: Fs).
Definition kids (ex : bool) (p : nat) (Fs : list parser) : Prop :=
  if ex then Forall (fun F => fit F /\ ans p F) Fs else seqok p Fs.

Lemma dom_bounds p c : dom p c -> in_bounds sz c.
Proof. intros (H1 & H2 & H3 & H4). unfold in_bounds. rewrite H1, H2. auto. Qed.
Lemma dom_weak p p' c : (p' <= p)%nat -> dom p c -> dom p' c.
Proof. intros L (H1 & H2 & H3 & H4). repeat split; auto. lia. Qed.
Lemma ans_weak p p' F : (p <= p')%nat -> ans p F -> ans p' F.
Proof. intros L H c Hc. apply H. eapply dom_weak; eauto. Qed.
Lemma dom_step p c o : dom p c -> Q_ (pos_inv sz) c o -> dom p o.
Proof.
  intros (H1 & H2 & H3 & H4) ((S1 & S2 & S3) & Hi & L). unfold in_bounds in Hi. rewrite S1, S2, H1, H2 in Hi.
  repeat split; try congruence; lia.
Qed.
Lemma kids_fit ex p Fs : kids ex p Fs -> Forall fit Fs.
Proof.
  destruct ex; cbn; intros H.
  - eapply Forall_impl; [|exact H]. intros F HF. apply HF.
  - induction H; constructor; auto.
Qed.
Lemma fit_okf Fs n : Forall fit Fs -> Forall (okf (pos_inv sz)) (at_ n Fs).
Proof. intros H. apply Forall_map. eapply Forall_impl; [|exact H]. intros F HF. apply HF. Qed.
Lemma fit_grows Fs : Forall fit Fs -> Forall grows Fs.
Proof. intros H. eapply Forall_impl; [|exact H]. intros F HF. apply HF. Qed.

(** The answer of a parser, once given. *)
Lemma settled F p c : fit F -> ans p F -> dom p c ->
  exists n a, a <> Fuel /\ okr (pos_inv sz) c a /\ forall m, (n <= m)%nat -> F m c = a.
Proof.
  intros (G & P) A Hd. destruct (A c Hd) as [n Hn]. exists n, (F n c). split; auto. split; [apply P; eapply dom_bounds; eauto|].
  intros m L. destruct (G n m L c); congruence.
Qed.

Lemma seq_total p Fs : seqok p Fs -> forall c num, dom p c ->
  exists n, forall saved m, (n <= m)%nat -> children_loop false saved (at_ m Fs) c num <> CReturn Fuel.
Proof.
  induction 1 as [p|p F Fs HF HA HS IH|p F Fs HF HA HE HS IH]; intros c num Hd; [exists 0%nat; discriminate| |].
  - destruct (settled F p c HF HA Hd) as (n & a & Na & Oa & Hm). destruct a as [[o e]|w|]; [| |congruence].
    + destruct (c_st (fix_status o e)) eqn:Es.
      * destruct (fix_m _ _ Es) as [-> Hst]. destruct Oa as [Oa _]. specialize (Oa Hst eq_refl).
        destruct (IH o (S num) (dom_step _ _ _ Hd Oa)) as [n2 Hn2]. exists (Nat.max n n2). intros saved m L. cbn [at_ map children_loop].
        rewrite Hm by lia. rewrite Es. apply Hn2. lia.
      * exists n. intros saved m L. cbn [at_ map children_loop]. rewrite Hm by lia. rewrite Es. discriminate.
      * exists n. intros saved m L. cbn [at_ map children_loop]. rewrite Hm by lia. rewrite Es. discriminate.
    + exists n. intros saved m L. cbn [at_ map children_loop]. rewrite Hm by lia. discriminate.
  - destruct (settled F p c HF HA Hd) as (n & a & Na & Oa & Hm). destruct a as [[o e]|w|]; [| |congruence].
    + destruct (c_st (fix_status o e)) eqn:Es.
      * destruct (fix_m _ _ Es) as [-> Hst]. destruct Oa as [Oa _]. specialize (Oa Hst eq_refl).
        assert (Hlt : (c_pos c < c_pos o)%nat) by (apply (HE n c o (dom_bounds _ _ Hd) (Hm n (le_n _)) Hst)).
        assert (Hd2 : dom (S p) o).
        { destruct (dom_step _ _ _ Hd Oa) as (D1 & D2 & D3 & D4). destruct Hd as (_ & _ & D5 & _). repeat split; auto. lia. }
        destruct (IH o (S num) Hd2) as [n2 Hn2]. exists (Nat.max n n2). intros saved m L. cbn [at_ map children_loop].
        rewrite Hm by lia. rewrite Es. apply Hn2. lia.
      * exists n. intros saved m L. cbn [at_ map children_loop]. rewrite Hm by lia. rewrite Es. discriminate.
      * exists n. intros saved m L. cbn [at_ map children_loop]. rewrite Hm by lia. rewrite Es. discriminate.
    + exists n. intros saved m L. cbn [at_ map children_loop]. rewrite Hm by lia. discriminate.
Qed.
Lemma choice_total p Fs : Forall (fun F => fit F /\ ans p F) Fs -> forall c num, dom p c ->
  exists n, forall saved m, (n <= m)%nat -> children_loop true saved (at_ m Fs) c num <> CReturn Fuel.
Proof.
  induction 1 as [|F Fs [HF HA] HS IH]; intros c num Hd; [exists 0%nat; discriminate|].
  destruct (settled F p c HF HA Hd) as (n & a & Na & Oa & Hm). destruct a as [[o e]|w|]; [| |congruence].
  - destruct (c_st (fix_status o e)) eqn:Es.
    + exists n. intros saved m L. cbn [at_ map children_loop]. rewrite Hm by lia. rewrite Es. discriminate.
    + destruct (IH c num Hd) as [n2 Hn2]. exists (Nat.max n n2). intros saved m L. cbn [at_ map children_loop].
      rewrite Hm by lia. rewrite Es. apply Hn2. lia.
    + exists n. intros saved m L. cbn [at_ map children_loop]. rewrite Hm by lia. rewrite Es. discriminate.
  - exists n. intros saved m L. cbn [at_ map children_loop]. rewrite Hm by lia. discriminate.
Qed.
Lemma kids_total ex p Fs : kids ex p Fs -> forall c num, dom p c ->
  exists n, forall saved m, (n <= m)%nat -> children_loop ex saved (at_ m Fs) c num <> CReturn Fuel.
Proof. destruct ex; [apply choice_total|apply seq_total]. Qed.

Lemma loop_total p q ex b Fs : kids ex p Fs ->
  (t_max q < 0 -> ex = false /\ forall n c c', in_bounds sz c -> seq_runs (at_ n Fs) c c' -> (c_pos c < c_pos c')%nat) ->
  forall d c k, dom p c -> c_st c = Matched ->
  (if t_max q <? 0 then (sz s sl - c_pos c <= d)%nat else (Z.to_nat (t_max q - Z.of_nat k) <= d)%nat) ->
  exists n, forall m fuel, (n <= m)%nat -> (n <= fuel)%nat -> parent_loop fuel q ex None b (at_ m Fs) c k <> PReturn Fuel.
Proof.
  intros HK Hc. pose proof (kids_fit _ _ _ HK) as HF. pose proof (fit_grows _ HF) as Hgr.
  induction d as [d IHd] using lt_wf_ind; intros c k Hd Hst Hle.
  destruct (more q k) eqn:Em; [|exists 0%nat; intros m fuel _ _; destruct fuel; cbn [parent_loop]; rewrite Em; discriminate].
  assert (Em' := Em). apply more_true in Em.
  destruct (kids_total ex p Fs HK c 0 Hd) as [n1 Hn1].
  assert (Hsame : forall m, (n1 <= m)%nat -> children_loop ex c (at_ m Fs) c 0 = children_loop ex c (at_ n1 Fs) c 0).
  { intros m L. destruct (children_mono ex c _ _ (grows_Forall2 Fs n1 m Hgr L) c 0) as [E|E]; [exfalso; exact (Hn1 c n1 (le_n _) E)|auto]. }
  pose proof (dom_bounds _ _ Hd) as Hi.
  assert (Hr : Q_ (pos_inv sz) c c) by (apply q_refl; exact Hi).
  pose proof (okf_children (pos_inv sz) ex c (at_ n1 Fs) (fit_okf Fs n1 HF) c c 0 Hi Hr Hr) as Hk.
  pose proof (Hn1 c n1 (le_n _)) as Hnf.
  destruct (children_loop ex c (at_ n1 Fs) c 0) as [r|x|o1 num] eqn:Ec.
  1,2: exists (S n1); intros m fuel L1 L2; destruct fuel; [lia|]; cbn [parent_loop]; rewrite Em', Hsame by lia; congruence.
  destruct Hk as (Q & Q4). specialize (Q4 Hst). pose proof (dom_step _ _ _ Hd Q) as Hd1.
  assert (Hd1' := Hd1). destruct Hd1' as (D1 & D2 & D3 & D4).
  assert (Hless : t_max q < 0 -> (c_pos c < c_pos o1)%nat).
  { intros L. destruct (Hc L) as [-> Hcons]. pose proof (children_seq c (at_ n1 Fs) c 0) as Hs. rewrite Ec in Hs.
    exact (Hcons n1 c o1 Hi (proj1 Hs)). }
  destruct d as [|d].
  - destruct (Z.ltb_spec (t_max q) 0) as [L|L]; [|lia]. specialize (Hless L). lia.
  - destruct (IHd d (Nat.lt_succ_diag_r d) (set_qty o1 k) (S k)) as [n2 Hn2]; auto.
    { destruct (Z.ltb_spec (t_max q) 0) as [L|L]; [|lia]. specialize (Hless L). change (c_pos (set_qty o1 k)) with (c_pos o1). lia. }
    exists (S (Nat.max n1 n2)). intros m fuel L1 L2. destruct fuel; [lia|]. cbn [parent_loop].
    rewrite Em', Hsame by lia. match goal with |- (if ?x then _ else _) <> _ => destruct x; [discriminate|] end. cbn [call_fn].
    change (c_st (set_qty o1 k)) with (c_st o1). rewrite Q4. apply Hn2; lia.
Qed.

Lemma base_ans p cls props Fs tr : kids (f_ex (flags_of props)) p Fs -> tr_total tr ->
  (t_max (f_qty (flags_of props)) < 0 -> f_ex (flags_of props) = false /\
     forall n c c', in_bounds sz c -> seq_runs (at_ n Fs) c c' -> (c_pos c < c_pos c')%nat) ->
  ans p (fun n => base_parser cls None props (at_ n Fs) tr n).
Proof.
  intros HK Htr Hc c Hd. pose proof (kids_fit _ _ _ HK) as HF. pose proof (fit_grows _ HF) as Hgr.
  unfold base_parser. set (q := f_qty (flags_of props)) in *.
  set (b := length (c_stack (set_cls c cls))). set (c1 := set_st (set_cls c cls) Matched).
  assert (Hd1 : dom p c1) by exact Hd.
  destruct (loop_total p q (f_ex (flags_of props)) b Fs HK Hc
     (if t_max q <? 0 then (sz s sl - c_pos c1)%nat else Z.to_nat (t_max q - Z.of_nat 0)) c1 0 Hd1 eq_refl) as [n1 Hn1].
  { destruct (t_max q <? 0); lia. }
  assert (Hsame : forall m, (n1 <= m)%nat -> parent_loop m q (f_ex (flags_of props)) None b (at_ m Fs) c1 0
     = parent_loop n1 q (f_ex (flags_of props)) None b (at_ n1 Fs) c1 0).
  { intros m L. destruct (parent_mono q (f_ex (flags_of props)) None b (at_ n1 Fs) (at_ m Fs)
       (grows_Forall2 Fs n1 m Hgr L) n1 m c1 0%nat L) as [E|E]; auto.
    exfalso. exact (Hn1 n1 n1 (le_n _) (le_n _) E). }
  pose proof (Hn1 n1 n1 (le_n _) (le_n _)) as Hnf.
  destruct (parent_loop n1 q (f_ex (flags_of props)) None b (at_ n1 Fs) c1 0) as [r|o k] eqn:Ep.
  - exists n1. rewrite Hsame by auto. congruence.
  - set (o1 := after_loop (flags_of props) o k) in *.
    destruct (c_st o1) eqn:Es.
    2,3: exists n1; rewrite Hsame by auto; fold o1; rewrite Es; discriminate.
    destruct tr as [ts|].
    + set (o3 := if f_rew (flags_of props) then set_cls c cls else set_qty o1 k).
      destruct (run_trans_total (set_cls c cls) ts Htr (skipn b (c_stack o3))) as [n2 Hn2].
      exists (Nat.max n1 n2). rewrite Hsame by lia. fold o1. rewrite Es. simpl. rewrite Es. fold o3.
      match goal with |- (if ?x then _ else _) <> _ => destruct x; [discriminate|] end. specialize (Hn2 (Nat.max n1 n2) ltac:(lia)).
      destruct (run_trans _ _ _ _) as [[e|l]|w|]; congruence.
    + exists n1. rewrite Hsame by auto. fold o1. rewrite Es. simpl. rewrite Es. discriminate.
Qed.

Lemma light_ans p cls F : ans p F -> ans p (fun n => light_base_parser cls (F n)).
Proof.
  intros A c Hd. destruct (A c Hd) as [n Hn]. exists n. unfold light_base_parser. destruct (F n c) as [[o e]|w|]; congruence.
Qed.

Lemma behind_ans p neg mn mx Fs : 0 <= mn -> seqok 0 Fs -> ans p (fun n => look_behind_base neg mn mx (at_ n Fs) n).
Proof.
  intros Hmn HK c Hd. set (cls := (if neg then ":base:LookBehindN" else ":base:LookBehind")%string).
  pose proof (base_ans 0 cls [PRewind] Fs None HK I ltac:(cbn; lia)) as A.
  pose proof (kids_fit false 0 Fs HK) as HF.
  assert (G : grows (fun n => base_parser cls None [PRewind] (at_ n Fs) None n)).
  { intros n m L. apply base_mono; cbn; auto. apply grows_Forall2; auto. apply fit_grows; auto. }
  unfold look_behind_base. fold cls.
  assert (H : forall k i, 0 <= i -> exists n, forall m, (n <= m)%nat -> look_behind_loop neg (base_parser cls None [PRewind] (at_ m Fs) None m) c i k <> Fuel).
  { induction k; intros i Hi0; cbn [look_behind_loop]; [exists 0%nat; discriminate|].
    destruct (Z.ltb_spec (Z.of_nat (c_pos c) - i) 0) as [L|L]; [apply IHk; lia|].
    assert (Hd2 : dom 0 (set_pos c (Z.to_nat (Z.of_nat (c_pos c) - i)))).
    { destruct Hd as (D1 & D2 & D3 & D4). repeat split; auto; unfold c_pos in *; cbn in *; lia. }
    destruct (A _ Hd2) as [n1 Hn1]. destruct (IHk (i + 1)) as [n2 Hn2]; [lia|].
    exists (Nat.max n1 n2). intros m Lm.
    destruct (G n1 m ltac:(lia) (set_pos c (Z.to_nat (Z.of_nat (c_pos c) - i)))) as [E|E]; [congruence|]. rewrite E.
    destruct (base_parser cls None [PRewind] (at_ n1 Fs) None n1 _) as [[o [e|]]|w|]; try discriminate; [|congruence].
    destruct (c_st o); try (apply Hn2; lia). destruct neg; discriminate. }
  destruct (H (Z.to_nat (mx - mn + 1)) mn Hmn) as [n Hn]. exists n. apply Hn. auto.
Qed.

(** ** Grammars *)
Variables (eat : nat -> Prop) (env : nat -> pexp).
Hypothesis Htidy : forall k, gram (tidy_spec sz) (env k).
Hypothesis Heat : forall k, eat k -> eats sz eat (env k).
Definition F_ (e : pexp) : parser := fun n => run env n e.
Definition rule (k : nat) : parser := fun n => run_env env n k.

Lemma tidy_fit e : gram (tidy_spec sz) e -> fit (F_ e).
Proof.
  intros H. split.
  - intros n m L. apply run_mono; auto; [intros k|]; apply tidy_mono with sz; auto.
  - intros n. apply run_okf; [intros k|]; apply tidy_pos; auto.
Qed.
Lemma tidy_chews e : gram (tidy_spec sz) e -> eats sz eat e -> chews (F_ e).
Proof. intros H E n. apply eats_run with eat; auto; [intros k|]; apply tidy_pos; auto. Qed.

Lemma guarded_ans back :
  (forall here later e, guarded sz eat back here later e -> forall p, (forall j, here j -> ans p (rule j)) -> (forall j, later j -> ans (S p) (rule j)) ->
     (forall j, back j -> ans 0 (rule j)) -> ans p (F_ e)) /\
  (forall here later es, guarded_seq sz eat back here later es -> forall p, (forall j, here j -> ans p (rule j)) -> (forall j, later j -> ans (S p) (rule j)) ->
     (forall j, back j -> ans 0 (rule j)) -> seqok p (map F_ es)) /\
  (forall here later es, guarded_all sz eat back here later es -> forall p, (forall j, here j -> ans p (rule j)) -> (forall j, later j -> ans (S p) (rule j)) ->
     (forall j, back j -> ans 0 (rule j)) -> Forall (fun F => fit F /\ ans p F) (map F_ es)).
Proof.
  destruct (guarded_tidy sz eat back) as (T1 & T2 & T3).
  assert (AM : forall es n, at_ n (map F_ es) = map (run env n) es) by (intros es n; unfold at_; rewrite map_map; reflexivity).
  assert (EXT : forall p (F G : parser), (forall n c, F n c = G n c) -> ans p F -> ans p G).
  { intros p F G E A c Hd. destruct (A c Hd) as [n Hn]. exists n. rewrite <- E. auto. }
  apply guarded_mutind.
  - intros here later cls fn P T M p _ _ _. apply (light_ans p cls fn). intros c _. apply T.
  - intros here later es Hg IH p H1 H2 H3. eapply EXT; [|apply (base_ans p ":base:FlatGroup" [] _ None (IH p H1 H2 H3) I); cbn; lia].
    intros n c. cbv beta. rewrite AM. reflexivity.
  - intros here later es Hg IH p H1 H2 H3.
    eapply EXT; [|apply (base_ans p ":base:Group" [] _ (Some [GroupingTransform]) (IH p H1 H2 H3)); cbn; [|lia]].
    + intros n c. cbv beta. rewrite AM. reflexivity.
    + split; auto. split; [intros ? ?; exists 0%nat; discriminate|]. intros ? ? ? ? ?; right; reflexivity.
  - intros here later es Hg IH p H1 H2 H3. eapply EXT; [|apply (base_ans p ":base:LookAhead" [PRewind] _ None (IH p H1 H2 H3) I); cbn; lia].
    intros n c. cbv beta. rewrite AM. reflexivity.
  - intros here later es Hg IH p H1 H2 H3. eapply EXT; [|apply (base_ans p ":base:LookAheadN" [PRewind; PNegative] _ None (IH p H1 H2 H3) I); cbn; lia].
    intros n c. cbv beta. rewrite AM. reflexivity.
  - intros here later es Hg IH p H1 H2 H3. eapply EXT; [|apply (base_ans p ":base:First" [PThereExists] _ None (IH p H1 H2 H3) I); cbn; lia].
    intros n c. cbv beta. rewrite AM. reflexivity.
  - intros here later neg mn mx es Hmn Hg IH p H1 H2 H3. eapply EXT; [|apply (behind_ans p neg mn mx (map F_ es) Hmn)].
    + intros n c. cbv beta. rewrite AM. reflexivity.
    + apply IH; auto. intros j Hj. apply ans_weak with 0%nat; [lia|]. auto.
  - intros here later t es Hg IH He p H1 H2 H3. eapply EXT; [|apply (base_ans p ":base:Repeat" [PTimes t] _ None (IH p H1 H2 H3) I); cbn].
    + intros n c. cbv beta. rewrite AM. reflexivity.
    + intros L. split; auto. intros n c c' Hi. rewrite AM. destruct (He L) as (e & Hin & Ee).
      pose proof (T2 _ _ _ Hg) as Ht. refine (seq_eats sz _ (run env n e) _ _ _ c c' Hi).
      * apply run_okfs; [intros k; apply tidy_pos; auto|]. eapply Forall_impl; [|exact Ht]. intros x. apply tidy_pos.
      * apply in_map; auto.
      * apply (tidy_chews e); auto. eapply Forall_forall in Ht; eauto.
  - intros here later e tr Hg IH Htr p H1 H2 H3.
    eapply EXT; [|apply (base_ans p ":base:Trans" [] [F_ e] (variadic tr)); cbn; [|destruct tr; cbn in *; auto|lia]].
    + intros n c. reflexivity.
    + apply so_keep; [apply tidy_fit; eapply T1; eauto|apply IH; auto|constructor].
  - intros here later k Hk p H1 H2 H3. apply (light_ans p ":base:Indirect" (rule k)). auto.
  - intros. constructor.
  - intros here later e es Hg IHe Hs IHs p H1 H2 H3. cbn [map]. apply so_keep; auto. apply tidy_fit. eapply T1; eauto.
  - intros here later e es Hg IHe He Hs IHs p H1 H2 H3. cbn [map]. apply so_eat; auto.
    + apply tidy_fit. eapply T1; eauto.
    + apply tidy_chews; auto. eapply T1; eauto.
    + apply IHs; auto. intros j Hj. apply ans_weak with (S p); [lia|]. auto.
  - intros. constructor.
  - intros here later e es Hg IHe Hs IHs p H1 H2 H3. cbn [map]. constructor; auto. split; auto. apply tidy_fit. eapply T1; eauto.
Qed.

Variables layer rank : nat -> nat.
Hypothesis Hrank : forall k, guarded sz eat (fun j => (layer j < layer k)%nat)
               (fun j => (layer j < layer k)%nat \/ layer j = layer k /\ (rank j < rank k)%nat)
               (fun j => (layer j <= layer k)%nat) (env k).
Lemma rules_ans : forall y d r k p, layer k = y -> (sz s sl + 1 - p <= d)%nat -> rank k = r -> ans p (rule k).
Proof.
  induction y as [y IHy] using lt_wf_ind. induction d as [d IHd] using lt_wf_ind. induction r as [r IHr] using lt_wf_ind.
  intros k p Hy Hp Hr c Hd.
  assert (Hd' := Hd). destruct Hd' as (_ & _ & L1 & L2).
  assert (A : ans p (F_ (env k))).
  { refine (proj1 (guarded_ans _) _ _ _ (Hrank k) p _ _ _).
    - intros j [Hj|[Hj Hj']]; [refine (IHy (layer j) _ _ (rank j) j p eq_refl (le_n _) eq_refl); lia|].
      refine (IHr (rank j) _ j p _ Hp eq_refl); [lia|congruence].
    - intros j Hj. destruct (Nat.eq_dec (layer j) y) as [E|E].
      + refine (IHd (sz s sl + 1 - S p)%nat _ (rank j) j (S p) E (le_n _) eq_refl). lia.
      + refine (IHy (layer j) _ _ (rank j) j (S p) eq_refl (le_n _) eq_refl). lia.
    - intros j Hj. refine (IHy (layer j) _ _ (rank j) j 0%nat eq_refl (le_n _) eq_refl). lia. }
  destruct (A c Hd) as [n Hn]. exists (S n). exact Hn.
Qed.
End Total.

Lemma recursion_terminates sz eat layer rank env e c : ranked sz eat layer rank env -> guarded sz eat anyI anyI anyI e -> in_bounds sz c ->
  exists n a, a <> Fuel /\ forall m, (n <= m)%nat -> run env m e c = a.
Proof.
  intros (Heat & Hg) He Hi.
  assert (Ht : forall k, gram (tidy_spec sz) (env k)) by (intros k; eapply (proj1 (guarded_tidy _ _ _)); apply Hg).
  assert (Hte : gram (tidy_spec sz) e) by (eapply (proj1 (guarded_tidy _ _ _)); exact He).
  assert (R : forall p k, ans sz (c_str c) (c_slice c) p (rule env k)).
  { intros p k. eapply (rules_ans sz (c_str c) (c_slice c) eat env Ht Heat layer rank Hg); reflexivity. }
  destruct (proj1 (guarded_ans sz (c_str c) (c_slice c) eat env Ht Heat anyI) _ _ _ He 0%nat) with (c := c) as [n Hn]; auto.
  { repeat split; auto. lia. }
  exists n, (F_ env e n c). split; auto. intros m L.
  destruct (proj1 (tidy_fit sz env Ht e Hte) n m L c) as [E|E]; [congruence|exact E].
Qed.

(** ** Left recursion *)
Section Stuck.
Variable w : world.
Hypothesis Henv : peg_env w.
Variables (n : nat) (b : nat).
Let R := run (w_env w) n.

(** What is derivable is computed, or the fuel runs out. *)
Lemma one_or e cur r c : peg w e cur r -> peg_gram e -> okc w c -> c_sp c = cur ->
  R e c = Fuel \/ exists o err, R e c = Ok (o, err) /\ returns (c_stack c) o err r /\ in_world w o.
Proof.
  intros Hp Hg Hc Hcur. destruct (proj1 (peg_complete_all w Henv) e cur r Hp Hg) as [n0 Hn0].
  destruct (Hn0 (Nat.max n n0) ltac:(lia) c Hc Hcur) as (o & err & E & H).
  destruct (run_mono (w_env w) e n (Nat.max n n0) (fun k => peg_gram_mono _ (Henv k)) (peg_gram_mono _ Hg) ltac:(lia) c) as [F|F]; auto.
  right. exists o, err. split; auto. unfold R. congruence.
Qed.
Lemma seq_or es : Forall peg_gram es -> forall cur r c saved num, pegs w es cur r -> okc w c -> c_sp c = cur ->
  children_loop false saved (map R es) c num = CReturn Fuel \/
  match r with
  | RSucc cur1 _ => exists o num1, children_loop false saved (map R es) c num = CEnd o num1 /\ okc w o /\ c_sp o = cur1
  | RFail => children_loop false saved (map R es) c num = CBreak saved
  | RErr _ _ => True
  end.
Proof.
  intros Hg cur r c saved num Hp Hc Hcur. destruct (proj1 (proj2 (peg_complete_all w Henv)) es cur r Hp Hg) as [n0 Hn0].
  specialize (Hn0 (Nat.max n n0) ltac:(lia) c saved num Hc Hcur).
  assert (Hmono : Forall2 le_fn (map R es) (map (run (w_env w) (Nat.max n n0)) es)).
  { apply Forall2_map. eapply Forall_impl; [|exact Hg]. intros a Ha. apply run_mono; try lia.
    - intros k0. apply peg_gram_mono. apply Henv.
    - apply peg_gram_mono; auto. }
  destruct (children_mono false saved _ _ Hmono c num) as [E|E]; auto. right. rewrite <- E.
  destruct r; auto. destruct Hn0 as (o & num1 & E1 & H1 & H2 & _). eauto.
Qed.

Lemma seq_app saved fs gs : forall c num, children_loop false saved (fs ++ gs) c num =
  match children_loop false saved fs c num with CEnd o num1 => children_loop false saved gs o num1 | a => a end.
Proof.
  induction fs as [|f fs IH]; intros c num; cbn [app children_loop]; auto.
  destruct (f c) as [[o e]|x|]; auto. destruct (c_st (fix_status o e)); auto.
Qed.
Lemma seq_stuck pre e post cur cur1 l : Forall peg_gram pre -> pegs w pre cur (RSucc cur1 l) ->
  (forall c, okc w c -> c_sp c = cur1 -> R e c = Fuel) ->
  forall c saved num, okc w c -> c_sp c = cur -> children_loop false saved (map R (pre ++ e :: post)) c num = CReturn Fuel.
Proof.
  intros Hg Hp He c saved num Hc Hcur. rewrite map_app, seq_app.
  destruct (seq_or pre Hg cur _ c saved num Hp Hc Hcur) as [E|(o & num1 & E & Ho & Hsp)]; rewrite E; auto.
  cbn [map children_loop]. rewrite He; auto.
Qed.
Lemma choice_stuck pre e post cur : Forall peg_gram pre -> pegc w pre cur RFail ->
  (forall c, okc w c -> c_sp c = cur -> R e c = Fuel) ->
  forall c saved num, okc w c -> c_sp c = cur -> children_loop true saved (map R (pre ++ e :: post)) c num = CReturn Fuel.
Proof.
  intros Hg Hp He. induction pre as [|x pre IH]; intros c saved num Hc Hcur; cbn [app map children_loop].
  - rewrite He; auto.
  - inversion Hg; subst. inversion Hp; subst.
    match goal with Hx : peg w x _ RFail |- _ => destruct (one_or x _ _ c Hx ltac:(auto) Hc eq_refl) as [E|(o & err & E & (-> & Hst) & Ho)] end;
      rewrite E; auto. cbn [fix_status]. rewrite Hst. apply IH; auto.
Qed.

(** Loops. *)
Lemma loop_stuck t ex fs fuel c k : more t k = true -> children_loop ex c fs c 0 = CReturn Fuel ->
  parent_loop fuel t ex None b fs c k = PReturn Fuel.
Proof. intros Hm E. destruct fuel; cbn [parent_loop]; rewrite Hm; auto. rewrite E. auto. Qed.
Lemma passes_stuck t es i cur cur1 : Forall peg_gram es -> passes w es i cur cur1 ->
  (forall c, okc w c -> c_sp c = cur1 -> children_loop false c (map R es) c 0 = CReturn Fuel) ->
  forall k fuel c, (t_max t < 0 \/ Z.of_nat (i + k) < t_max t) -> okc w c -> c_sp c = cur ->
  parent_loop fuel t false None b (map R es) c k = PReturn Fuel.
Proof.
  intros Hg Hp Hs. induction Hp as [cur|i cur cur1 l cur2 Hp Hps IH]; intros k fuel c Hk Hc Hcur.
  - apply loop_stuck; auto. apply more_true. auto.
  - assert (Hm : more t k = true) by (apply more_true; lia).
    destruct fuel; cbn [parent_loop]; rewrite Hm; auto.
    destruct (seq_or es Hg cur _ c c 0 Hp Hc Hcur) as [E|(o & num1 & E & (Hw & Hst) & Hsp)]; rewrite E; auto.
    rewrite andb_false_l. cbn [andb call_fn]. change (c_st (set_qty o k)) with (c_st o). rewrite Hst. apply IH; auto; [lia|split; auto].
Qed.
Lemma base_stuck cls props fs tr c :
  parent_loop n (f_qty (flags_of props)) (f_ex (flags_of props)) None (length (c_stack c)) fs (set_st (set_cls c cls) Matched) 0 = PReturn Fuel ->
  base_parser cls None props fs tr n c = Fuel.
Proof. intros E. unfold base_parser. change (c_stack (set_cls c cls)) with (c_stack c). rewrite E. auto. Qed.
End Stuck.

Lemma opens_stuck w n e cur k to : peg_env w -> opens w e cur k to -> peg_gram e ->
  (forall c, in_world w c -> c_sp c = to -> run_env (w_env w) n k c = Fuel) ->
  forall c, in_world w c -> c_sp c = cur -> run (w_env w) n e c = Fuel.
Proof.
  intros Henv Ho. assert (AP : forall pre x post, Forall peg_gram (pre ++ x :: post) -> Forall peg_gram pre /\ peg_gram x).
  { intros pre x post H. apply Forall_app in H as [H1 H2]. inversion H2; auto. }
  induction Ho as [k cur|pre e post cur cur1 l k to Hp Ho IH|pre e post cur cur1 l k to Hp Ho IH|pre e post cur cur1 l k to Hp Ho IH
    |pre e post cur cur1 l k to Hp Ho IH|pre e post cur k to Hp Ho IH|t pre e post cur i cur1 cur2 l k to Hps Ht Hp Ho IH
    |neg mn mx pre e post cur before p after cur1 l k to Hb Hf Hp Ho IH|e tr cur k to Ho IH]; intros Hg Hk c Hc Hcur.
  - unfold run. cbn [denote]. unfold Indirect, light_base_parser. rewrite Hk; auto.
  - apply Forall_of_gram in Hg. destruct (AP _ _ _ Hg) as [Hg1 Hg2].
    apply (base_stuck n ":base:FlatGroup" [] (map (run (w_env w) n) (pre ++ e :: post)) None). apply loop_stuck; [reflexivity|].
    eapply seq_stuck; eauto. intros c1 [Hc1 _] Hs1. apply IH; auto. split; auto.
  - apply Forall_of_gram in Hg. destruct (AP _ _ _ Hg) as [Hg1 Hg2].
    apply (base_stuck n ":base:Group" [] (map (run (w_env w) n) (pre ++ e :: post)) (Some [GroupingTransform])). apply loop_stuck; [reflexivity|].
    eapply seq_stuck; eauto. intros c1 [Hc1 _] Hs1. apply IH; auto. split; auto.
  - apply Forall_of_gram in Hg. destruct (AP _ _ _ Hg) as [Hg1 Hg2].
    apply (base_stuck n ":base:LookAhead" [PRewind] (map (run (w_env w) n) (pre ++ e :: post)) None). apply loop_stuck; [reflexivity|].
    eapply seq_stuck; eauto. intros c1 [Hc1 _] Hs1. apply IH; auto. split; auto.
  - apply Forall_of_gram in Hg. destruct (AP _ _ _ Hg) as [Hg1 Hg2].
    apply (base_stuck n ":base:LookAheadN" [PRewind; PNegative] (map (run (w_env w) n) (pre ++ e :: post)) None). apply loop_stuck; [reflexivity|].
    eapply seq_stuck; eauto. intros c1 [Hc1 _] Hs1. apply IH; auto. split; auto.
  - apply Forall_of_gram in Hg. destruct (AP _ _ _ Hg) as [Hg1 Hg2].
    apply (base_stuck n ":base:First" [PThereExists] (map (run (w_env w) n) (pre ++ e :: post)) None). apply loop_stuck; [reflexivity|].
    eapply choice_stuck; eauto. intros c1 [Hc1 _] Hs1. apply IH; auto. split; auto.
  - destruct Hg as [_ Hg]. apply Forall_of_gram in Hg. destruct (AP _ _ _ Hg) as [Hg1 Hg2].
    apply (base_stuck n ":base:Repeat" [PTimes t] (map (run (w_env w) n) (pre ++ e :: post)) None).
    eapply passes_stuck; eauto.
    + intros c1 H1 Hs1. eapply seq_stuck; eauto. intros c2 [Hc2 _] Hs2. apply IH; auto.
    + cbn. rewrite Nat.add_0_r. auto.
    + split; auto.
  - destruct Hg as [_ Hg]. apply Forall_of_gram in Hg. destruct (AP _ _ _ Hg) as [Hg1 Hg2].
    change (look_behind_base neg mn mx (map (run (w_env w) n) (pre ++ e :: post)) n c = Fuel). unfold look_behind_base.
    set (cls := (if neg then ":base:LookBehindN" else ":base:LookBehind")%string).
    assert (G : forall c1, in_world w c1 -> c_sp c1 = p -> base_parser cls None [PRewind] (map (run (w_env w) n) (pre ++ e :: post)) None n c1 = Fuel).
    { intros c1 H1 Hs1. apply base_stuck. apply loop_stuck; [reflexivity|]. eapply seq_stuck; eauto.
      - intros c2 [Hc2 _] Hs2. apply IH; auto.
      - split; auto. }
    assert (B : forall q c1, pegs w (pre ++ e :: post) q RFail -> in_world w c1 -> c_sp c1 = q ->
      base_parser cls None [PRewind] (map (run (w_env w) n) (pre ++ e :: post)) None n c1 = Fuel \/
      exists o, base_parser cls None [PRewind] (map (run (w_env w) n) (pre ++ e :: post)) None n c1 = Ok (o, None) /\ c_st o = Unmatched).
    { intros q c1 Hq H1 Hs1. unfold base_parser. cbn [flags_of fold_left flag_step f_neg f_ex f_rew f_qty].
      destruct (seq_or w Henv n (pre ++ e :: post) Hg q RFail (set_st (set_cls c1 cls) Matched) (set_st (set_cls c1 cls) Matched) 0 Hq
                  (conj H1 eq_refl) Hs1) as [E|E].
      - left. rewrite loop_stuck; auto.
      - destruct n as [|n0]; [left; reflexivity|]. right. cbn [parent_loop]. change (more qtyOnce 0) with true. cbv iota. rewrite E.
        cbn. eexists. split; reflexivity. }
    subst cur. clear -Hb Hf Hc G B. revert Hb. generalize (Z.to_nat (mx - mn + 1)). intros m. revert mn before Hf.
    induction m as [|m IHm]; intros mn before Hf Hb; cbn [behind look_behind_loop] in *; [destruct before; discriminate|].
    unfold c_pos. destruct (Z.of_nat (sp_pos (c_sp c)) - mn <? 0); [eapply IHm; eauto|].
    destruct before as [|q before]; cbn [app] in Hb; injection Hb as <- Hb.
    + rewrite G; auto.
    + inversion Hf as [|? ? Hq Hf']; subst.
      destruct (B _ (set_pos c (Z.to_nat (Z.of_nat (sp_pos (c_sp c)) - mn))) Hq Hc eq_refl) as [E|(o & E & Hst)]; rewrite E; auto.
      rewrite Hst. eapply IHm; eauto.
  - destruct Hg as [Hg _]. apply (base_stuck n ":base:Trans" [] [run (w_env w) n e] (variadic tr)). apply loop_stuck; [reflexivity|].
    cbn [children_loop]. rewrite IH; auto.
Qed.

Lemma left_recursion_diverges w (X : nat -> srcpos -> Prop) e cur k to : peg_env w ->
  (forall k cur, X k cur -> exists k' cur', opens w (w_env w k) cur k' cur' /\ X k' cur') ->
  peg_gram e -> opens w e cur k to -> X k to ->
  forall n c, in_world w c -> c_sp c = cur -> run (w_env w) n e c = Fuel.
Proof.
  intros Henv HX Hg Ho Hk. assert (HR : forall n k cur, X k cur -> forall c, in_world w c -> c_sp c = cur -> run_env (w_env w) n k c = Fuel).
  { induction n as [|n IH]; intros k0 cur0 H0 c Hc Hcur; [reflexivity|].
    destruct (HX k0 cur0 H0) as (k1 & cur1 & H1 & H2).
    change (run (w_env w) n (w_env w k0) c = Fuel). eapply opens_stuck; eauto. }
  intros n. eapply opens_stuck; eauto.
Qed.

(** ** Leaves *)
Lemma hungry_eats sz fn : hungry fn -> eats_leaf sz fn.
Proof.
  assert (NE : forall s : bytes, s <> [] -> (0 < length s)%nat) by (intros [|x s] H; [congruence|cbn; lia]).
  intros H n c o _ E Hm. revert E Hm.
  destruct H; unfold lift, char_fn, any_fn, seq_fn, seqi_fn, char_class_fn, char_classN_fn, obj_any_fn, obj_seq_fn, obj_class_fn, obj_classN_fn,
    obj_classFn_fn, error_fn, unmatched_fn, with_rest, with_slice, ret.
  5:{ intros E Hm. injection E as <-. revert Hm. change (c_pos c) with (c_pos (set_st c Unmatched)).
      assert (Hc : c_st (set_st c Unmatched) <> Matched) by discriminate. revert Hc. generalize (set_st c Unmatched). intros c1 Hc.
      induction H as [|s cc Hs Hcc IH]; cbn [char_class_loop]; [congruence|].
      destruct (has_prefix_at _ _ _); auto. intros _. unfold push_str, push_val, c_pos. cbn. specialize (NE s Hs). lia. }
  all: destruct c as [str sl [pos len] q stk st cls0 tag]; cbn; repeat (leaf_split; cbn); intros E Hm; inversion E; subst; try discriminate Hm; unfold c_pos; cbn;
    try (match goal with H : Nat.eqb _ 0 = false |- _ => apply Nat.eqb_neq in H end); try lia.
  all: match goal with H : ?l <> [] |- _ => destruct l; [congruence|cbn; lia] end.
Qed.
