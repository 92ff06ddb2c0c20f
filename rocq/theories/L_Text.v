(** Proofs about valid text (C17, C18, C19). *)
From Verif Require Export L_Str.

Lemma skipn_skipn {A} a b (l : list A) : skipn a (skipn b l) = skipn (b + a) l.
Proof. revert l. induction b; simpl; intros l; auto. destruct l; auto. rewrite skipn_nil. auto. Qed.

(** ** Text *)
Lemma char_inj r cs s r' cs' s' : utf8_char r cs -> utf8_char r' cs' -> cs ++ s = cs' ++ s' ->
  r = r' /\ cs = cs' /\ s = s'.
Proof.
  intros H H' E. pose proof (decode_char r cs s H) as D. pose proof (decode_char r' cs' s' H') as D'.
  rewrite E in D. rewrite D in D'. inversion D'; subst. split; auto. apply encode_char in H, H'. split; [congruence|].
  subst. apply app_inv_head in E. auto.
Qed.
Lemma utf8_app rs s rs' s' : utf8 rs s -> utf8 rs' s' -> utf8 (rs ++ rs') (s ++ s').
Proof. induction 1; simpl; intros; auto. rewrite <- app_assoc. constructor; auto. Qed.
Lemma valid_app s t : valid_text s -> valid_text t -> valid_text (s ++ t).
Proof. intros [rs H] [rs' H']. exists (rs ++ rs'). apply utf8_app; auto. Qed.
Lemma utf8_cons_inv rs s r cs : utf8 rs (cs ++ s) -> utf8_char r cs -> exists rs', rs = r :: rs' /\ utf8 rs' s.
Proof.
  intros H Hc. inversion H as [E|r' cs' rs' s' H1 H2 E E']; subst.
  - apply char_len in Hc. destruct cs; simpl in *; [lia|]. discriminate.
  - destruct (char_inj _ _ _ _ _ _ H1 Hc E') as (-> & -> & ->). eauto.
Qed.
Lemma utf8_cancel rs1 a : utf8 rs1 a -> forall rs b, utf8 rs (a ++ b) -> exists rs2, rs = rs1 ++ rs2 /\ utf8 rs2 b.
Proof.
  induction 1 as [|r cs rs1 s Hc Hs IH]; simpl; intros rs b H; eauto.
  rewrite <- app_assoc in H. destruct (utf8_cons_inv _ _ _ _ H Hc) as (rs' & -> & H').
  destruct (IH _ _ H') as (rs2 & -> & H2). eauto.
Qed.
Lemma valid_cancel a b : valid_text a -> valid_text (a ++ b) -> valid_text b.
Proof. intros [rs1 H1] [rs H]. destruct (utf8_cancel _ _ H1 _ _ H) as (rs2 & _ & H2). exists rs2. auto. Qed.
Lemma valid_byte s : valid_text s -> Forall is_byte s.
Proof.
  intros [rs H]. induction H as [|r cs rs s Hc Hs IH]; auto. apply Forall_app. split; auto.
  unfold is_byte. destruct Hc; repeat constructor; lia.
Qed.
Lemma valid_char r cs : utf8_char r cs -> valid_text cs.
Proof. intros H. exists [r]. rewrite <- (app_nil_r cs). constructor; auto. constructor. Qed.

Lemma boundary_valid s p : boundary s p -> valid_text s.
Proof. intros (H & H1 & H2). rewrite <- (firstn_skipn p s). apply valid_app; auto. Qed.
Lemma boundary_next s p w t : boundary s p -> skipn p s = w ++ t -> valid_text w -> boundary s (p + length w).
Proof.
  intros (Hl & H1 & H2) E Hw. pose proof (skipn_length p s) as L. rewrite E, app_length in L.
  split; [lia|]. rewrite E in H2.
  assert (F : firstn (p + length w) s = firstn p s ++ w).
  { rewrite <- (firstn_skipn p s) at 1. rewrite E. rewrite firstn_app. rewrite firstn_length.
    replace (Nat.min p (length s)) with p by lia. replace (p + length w - p)%nat with (length w) by lia.
    rewrite firstn_len_app. f_equal. apply firstn_all2. rewrite firstn_length. lia. }
  split.
  - rewrite F. apply valid_app; auto.
  - replace (skipn (p + length w) s) with t; [eapply valid_cancel; eauto|].
    rewrite <- (skipn_skipn (length w) p s), E. rewrite skipn_app, Nat.sub_diag, skipn_all. reflexivity.
Qed.
Lemma boundary_char s p r l : boundary s p -> decode_rune (skipn p s) = (r, l) -> l <> 0%nat ->
  exists cs t, skipn p s = cs ++ t /\ utf8_char r cs /\ l = length cs.
Proof.
  intros (Hl & H1 & rs & H2) E Hn. destruct H2 as [|r' cs rs s' Hc Hs].
  - simpl in E. inversion E; subst. congruence.
  - rewrite (decode_char _ _ _ Hc) in E. inversion E; subst. eauto.
Qed.

(** ** A generic induction over the big-step semantics *)
Section PegInv.
Variables (w : world) (g : gspec) (G : srcpos -> srcpos -> list ast -> Prop).
Hypothesis G_refl : forall a, G a a [].
Hypothesis G_trans : forall a b c l l', G a b l -> G b c l' -> G a c (l ++ l').
Hypothesis G_leaf : forall cls fn n cur o, g_leaf g cls fn ->
  fn n (fresh w cur) = Ok (o, None) -> c_st o = Matched -> G cur (c_sp o) (c_stack o).
Hypothesis G_group : forall a b l, G a b l -> G a b [group_ast l].
Hypothesis G_tr : forall t n c a b l l', g_trans g t -> G a b l -> t n c l = Ok (inr l') -> G a b l'.
Hypothesis G_env : forall k, gram g (w_env w k).

Definition Gr (cur : srcpos) (r : result) : Prop := match r with RSucc cur' l => G cur cur' l | _ => True end.
Lemma G_pipeline c tr l r : pipeline c tr l r -> allP (g_trans g) tr -> forall a b, G a b l ->
  match r with inr l' => G a b l' | inl _ => True end.
Proof.
  induction 1 as [l|n t tr l e E|n t tr l l1 r E H IH]; simpl; intros Ht a b Hl; auto. destruct Ht as [Ht Htr].
  apply IH; auto. eapply G_tr; eauto.
Qed.
Ltac unf := simpl in *; rewrite ?fold_and_Forall in *.
Lemma peg_G_all :
  (forall e cur r, peg w e cur r -> gram g e -> Gr cur r) /\
  (forall es cur r, pegs w es cur r -> Forall (gram g) es -> Gr cur r) /\
  (forall es cur r, pegc w es cur r -> Forall (gram g) es -> Gr cur r) /\
  (forall t es k cur r, pegr w t es k cur r -> Forall (gram g) es -> match r with inr (cur', l, _) => G cur cur' l | inl _ => True end) /\
  (forall es ps r, pegb w es ps r -> True).
Proof.
  apply peg_mutind; unfold Gr; intros; auto; unf; auto;
    try (match goal with H : Forall _ (_ :: _) |- _ => inversion H; subst; clear H end); auto.
  all: try solve [destruct err; simpl; auto; destruct (c_st o) eqn:E; simpl; auto; eapply G_leaf; eauto].
  all: try solve [apply H; tauto].
  all: try solve [destruct H0 as [H0 H1]; apply H; constructor; auto].
  all: try solve [eapply G_trans; eauto].
  all: try solve [destruct H0 as [H0 Htr]; specialize (H H0); eapply (G_pipeline _ _ _ _ p0); eauto].
  all: first [apply H; auto | apply H0; auto].
Qed.
Lemma peg_G e cur r : peg w e cur r -> gram g e -> Gr cur r.
Proof. apply peg_G_all. Qed.
End PegInv.

(** ** The leaves of text grammars *)
Definition moved (w : world) (a b : srcpos) (l : list ast) : Prop :=
  boundary (w_str w) (sp_pos a) ->
  (sp_pos a <= sp_pos b)%nat /\ boundary (w_str w) (sp_pos b) /\
  text_of l (sub (w_str w) (sp_pos a) (sp_pos b)).

Lemma sub_nil {A} (s : list A) i : sub s i i = [].
Proof. unfold sub. rewrite Nat.sub_diag. reflexivity. Qed.
Lemma sub_app {A} (s : list A) i j k : (i <= j <= k)%nat -> sub s i j ++ sub s j k = sub s i k.
Proof.
  intros H. unfold sub. replace (k - i)%nat with ((j - i) + (k - j))%nat by lia.
  replace (skipn j s) with (skipn (j - i) (skipn i s)) by (rewrite skipn_skipn; f_equal; lia).
  generalize (skipn i s) as t. generalize (j - i)%nat as m. generalize (k - j)%nat as n.
  intros n m t. revert t. induction m; intros t; simpl; auto. destruct t; simpl; [rewrite firstn_nil; auto|]. f_equal. apply IHm.
Qed.
Lemma sub_prefix (s w t : bytes) p : skipn p s = w ++ t -> sub s p (p + length w) = w.
Proof. intros E. unfold sub. replace (p + length w - p)%nat with (length w) by lia. rewrite E. apply firstn_len_app. Qed.

(** Taking the valid text [v] from the source. *)
Lemma moved_text w cur cls v t : skipn (sp_pos cur) (w_str w) = v ++ t -> valid_text v ->
  moved w cur (mkSP (sp_pos cur + length v) (length v)) [mkAst 0 cls TString (VStr v) cur].
Proof.
  intros E Hv Hb. simpl. split; [lia|]. split; [eapply boundary_next; eauto|].
  rewrite (sub_prefix _ _ _ _ E). rewrite <- (app_nil_r v) at 2. repeat constructor.
Qed.
Lemma moved_none w a len : moved w a (mkSP (sp_pos a) len) [].
Proof. intros Hb. simpl. split; [lia|]. split; auto. rewrite sub_nil. constructor. Qed.

Lemma char_moved w cls test n cur o : lift (char_fn cls test) n (fresh w cur) = Ok (o, None) -> c_st o = Matched ->
  moved w cur (c_sp o) (c_stack o).
Proof.
  unfold lift, char_fn, with_rest, ret, push_str, fresh. cbn. intros E Hm Hb. revert E.
  destruct (Nat.leb _ _); [|discriminate]. destruct (decode_rune _) as [r l] eqn:D.
  destruct (Nat.eqb l 0) eqn:El; [intros E; inversion E; subst; discriminate|].
  destruct (test r); intros E; inversion E; subst; [|discriminate]. cbn in *. clear E. apply Nat.eqb_neq in El.
  destruct (boundary_char _ _ _ _ Hb D El) as (cs & t & Ec & Hc & ->). rewrite (encode_char _ _ Hc).
  eapply moved_text; eauto using valid_char.
Qed.

(** A SeqI literal without U+FFFD ends on a character boundary. *)
Lemma chars_utf8_prefix fold : plain_fold fold -> forall t w rest rs rt rt' x,
  chars w rs -> Forall2 (same_letter fold) rs rt -> chars x rt -> utf8 rt' x -> ~ In 65533 rt' ->
  t = w ++ rest -> valid_text t -> valid_text w.
Proof.
  intros Hf t w rest rs rt rt' x Hw. revert t rt rt' x.
  induction Hw as [|s r l rs Hn Hl Hc IH]; intros t rt rt' x HF Hx Hu Hi Et Hv; [exists []; constructor|].
  inversion HF as [|r0 r2 rs0 rt2 Hr HF']; subst.
  assert (Bx : Forall is_byte x) by (apply valid_byte; exists rt'; auto).
  inversion Hu as [|r3 cs rt3 x3 Hc3 Hu3]; subst; [apply chars_nil_inv in Hx; discriminate|].
  assert (Nx : cs ++ x3 <> []) by (apply char_len in Hc3; destruct cs; simpl in *; [lia|discriminate]).
  destruct (chars_cons_inv _ _ Nx Hx) as (r4 & l4 & rt4 & E4 & N4 & L4 & C4). inversion E4; subst r4 rt4. clear E4.
  destruct (next_func _ _ _ _ _ Bx N4 (nc_char _ _ x3 Hc3)) as [-> ->].
  rewrite skipn_app, Nat.sub_diag, skipn_all in C4. simpl in C4.
  assert (Hr3 : r3 <> 65533) by (intros ->; apply Hi; left; auto).
  inversion Hn as [|r5 cs5 s5 Hc5 E5|b s5 Hbad E5]; subst.
  - lia.
  - rewrite <- app_assoc in Hv. rewrite skipn_app, Nat.sub_diag, skipn_all in *. simpl in *.
    apply valid_app; [eapply valid_char; eauto|].
    assert (Hi3 : ~ In 65533 rt3) by (intros Hin; apply Hi; right; auto).
    assert (Hv5 : valid_text (s5 ++ rest)) by (eapply valid_cancel; [|exact Hv]; eapply valid_char; eauto).
    exact (IH (s5 ++ rest) rt2 rt3 x3 HF' C4 Hu3 Hi3 eq_refl Hv5).
  - exfalso. destruct Hr as [Hr|[(A & _)|[_ Hr]]]; [congruence|lia|]. apply Hf in Hr. congruence.
Qed.

Lemma text_leaf_moved w cls fn n cur o : text_leaf cls fn -> fn n (fresh w cur) = Ok (o, None) -> c_st o = Matched ->
  moved w cur (c_sp o) (c_stack o).
Proof.
  destruct 1 as [msg| | | | | |s Hs|fold s rs Hf Hs Hi|cc Hcc|cc|cls cls' test]; unfold lift; intros E Hm.
  - discriminate.
  - inversion E; subst. discriminate.
  - unfold start_fn, fresh in E. cbn in E. destruct (Nat.eqb (c_pos _) 0); inversion E; subst; [|discriminate]. cbn. apply moved_none.
  - unfold end_fn, fresh, ret in E. cbn in E. destruct (Nat.eqb (c_pos _) _); inversion E; subst; [|discriminate]. cbn. apply moved_none.
  - unfold word_boundary_fn, word_boundary_gen, with_rest, ret, fresh in E. cbn in E.
    repeat match type of E with
    | context [if ?b then _ else _] => destruct b
    | context [let '(_, _) := ?x in _] => destruct x
    end; inversion E; subst; cbn in *; try discriminate; apply moved_none.
  - exact (char_moved w ":string:Any" (fun _ => true) 0 cur o E Hm).
  - rewrite seq_fn_spec in E. unfold ret, fresh in E. cbn in E. destruct (has_prefix_at _ _ s) eqn:P; inversion E; subst; [|discriminate].
    cbn. intros Hb. pose proof (proj1 Hb) as Hle. apply has_prefix_spec in P; [|exact Hle]. destruct P as [t P]. eapply moved_text; eauto.
  - rewrite seqi_fn_spec in E. unfold ret, fresh in E. cbn in E.
    destruct (Nat.leb (c_pos _ + length s) _) eqn:El; [|simpl in E; inversion E; subst; discriminate]. simpl in E.
    destruct (equal_fold fold (length s) _ s) eqn:Ef; inversion E; subst; [|discriminate]. cbn. clear E Hm.
    unfold c_pos in *. cbn in *. apply Nat.leb_le in El. intros Hb.
    set (p := sp_pos cur) in *. set (x := sub (w_str w) p (p + length s)) in *.
    assert (Bs : Forall is_byte (w_str w)) by (apply valid_byte; eapply boundary_valid; eauto).
    assert (Lx : length x = length s) by (unfold x; rewrite sub_length; lia).
    assert (Ex : skipn p (w_str w) = x ++ skipn (length s) (skipn p (w_str w))).
    { unfold x, sub. replace (p + length s - p)%nat with (length s) by lia. symmetry. apply firstn_skipn. }
    assert (Bx : Forall is_byte x) by (pose proof (Forall_skipn' _ p _ Bs) as F; rewrite Ex in F; apply Forall_app in F; tauto).
    assert (Bv : Forall is_byte s) by (apply valid_byte; exists rs; auto).
    apply equal_fold_spec in Ef; auto; [|lia]. destruct Ef as (r1 & r2 & C1 & C2 & F2).
    rewrite <- Lx. eapply moved_text; eauto. destruct Hb as (_ & _ & Hb). rewrite Ex in Hb.
    exact (chars_utf8_prefix fold Hf _ x _ r1 r2 rs s C1 F2 C2 Hs Hi eq_refl Hb).
  - unfold char_class_fn, ret in E. rewrite char_class_loop_spec in E. unfold fresh in E. cbn in E.
    destruct (find _ cc) as [s|] eqn:P; inversion E; subst; [|discriminate]. cbn. intros Hb. pose proof (proj1 Hb) as Hle.
    apply find_some in P. destruct P as [Pi P]. apply has_prefix_spec in P; [|exact Hle]. destruct P as [t P].
    pose proof (sub_prefix _ _ _ _ P) as Es. unfold c_pos in *. simpl in *. try rewrite Es.
    rewrite Forall_forall in Hcc. pose proof (moved_text w cur ":string:CharClass" s t P (Hcc _ Pi) Hb) as HH.
    simpl in HH. rewrite Es in HH. exact HH.
  - unfold char_classN_fn, ret in E. destruct (existsb _ cc); [inversion E; subst; discriminate|].
    exact (char_moved w ":string:CharClassN" (fun _ => true) 0 cur o E Hm).
  - exact (char_moved w cls' test 0 cur o E Hm).
Qed.

Lemma text_of_app l s l' s' : text_of l s -> text_of l' s' -> text_of (l ++ l') (s ++ s').
Proof. induction 1; simpl; intros; auto; rewrite <- app_assoc; constructor; auto. Qed.

(** C17 *)
Lemma text_kept w e cur cur' l : (forall k, gram text_spec (w_env w k)) -> gram text_spec e ->
  peg w e cur (RSucc cur' l) -> moved w cur cur' l.
Proof.
  intros He Hg H. apply (peg_G w text_spec (moved w)) with (e := e) (r := RSucc cur' l); auto.
  - intros [p len]. apply moved_none.
  - intros a b c l1 l2 H1 H2 Hb. destruct (H1 Hb) as (A1 & A2 & A3). destruct (H2 A2) as (B1 & B2 & B3).
    split; [lia|]. split; auto. rewrite <- (sub_app _ (sp_pos a) (sp_pos b) (sp_pos c)) by lia. apply text_of_app; auto.
  - intros cls fn n cur0 o Hl E Hm. eapply text_leaf_moved; eauto.
  - intros a b l1 H1 Hb. destruct (H1 Hb) as (A1 & A2 & A3). split; auto. split; auto.
    rewrite <- (app_nil_r (sub _ _ _)). constructor; auto. constructor.
  - intros t n c a b l1 l2 Ht H1 E Hb. destruct (H1 Hb) as (A1 & A2 & A3). split; auto. split; auto. destruct Ht as [Ht _]. eapply Ht; eauto.
Qed.

(** C18 *)
Lemma bound_kept w e cur cur' l : (forall k, gram bound_spec (w_env w k)) -> gram bound_spec e ->
  peg w e cur (RSucc cur' l) -> boundary (w_str w) (sp_pos cur) -> boundary (w_str w) (sp_pos cur').
Proof.
  intros He Hg H. apply (peg_G w bound_spec (fun a b _ => boundary (w_str w) (sp_pos a) -> boundary (w_str w) (sp_pos b)))
    with (e := e) (r := RSucc cur' l); auto.
  intros cls fn n cur0 o Hl E Hm Hb. destruct Hl as [ins|cls fn Hl].
  - inversion E; subst. exact Hb.
  - apply (text_leaf_moved w cls fn n cur0 o Hl E Hm Hb).
Qed.

(** Text-preserving library transformers. *)
Lemma text_concat l s : text_of l s -> forall v, concat_loop l = Ok (inr v) -> v = s.
Proof.
  induction 1 as [|op cls v sp l s H IH|]; intros x L; simpl in L.
  - inversion L; auto.
  - destruct (concat_loop l) as [[e|y]|w|] eqn:E; inversion L; subst. f_equal. apply IH; auto.
  - discriminate.
Qed.
Lemma keeps_Concat : keeps_text Concat.
Proof.
  intros n c l l' s H E. unfold Concat, concat_asts in E. destruct l as [|a l].
  - inversion E; subst. inversion H; subst. exact (to_str 0 EmptyString [] sp0 [] [] to_nil).
  - destruct (concat_loop (a :: l)) as [[e|v]|w|] eqn:L; inversion E; subst. clear E.
    assert (v = s) by (eapply text_concat; eauto).
    subst. pose proof (to_str 0 (a_cls a) s (a_sp a) [] [] to_nil) as T. rewrite app_nil_r in T. exact T.
Qed.
Lemma keeps_Grouping : keeps_text GroupingTransform.
Proof. intros n c l l' s H E. inversion E; subst. rewrite <- (app_nil_r s). constructor; auto. constructor. Qed.
Lemma keeps_upd f : (forall a, a_ty (f a) = a_ty a /\ a_val (f a) = a_val a) -> keeps_text (fun _ _ l => tok (upd_first f l)).
Proof.
  intros Hf n c l l' s H E. inversion E; subst. destruct H; simpl; [constructor| |];
  match goal with |- text_of (f ?a :: _) _ => destruct (Hf a) as [F1 F2]; destruct (f a); simpl in *; subst; constructor; auto end.
Qed.
Lemma keeps_SetOpCode op : keeps_text (SetOpCode op). Proof. apply keeps_upd. auto. Qed.
Lemma keeps_ChangeClassName s : keeps_text (ChangeClassName s). Proof. apply keeps_upd. auto. Qed.
Lemma keeps_SetOpCodeAndClassName op s : keeps_text (SetOpCodeAndClassName op s). Proof. apply keeps_upd. auto. Qed.

(** ** C19 *)
(** The bytes of a character: a lead byte, then continuation bytes. *)
Lemma char_bytes r cs : utf8_char r cs -> exists b t, cs = b :: t /\ Forall (fun x => 128 <= x < 192) t /\
  (b < 128 \/ 194 <= b <= 244) /\ ((r < 262144 \/ 786432 <= r < 1048576) -> wb_lead b = true).
Proof.
  destruct 1.
  - exists r, []. repeat split; auto; [left; lia|]. intros _. unfold wb_lead, in_rng. lia.
  - exists (192 + a), [128 + b]. split; auto. split; [repeat constructor; lia|]. split; [lia|]. intros _. unfold wb_lead, in_rng. lia.
  - exists (224 + a), [128 + b; 128 + c]. split; auto. split; [repeat constructor; lia|]. split; [lia|]. intros _. unfold wb_lead, in_rng. lia.
  - exists (240 + a), [128 + b; 128 + c; 128 + d]. split; auto. split; [repeat constructor; lia|].
    split; [lia|]. intros K. unfold wb_lead, in_rng. lia.
Qed.

Lemma find_prev_back str t : forall p, Forall (fun x => 128 <= x < 192) t ->
  (forall i, (i < length t)%nat -> nth (p + i) str 0 = nth i t 0) ->
  find_prev str (p + length t) = find_prev str p.
Proof.
  induction t as [|x t IH] using rev_ind; intros p Ht Hn.
  - simpl. f_equal. lia.
  - apply Forall_app in Ht. destruct Ht as [Ht Hx]. inversion Hx as [|? ? Hx1 _]; subst.
    rewrite app_length in *. simpl in *. replace (p + (length t + 1))%nat with (S (p + length t)) by lia. cbn [find_prev].
    rewrite (Hn (length t)) by lia. rewrite app_nth2, Nat.sub_diag by lia. simpl.
    replace (wb_lead x) with false by (unfold wb_lead, in_rng; lia). apply IH; auto.
    intros i Hi. rewrite Hn by lia. apply app_nth1. lia.
Qed.

Lemma find_prev_char str p t r cs : firstn p str = t ++ cs -> (p <= length str)%nat -> utf8_char r cs ->
  (r < 262144 \/ 786432 <= r < 1048576) ->
  find_prev str p = (r, length cs).
Proof.
  intros E Hp Hc Hr. destruct (char_bytes r cs Hc) as (b & u & Ecs & Hu & Hb & Hw). specialize (Hw Hr).
  assert (Lp : p = (length t + length cs)%nat).
  { apply (f_equal (@length Z)) in E. rewrite firstn_length, app_length in E. lia. }
  assert (Es : str = t ++ cs ++ skipn p str) by (rewrite app_assoc, <- E; symmetry; apply firstn_skipn).
  rewrite Ecs in Lp. simpl in Lp. rewrite Lp. replace (length t + S (length u))%nat with (S (length t) + length u)%nat by lia.
  rewrite find_prev_back; auto.
  - cbn [find_prev]. rewrite Es at 1. rewrite app_nth2, Nat.sub_diag by lia. rewrite Ecs. cbn [app nth]. rewrite Hw.
    rewrite Es. rewrite skipn_app, skipn_all, Nat.sub_diag. cbn [app skipn].
    rewrite (decode_char _ _ _ Hc). rewrite Ecs. reflexivity.
  - intros i Hi. rewrite Es. rewrite app_nth2 by lia. rewrite Ecs. cbn [app].
    replace (S (length t) + i - length t)%nat with (S i) by lia. cbn [nth]. apply app_nth1. auto.
Qed.

Lemma boundary_last s p : boundary s p -> (0 < p)%nat -> exists t r cs, firstn p s = t ++ cs /\ utf8_char r cs.
Proof.
  intros (Hl & [rs H] & _) Hp. assert (Hn : firstn p s <> []) by (intros E; apply (f_equal (@length Z)) in E; rewrite firstn_length in E; simpl in E; lia).
  revert Hn. generalize (firstn p s) as x, H. clear. intros x H. induction H as [|r cs rs s Hc Hs IH]; [congruence|].
  intros _. destruct s as [|b s].
  - exists [], r, cs. rewrite app_nil_r. auto.
  - destruct IH as (t & r' & cs' & E & Hc'); [discriminate|]. exists (cs ++ t), r', cs'. rewrite E, app_assoc. auto.
Qed.
(** The last character is unique. *)
Lemma char_suffix t t' r r' cs cs' : utf8_char r cs -> utf8_char r' cs' -> t ++ cs = t' ++ cs' -> cs = cs'.
Proof.
  intros H H' E. destruct (char_bytes _ _ H) as (b & u & -> & Hu & Hb & _). destruct (char_bytes _ _ H') as (b' & u' & -> & Hu' & Hb' & _).
  assert (forall (u u' : bytes) t t' b b', Forall (fun x => 128 <= x < 192) u -> Forall (fun x => 128 <= x < 192) u' ->
    (b < 128 \/ 194 <= b <= 244) -> (b' < 128 \/ 194 <= b' <= 244) -> t ++ b :: u = t' ++ b' :: u' -> b :: u = b' :: u') as K; [|eauto].
  clear. induction u as [|x u IH] using rev_ind; destruct u' as [|x' u' _] using rev_ind; intros t t' b b' Hu Hu' Hb Hb' E.
  - apply app_inj_tail in E. destruct E as [_ ->]. auto.
  - exfalso. change (t ++ [b] = t' ++ (b' :: u') ++ [x']) in E. rewrite app_assoc in E. apply app_inj_tail in E. destruct E as [_ ->].
    apply Forall_app in Hu'. destruct Hu' as [_ Hx]. inversion Hx; subst. lia.
  - exfalso. change (t ++ (b :: u) ++ [x] = t' ++ [b']) in E. rewrite app_assoc in E. apply app_inj_tail in E. destruct E as [_ ->].
    apply Forall_app in Hu. destruct Hu as [_ Hx]. inversion Hx; subst. lia.
  - change (t ++ (b :: u) ++ [x] = t' ++ (b' :: u') ++ [x']) in E. rewrite !app_assoc in E. apply app_inj_tail in E. destruct E as [E ->].
    apply Forall_app in Hu, Hu'. assert (b :: u = b' :: u') by (eapply IH; eauto; tauto). inversion H; subst. auto.
Qed.

Lemma before_iff W s p t r cs : firstn p s = t ++ cs -> utf8_char r cs -> (before_word W s p <-> W r).
Proof.
  intros E Hc. split; [|intros; exists t, r, cs; auto]. intros (t' & r' & cs' & E' & Hc' & Hw). rewrite E in E'.
  pose proof (char_suffix _ _ _ _ _ _ Hc Hc' E') as ->.
  destruct (char_inj _ _ [] _ _ [] Hc Hc' eq_refl) as (-> & _). auto.
Qed.
Lemma after_iff W s p t r cs : skipn p s = cs ++ t -> utf8_char r cs -> (after_word W s p <-> W r).
Proof.
  intros E Hc. split; [|intros; exists t, r, cs; auto]. intros (t' & r' & cs' & E' & Hc' & Hw). rewrite E in E'.
  destruct (char_inj _ _ _ _ _ _ Hc Hc' E') as (-> & _). auto.
Qed.
Lemma char_not_nil r cs s : utf8_char r cs -> cs ++ s <> [].
Proof. intros H. apply char_len in H. destruct cs; simpl in *; [lia|discriminate]. Qed.

Lemma word_boundary_ok env n cls (word : Z -> bool) (W : Z -> Prop) c : (forall r, word r = true <-> W r) ->
  boundary (c_str c) (c_pos c) -> known_lead (c_str c) (c_pos c) ->
  exists o, run env n (ELight cls (lift (word_boundary_gen word))) c = Ok (o, None) /\ c_st o <> Errored /\
    (c_st o = Matched <->
      (before_word W (c_str c) (c_pos c) /\ ~ after_word W (c_str c) (c_pos c)) \/
      (~ before_word W (c_str c) (c_pos c) /\ after_word W (c_str c) (c_pos c))).
Proof.
  intros HW Hb Hk. unfold run. cbn [denote]. unfold light_base_parser, lift, word_boundary_gen, with_rest. cbv zeta.
  change (c_pos (set_st (set_len c 0) Unmatched)) with (c_pos c). change (c_str (set_st (set_len c 0) Unmatched)) with (c_str c).
  pose proof Hb as (Hl & _ & _). pose proof Hl as Hl'. apply Nat.leb_le in Hl'. rewrite Hl'.
  destruct (decode_rune (skipn (c_pos c) (c_str c))) as [r l] eqn:D.
  (* the next character *)
  assert (A : (l = 0%nat /\ c_pos c = length (c_str c) /\ ~ after_word W (c_str c) (c_pos c)) \/
              (l <> 0%nat /\ c_pos c <> length (c_str c) /\ (after_word W (c_str c) (c_pos c) <-> word r = true))).
  { destruct (Nat.eq_dec l 0) as [Zq|Zq].
    - left. pose proof (decode_zero (skipn (c_pos c) (c_str c))) as Dz. rewrite D in Dz. simpl in Dz. destruct Dz as [Dz _].
      specialize (Dz Zq). split; auto. pose proof (skipn_length (c_pos c) (c_str c)) as L. rewrite Dz in L. simpl in L. split; [lia|].
      intros (t & r' & cs & E & Hc & _). rewrite Dz in E. symmetry in E. revert E. eapply char_not_nil; eauto.
    - right. destruct (boundary_char _ _ _ _ Hb D Zq) as (cs & t & E & Hc & ->). split; auto.
      rewrite (after_iff W _ _ _ _ _ E Hc), HW. split; [|tauto].
      intros F. rewrite F, skipn_all in E. symmetry in E. revert E. eapply char_not_nil; eauto. }
  assert (B : (c_pos c = 0%nat /\ ~ before_word W (c_str c) (c_pos c)) \/
              (c_pos c <> 0%nat /\ exists pr pl, find_prev (c_str c) (c_pos c) = (pr, pl) /\ pl <> 0%nat /\
                 (before_word W (c_str c) (c_pos c) <-> word pr = true))).
  { destruct (Nat.eq_dec (c_pos c) 0) as [Zq|Zq].
    - left. split; auto. intros (t & r' & cs & E & Hc & _). rewrite Zq in E. simpl in E. apply char_len in Hc.
      apply (f_equal (@length Z)) in E. rewrite app_length in E. simpl in E. lia.
    - right. split; auto. destruct (boundary_last _ _ Hb ltac:(lia)) as (t & pr & cs & E & Hc).
      exists pr, (length cs). split; [apply (find_prev_char _ _ t); auto; eapply Hk; eauto|].
      split; [apply char_len in Hc; lia|]. rewrite (before_iff W _ _ _ _ _ E Hc), HW. tauto. }
  destruct B as [[B1 B2]|(B1 & pr & pl & B2 & B3 & B4)].
  - rewrite B1 in *. simpl Nat.eqb. cbv iota. unfold ret.
    destruct A as [(A1 & A2 & A3)|(A1 & A2 & A3)].
    + subst l. simpl. eexists. split; [reflexivity|]. split; [discriminate|]. simpl. split; [discriminate|tauto].
    + destruct l; [congruence|]. simpl. destruct (word r); simpl; eexists; (split; [reflexivity|]); (split; [discriminate|]); simpl.
      * split; auto. intros _. right. tauto.
      * split; [discriminate|]. intros [[? _]|[_ ?]]; [tauto|]. apply A3 in H. discriminate.
  - replace (Nat.eqb (c_pos c) 0) with false by (symmetry; apply Nat.eqb_neq; auto). rewrite B2. unfold ret.
    destruct A as [(A1 & A2 & A3)|(A1 & A2 & A3)].
    + replace (Nat.eqb (c_pos c) (length (c_str c))) with true by (symmetry; apply Nat.eqb_eq; auto). destruct pl; [congruence|]. simpl.
      destruct (word pr); simpl; eexists; (split; [reflexivity|]); (split; [discriminate|]); simpl.
      * split; auto. intros _. left. tauto.
      * split; [discriminate|]. intros [[? _]|[_ ?]]; [|tauto]. apply B4 in H. discriminate.
    + replace (Nat.eqb (c_pos c) (length (c_str c))) with false by (symmetry; apply Nat.eqb_neq; auto).
      replace (Nat.eqb l 0) with false by (symmetry; apply Nat.eqb_neq; auto).
      replace (Nat.eqb pl 0) with false by (symmetry; apply Nat.eqb_neq; auto). simpl.
      destruct (word pr), (word r); simpl; eexists; (split; [reflexivity|]); (split; [discriminate|]); simpl; rewrite A3, B4.
      * split; [discriminate|]. intros [[_ X]|[X _]]; exfalso; apply X; reflexivity.
      * split; [intros _; left; split; auto; discriminate|auto].
      * split; [intros _; right; split; auto; discriminate|auto].
      * split; [discriminate|]. intros [[? _]|[_ ?]]; discriminate.
Qed.

Lemma isWord_spec r : isWord r = true <-> word_char r.
Proof. unfold isWord, word_char, in_rng. lia. Qed.

(** ** C44 *)
Lemma text_leaf_shape cls fn n c o : text_leaf cls fn -> fn n c = Ok (o, None) -> c_st o = Matched ->
  c_stack o = c_stack c \/ exists v cls', c_stack o = c_stack c ++ [mkAst 0 cls' TString (VStr v) (c_sp c)].
Proof.
  assert (K : forall cls f, lift (char_fn cls f) n c = Ok (o, None) -> c_st o = Matched ->
    exists v cls', c_stack o = c_stack c ++ [mkAst 0 cls' TString (VStr v) (c_sp c)]).
  { unfold lift, char_fn, with_rest, ret, push_str. cbn. intros cls0 f E Hm. revert E.
    destruct (Nat.leb _ _); [|discriminate]. destruct (decode_rune _) as [r l].
    destruct (Nat.eqb l 0); [intros E; inversion E; subst; discriminate|].
    destruct (f r); intros E; inversion E; subst; [|discriminate]. cbn. eauto. }
  destruct 1 as [msg| | | | | |s Hs|fold s rs Hf Hs Hi|cc Hcc|cc|cls cls' test]; unfold lift; intros E Hm.
  - discriminate.
  - inversion E; subst. discriminate.
  - unfold start_fn in E. cbn in E. destruct (Nat.eqb (c_pos _) 0); inversion E; subst; auto.
  - unfold end_fn, ret in E. cbn in E. destruct (Nat.eqb (c_pos _) _); inversion E; subst; auto.
  - left. unfold word_boundary_fn, word_boundary_gen, with_rest, ret in E. cbn in E.
    repeat match type of E with
    | context [if ?b then _ else _] => destruct b
    | context [let '(_, _) := ?x in _] => destruct x
    end; inversion E; subst; reflexivity.
  - right. exact (K ":string:Any"%string (fun _ => true) E Hm).
  - right. rewrite seq_fn_spec in E. unfold ret in E. cbn in E. destruct (has_prefix_at _ _ s); inversion E; subst; [|discriminate]. cbn. eauto.
  - right. rewrite seqi_fn_spec in E. unfold ret in E. cbn in E. destruct (Nat.leb (c_pos _ + length s) _ && _); inversion E; subst; [|discriminate]. cbn. eauto.
  - right. unfold char_class_fn, ret in E. rewrite char_class_loop_spec in E. cbn in E. destruct (find _ cc); inversion E; subst; [|discriminate]. cbn. eauto.
  - right. unfold char_classN_fn, ret in E. destruct (existsb _ cc); [inversion E; subst; discriminate|].
    exact (K ":string:CharClassN"%string (fun _ => true) E Hm).
  - right. eapply K; eauto.
Qed.

Lemma laid_app s p l q l' r : laid s p l q -> laid s q l' r -> laid s p (l ++ l') r.
Proof. induction 1; simpl; intros; auto; econstructor; eauto. Qed.
Definition placed (w : world) (a b : srcpos) (l : list ast) : Prop :=
  boundary (w_str w) (sp_pos a) -> boundary (w_str w) (sp_pos b) /\ laid (w_str w) (sp_pos a) l (sp_pos b).
Lemma positions_kept w e cur cur' l : (forall k, gram place_spec (w_env w k)) -> gram place_spec e ->
  peg w e cur (RSucc cur' l) -> placed w cur cur' l.
Proof.
  intros He Hg H. apply (peg_G w place_spec (placed w)) with (e := e) (r := RSucc cur' l); auto.
  - intros a Hb. split; auto. constructor.
  - intros a b c l1 l2 H1 H2 Hb. destruct (H1 Hb) as (A1 & A2). destruct (H2 A1) as (B1 & B2).
    split; auto. eapply laid_app; eauto.
  - intros cls fn n cur0 o Hl E Hm Hb. destruct (text_leaf_moved _ _ _ _ _ _ Hl E Hm Hb) as (A1 & A2 & A3).
    split; auto. destruct (text_leaf_shape _ _ _ _ _ Hl E Hm) as [S|(v & cls' & S)]; rewrite S in *; cbn in *.
    + pose proof (sub_length (w_str w) (sp_pos cur0) (sp_pos (c_sp o))) as L.
      remember (sub (w_str w) (sp_pos cur0) (sp_pos (c_sp o))) as z eqn:Ez. inversion A3; subst z. rewrite <- H1 in L. simpl in L. assert (sp_pos cur0 = sp_pos (c_sp o)) as -> by (destruct A2; try specialize (L ltac:(assumption)); lia). constructor.
    + remember (sub (w_str w) (sp_pos cur0) (sp_pos (c_sp o))) as z eqn:Ez.
      inversion A3 as [|op cl v' sp l0 s0 T|]; subst v' z. inversion T; subst s0. rewrite app_nil_r in *.
      destruct A2 as (A2 & _). destruct cur0 as [p len]. cbn in *.
      pose proof (sub_length (w_str w) p (sp_pos (c_sp o))) as L.
      assert (F : v = sub (w_str w) p (sp_pos (c_sp o))) by auto.
      apply laid_str with (t := skipn (sp_pos (c_sp o)) (w_str w)).
      * rewrite F. unfold sub. rewrite <- (firstn_skipn (sp_pos (c_sp o) - p) (skipn p (w_str w))) at 1. f_equal.
        rewrite skipn_skipn. f_equal. lia.
      * replace (p + length v)%nat with (sp_pos (c_sp o)); [constructor|]. rewrite F, L by lia. lia.
  - intros a b l1 H1 Hb. destruct (H1 Hb) as (A1 & A2). split; auto. econstructor; eauto. constructor.
  - intros t n c a b l1 l2 [].
Qed.

(** Every leaf of both libraries gives its AST the source position it was entered with. *)
Definition tags (c o : ctx) : Prop := exists l, c_stack o = c_stack c ++ l /\ Forall (fun a => a_sp a = c_sp c) l.
Lemma tags_none c o : c_stack o = c_stack c -> tags c o.
Proof. intros E. exists []. rewrite app_nil_r. auto. Qed.
Ltac tags_tac E := repeat (match type of E with
  | context [if ?b then _ else _] => destruct b
  | context [match ?x with (_, _) => _ end] => destruct x
  | context [match ?x with Some _ => _ | None => _ end] => destruct x
  end); inversion E; subst; try (apply tags_none; reflexivity); try discriminate;
  cbn; eexists; (split; [reflexivity|]); auto.
Lemma leaf_tags cls fn n c o : lib_leaf cls fn -> cls <> ":base:Zero"%string -> fn n c = Ok (o, None) -> tags c o.
Proof.
  assert (K : forall cls f, lift (char_fn cls f) n c = Ok (o, None) -> tags c o).
  { unfold lift, char_fn, with_rest, ret, push_str. cbn. intros cls0 f E. tags_tac E. }
  assert (B : base_leaf anyA cls fn -> cls <> ":base:Zero"%string -> fn n c = Ok (o, None) -> tags c o).
  { destruct 1; intros N E; try congruence; unfold lift, error_fn, unmatched_fn, start_fn in E; cbn in E; tags_tac E. }
  intros [H|H] N E.
  - destruct H; auto; unfold lift in E; try solve [eapply K; exact E].
    + exact (K ":string:Any"%string (fun _ => true) E).
    + unfold end_fn, ret in E. cbn in E. tags_tac E.
    + rewrite seq_fn_spec in E. unfold ret in E. cbn in E. tags_tac E.
    + rewrite seqi_fn_spec in E. unfold ret in E. cbn in E. tags_tac E.
    + unfold char_class_fn, ret in E. rewrite char_class_loop_spec in E. cbn in E. tags_tac E.
    + unfold char_classN_fn, ret in E. destruct (existsb _ cc); [inversion E; subst; apply tags_none; reflexivity|].
      exact (K ":string:CharClassN"%string (fun _ => true) E).
    + unfold word_boundary_fn, word_boundary_gen, with_rest, ret in E. cbn in E. tags_tac E.
    + unfold word_boundary_gen, with_rest, ret in E. cbn in E. tags_tac E.
  - destruct H; auto; unfold lift, obj_any_fn, obj_end_fn, obj_seq_fn, obj_class_fn, obj_classN_fn, obj_classFn_fn, with_slice in E; cbn in E; tags_tac E.
Qed.

(** ** From the semantics to the implementation *)
Lemma text_leaf_good cls fn : text_leaf cls fn -> good_leaf fn.
Proof. destruct 1; try solve [auto with leafs]; try apply char_fn_good. apply word_boundary_good. Qed.
Lemma text_leaf0_good cls fn : text_leaf0 cls fn -> good_leaf fn.
Proof. destruct 1; [apply zero_good|eapply text_leaf_good; eauto]. Qed.
Lemma spec_peg g e : (forall cls fn, g_leaf g cls fn -> good_leaf fn) -> (forall t, g_trans g t -> plain_trans t) ->
  (forall a b c d, g_base g a b c d -> False) -> gram g e -> peg_gram e.
Proof.
  intros HL HT HB. apply gram_weaken; simpl; unfold anyZ, anyR, anyI, noBase; auto; try tauto.
Qed.
Lemma run_peg g env e n c o : (forall cls fn, g_leaf g cls fn -> good_leaf fn) -> (forall t, g_trans g t -> plain_trans t) ->
  (forall a b c d, g_base g a b c d -> False) -> (forall k, gram g (env k)) -> gram g e ->
  c_st c = Matched -> run env n e c = Ok (o, None) -> c_st o = Matched ->
  exists l, c_stack o = c_stack c ++ l /\ peg (mkW (c_str c) (c_slice c) (c_tag c) env) e (c_sp c) (RSucc (c_sp o) l).
Proof.
  intros HL HT HB He Hg Hs E Hm. set (w := mkW (c_str c) (c_slice c) (c_tag c) env).
  assert (Pe : peg_env w) by (intros k; eapply spec_peg; eauto).
  assert (Pg : peg_gram e) by (eapply spec_peg; eauto).
  destruct (run_sound w e n c o None Pe Pg (conj (conj eq_refl (conj eq_refl eq_refl)) Hs) E) as (r & Hp & Hr & _).
  destruct r as [cur l| |cur x]; simpl in Hr; decompose [and] Hr; try congruence. subst. eauto.
Qed.

Lemma text_run env e n c o : (forall k, gram text_spec (env k)) -> gram text_spec e ->
  boundary (c_str c) (c_pos c) -> c_st c = Matched -> run env n e c = Ok (o, None) -> c_st o = Matched ->
  (c_pos c <= c_pos o <= length (c_str c))%nat /\
  exists l, c_stack o = c_stack c ++ l /\ text_of l (sub (c_str c) (c_pos c) (c_pos o)).
Proof.
  intros He Hg Hb Hs E Hm. destruct (run_peg text_spec env e n c o) as (l & Hl & Hp); auto.
  - simpl. apply text_leaf_good.
  - simpl. tauto.
  - destruct (text_kept (mkW (c_str c) (c_slice c) (c_tag c) env) _ _ _ _ He Hg Hp Hb) as (A & (B & _) & C). simpl in *.
    split; [split; auto|]. eauto.
Qed.
Lemma bound_run env e n c o : (forall k, gram bound_spec (env k)) -> gram bound_spec e ->
  boundary (c_str c) (c_pos c) -> c_st c = Matched -> run env n e c = Ok (o, None) -> c_st o = Matched ->
  boundary (c_str c) (c_pos o).
Proof.
  intros He Hg Hb Hs E Hm. destruct (run_peg bound_spec env e n c o) as (l & Hl & Hp); auto.
  - simpl. apply text_leaf0_good.
  - exact (bound_kept (mkW (c_str c) (c_slice c) (c_tag c) env) _ _ _ _ He Hg Hp Hb).
Qed.
Lemma place_run env e n c o : (forall k, gram place_spec (env k)) -> gram place_spec e ->
  boundary (c_str c) (c_pos c) -> c_st c = Matched -> run env n e c = Ok (o, None) -> c_st o = Matched ->
  exists l, c_stack o = c_stack c ++ l /\ laid (c_str c) (c_pos c) l (c_pos o).
Proof.
  intros He Hg Hb Hs E Hm. destruct (run_peg place_spec env e n c o) as (l & Hl & Hp); auto.
  - simpl. apply text_leaf_good.
  - simpl. tauto.
  - exists l. split; auto. apply (positions_kept (mkW (c_str c) (c_slice c) (c_tag c) env) _ _ _ _ He Hg Hp Hb).
Qed.

(** Library transformers that keep the text. *)
Lemma text_trans_lib : forall t, In t [Concat; GroupingTransform] \/ (exists o s, t = SetOpCodeAndClassName o s) \/
  (exists o, t = SetOpCode o) \/ (exists s, t = ChangeClassName s) -> keeps_text t /\ plain_trans t.
Proof.
  intros t [[<-|[<-|[]]]|[(o & s & ->)|[(o & ->)|(s & ->)]]].
  - split; [apply keeps_Concat|apply Concat_good].
  - split; [apply keeps_Grouping|apply Grouping_good].
  - split; [apply keeps_SetOpCodeAndClassName|apply SetOpCodeAndClassName_good].
  - split; [apply keeps_SetOpCode|apply SetOpCode_good].
  - split; [apply keeps_ChangeClassName|apply ChangeClassName_good].
Qed.
Ltac text_leaf_tac := first [apply tl_error | apply tl_unmatched | apply tl_start | apply tl_end | apply tl_wb | apply tl_any
  | apply tl_seq | apply tl_class; repeat constructor | apply tl_classN | apply tl_char].
Ltac text_tac := simpl; repeat match goal with
  | |- text_leaf _ _ => text_leaf_tac
  | |- text_leaf0 _ _ => first [apply tl_zero | apply tl_text; text_leaf_tac]
  | |- keeps_text _ /\ plain_trans _ => apply text_trans_lib; simpl; eauto 9
  | |- _ /\ _ => split
  | |- True => exact I
  | |- anyZ _ _ => exact I
  | |- anyR _ _ => exact I
  | |- anyI _ => exact I
  end.
Lemma ascii_text s : Forall (fun b => 0 <= b < 128) s -> valid_text s.
Proof.
  induction 1 as [|b s Hb Hs [rs IH]]; [exists []; constructor|]. exists (b :: rs). change (b :: s) with ([b] ++ s). constructor; auto. constructor. lia.
Qed.
