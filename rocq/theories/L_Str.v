(** Proofs about the string leaf parsers (C15, C16, C19, C44). *)
From Verif Require Export S_Str L_LeafInv L_PegComp.

Lemma orb_iff a b (P Q : Prop) : (a = true <-> P) -> (b = true <-> Q) -> (a || b = true <-> P \/ Q).
Proof. intros H1 H2. rewrite orb_true_iff. tauto. Qed.

Lemma next_func s r l r' l' : Forall is_byte s -> next_char s r l -> next_char s r' l' -> r = r' /\ l = l'.
Proof. intros Hb H1 H2. apply next_decode in H1; auto. apply next_decode in H2; auto. rewrite H1 in H2. inversion H2; auto. Qed.
Lemma next_scalar s r l : next_char s r l -> scalar r.
Proof. unfold scalar. destruct 1; try lia. eapply char_scalar; eauto. Qed.

Lemma Forall_skipn' {A} (P : A -> Prop) n l : Forall P l -> Forall P (skipn n l).
Proof. intros H. rewrite <- (firstn_skipn n l) in H. apply Forall_app in H. tauto. Qed.

(** The generic character parser. *)
Definition okchar (e : pexp) (cls : string) (P : Z -> Prop) : Prop :=
  forall env n c, Forall is_byte (c_str c) -> (c_pos c <= length (c_str c))%nat ->
  exists o, run env n e c = Ok (o, None) /\
    (takes_char cls P c o \/ (no_char P c /\ takes_nothing c o)).

Lemma char_ok cls test (P : Z -> Prop) : (forall r, test r = true <-> P r) ->
  okchar (ELight cls (lift (char_fn cls test))) cls P.
Proof.
  intros HP env n c Hb Hp. unfold run. cbn [denote]. unfold light_base_parser, lift, char_fn, with_rest.
  cbn [set_st c_pos c_str c_sp]. apply Nat.leb_le in Hp.
  change (c_pos (set_st c Unmatched)) with (c_pos c). rewrite Hp.
  destruct (decode_rune (skipn (c_pos c) (c_str c))) as [r l] eqn:E.
  assert (Hn : next_char (skipn (c_pos c) (c_str c)) r l) by (apply decode_next; auto using Forall_skipn').
  destruct (Nat.eqb l 0) eqn:El; [|destruct (test r) eqn:Et]; unfold ret; cbn; eexists; (split; [reflexivity|]).
  - right. apply Nat.eqb_eq in El. subst. split; [|repeat split].
    intros r' l' H'. destruct (next_func _ _ _ _ _ (Forall_skipn' _ _ _ Hb) Hn H'). auto.
  - left. apply Nat.eqb_neq in El. exists r, l, (encode_rune r). split; [exact Hn|].
    split; [lia|]. split; [apply HP; auto|]. split; [apply encode_valid; eapply next_scalar; eauto|].
    repeat split.
  - right. split; [|repeat split]. intros r' l' H'.
    destruct (next_func _ _ _ _ _ (Forall_skipn' _ _ _ Hb) Hn H') as [<- <-]. right. rewrite <- HP. congruence.
Qed.
Lemma any_is_char c : any_fn c = char_fn ":string:Any" (fun _ => true) c.
Proof. reflexivity. Qed.

Lemma char_sets e cls P : char_set e cls P -> okchar e cls P.
Proof.
  destruct 1; try apply char_ok.
  - intros env n c Hb Hp. destruct (char_ok ":string:Any" (fun _ => true) (fun _ => True) ltac:(tauto) env n c Hb Hp) as (o & E & H).
    exists o. split; auto.
  - intros r. rewrite existsb_exists. unfold in_range. split; intros (x & Hi & H); exists x; (split; [auto|]); lia.
  - intros r. rewrite negb_true_iff. rewrite <- not_true_iff_false, existsb_exists. unfold in_range. split.
    + intros H x Hi Hx. apply H. exists x. split; auto. lia.
    + intros H (x & Hi & Hx). apply (H x Hi). lia.
  - tauto.
  - intros r. unfold isWhitespace. simpl. lia.
  - intros r. unfold isWhitespaceNoLineBreak. simpl. lia.
  - intros r. unfold isLineBreak. simpl. lia.
  - intros r. unfold is_alpha, in_rng. lia.
  - intros r. unfold is_digit, in_rng. lia.
  - intros r. unfold in_rng. lia.
  - intros r. unfold in_rng. lia.
  - intros r. unfold in_rng. lia.
  - intros r. unfold is_hex, in_rng. lia.
Qed.

(** ** C16 *)
Lemma bytes_eqb_eq a : forall b, bytes_eqb a b = true <-> a = b.
Proof.
  induction a as [|x a IH]; destruct b as [|y b]; simpl; try (split; congruence).
  rewrite andb_true_iff, IH, Z.eqb_eq. split; [intros []; congruence|inversion 1; auto].
Qed.
Lemma has_prefix_spec str pos s : (pos <= length str)%nat ->
  (has_prefix_at str pos s = true <-> exists t, skipn pos str = s ++ t).
Proof.
  intros Hp. unfold has_prefix_at, sub. rewrite andb_true_iff, bytes_eqb_eq, Nat.leb_le.
  replace (pos + length s - pos)%nat with (length s) by lia. split.
  - intros [H1 H2]. exists (skipn (length s) (skipn pos str)). rewrite <- H2 at 1. symmetry. apply firstn_skipn.
  - intros [t H]. split.
    + pose proof (skipn_length pos str). rewrite H, app_length in *. lia.
    + rewrite H. rewrite firstn_app, Nat.sub_diag, firstn_all. simpl. apply app_nil_r.
Qed.
Lemma has_prefix_sub str pos s : has_prefix_at str pos s = true -> sub str pos (pos + length s) = s.
Proof. unfold has_prefix_at. intros H. apply andb_prop in H. apply bytes_eqb_eq. tauto. Qed.

Lemma seq_fn_spec s c : seq_fn s c =
  ret (let c := set_st c Unmatched in
       if has_prefix_at (c_str c) (c_pos c) s then push_str ":string:Seq" c s (length s) else c).
Proof.
  unfold seq_fn, has_prefix_at. cbv zeta. destruct (Nat.leb _ _); simpl; auto.
  destruct (bytes_eqb _ s) eqn:E; auto. apply bytes_eqb_eq in E. rewrite E. reflexivity.
Qed.

Lemma seq_ok env n s c : (c_pos c <= length (c_str c))%nat ->
  exists o, run env n (SSeq s) c = Ok (o, None) /\
    (takes_text ":string:Seq" s c o \/ (~ continues c s /\ takes_nothing c o)).
Proof.
  intros Hp. unfold run. cbn [denote SSeq]. unfold light_base_parser, lift. rewrite seq_fn_spec. cbv zeta. cbn.
  change (c_pos (set_st c Unmatched)) with (c_pos c).
  destruct (has_prefix_at (c_str c) (c_pos c) s) eqn:E; cbn; eexists; (split; [reflexivity|]).
  - left. apply has_prefix_spec in E; auto. repeat split; auto.
  - right. split; [|repeat split]. intros H. apply has_prefix_spec in H; auto. congruence.
Qed.

Lemma class_ok env n cc c : (c_pos c <= length (c_str c))%nat ->
  exists o, run env n (SCharClass cc) c = Ok (o, None) /\
    ((exists pre s post, cc = pre ++ s :: post /\ Forall (fun x => ~ continues c x) pre /\
        takes_text ":string:CharClass" s c o) \/
     (Forall (fun x => ~ continues c x) cc /\ takes_nothing c o)).
Proof.
  intros Hp. unfold run. cbn [denote SCharClass]. unfold light_base_parser, lift, char_class_fn, ret. cbv beta iota.
  assert (H : forall cc, (exists pre s post, cc = pre ++ s :: post /\ Forall (fun x => ~ continues c x) pre /\ continues c s /\
      char_class_loop cc (set_st c Unmatched) = push_str ":string:CharClass" (set_st c Unmatched) s (length s)) \/
      (Forall (fun x => ~ continues c x) cc /\ char_class_loop cc (set_st c Unmatched) = set_st c Unmatched)).
  { clear cc. induction cc as [|s cc IH]; [right; split; auto|]. cbn [char_class_loop].
    change (c_str (set_st c Unmatched)) with (c_str c). change (c_pos (set_st c Unmatched)) with (c_pos c).
    destruct (has_prefix_at (c_str c) (c_pos c) s) eqn:E.
    - left. exists [], s, cc. split; auto. split; auto. split; [apply has_prefix_spec; auto|].
      rewrite (has_prefix_sub _ _ _ E). reflexivity.
    - assert (~ continues c s) by (intros H; apply has_prefix_spec in H; auto; congruence).
      destruct IH as [(pre & s' & post & -> & H1 & H2 & H3)|[H1 H2]].
      + left. exists (s :: pre), s', post. auto.
      + right. auto. }
  destruct (H cc) as [(pre & s & post & -> & H1 & H2 & H3)|[H1 H2]].
  - rewrite H3. cbn. eexists. split; [reflexivity|]. left. exists pre, s, post. repeat split; auto.
  - rewrite H2. cbn. eexists. split; [reflexivity|]. right. repeat split; auto.
Qed.

Lemma classN_ok env n cc c : Forall is_byte (c_str c) -> (c_pos c <= length (c_str c))%nat ->
  exists o, run env n (SCharClassN cc) c = Ok (o, None) /\
    ((Forall (fun x => ~ continues c x) cc /\ takes_char ":string:CharClassN" (fun _ => True) c o) \/
     ((Exists (continues c) cc \/ c_pos c = length (c_str c)) /\ takes_nothing c o)).
Proof.
  intros Hb Hp. unfold run. cbn [denote SCharClassN]. unfold light_base_parser, lift, char_classN_fn, ret. cbv zeta.
  change (c_str (set_st c Unmatched)) with (c_str c). change (c_pos (set_st c Unmatched)) with (c_pos c).
  destruct (existsb (has_prefix_at (c_str c) (c_pos c)) cc) eqn:E.
  - cbn. eexists. split; [reflexivity|]. right. split; [|repeat split]. left. apply existsb_exists in E.
    destruct E as (x & Hi & Hx). apply Exists_exists. exists x. split; auto. apply has_prefix_spec; auto.
  - assert (Hno : Forall (fun x => ~ continues c x) cc).
    { apply Forall_forall. intros x Hi Hx. apply has_prefix_spec in Hx; auto.
      rewrite <- not_true_iff_false in E. apply E. apply existsb_exists. eauto. }
    destruct (char_ok ":string:CharClassN" (fun _ => true) (fun _ => True) ltac:(tauto) env n c Hb Hp) as (o & Ho & H).
    exists o. split; [exact Ho|]. destruct H as [H|[H1 H2]]; auto. right. split; auto. right.
    destruct (decode_rune (skipn (c_pos c) (c_str c))) as [r l] eqn:Ed.
    destruct (H1 r l) as [->|[]]; auto; [apply decode_next; auto using Forall_skipn'|].
    pose proof (decode_zero (skipn (c_pos c) (c_str c))) as D. rewrite Ed in D. simpl in D. destruct D as [D _].
    specialize (D eq_refl). pose proof (skipn_length (c_pos c) (c_str c)). rewrite D in H. simpl in H. lia.
Qed.

(** Case folding. *)
Lemma fold_eq_spec fold a b : scalar a -> scalar b -> (rune_fold_eq fold a b = true <-> same_letter fold a b).
Proof.
  unfold scalar, rune_fold_eq, same_letter, letter, ascii_lower, in_rng. intros Ha Hb.
  destruct ((a <? 128) && (b <? 128)) eqn:E.
  - destruct ((65 <=? a) && (a <=? 90)) eqn:E1; destruct ((65 <=? b) && (b <=? 90)) eqn:E2; split; intros H; try lia;
    destruct (a =? b) eqn:E3; simpl in *; try lia.
  - rewrite orb_true_iff. split.
    + intros [H|H]; [left; lia|right; right; split; [lia|auto]].
    + intros [H|[H|[_ H]]]; [left; lia|lia|auto].
Qed.
Lemma chars_func s rs : chars s rs -> Forall is_byte s -> forall rs', chars s rs' -> rs = rs'.
Proof.
  induction 1 as [|s r l rs Hn Hl Hc IH]; intros Hb rs' H'.
  - inversion H' as [|s r l rs Hn Hl]; subst; auto. inversion Hn; subst; try lia.
    apply char_len in H1. destruct cs; simpl in *; [lia|discriminate].
  - inversion H' as [|s' r' l' rs2 Hn' Hl' Hc']; subst.
    + inversion Hn; subst; try lia. apply char_len in H0. destruct cs; simpl in *; [lia|discriminate].
    + destruct (next_func _ _ _ _ _ Hb Hn Hn') as [<- <-]. f_equal. apply IH; auto using Forall_skipn'.
Qed.
Lemma chars_nil_inv rs : chars [] rs -> rs = [].
Proof. intros H. symmetry. eapply (chars_func [] []); eauto; constructor. Qed.
Lemma chars_cons_inv s rs : s <> [] -> chars s rs ->
  exists r l rs', rs = r :: rs' /\ next_char s r l /\ (0 < l)%nat /\ chars (skipn l s) rs'.
Proof. intros Hn H. destruct H; [congruence|]. eauto 8. Qed.

Lemma equal_fold_spec fold : forall n s t, Forall is_byte s -> Forall is_byte t -> (length s <= n)%nat ->
  (equal_fold fold n s t = true <-> exists rs rt, chars s rs /\ chars t rt /\ Forall2 (same_letter fold) rs rt).
Proof.
  induction n as [|n IH]; intros s t Hs Ht Hl.
  - destruct s; simpl in Hl; [|lia]. simpl. destruct t.
    + split; auto. intros _. exists [], []. repeat constructor.
    + split; [discriminate|]. intros (rs & rt & H1 & H2 & H3). apply chars_nil_inv in H1. subst.
      inversion H3; subst. apply chars_cons_inv in H2; [|discriminate]. destruct H2 as (? & ? & ? & ? & _). discriminate.
  - destruct s as [|b s].
    { destruct t; simpl.
      - split; auto. intros _. exists [], []. repeat constructor.
      - split; [discriminate|]. intros (rs & rt & H1 & H2 & H3). apply chars_nil_inv in H1. subst.
        inversion H3; subst. apply chars_cons_inv in H2; [|discriminate]. destruct H2 as (? & ? & ? & ? & _). discriminate. }
    destruct t as [|b' t].
    { simpl. split; [discriminate|]. intros (rs & rt & H1 & H2 & H3). apply chars_nil_inv in H2. subst.
      inversion H3; subst. apply chars_cons_inv in H1; [|discriminate]. destruct H1 as (? & ? & ? & ? & _). discriminate. }
    assert (Nb : b :: s <> []) by discriminate. assert (Nt : b' :: t <> []) by discriminate.
    change (equal_fold fold (S n) (b :: s) (b' :: t)) with
      (let '(sr, sn) := decode_rune (b :: s) in let '(tr, tn) := decode_rune (b' :: t) in
       rune_fold_eq fold sr tr && equal_fold fold n (skipn sn (b :: s)) (skipn tn (b' :: t))).
    set (s1 := b :: s) in *. set (t1 := b' :: t) in *. clearbody s1 t1.
    destruct (decode_rune s1) as [sr sn] eqn:Es. destruct (decode_rune t1) as [tr tn] eqn:Et.
    assert (Zs : sn <> 0%nat) by (pose proof (decode_zero s1) as D; rewrite Es in D; simpl in D; tauto).
    assert (Zt : tn <> 0%nat) by (pose proof (decode_zero t1) as D; rewrite Et in D; simpl in D; tauto).
    apply decode_next in Es; auto. apply decode_next in Et; auto.
    rewrite andb_true_iff, (fold_eq_spec fold sr tr) by (eapply next_scalar; eauto).
    rewrite IH; auto using Forall_skipn'; [|rewrite skipn_length; lia]. split.
    + intros (H1 & rs & rt & H2 & H3 & H4). exists (sr :: rs), (tr :: rt).
      split; [econstructor; eauto; lia|]. split; [econstructor; eauto; lia|]. constructor; auto.
    + intros (rs & rt & H2 & H3 & H4). apply chars_cons_inv in H2; auto. apply chars_cons_inv in H3; auto.
      destruct H2 as (r & l & rs' & -> & A1 & A2 & A3). destruct H3 as (r2 & l2 & rt' & -> & B1 & B2 & B3).
      destruct (next_func _ _ _ _ _ Hs A1 Es) as [-> ->]. destruct (next_func _ _ _ _ _ Ht B1 Et) as [-> ->].
      inversion H4; subst. split; auto. exists rs', rt'. auto.
Qed.

Lemma seqi_fn_spec fold s c : seqi_fn fold s c =
  ret (let c := set_st c Unmatched in
       let w := sub (c_str c) (c_pos c) (c_pos c + length s) in
       if Nat.leb (c_pos c + length s) (length (c_str c)) && equal_fold fold (length s) w s
       then push_str ":string:SeqI" c w (length s) else c).
Proof. unfold seqi_fn. cbv zeta. destruct (Nat.leb _ _); simpl; auto. destruct (equal_fold _ _ _ s); auto. Qed.
Lemma sub_length {A} (s : list A) i j : (j <= length s)%nat -> length (sub s i j) = (j - i)%nat.
Proof. intros H. unfold sub. rewrite firstn_length, skipn_length. lia. Qed.
Lemma sub_continues c l : (c_pos c + l <= length (c_str c))%nat -> continues c (sub (c_str c) (c_pos c) (c_pos c + l)).
Proof.
  intros H. exists (skipn l (skipn (c_pos c) (c_str c))). unfold sub. replace (c_pos c + l - c_pos c)%nat with l by lia.
  symmetry. apply firstn_skipn.
Qed.

Lemma seqi_ok env n fold s c : Forall is_byte (c_str c) -> Forall is_byte s -> (c_pos c <= length (c_str c))%nat ->
  exists o, run env n (SSeqI fold s) c = Ok (o, None) /\
    ((exists w rs rt, length w = length s /\ chars w rs /\ chars s rt /\ Forall2 (same_letter fold) rs rt /\
        takes_text ":string:SeqI" w c o) \/
     ((forall w rs rt, continues c w -> length w = length s -> chars w rs -> chars s rt -> ~ Forall2 (same_letter fold) rs rt) /\
      takes_nothing c o)).
Proof.
  intros Hb Hs Hp. unfold run. cbn [denote SSeqI]. unfold light_base_parser, lift. rewrite seqi_fn_spec. unfold ret. cbv zeta. cbn.
  change (c_pos (set_st c Unmatched)) with (c_pos c).
  destruct (Nat.leb (c_pos c + length s) (length (c_str c))) eqn:El; simpl.
  - apply Nat.leb_le in El. set (w := sub (c_str c) (c_pos c) (c_pos c + length s)) in *.
    assert (Lw : length w = length s) by (unfold w; rewrite sub_length; lia).
    assert (Cw : continues c w) by (apply sub_continues; auto).
    assert (Bw : Forall is_byte w) by (destruct Cw as [t Ht]; pose proof (Forall_skipn' _ (c_pos c) _ Hb) as F; rewrite Ht in F; apply Forall_app in F; tauto).
    pose proof (equal_fold_spec fold (length s) w s Bw Hs ltac:(lia)) as Hf.
    destruct (equal_fold fold (length s) w s); cbn; eexists; (split; [reflexivity|]).
    + left. destruct Hf as [Hf _]. destruct (Hf eq_refl) as (rs & rt & H1 & H2 & H3).
      exists w, rs, rt. split; [exact Lw|]. repeat split; auto.
      unfold takes_text, c_pos. simpl. rewrite Lw. reflexivity.
    + right. split; [|repeat split]. intros w' rs rt [t Ht] Lw' C1 C2 F. destruct Cw as [t' Ht'].
      assert (w' = w). { rewrite Ht in Ht'. apply (f_equal (firstn (length s))) in Ht'.
        rewrite <- Lw' in Ht' at 1. rewrite firstn_len_app in Ht'. rewrite <- Lw in Ht'. rewrite firstn_len_app in Ht'. auto. }
      subst w'. destruct Hf as [_ Hf]. assert (false = true) by (apply Hf; eauto). discriminate.
  - apply Nat.leb_gt in El. eexists. split; [reflexivity|]. right. split; [|repeat split].
    intros w rs rt [t Ht] Lw _ _ _. pose proof (skipn_length (c_pos c) (c_str c)) as L. rewrite Ht, app_length in L. lia.
Qed.
