(** Grammars that recognise a language: compositional proofs over [peg]. *)
From Verif Require Export S_Lang S_Trans L_Str L_Trans L_Text.

(** Two words that start the same text are equally long. *)
Definition prefix_code (R : tlang) : Prop := forall w o w' o' t t', R w o -> R w' o' -> w ++ t = w' ++ t' -> length w = length w'.
Definition nonempty (R : tlang) : Prop := forall w o, R w o -> w <> [].
(** Following [R1] by a non-empty word of [R2] leaves no longer word of [R1]. *)
Definition sharp (R1 R2 : tlang) : Prop := forall w1 o1 w2 o2 w1' o1' t t',
  R1 w1 o1 -> R2 w2 o2 -> w2 <> [] -> R1 w1' o1' -> w1 ++ w2 ++ t = w1' ++ t' -> (length w1' <= length w1)%nat.
Definition prefer (R1 R2 : tlang) : Prop := forall w1 o1 w2 o2 t t',
  R1 w1 o1 -> R2 w2 o2 -> w1 ++ t = w2 ++ t' -> (length w2 <= length w1)%nat.

Definition good (w : world) (cur : srcpos) : Prop := Forall is_byte (w_str w) /\ (sp_pos cur <= length (w_str w))%nat.
Definition rest_of (w : world) (cur : srcpos) : bytes := skipn (sp_pos cur) (w_str w).
Definition yields (R : tlang) (w : world) (cur cur' : srcpos) (l : list ast) : Prop :=
  exists x o ss, longest R (rest_of w cur) x o /\ sp_pos cur' = (sp_pos cur + length x)%nat /\
    Forall2 string_ast l ss /\ concat ss = o.
Definition lang (e : pexp) (R : tlang) : Prop := forall w cur, good w cur ->
  (exists cur' l, peg w e cur (RSucc cur' l) /\ yields R w cur cur' l) \/
  (peg w e cur RFail /\ no_word R (rest_of w cur)).
Definition langs (es : list pexp) (R : tlang) : Prop := forall w cur, good w cur ->
  (exists cur' l, pegs w es cur (RSucc cur' l) /\ yields R w cur cur' l) \/
  (pegs w es cur RFail /\ no_word R (rest_of w cur)).
Definition langc (es : list pexp) (R : tlang) : Prop := forall w cur, good w cur ->
  (exists cur' l, pegc w es cur (RSucc cur' l) /\ yields R w cur cur' l) \/
  (pegc w es cur RFail /\ no_word R (rest_of w cur)).

Lemma app_len_eq {A} (a b c d : list A) : a ++ b = c ++ d -> length a = length c -> a = c /\ b = d.
Proof.
  revert c. induction a as [|x a IH]; intros [|y c] H L; simpl in *; try discriminate; auto.
  inversion H; subst. destruct (IH c); auto. subst. auto.
Qed.
Lemma rest_step w cur cur' x t : good w cur -> rest_of w cur = x ++ t -> sp_pos cur' = (sp_pos cur + length x)%nat ->
  good w cur' /\ rest_of w cur' = t.
Proof.
  intros [G1 G2] E P. unfold rest_of in *.
  assert (L : (length (w_str w) - sp_pos cur = length x + length t)%nat).
  { pose proof (f_equal (@length Z) E) as L. rewrite skipn_length, app_length in L. exact L. }
  split; [split; auto; lia|]. rewrite P.
  rewrite <- skipn_skipn, E.
  rewrite skipn_app, skipn_all, Nat.sub_diag. reflexivity.
Qed.
Lemma longest_ext R R' rest x o : (forall w o, R w o <-> R' w o) -> longest R rest x o -> longest R' rest x o.
Proof. intros H (A & B & C). split; auto. split; [apply H; auto|]. intros w' o' t' E H'. eapply C; eauto. apply H. eauto. Qed.
Lemma no_word_ext R R' rest : (forall w o, R w o <-> R' w o) -> no_word R rest -> no_word R' rest.
Proof. intros H N w o t E H'. apply (N w o t E). apply H. auto. Qed.
Lemma lang_ext e R R' : (forall w o, R w o <-> R' w o) -> lang e R -> lang e R'.
Proof.
  intros H L w cur G. destruct (L w cur G) as [(cur' & l & P & x & o & ss & Y1 & Y2)|[P N]].
  - left. exists cur', l. split; auto. exists x, o, ss. split; auto. eapply longest_ext; eauto.
  - right. split; auto. eapply no_word_ext; eauto.
Qed.
Lemma langs_ext es R R' : (forall w o, R w o <-> R' w o) -> langs es R -> langs es R'.
Proof.
  intros H L w cur G. destruct (L w cur G) as [(cur' & l & P & x & o & ss & Y1 & Y2)|[P N]].
  - left. exists cur', l. split; auto. exists x, o, ss. split; auto. eapply longest_ext; eauto.
  - right. split; auto. eapply no_word_ext; eauto.
Qed.

(** Sequences. *)
Lemma langs_nil : langs [] (insL []).
Proof.
  intros w cur G. left. exists cur, []. split; [constructor|]. exists [], [], []. split; [|repeat split; auto].
  split; [exists (rest_of w cur); auto|]. split; [split; auto|]. intros w' o' t' _ [-> _]. auto.
Qed.
Lemma langs_cons e es R1 R2 : lang e R1 -> langs es R2 -> sharp R1 R2 -> langs (e :: es) (seqL R1 R2).
Proof.
  intros L1 L2 Sh w cur G. destruct (L1 w cur G) as [(cur1 & l1 & P1 & x1 & o1 & ss1 & (T1 & H1 & M1) & Q1 & F1 & C1)|[P N]].
  - destruct T1 as [t1 T1]. destruct (rest_step w cur cur1 x1 t1 G T1 Q1) as [G1 E1].
    destruct (L2 w cur1 G1) as [(cur2 & l2 & P2 & x2 & o2 & ss2 & (T2 & H2 & M2) & Q2 & F2 & C2)|[P N]].
    + left. exists cur2, (l1 ++ l2). split; [eapply S_Peg.seq_ok; eauto|]. exists (x1 ++ x2), (o1 ++ o2), (ss1 ++ ss2).
      destruct T2 as [t2 T2]. rewrite E1 in T2, M2. split; [|split; [rewrite app_length; lia|split; [apply Forall2_app; auto|rewrite concat_app, C1, C2; auto]]].
      split; [exists t2; rewrite T1, T2, app_assoc; auto|]. split; [exists x1, o1, x2, o2; auto|].
      intros w' o' t' E (w1 & p1 & w2 & p2 & -> & -> & K1 & K2). rewrite !app_length.
      assert (A : (length w1 <= length x1)%nat) by (eapply M1; [|exact K1]; rewrite E, <- app_assoc; reflexivity).
      destruct (list_eq_dec Z.eq_dec w2 []) as [->|Hn]; [simpl; lia|].
      assert (B : (length x1 <= length w1)%nat).
      { eapply Sh; [exact K1|exact K2|exact Hn|exact H1|]. rewrite <- T1, E, <- app_assoc. reflexivity. }
      assert (E' : w1 ++ (w2 ++ t') = x1 ++ t1) by (rewrite <- T1, E, <- app_assoc; auto).
      destruct (app_len_eq _ _ _ _ E' ltac:(lia)) as [-> E2]. pose proof (M2 w2 p2 t' (eq_sym E2) K2). lia.
    + right. split; [eapply seq_fail_later; eauto|]. intros w' o' t' E (w1 & p1 & w2 & p2 & -> & -> & K1 & K2).
      destruct (list_eq_dec Z.eq_dec w2 []) as [->|Hn].
      { eapply (N [] p2 (rest_of w cur1)); auto. }
      assert (E' : w1 ++ (w2 ++ t') = x1 ++ t1) by (rewrite <- T1, E, <- app_assoc; auto).
      assert (A : (length w1 <= length x1)%nat) by (eapply M1; [|exact K1]; rewrite E, <- app_assoc; reflexivity).
      assert (B : (length x1 <= length w1)%nat) by (eapply Sh; eauto).
      destruct (app_len_eq _ _ _ _ E' ltac:(lia)) as [-> E2]. rewrite E1 in N. apply (N w2 p2 t' (eq_sym E2) K2).
  - right. split; [apply seq_fail; auto|]. intros w' o' t' E (w1 & p1 & w2 & p2 & -> & -> & K1 & K2).
    apply (N w1 p1 (w2 ++ t')); auto. rewrite E, <- app_assoc. auto.
Qed.
Lemma lang_flat es R : langs es R -> lang (EFlatGroup es) R.
Proof.
  intros L w cur G. destruct (L w cur G) as [(cur' & l & P & Y)|[P N]].
  - left. exists cur', l. split; auto. constructor. auto.
  - right. split; auto. constructor. auto.
Qed.
Lemma langs_one e R : lang e R -> langs [e] R.
Proof.
  intros L w cur G. destruct (L w cur G) as [(cur' & l & P & Y)|[P N]].
  - left. exists cur', (l ++ []). split; [eapply S_Peg.seq_ok; [eauto|constructor]|]. rewrite app_nil_r. auto.
  - right. split; auto. apply seq_fail. auto.
Qed.
(** Ordered choice. *)
Lemma langc_nil : langc [] noneL.
Proof. intros w cur G. right. split; [constructor|]. intros x o t _ []. Qed.
Lemma langc_cons e es R1 R2 : lang e R1 -> langc es R2 -> prefer R1 R2 -> langc (e :: es) (altL R1 R2).
Proof.
  intros L1 L2 Pf w cur G. destruct (L1 w cur G) as [(cur1 & l1 & P1 & x1 & o1 & ss1 & (T1 & H1 & M1) & Y)|[P N]].
  - left. exists cur1, l1. split; [apply ch_ok; auto|]. exists x1, o1, ss1. split; auto. split; auto. split; [left; auto|].
    intros w' o' t' E [K|K]; [eapply M1; eauto|]. destruct T1 as [t1 T1]. eapply Pf; [exact H1|exact K|]. rewrite <- T1. eauto.
  - destruct (L2 w cur G) as [(cur2 & l2 & P2 & x2 & o2 & ss2 & (T2 & H2 & M2) & Y)|[P2 N2]].
    + left. exists cur2, l2. split; [apply ch_next; auto|]. exists x2, o2, ss2. split; auto. split; auto. split; [right; auto|].
      intros w' o' t' E [K|K]; [exfalso; eapply N; eauto|eapply M2; eauto].
    + right. split; [apply ch_next; auto|]. intros w' o' t' E [K|K]; [eapply N; eauto|eapply N2; eauto].
Qed.
Lemma lang_first e es R : langc (e :: es) R -> lang (EFirst (e :: es)) R.
Proof.
  intros L w cur G. destruct (L w cur G) as [(cur' & l & P & Y)|[P N]].
  - left. exists cur', l. split; auto. constructor. auto.
  - right. split; auto. constructor. auto.
Qed.
Lemma alt_none R : forall w o, altL R noneL w o <-> R w o.
Proof. intros. split; [intros [H|[]]; auto|left; auto]. Qed.
Lemma lang_first1 e R : lang e R -> lang (EFirst [e]) R.
Proof.
  intros L. eapply lang_ext; [apply alt_none|]. apply lang_first. apply langc_cons; [auto|apply langc_nil|].
  intros ? ? ? ? ? ? _ [].
Qed.
Lemma lang_first2 e1 e2 R1 R2 : lang e1 R1 -> lang e2 R2 -> prefer R1 R2 -> lang (EFirst [e1; e2]) (altL R1 R2).
Proof.
  intros L1 L2 P. eapply lang_ext with (R := altL R1 (altL R2 noneL)).
  - intros. unfold altL, noneL. tauto.
  - apply lang_first. apply langc_cons; auto. + apply langc_cons; auto; [apply langc_nil|]. intros ? ? ? ? ? ? _ [].
    + intros ? ? ? ? ? ? H [K|[]]. eapply P; eauto.
Qed.
Lemma lang_first3 e1 e2 e3 R1 R2 R3 : lang e1 R1 -> lang e2 R2 -> lang e3 R3 -> prefer R1 R2 -> prefer R1 R3 -> prefer R2 R3 ->
  lang (EFirst [e1; e2; e3]) (altL R1 (altL R2 R3)).
Proof.
  intros L1 L2 L3 P12 P13 P23. eapply lang_ext with (R := altL R1 (altL R2 (altL R3 noneL))).
  - intros. unfold altL, noneL. tauto.
  - apply lang_first. apply langc_cons; auto.
    + apply langc_cons; auto. * apply langc_cons; auto; [apply langc_nil|]. intros ? ? ? ? ? ? _ [].
      * intros ? ? ? ? ? ? H [K|[]]. eapply P23; eauto.
    + intros ? ? ? ? ? ? H [K|[K|[]]]; [eapply P12; eauto|eapply P13; eauto].
Qed.
(** Repetition. *)
Lemma powL_prefix R k : prefix_code R -> forall w o j w' o' t t', powL R k w o -> powL R j w' o' -> (j <= k)%nat ->
  w ++ t = w' ++ t' -> exists w2, w = w' ++ w2.
Proof.
  intros C. induction k as [|k IH]; intros w o j w' o' t t' H H' Hj E.
  - assert (j = 0)%nat by lia. subst. destruct H as [-> _], H' as [-> _]. exists []. auto.
  - destruct j as [|j]. { destruct H' as [-> _]. exists w. auto. }
    destruct H as (w1 & o1 & w2 & o2 & -> & -> & K1 & K2). destruct H' as (v1 & p1 & v2 & p2 & -> & -> & J1 & J2).
    rewrite <- !app_assoc in E. pose proof (C _ _ _ _ _ _ K1 J1 E) as L. destruct (app_len_eq _ _ _ _ E L) as [-> E2].
    destruct (IH w2 o2 j v2 p2 t t' K2 J2 ltac:(lia) E2) as [w3 ->]. exists w3. rewrite app_assoc. auto.
Qed.
Lemma pegr_lang es R t : langs es R -> prefix_code R -> nonempty R -> forall n w cur k, good w cur -> (length (rest_of w cur) < n)%nat ->
  (t_max t < 0 \/ Z.of_nat k <= t_max t) ->
  exists j cur' l x o ss, pegr w t es k cur (inr (cur', l, (k + j)%nat)) /\
    (exists tl, rest_of w cur = x ++ tl) /\ powL R j x o /\
    sp_pos cur' = (sp_pos cur + length x)%nat /\ Forall2 string_ast l ss /\ concat ss = o /\
    (t_max t < 0 \/ Z.of_nat (k + j) <= t_max t) /\
    (forall j' w' o' t', (t_max t < 0 \/ Z.of_nat (k + j') <= t_max t) -> rest_of w cur = w' ++ t' -> powL R j' w' o' -> (j' <= j)%nat).
Proof.
  intros L C Ne. induction n as [|n IH]; intros w cur k G Hl Hk; [lia|].
  destruct (Z_lt_dec (Z.of_nat k) (t_max t)) as [Hlt|Hge]; [|destruct (Z_lt_dec (t_max t) 0) as [Hneg|Hpos]].
  3:{ exists 0%nat, cur, [], [], [], []. rewrite Nat.add_0_r. split; [apply rep_limit; lia|]. split; [exists (rest_of w cur); auto|].
      split; [split; auto|]. simpl. repeat split; auto. intros j' w' o' t' Hj E H. lia. }
  all: assert (Hlim : t_max t < 0 \/ Z.of_nat k < t_max t) by lia.
  all: destruct (L w cur G) as [(cur1 & l1 & P1 & x1 & o1 & ss1 & (T1 & H1 & M1) & Q1 & F1 & C1)|[P N]].
  2,4: exists 0%nat, cur, [], [], [], []; rewrite Nat.add_0_r; split; [apply rep_stop; auto|]; split; [exists (rest_of w cur); auto|];
      split; [split; auto|]; simpl; repeat split; auto; intros [|j'] w' o' t' Hj E H; [lia|];
      destruct H as (w1 & p1 & w2 & p2 & -> & -> & K1 & K2); exfalso; apply (N w1 p1 (w2 ++ t')); [rewrite E, <- app_assoc; auto|auto].
  all: destruct T1 as [t1 T1]; destruct (rest_step w cur cur1 x1 t1 G T1 Q1) as [G1 E1];
    assert (Hx : (0 < length x1)%nat) by (destruct x1; [exfalso; eapply Ne; eauto|simpl; lia]);
    destruct (IH w cur1 (S k) G1 ltac:(rewrite E1; rewrite T1, app_length in Hl; lia) ltac:(lia))
      as (j & cur2 & l2 & x2 & o2 & ss2 & R2 & (t2 & T2) & K2 & Q2 & F2 & C2 & B2 & M2);
    exists (S j), cur2, (l1 ++ l2), (x1 ++ x2), (o1 ++ o2), (ss1 ++ ss2);
    replace (k + S j)%nat with (S k + j)%nat by lia;
    (split; [eapply rep_more; eauto|]); rewrite E1 in T2;
    (split; [exists t2; rewrite T1, T2, app_assoc; auto|]);
    (split; [exists x1, o1, x2, o2; auto|]);
    (split; [rewrite app_length; lia|]); (split; [apply Forall2_app; auto|]);
    (split; [rewrite concat_app, C1, C2; auto|]); (split; [auto|]);
    intros [|j'] w' o' t' Hj E H; [lia|];
    destruct H as (w1 & p1 & w2 & p2 & -> & -> & J1 & J2); apply le_n_S;
    assert (E' : w1 ++ (w2 ++ t') = x1 ++ t1) by (rewrite <- T1, E, <- app_assoc; auto);
    pose proof (C _ _ _ _ _ _ J1 H1 E') as Le; destruct (app_len_eq _ _ _ _ E' Le) as [-> E2];
    eapply (M2 j' w2 p2 t'); [lia|rewrite E1; auto|auto].
Qed.
Lemma lang_repeat mn mx es R : langs es R -> prefix_code R -> nonempty R -> lang (ERepeat (mkTimes mn mx) es) (repL mn mx R).
Proof.
  intros L C Ne w cur G.
  destruct (Z_lt_dec mx 0) as [Hm|Hm].
  all: destruct (pegr_lang es R (mkTimes mn mx) L C Ne (S (length (rest_of w cur))) w cur 0 G ltac:(lia) ltac:(simpl; lia))
    as (j & cur' & l & x & o & ss & P & (tl & T) & K & Q & F & Cc & B & M); simpl in *.
  all: destruct (Z_le_dec mn (Z.of_nat j)) as [Hmn|Hmn].
  1,3: left; exists cur', l; split; [eapply peg_rep_ok; eauto|]; exists x, o, ss; split; [|auto];
      split; [exists tl; auto|]; split; [exists j; auto|];
      intros w' o' t' E (j' & K' & B1 & B2); pose proof (M j' w' o' t' B2 E K') as Hj;
      destruct (powL_prefix R j C x o j' w' o' tl t' K K' Hj ltac:(congruence)) as [w2 ->]; rewrite app_length; lia.
  all: right; split; [eapply peg_rep_few; eauto; simpl; lia|];
      intros w' o' t' E (j' & K' & B1 & B2); pose proof (M j' w' o' t' B2 E K'); lia.
Qed.
Lemma lang_opt es R : langs es R -> lang (EZeroOrOnce es) (optL R).
Proof.
  intros L w cur G. left. destruct (L w cur G) as [(cur' & l & P & x & o & ss & (T & H & M) & Y)|[P N]].
  - exists cur', (l ++ []). split.
    + eapply peg_rep_ok with (k := 1%nat); [|simpl; lia]. eapply rep_more; [simpl; lia|exact P|]. apply rep_limit. simpl. lia.
    + rewrite app_nil_r. exists x, o, ss. split; auto. split; auto. split; [left; auto|].
      intros w' o' t' E [K|[-> _]]; [eauto|simpl; lia].
  - exists cur, []. split.
    + eapply peg_rep_ok with (k := 0%nat); [|simpl; lia]. apply rep_stop; [simpl; lia|auto].
    + exists [], [], []. split; [|simpl; auto]. split; [exists (rest_of w cur); auto|]. split; [right; split; auto|].
      intros w' o' t' E [K|[-> _]]; [exfalso; eapply N; eauto|auto].
Qed.
Lemma lang_once es R : langs es R -> lang (EOnce es) R.
Proof.
  intros L w cur G. destruct (L w cur G) as [(cur' & l & P & Y)|[P N]].
  - left. exists cur', (l ++ []). split; [|rewrite app_nil_r; auto].
    eapply peg_rep_ok with (k := 1%nat); [|simpl; lia]. eapply rep_more; [simpl; lia|exact P|]. apply rep_limit. simpl. lia.
  - right. split; auto. eapply peg_rep_few with (k := 0%nat); [|simpl; lia]. apply rep_stop; [simpl; lia|auto].
Qed.
(** Transformers. *)
Lemma lang_erase e R : lang e R -> lang (ETrans e [Erase]) (mapL (fun _ => []) R).
Proof.
  intros L w cur G. destruct (L w cur G) as [(cur' & l & P & x & o & ss & (T & H & M) & Q & F & C)|[P N]].
  - left. exists cur', []. split.
    + eapply peg_trans_ok; [exact P|]. eapply (pl_ok _ 0%nat); [reflexivity|constructor].
    + exists x, [], []. split; [|auto]. split; auto. split; [exists o; auto|]. intros w' o' t' E (o1 & K & _). eauto.
  - right. split; [apply peg_trans_fail; auto|]. intros w' o' t' E (o1 & K & _). eapply N; eauto.
Qed.
Lemma lang_trans e R tr f : lang e R ->
  (forall c l ss, Forall2 string_ast l ss -> exists l' ss', pipeline c tr l (inr l') /\ Forall2 string_ast l' ss' /\ concat ss' = f (concat ss)) ->
  lang (ETrans e tr) (mapL f R).
Proof.
  intros L Ht w cur G. destruct (L w cur G) as [(cur' & l & P & x & o & ss & (T & H & M) & Q & F & C)|[P N]].
  - left. destruct (Ht (fresh w cur) l ss F) as (l' & ss' & Pl & F' & C'). exists cur', l'. split; [eapply peg_trans_ok; eauto|].
    exists x, (f o), ss'. split; [|rewrite C' , C; auto]. split; auto. split; [exists o; auto|].
    intros w' o' t' E (o1 & K & _). eauto.
  - right. split; [apply peg_trans_fail; auto|]. intros w' o' t' E (o1 & K & _). eapply N; eauto.
Qed.
(** Leaves. *)
Lemma light_peg w env n cls fn cur o : run env n (ELight cls fn) (fresh w cur) = Ok (o, None) ->
  peg w (ELight cls fn) cur (leaf_result o None).
Proof.
  unfold run. cbn [denote]. unfold light_base_parser. destruct (fn n (fresh w cur)) as [[o0 [e|]]|why|] eqn:E; intros H; try discriminate.
  pose proof (peg_leaf w cls fn n cur o0 None E) as P. cbn in H.
  assert (Q : leaf_result o None = leaf_result o0 None); [|rewrite Q; exact P].
  destruct (c_st o0) eqn:Es; inversion H; subst; unfold leaf_result; simpl; rewrite ?Es; auto.
Qed.
Lemma no_char_no_word P w cur : good w cur -> no_char P (fresh w cur) -> no_word (charL P) (rest_of w cur).
Proof.
  intros [G1 G2] N x o t E (r & H & _ & Hp). unfold no_char in N. change (skipn (c_pos (fresh w cur)) (c_str (fresh w cur))) with (rest_of w cur) in N.
  rewrite E in N. destruct (N r (length x) (nc_char r x t H)); [|auto]. apply char_len in H. lia.
Qed.
Lemma okchar_lang cls fn cls' P : okchar (ELight cls fn) cls' P -> ~ P 65533 -> lang (ELight cls fn) (charL P).
Proof.
  intros H Hf w cur G. destruct (H (fun _ => EUnmatched) 0%nat (fresh w cur) (proj1 G) (proj2 G)) as (o & Ho & [T|[N T]]).
  - left. pose proof (light_peg _ _ _ _ _ _ _ Ho) as Pg. destruct T as (r & l & v & Hn & Hl & Hp & Hv & Hs & Hsp & Hst).
    unfold leaf_result in Pg. rewrite Hs in Pg. exists (c_sp o), (c_stack o). split; auto. rewrite Hsp, Hst. simpl.
    change (skipn (c_pos (fresh w cur)) (c_str (fresh w cur))) with (rest_of w cur) in Hn. remember (rest_of w cur) as rest eqn:Er.
    destruct Hn as [|r cs s Hc|b s Hb]; [lia| |congruence].
    assert (v = cs) by (apply encode_char in Hv; apply encode_char in Hc; congruence). subst v.
    exists cs, cs, [cs]. split; [|split; [reflexivity|split; [repeat constructor|simpl; rewrite app_nil_r; reflexivity]]].
    rewrite <- Er. split; [exists s; auto|]. split; [exists r; auto|]. intros w' o' t' E (r' & Hc' & _ & _).
    destruct (char_inj _ _ _ _ _ _ Hc Hc' E) as (_ & -> & _). auto.
  - right. pose proof (light_peg _ _ _ _ _ _ _ Ho) as Pg. destruct T as (Hs & _). unfold leaf_result in Pg. rewrite Hs in Pg.
    split; auto. apply no_char_no_word; auto.
Qed.
Lemma charL_ascii (P : Z -> Prop) : (forall r, P r -> 0 <= r < 128) -> forall w o, charL P w o <-> oneL P w o.
Proof.
  intros H w o. split.
  - intros (r & Hc & -> & Hp). exists r. specialize (H r Hp). destruct Hc; auto; lia.
  - intros (b & -> & -> & Hp). exists b. split; auto. constructor. auto.
Qed.
Lemma char_set_lang cls fn cls' P : char_set (ELight cls fn) cls' P -> (forall r, P r -> 0 <= r < 128) -> lang (ELight cls fn) (oneL P).
Proof.
  intros H Ha. eapply lang_ext; [apply charL_ascii; auto|]. eapply okchar_lang; [apply char_sets; eauto|].
  intros K. apply Ha in K. lia.
Qed.
Lemma takes_text_yields cls s w cur o : good w cur -> takes_text cls s (fresh w cur) o -> yields (litL s) w cur (c_sp o) (c_stack o).
Proof.
  intros G ((t & E) & Hs & Hsp & Hst). exists s, s, [s]. rewrite Hsp, Hst. simpl.
  split; [|split; [reflexivity|split; [repeat constructor|apply app_nil_r]]].
  split; [exists t; exact E|]. split; [split; auto|]. intros w' o' t' _ [-> _]. auto.
Qed.
Lemma seq_lang s : lang (SSeq s) (litL s).
Proof.
  intros w cur G. destruct (L_Str.seq_ok (fun _ => EUnmatched) 0 s (fresh w cur) (proj2 G)) as (o & Ho & H).
  pose proof (light_peg _ _ _ _ _ _ _ Ho) as Pg. unfold leaf_result in Pg. destruct H as [T|[N (Hs & _)]].
  - left. exists (c_sp o), (c_stack o). split; [|eapply takes_text_yields; eauto]. destruct T as (_ & Hs & _). rewrite Hs in Pg. auto.
  - right. rewrite Hs in Pg. split; auto. intros x y t E [-> _]. apply N. exists t. exact E.
Qed.
(** One of several one-byte strings. *)
Lemma class_lang cc bsl : cc = map (fun b => [b]) bsl -> lang (SCharClass cc) (oneL (fun b => In b bsl)).
Proof.
  intros -> w cur G. destruct (class_ok (fun _ => EUnmatched) 0 (map (fun b => [b]) bsl) (fresh w cur) (proj2 G)) as (o & Ho & H).
  pose proof (light_peg _ _ _ _ _ _ _ Ho) as Pg. unfold leaf_result in Pg. destruct H as [(pre & s & post & E & _ & T)|[N (Hs & _)]].
  - left. exists (c_sp o), (c_stack o). split; [destruct T as (_ & Hs & _); rewrite Hs in Pg; auto|].
    destruct (takes_text_yields _ _ _ _ _ G T) as (x & y & ss & (A & (-> & ->) & _) & B).
    assert (In s (map (fun b => [b]) bsl)) as I by (rewrite E; apply in_elt). apply in_map_iff in I. destruct I as (b & <- & I).
    exists [b], [b], ss. split; auto. split; auto. split; [exists b; auto|]. intros w' o' t' _ (b' & -> & _). auto.
  - right. rewrite Hs in Pg. split; auto. intros x y t E (b & -> & _ & I).
    rewrite Forall_forall in N. apply (N [b]); [apply in_map_iff; exists b; auto|]. exists t. exact E.
Qed.
Lemma zero_lang a s : string_ast a s -> lang (EZero [a]) (insL s).
Proof.
  intros [H1 H2] w cur G. left. pose proof (peg_leaf w ":base:Zero" (lift (zero_fn [a])) 0 cur _ None eq_refl) as P.
  eexists _, _. split; [exact P|]. exists [], s, [s]. simpl. split; [|split; [unfold c_pos; simpl; lia|split; [|apply app_nil_r]]].
  - split; [exists (rest_of w cur); auto|]. split; [split; auto|]. intros w' o' t' _ [-> _]. auto.
  - constructor; [|constructor]. destruct a; simpl in *; split; auto.
Qed.
(** Codes. *)
Lemma one_code P : prefix_code (oneL P).
Proof. intros w o w' o' t t' (b & -> & _) (b' & -> & _) _. auto. Qed.
Lemma one_nonempty P : nonempty (oneL P).
Proof. intros w o (b & -> & _). discriminate. Qed.
Lemma char_code P : prefix_code (charL P).
Proof. intros w o w' o' t t' (r & H & _) (r' & H' & _) E. destruct (char_inj _ _ _ _ _ _ H H' E) as (_ & -> & _). auto. Qed.
Lemma lit_code s : prefix_code (litL s).
Proof. intros w o w' o' t t' [-> _] [-> _] _. auto. Qed.
Lemma map_code f R : prefix_code R -> prefix_code (mapL f R).
Proof. intros H w o w' o' t t' (o1 & H1 & _) (o2 & H2 & _). eapply H; eauto. Qed.
Lemma map_nonempty f R : nonempty R -> nonempty (mapL f R).
Proof. intros H w o (o1 & H1 & _). eapply H; eauto. Qed.
Lemma code_sharp R1 R2 : prefix_code R1 -> sharp R1 R2.
Proof. intros H w1 o1 w2 o2 w1' o1' t t' A _ _ B E. pose proof (H _ _ _ _ _ _ A B E). lia. Qed.
Lemma seq_code R1 R2 : prefix_code R1 -> prefix_code R2 -> prefix_code (seqL R1 R2).
Proof.
  intros H1 H2 w o w' o' t t' (w1 & o1 & w2 & o2 & -> & -> & A1 & A2) (v1 & p1 & v2 & p2 & -> & -> & B1 & B2) E.
  rewrite <- !app_assoc in E. pose proof (H1 _ _ _ _ _ _ A1 B1 E) as L. destruct (app_len_eq _ _ _ _ E L) as [-> E2].
  rewrite !app_length. rewrite (H2 _ _ _ _ _ _ A2 B2 E2). auto.
Qed.
Lemma ins_code s : prefix_code (insL s).
Proof. intros w o w' o' t t' [-> _] [-> _] _. auto. Qed.

(** ** How words may start and how they may be extended *)
Definition starts (R : tlang) (Q : Z -> Prop) : Prop := forall b t o, R (b :: t) o -> Q b.
(** A longer word of the language at the same place continues with a byte of [P]. *)
Definition ext (R : tlang) (P : Z -> Prop) : Prop := forall w o w' o' t t',
  R w o -> R w' o' -> w ++ t = w' ++ t' -> (length w < length w')%nat -> exists b s, t = b :: s /\ P b.
Definition disjoint (P Q : Z -> Prop) : Prop := forall b, P b -> Q b -> False.
Definition orP (P Q : Z -> Prop) : Z -> Prop := fun b => P b \/ Q b.
Definition noP : Z -> Prop := fun _ => False.

Lemma prefix_split {A} (a b c d : list A) : a ++ b = c ++ d -> (length a <= length c)%nat -> exists e, c = a ++ e /\ b = e ++ d.
Proof.
  revert c. induction a as [|x a IH]; intros c H L; simpl in *. { exists c. auto. }
  destruct c as [|y c]; simpl in *; [lia|]. inversion H; subst. destruct (IH c H2 ltac:(lia)) as (e & -> & ->). exists e. auto.
Qed.
Lemma code_ext R : prefix_code R -> ext R noP.
Proof. intros H w o w' o' t t' A B E L. pose proof (H _ _ _ _ _ _ A B E). lia. Qed.
Lemma ext_weaken R (P Q : Z -> Prop) : (forall b, P b -> Q b) -> ext R P -> ext R Q.
Proof. intros H X w o w' o' t t' A B E L. destruct (X _ _ _ _ _ _ A B E L) as (b & s & -> & Hb). exists b, s. auto. Qed.
Lemma ext_sharp R1 R2 P Q : ext R1 P -> starts R2 Q -> disjoint P Q -> sharp R1 R2.
Proof.
  intros X S D w1 o1 w2 o2 w1' o1' t t' A B N A' E. destruct (le_lt_dec (length w1') (length w1)) as [|L]; auto. exfalso.
  destruct (X _ _ _ _ _ _ A A' E L) as (b & s & Es & Hb). destruct w2 as [|b' w2]; [congruence|]. inversion Es; subst.
  eapply D; eauto.
Qed.
Lemma seq_ext A B PA PB Q : ext A PA -> ext B PB -> starts B Q -> disjoint PA Q -> ext (seqL A B) (orP PA PB).
Proof.
  intros XA XB S D w o w' o' t t' (w1 & o1 & w2 & o2 & -> & -> & A1 & A2) (v1 & p1 & v2 & p2 & -> & -> & B1 & B2) E L.
  rewrite <- !app_assoc in E. rewrite !app_length in L.
  destruct (lt_eq_lt_dec (length w1) (length v1)) as [[C|C]|C].
  - destruct (XA _ _ _ _ _ _ A1 B1 E C) as (b & s & Es & Hb). destruct w2 as [|b' w2].
    + exists b, s. split; auto. left. auto.
    + inversion Es; subst. exfalso. eapply D; eauto.
  - destruct (app_len_eq _ _ _ _ E C) as [-> E2]. destruct (XB _ _ _ _ _ _ A2 B2 E2 ltac:(lia)) as (b & s & -> & Hb). exists b, s. split; auto. right. auto.
  - destruct (XA _ _ _ _ _ _ B1 A1 (eq_sym E) C) as (b & s & Es & Hb). destruct v2 as [|b' v2]; [simpl in L; lia|].
    inversion Es; subst. exfalso. eapply D; eauto.
Qed.
Lemma opt_ext R P Q : ext R P -> starts R Q -> ext (optL R) (orP P Q).
Proof.
  intros X S w o w' o' t t' [A|[-> _]] [B|[-> _]] E L; simpl in *; try lia.
  - destruct (X _ _ _ _ _ _ A B E L) as (b & s & -> & Hb). exists b, s. split; auto. left. auto.
  - destruct w' as [|b w']; simpl in *; [lia|]. subst t. exists b, (w' ++ t'). split; auto. right. eapply S; eauto.
Qed.
Definition apart (A B : tlang) : Prop := forall w o w' o' t t', A w o -> B w' o' -> w ++ t = w' ++ t' -> False.
Lemma apart_prefer A B : apart A B -> prefer A B.
Proof. intros H w1 o1 w2 o2 t t' HA HB E. exfalso. eapply H; eauto. Qed.
Lemma alt_ext A B PA PB : ext A PA -> ext B PB -> apart A B -> ext (altL A B) (orP PA PB).
Proof.
  intros XA XB D w o w' o' t t' [H|H] [H'|H'] E L; try (exfalso; eapply D; eauto; fail).
  - destruct (XA _ _ _ _ _ _ H H' E L) as (b & s & -> & Hb). exists b, s. split; auto. left. auto.
  - destruct (XB _ _ _ _ _ _ H H' E L) as (b & s & -> & Hb). exists b, s. split; auto. right. auto.
Qed.
Lemma starts_apart A B P Q : nonempty A -> nonempty B -> starts A P -> starts B Q -> disjoint P Q -> apart A B.
Proof.
  intros NA NB SA SB D w o w' o' t t' HA HB E. destruct w as [|b w]; [eapply NA; eauto|]. destruct w' as [|b' w']; [eapply NB; eauto|].
  inversion E; subst. eapply D; eauto.
Qed.
Lemma seq_apart A B C P Q1 Q2 : ext A P -> nonempty B -> nonempty C -> starts B Q1 -> starts C Q2 ->
  disjoint Q1 Q2 -> disjoint P Q1 -> disjoint P Q2 -> apart (seqL A B) (seqL A C).
Proof.
  intros X NB NC SB SC D D1 D2 w o w' o' t t' (w1 & o1 & w2 & o2 & -> & -> & A1 & A2) (v1 & p1 & v2 & p2 & -> & -> & B1 & B2) E.
  rewrite <- !app_assoc in E. destruct w2 as [|b w2]; [eapply NB; eauto|]. destruct v2 as [|b' v2]; [eapply NC; eauto|].
  destruct (lt_eq_lt_dec (length w1) (length v1)) as [[L|L]|L].
  - destruct (X _ _ _ _ _ _ A1 B1 E L) as (x & s & Es & Hb). inversion Es; subst. eapply D1; eauto.
  - destruct (app_len_eq _ _ _ _ E L) as [-> E2]. inversion E2; subst. eapply D; eauto.
  - destruct (X _ _ _ _ _ _ B1 A1 (eq_sym E) L) as (x & s & Es & Hb). inversion Es; subst. eapply D2; eauto.
Qed.
Lemma starts_one P : starts (oneL P) P.
Proof. intros b t o (x & E & _ & H). inversion E; subst. auto. Qed.
Lemma starts_lit b s : starts (litL (b :: s)) (fun x => x = b).
Proof. intros x t o [E _]. inversion E. auto. Qed.
Lemma starts_ins s Q : starts (insL s) Q.
Proof. intros x t o [E _]. discriminate. Qed.
Lemma starts_map f R Q : starts R Q -> starts (mapL f R) Q.
Proof. intros H b t o (o1 & K & _). eapply H; eauto. Qed.
Lemma starts_seq A B Q : nonempty A -> starts A Q -> starts (seqL A B) Q.
Proof.
  intros N S b t o (w1 & o1 & w2 & o2 & E & _ & H & _). destruct w1 as [|x w1]; [exfalso; eapply N; eauto|]. inversion E; subst. eapply S; eauto.
Qed.
Lemma starts_seq2 A B QA QB : starts A QA -> starts B QB -> starts (seqL A B) (orP QA QB).
Proof.
  intros SA SB b t o (w1 & o1 & w2 & o2 & E & _ & H & K). destruct w1 as [|x w1].
  - right. simpl in E. subst w2. eapply SB; eauto.
  - left. inversion E; subst. eapply SA; eauto.
Qed.
Lemma starts_alt A B QA QB : starts A QA -> starts B QB -> starts (altL A B) (orP QA QB).
Proof. intros SA SB b t o [H|H]; [left; eapply SA; eauto|right; eapply SB; eauto]. Qed.
Lemma starts_opt A Q : starts A Q -> starts (optL A) Q.
Proof. intros SA b t o [H|[E _]]; [eapply SA; eauto|discriminate]. Qed.
Lemma seq_nonempty A B : nonempty A -> nonempty (seqL A B).
Proof. intros N w o (w1 & o1 & w2 & o2 & -> & _ & H & _) E. apply app_eq_nil in E. eapply N; [exact H|tauto]. Qed.
Lemma seq_nonempty_r A B : nonempty B -> nonempty (seqL A B).
Proof. intros N w o (w1 & o1 & w2 & o2 & -> & _ & _ & H) E. apply app_eq_nil in E. eapply N; [exact H|tauto]. Qed.
Lemma alt_nonempty A B : nonempty A -> nonempty B -> nonempty (altL A B).
Proof. intros NA NB w o [H|H]; [eapply NA; eauto|eapply NB; eauto]. Qed.
Lemma lit_nonempty b s : nonempty (litL (b :: s)).
Proof. intros w o [-> _]. discriminate. Qed.

(** An ordered choice whose second branch is only reached outside the first. *)
Lemma lang_cut e1 e2 R1 R2 (R2m : tlang) : lang e1 R1 -> lang e2 R2 -> (forall w o, R2m w o -> R2 w o) ->
  (forall w o, R2 w o -> R2m w o \/ exists w1 o1 t, R1 w1 o1 /\ w = w1 ++ t) ->
  prefer R1 R2m -> lang (EFirst [e1; e2]) (altL R1 R2m).
Proof.
  intros L1 L2 Sub Cov Pr. apply lang_first. intros w cur G.
  destruct (L1 w cur G) as [(cur' & l & P & x & o & ss & ((t & T) & H & M) & Q)|[P N]].
  - left. exists cur', l. split; [eapply ch_ok; eauto|]. exists x, o, ss. split; auto. split; [eauto|]. split; [left; auto|].
    intros w' o' t' E [K|K]; [eauto|]. rewrite T in E. exact (Pr _ _ _ _ _ _ H K E).
  - destruct (L2 w cur G) as [(cur' & l & P2 & x & o & ss & ((t & T) & H & M) & Q)|[P2 N2]].
    + left. exists cur', l. split; [eapply ch_next; eauto; eapply ch_ok; eauto|]. exists x, o, ss. split; auto. split; [eauto|]. split.
      * right. destruct (Cov _ _ H) as [|(w1 & o1 & t1 & K & ->)]; auto. exfalso. rewrite <- app_assoc in T. eapply N; eauto.
      * intros w' o' t' E [K|K]; [exfalso; eapply N; eauto|]. eapply M; eauto.
    + right. split; [eapply ch_next; eauto; eapply ch_next; eauto; constructor|]. intros w' o' t' E [K|K]; [eapply N; eauto|eapply N2; eauto].
Qed.

(** ** Runs of bytes *)
Definition runL (P : Z -> Prop) (f : bytes -> bytes) : tlang := fun w o => Forall P w /\ o = f w.
Lemma run_ext P f : ext (runL P f) P.
Proof.
  intros w o w' o' t t' [A _] [B _] E L. destruct (prefix_split _ _ _ _ E ltac:(lia)) as (e & -> & ->).
  rewrite app_length in L. destruct e as [|b e]; [simpl in L; lia|]. exists b, (e ++ t'). split; auto.
  apply Forall_app in B. destruct B as [_ B]. inversion B; auto.
Qed.
Lemma starts_run P f : starts (runL P f) P.
Proof. intros b t o [H _]. inversion H; auto. Qed.
(** Repeating a set of bytes, each contributing [g b] to the output. *)
Definition byteL (P : Z -> Prop) (g : Z -> bytes) : tlang := fun w o => exists b, w = [b] /\ P b /\ o = g b.
Lemma byte_code P g : prefix_code (byteL P g).
Proof. intros w o w' o' t t' (b & -> & _) (b' & -> & _) _. auto. Qed.
Lemma byte_nonempty P g : nonempty (byteL P g).
Proof. intros w o (b & -> & _). discriminate. Qed.
Lemma pow_byte P g k : forall w o, powL (byteL P g) k w o <-> length w = k /\ Forall P w /\ o = flat_map g w.
Proof.
  induction k as [|k IH]; intros w o; simpl.
  - split; [intros [-> ->]; auto|]. intros (L & _ & ->). destruct w; [|discriminate]. split; auto.
  - split.
    + intros (w1 & o1 & w2 & o2 & -> & -> & (b & -> & Hb & ->) & H). apply IH in H. destruct H as (L & F & ->). simpl. auto.
    + intros (L & F & ->). destruct w as [|b w]; [discriminate|]. inversion F; subst. exists [b], (g b), w, (flat_map g w).
      split; auto. split; auto. split; [exists b; auto|]. apply IH. simpl in L. auto.
Qed.
Lemma rep_byte mn mx P g w o : repL mn mx (byteL P g) w o <->
  Forall P w /\ o = flat_map g w /\ mn <= Z.of_nat (length w) /\ (mx < 0 \/ Z.of_nat (length w) <= mx).
Proof.
  split.
  - intros (k & H & A & B). apply pow_byte in H. destruct H as (<- & F & ->). auto.
  - intros (F & -> & A & B). exists (length w). split; auto. apply pow_byte. auto.
Qed.
Lemma one_byte P w o : oneL P w o <-> byteL P (fun b => [b]) w o.
Proof. split; [intros (b & -> & -> & H)|intros (b & -> & H & ->)]; exists b; auto. Qed.
Lemma erase_byte P w o : mapL (fun _ => []) (oneL P) w o <-> byteL P (fun _ => []) w o.
Proof. split; [intros (o1 & (b & -> & _ & H) & ->); exists b; auto|intros (b & -> & H & ->); exists [b]; split; auto; exists b; auto]. Qed.
Lemma flat_keep (s : bytes) : flat_map (fun b => [b]) s = s.
Proof. induction s; simpl; congruence. Qed.

(** ** From [lang] to running the parser *)
Lemma lang_run e R env c : lang e R -> (forall k, peg_gram (env k)) -> peg_gram e ->
  Forall is_byte (c_str c) -> (c_pos c <= length (c_str c))%nat -> c_st c = Matched ->
  exists n o, run env n e c = Ok (o, None) /\
    ((exists w t l ss, longest R (skipn (c_pos c) (c_str c)) w t /\ c_st o = Matched /\ c_pos o = (c_pos c + length w)%nat /\
        c_stack o = c_stack c ++ l /\ Forall2 string_ast l ss /\ concat ss = t) \/
     (no_word R (skipn (c_pos c) (c_str c)) /\ c_st o = Unmatched)).
Proof.
  intros L He Hg Hb Hp Hs.
  set (w := mkW (c_str c) (c_slice c) (c_tag c) env).
  assert (Hw : in_world w c) by (repeat split).
  assert (G : good w (c_sp c)) by (split; auto).
  destruct (L w (c_sp c) G) as [(cur' & l & P & x & o & ss & Lo & Q & F & C)|[P N]].
  - destruct (proj1 (peg_adequate w e c He Hg Hw Hs _) P) as (n & out & err & E & Rr). simpl in Rr. destruct Rr as (-> & A1 & A2 & A3).
    exists n, out. split; auto. left. exists x, o, l, ss. unfold c_pos at 2. rewrite A2. split; [exact Lo|]. auto 8.
  - destruct (proj1 (peg_adequate w e c He Hg Hw Hs _) P) as (n & out & err & E & Rr). simpl in Rr. destruct Rr as (-> & A1).
    exists n, out. auto.
Qed.
