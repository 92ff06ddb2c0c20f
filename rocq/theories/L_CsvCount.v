(** The number of calls of the CSV parser. *)
From Verif Require Export L_CountMin.

Lemma take_shorter s v t : take_char s v t -> (length t < length s)%nat.
Proof.
  intros (r & l & H & Hl & _ & ->). rewrite skipn_length. destruct s as [|b s]; [|cbn [length]; lia].
  exfalso. inversion H as [|r0 cs s0 Hc E0 E1 E2|]; subst; [lia|]. apply char_len in Hc. apply app_eq_nil in E0. destruct E0 as [-> _]. cbn in *. lia.
Qed.
Lemma run_shorter P s t : run_of P s t -> (length t <= length s)%nat.
Proof. induction 1; rewrite ?app_length; lia. Qed.
Lemma unquoted_shorter s x t : unquoted s x t -> (length t <= length s)%nat.
Proof. induction 1 as [|s v t x t1 N T H IH]; auto. apply take_shorter in T. lia. Qed.
Lemma inside_shorter s a : inside s a -> match a with Some (_, t) => (length t < length s)%nat | None => True end.
Proof.
  induction 1 as [|t a H IH|t N|s v t a N T H IH]; auto.
  - destruct a as [[o u]|]; cbn [length] in *; auto; lia.
  - apply take_shorter in T. destruct a as [[o u]|]; cbn; auto; lia.
Qed.
Lemma blank_not_break x s : blank_char x -> ~ at_break (x ++ s).
Proof.
  intros Hx (b & Hb & t & E). apply in_break in Hb. unfold blank_char in Hx. cbn in Hx, Hb.
  repeat destruct Hx as [<-|Hx]; try contradiction; repeat destruct Hb as [<-|Hb]; try contradiction; cbn in E; discriminate.
Qed.
Lemma take_blank x s v t : blank_char x -> Forall is_byte (x ++ s) -> take_char (x ++ s) v t -> t = s.
Proof.
  intros Hx B (r & l & H & Hl & _ & ->). apply blank_charL in Hx. destruct Hx as (r' & Hc & _).
  assert (H' : next_char (x ++ s) r' (length x)) by (constructor; assumption).
  destruct (next_func _ _ _ _ _ B H H') as [_ ->]. rewrite skipn_app, skipn_all, Nat.sub_diag. reflexivity.
Qed.
Lemma blanks_in_cell s t : run_of blank_char s t -> forall x t1, Forall is_byte s -> unquoted s x t1 -> (length t1 <= length t)%nat.
Proof.
  induction 1 as [s N|w s t Hw H IH]; intros x t1 B U; [eapply unquoted_shorter; eauto|].
  inversion U as [s' [E|E]|s' v u y u1 N T U']; subst.
  - destruct w; [|discriminate]. exfalso. cbn in Hw. intuition discriminate.
  - exfalso. eapply blank_not_break; eauto.
  - rewrite (take_blank _ _ _ _ Hw B T) in U'. eapply IH; [|exact U']. apply Forall_app in B. apply B.
Qed.

Lemma leaf_class w cc cur r : peg w (SCharClassN cc) cur r -> pegk w (SCharClassN cc) cur r 1.
Proof. apply leaf_counts. Qed.
Lemma trans_lift w e tr cur r r' d : peg_env w -> peg_gram e -> pegk w e cur r d -> peg w (ETrans e tr) cur r' -> pegk w (ETrans e tr) cur r' (S d).
Proof.
  intros He Hg P H. pose proof (pegk_peg _ _ _ _ _ P) as P0.
  inversion H; subst; match goal with Q : peg w e cur _ |- _ => pose proof (peg_det w e cur _ _ He Hg P0 Q); subst r end;
    (eapply pk_trans; [exact P|]); econstructor; eassumption.
Qed.

Lemma first_take w a b cur r : peg w (EFirst [a; b]) cur r -> ~ peg w a cur RFail -> peg w a cur r.
Proof.
  intros H N. inversion H; subst. match goal with K : pegc w _ _ _ |- _ => inversion K; subst end; auto. contradiction.
Qed.
Lemma first_skip w a b cur r : peg_env w -> peg_gram a -> peg w (EFirst [a; b]) cur r -> peg w a cur RFail -> r <> RFail -> peg w b cur r.
Proof.
  intros He Hg H F N. inversion H; subst. match goal with K : pegc w _ _ _ |- _ => inversion K; subst end.
  - match goal with K : peg w a cur _ |- _ => pose proof (peg_det w a cur _ _ He Hg K F); discriminate end.
  - match goal with K : peg w a cur _ |- _ => pose proof (peg_det w a cur _ _ He Hg K F); discriminate end.
  - match goal with K : pegc w [b] _ _ |- _ => inversion K; subst end; auto. match goal with K : pegc w [] _ _ |- _ => inversion K; subst end. congruence.
Qed.

Section Count.
Variable w : world.
Hypothesis Hpeg : peg_env w.
Notation "| s |" := (length s) (at level 30, format "| s |").

Lemma krep_run e P s t mn : (forall cur r, peg w e cur r -> pegk w e cur r 1) -> picks e P -> prefix_free P -> run_of P s t -> forall cur k, at_rest w cur s ->
  exists cur' l j d, pegkr w (mkTimes mn (-1)) [e] k cur (inr (cur', l, (k + j)%nat)) d /\ at_rest w cur' t /\ (s <> t -> (0 < j)%nat) /\ (d + |t| <= |s| + 1)%nat.
Proof.
  intros Hl Pk Pf H. induction H as [s N|x s t Hx H IH]; intros cur k A; destruct (Pk w cur _ A) as [(y & u & cur1 & l1 & E & Hy & Ne & Pg & A1)|[Pg N']].
  - exfalso. eapply N; [exact Hy|]. exists u. auto.
  - exists cur, [], 0%nat, 1%nat. rewrite Nat.add_0_r. split; [apply rk_stop; [simpl; lia|apply sk_fail; auto]|]. split; auto. split; [congruence|lia].
  - destruct (Pf _ _ _ _ Hx Hy E) as [-> ->]. destruct (IH cur1 (S k) A1) as (cur' & l & j & d & Q & A' & _ & L).
    exists cur', (l1 ++ l), (S j), (1 + d)%nat. replace (k + S j)%nat with (S k + j)%nat by lia.
    split; [apply (rk_more w (mkTimes mn (-1)) [e] k cur cur1 l1 (inr (cur', l, (S k + j)%nat)) 1 d); [simpl; lia|apply pks_one; apply Hl; exact Pg|exact Q]|].
    split; auto. split; [lia|]. rewrite app_length. destruct y; [congruence|]. cbn [length]. lia.
  - exfalso. apply (N' x Hx). exists s. auto.
Qed.
Lemma krep_ok t es cur cur1 l k d : pegkr w t es 0 cur (inr (cur1, l, k)) d -> t_min t <= Z.of_nat k -> pegk w (ERepeat t es) cur (RSucc cur1 l) (S d).
Proof. intros P H. pose proof (pk_repeat w t es cur _ d P) as Q. cbn [repeated] in Q. destruct (Z.ltb_spec (Z.of_nat k) (t_min t)); [lia|exact Q]. Qed.
Lemma krep_few t es cur cur1 l k d : pegkr w t es 0 cur (inr (cur1, l, k)) d -> Z.of_nat k < t_min t -> pegk w (ERepeat t es) cur RFail (S d).
Proof. intros P H. pose proof (pk_repeat w t es cur _ d P) as Q. cbn [repeated] in Q. destruct (Z.ltb_spec (Z.of_nat k) (t_min t)); [exact Q|lia]. Qed.
Lemma krep_err t es cur cur1 x d : pegkr w t es 0 cur (inl (cur1, x)) d -> pegk w (ERepeat t es) cur (RErr cur1 x) (S d).
Proof. intros P. exact (pk_repeat w t es cur _ d P). Qed.
Lemma kerase_ok e cur cur' l d : pegk w e cur (RSucc cur' l) d -> pegk w (csv_erase e) cur (RSucc cur' []) (S d).
Proof. intros H. eapply pk_trans; [exact H|]. apply th_ok. eapply (pl_ok _ 0%nat); [reflexivity|constructor]. Qed.
Lemma kerase_no e cur d : pegk w e cur RFail d -> pegk w (csv_erase e) cur RFail (S d).
Proof. intros H. eapply pk_trans; [exact H|]. constructor. Qed.
Lemma ksp s t cur : run_of blank_char s t -> at_rest w cur s -> exists cur' d, pegk w csv_sp cur (RSucc cur' []) d /\ at_rest w cur' t /\ (d + |t| <= |s| + 3)%nat.
Proof.
  intros H A. destruct (krep_run _ _ s t 0 (leaf_counts w _ _) blank_picks blank_free H cur 0 A) as (cur' & l & j & d & P & A' & _ & L).
  exists cur', (S (S d)). split; [|split; [exact A'|lia]]. eapply kerase_ok. eapply krep_ok; [exact P|simpl; lia].
Qed.
Lemma kbreaks s t cur : run_of line_break s t -> s <> t -> at_rest w cur s ->
  exists cur' d, pegk w (csv_erase (EOneOrMore [SLineBreak])) cur (RSucc cur' []) d /\ at_rest w cur' t /\ (d + |t| <= |s| + 3)%nat.
Proof.
  intros H Ne A. destruct (krep_run _ _ s t 1 (leaf_counts w _ _) break_picks break_free H cur 0 A) as (cur' & l & j & d & P & A' & J & L).
  exists cur', (S (S d)). split; [|split; [exact A'|lia]]. eapply kerase_ok. eapply krep_ok; [exact P|]. specialize (J Ne). simpl. lia.
Qed.
Lemma kbreaks_no s cur : ~ at_line_break s -> at_rest w cur s -> pegk w (csv_erase (EOneOrMore [SLineBreak])) cur RFail 3.
Proof.
  intros N A. apply kerase_no. eapply krep_few with (k := 0%nat) (d := 1%nat); [|simpl; lia]. apply rk_stop; [simpl; lia|]. apply sk_fail.
  destruct (break_picks w cur s A) as [(x & t & _ & _ & E & Hx & _)|[P _]]; [|apply leaf_counts; exact P]. exfalso. apply N. exists x. split; auto. exists t. auto.
Qed.
Lemma kelit_yes s cur t : at_rest w cur (s ++ t) -> exists cur', pegk w (csv_erase (SSeq s)) cur (RSucc cur' []) 2 /\ at_rest w cur' t.
Proof. intros A. destruct (klit_yes s w cur t A) as (cur' & l & P & A'). exists cur'. split; auto. eapply kerase_ok; eauto. Qed.
Lemma kelit_no s cur t : at_rest w cur t -> ~ begins s t -> pegk w (csv_erase (SSeq s)) cur RFail 2.
Proof. intros A N. apply kerase_no. eapply klit_no; eauto. Qed.
Lemma kseq_ok e es cur cur1 cur2 l l2 d d2 : pegk w e cur (RSucc cur1 l) d -> pegks w es cur1 (RSucc cur2 l2) d2 -> pegks w (e :: es) cur (RSucc cur2 (l ++ l2)) (d + d2).
Proof. apply (sk_ok w e es cur cur1 l d (RSucc cur2 l2) d2). Qed.
Lemma kseq_fail e es cur cur1 l d d2 : pegk w e cur (RSucc cur1 l) d -> pegks w es cur1 RFail d2 -> pegks w (e :: es) cur RFail (d + d2).
Proof. apply (sk_ok w e es cur cur1 l d RFail d2). Qed.
Lemma kseq_err e es cur cur1 cur2 x l d d2 : pegk w e cur (RSucc cur1 l) d -> pegks w es cur1 (RErr cur2 x) d2 -> pegks w (e :: es) cur (RErr cur2 x) (d + d2).
Proof. apply (sk_ok w e es cur cur1 l d (RErr cur2 x) d2). Qed.
Lemma kmore t es k cur cur1 cur2 l l2 k2 d d2 : t_max t < 0 -> pegks w es cur (RSucc cur1 l) d -> pegkr w t es (S k) cur1 (inr (cur2, l2, k2)) d2 ->
  pegkr w t es k cur (inr (cur2, l ++ l2, k2)) (d + d2).
Proof. intros H. apply (rk_more w t es k cur cur1 l (inr (cur2, l2, k2)) d d2). auto. Qed.
Lemma kmore_err t es k cur cur1 cur2 l x d d2 : t_max t < 0 -> pegks w es cur (RSucc cur1 l) d -> pegkr w t es (S k) cur1 (inl (cur2, x)) d2 ->
  pegkr w t es k cur (inl (cur2, x)) (d + d2).
Proof. intros H. apply (rk_more w t es k cur cur1 l (inl (cur2, x)) d d2). auto. Qed.
Lemma kends s cur : at_rest w cur s -> pegk w SEnd cur (match s with [] => RSucc (mkSP (sp_pos cur) 0) [] | _ => RFail end) 1.
Proof.
  intros A. apply leaf_counts. destruct s.
  - assert (E : sp_pos cur = length (w_str w)).
    { destruct A as [[_ G] E]. unfold rest_of in E. apply (f_equal (@length Z)) in E. rewrite skipn_length in E. simpl in E. lia. }
    pose proof (peg_leaf w ":string:End" (lift end_fn) 0 cur) as P. unfold lift, end_fn in P. cbv zeta in P.
    change (c_pos (set_st (fresh w cur) Unmatched)) with (sp_pos cur) in P. change (c_str (set_st (fresh w cur) Unmatched)) with (w_str w) in P.
    rewrite E, Nat.eqb_refl in P. specialize (P _ _ eq_refl). cbn in P. exact P.
  - eapply (end_no w cur); [exact A|discriminate].
Qed.

Lemma kinside s a : inside s a -> forall cur k, at_rest w cur s ->
  exists cur' l j d r, pegkr w zm [q_item] k cur (inr (cur', l, (k + j)%nat)) d /\ at_rest w cur' r /\ (d + 4 * |r| <= 4 * |s| + 4)%nat /\
  match a with Some (o, t) => r = 34 :: t | None => r = [] end.
Proof.
  induction 1 as [|t a H IH|t N|s v t a N T H IH]; intros cur k A.
  - exists cur, [], 0%nat, 4%nat, []. rewrite Nat.add_0_r. split; [|repeat split; auto; try lia; apply A]. apply rk_stop; [simpl; lia|]. apply sk_fail. apply (pk_first w _ _ cur _ 3).
    apply (ck_next w _ _ cur _ 2 1); [eapply kelit_no; eauto; intros [x E]; discriminate|]. apply (ck_next w _ _ cur _ 1 0); [apply leaf_class; eapply classN_no; eauto|constructor].
  - destruct (kelit_yes [34; 34] cur t A) as (cur1 & P & A1). destruct (IH cur1 (S k) A1) as (cur' & l & j & d & r & Q & R & L & M).
    exists cur', ([] ++ l), (S j), (3 + d)%nat, r. replace (k + S j)%nat with (S k + j)%nat by lia. split; [|split; [auto|split; [cbn [length]; lia|auto]]].
    eapply kmore; [simpl; lia| |exact Q]. apply pks_one. apply (pk_first w _ _ cur _ 2). apply ck_ok. auto.
  - exists cur, [], 0%nat, 4%nat, (34 :: t). rewrite Nat.add_0_r. split; [|repeat split; auto; try lia; apply A]. apply rk_stop; [simpl; lia|]. apply sk_fail. apply (pk_first w _ _ cur _ 3).
    apply (ck_next w _ _ cur _ 2 1); [eapply kelit_no; eauto; intros [x E]; inversion E; apply N; exists x; auto|].
    apply (ck_next w _ _ cur _ 1 0); [apply leaf_class; eapply classN_no; eauto|constructor]. right. constructor. exists t. auto.
  - destruct (classN_yes [[34]] w cur s v t A T ltac:(repeat constructor; auto)) as (cur1 & l1 & P & A1 & F).
    destruct (IH cur1 (S k) A1) as (cur' & l & j & d & r & Q & R & L & M). apply take_shorter in T.
    exists cur', (l1 ++ l), (S j), (4 + d)%nat, r. replace (k + S j)%nat with (S k + j)%nat by lia. split; [|split; [auto|split; [lia|]]].
    + eapply kmore; [simpl; lia| |exact Q]. apply pks_one. apply (pk_first w _ _ cur _ 3).
      apply (ck_next w _ _ cur _ 2 1); [eapply kelit_no; eauto; apply begins_34; auto|]. apply ck_ok. apply leaf_class. auto.
    + destruct a as [[o t1]|]; simpl; auto.
Qed.
Lemma ksegment_ok s t o t1 t2 cur : run_of blank_char s (34 :: t) -> inside t (Some (o, t1)) -> run_of blank_char t1 t2 ->
  at_rest w cur s -> exists cur' l d, pegk w segment cur (RSucc cur' l) d /\ at_rest w cur' t2 /\ (d + 4 * |t2| <= 4 * |s| + 9 /\ |t2| + 2 <= |s|)%nat.
Proof.
  intros B I B2 A. destruct (ksp _ _ cur B A) as (c1 & d1 & P1 & A1 & L1). destruct (kelit_yes [34] c1 t A1) as (c2 & P2 & A2).
  destruct (kinside _ _ I c2 0 A2) as (c3 & l & j & d3 & r & P3 & A3 & L3 & ->).
  destruct (kelit_yes [34] c3 t1 A3) as (c4 & P4 & A4). destruct (ksp _ _ c4 B2 A4) as (c5 & d5 & P5 & A5 & L5).
  exists c5, ([] ++ [] ++ l ++ [] ++ [] ++ []), (S (d1 + (2 + (S d3 + (3 + (d5 + 0))))))%nat. split; [|split; [auto|]].
  - apply pk_flat. unfold quoted_segment. eapply kseq_ok; [exact P1|]. eapply kseq_ok; [exact P2|].
    eapply kseq_ok; [eapply krep_ok; [exact P3|simpl; lia]|].
    eapply kseq_ok; [apply (pk_first w _ _ c3 _ 2); apply ck_ok; exact P4|]. eapply kseq_ok; [exact P5|constructor].
  - apply run_shorter in B, B2. apply inside_shorter in I. cbn [length] in *. lia.
Qed.
Lemma ksegment_eof s t cur : run_of blank_char s (34 :: t) -> inside t None -> at_rest w cur s ->
  exists cur' d, pegk w segment cur (RErr cur' eof_error) d /\ at_rest w cur' [] /\ (d <= 4 * |s| + 20)%nat.
Proof.
  intros B I A. destruct (ksp _ _ cur B A) as (c1 & d1 & P1 & A1 & L1). destruct (kelit_yes [34] c1 t A1) as (c2 & P2 & A2).
  destruct (kinside _ _ I c2 0 A2) as (c3 & l & j & d3 & r & P3 & A3 & L3 & ->). pose proof (kends [] c3 A3) as P4.
  destruct (error_peg w (mkSP (sp_pos c3) 0) "Unexpected EOF") as (c5 & P5 & E5). apply leaf_counts in P5.
  exists c5, (S (d1 + (2 + (S d3 + 6))))%nat. split; [|split; [eapply at_same; [exact A3|rewrite E5; reflexivity]|cbn [length] in *; apply run_shorter in B; cbn [length] in *; lia]]. apply pk_flat. unfold quoted_segment.
  eapply kseq_err; [exact P1|]. eapply kseq_err; [exact P2|].
  eapply kseq_err; [eapply krep_ok; [exact P3|simpl; lia]|]. apply sk_err. apply (pk_first w _ _ c3 _ 5).
  apply (ck_next w _ _ c3 _ 2 3); [eapply kelit_no; eauto; intros [x E]; discriminate|]. apply ck_err. apply (pk_flat w _ c3 _ 2).
  apply (kseq_err _ _ _ _ _ _ _ 1 1 P4). apply sk_err. exact P5.
Qed.
Lemma ksegment_no s t cur : run_of blank_char s t -> ~ begins [34] t -> at_rest w cur s -> exists d, pegk w segment cur RFail d /\ (d + |t| <= |s| + 6)%nat.
Proof.
  intros B N A. destruct (ksp _ _ cur B A) as (c1 & d1 & P1 & A1 & L1). exists (S (d1 + 2)). split; [|lia]. apply pk_flat.
  eapply kseq_fail; [exact P1|]. apply sk_fail. eapply kelit_no; eauto.
Qed.
Lemma kquoted s a : quoted s a -> forall cur k, at_rest w cur s ->
  match a with
  | Some (o, t) => exists cur' l j d, pegkr w om [segment] k cur (inr (cur', l, (k + S j)%nat)) d /\ at_rest w cur' t /\ (d + 9 * |t| <= 9 * |s| + 6 /\ |t| <= |s|)%nat
  | None => exists cur' d, pegkr w om [segment] k cur (inl (cur', eof_error)) d /\ at_rest w cur' [] /\ (d <= 9 * |s| + 20)%nat
  end.
Proof.
  induction 1 as [s t B I|s t o t1 t2 B I B2 N|s t o t1 t2 a B I B2 Q IH]; intros cur k A.
  - destruct (ksegment_eof s t cur B I A) as (cur' & d & P & A' & L). exists cur', d. split; [|split; [auto|lia]]. apply rk_err; [simpl; lia|]. apply sk_err. auto.
  - destruct (ksegment_ok _ _ _ _ _ cur B I B2 A) as (cur' & l & d & P & A' & L).
    destruct (ksegment_no t2 t2 cur' (run_of_max _ _ _ B2) N A') as (d2 & P2 & L2). exists cur', (l ++ []), 0%nat, (d + d2)%nat.
    split; [|split; [auto|lia]]. eapply kmore; [simpl; lia|apply pks_one; exact P|].
    replace (k + 1)%nat with (S k) by lia. apply rk_stop; [simpl; lia|]. apply sk_fail. exact P2.
  - destruct (ksegment_ok _ _ _ _ _ cur B I B2 A) as (cur1 & l & d & P & A1 & L). specialize (IH cur1 (S k) A1).
    destruct a as [[o2 t3]|]; simpl.
    + destruct IH as (cur' & l2 & j & d2 & Q2 & A2 & L2). exists cur', (l ++ l2), (S j), (d + d2)%nat.
      replace (k + S (S j))%nat with (S k + S j)%nat by lia. split; [|split; [auto|lia]].
      eapply kmore; [simpl; lia|apply pks_one; exact P|exact Q2].
    + destruct IH as (cur' & d2 & Q2 & A2 & L2). exists cur', (d + d2)%nat. split; [|split; [auto|lia]]. eapply kmore_err; [simpl; lia|apply pks_one; exact P|exact Q2].
Qed.
Lemma kunquoted s x t : unquoted s x t -> forall cur k, at_rest w cur s ->
  exists cur' l j d, pegkr w zm [SCharClassN cellBreakCharacters] k cur (inr (cur', l, (k + j)%nat)) d /\ at_rest w cur' t /\ (d + |t| <= |s| + 1)%nat.
Proof.
  induction 1 as [s H|s v t x t1 N T H IH]; intros cur k A.
  - exists cur, [], 0%nat, 1%nat. rewrite Nat.add_0_r. split; [|split; [auto|lia]]. apply rk_stop; [simpl; lia|]. apply sk_fail.
    apply leaf_class. eapply classN_no; eauto. destruct H as [H|(b & Hb & H)]; auto. right. apply Exists_exists. exists b. split; auto. apply in_break. auto.
  - destruct (classN_yes cellBreakCharacters w cur s v t A T) as (cur1 & l1 & P & A1 & F).
    { apply Forall_forall. intros b Hb K. apply N. exists b. split; auto. apply in_break. auto. }
    destruct (IH cur1 (S k) A1) as (cur' & l & j & d & Q & A' & L). apply take_shorter in T. exists cur', (l1 ++ l), (S j), (1 + d)%nat.
    replace (k + S j)%nat with (S k + j)%nat by lia. split; [|split; [auto|lia]].
    eapply kmore; [simpl; lia| |exact Q]. apply pks_one. apply leaf_class. exact P.
Qed.
Lemma quoted_inner_gram : peg_gram (EOneOrMore [segment]).
Proof. unfold segment. csv_unfold. gram_tac. Qed.
Lemma quoted_gram : peg_gram quotedCell.
Proof. csv_unfold. gram_tac. Qed.
Lemma cell_inner_gram : peg_gram (EZeroOrMore [SCharClassN cellBreakCharacters]).
Proof. csv_unfold. gram_tac. Qed.
Lemma kcell s a cur : read_cell s a -> at_rest w cur s ->
  match a with
  | Some (c, t) => exists cur' x d, pegk w cellp cur (RSucc cur' [x]) d /\ at_rest w cur' t /\ (d + 9 * |t| <= 9 * |s| + 12 /\ |t| <= |s|)%nat
  | None => exists cur' d, pegk w cellp cur (RErr cur' eof_error) d /\ at_rest w cur' [] /\ (d <= 9 * |s| + 23)%nat
  end.
Proof.
  intros R A. pose proof (cell_peg w cur s a R A) as C. destruct R as [s0 a0 Q|s0 t x t1 c B N U T].
  - pose proof (kquoted _ _ Q cur 0 A) as H. destruct a0 as [[o t]|].
    + destruct H as (cur' & l & j & d & P & A' & L). destruct C as (cur2 & x & C & A2 & _).
      assert (P1 : pegk w (EOneOrMore [segment]) cur (RSucc cur' l) (S d)) by (eapply krep_ok; [exact P|simpl; lia]).
      exists cur2, x, (S (S (S d))). split; [|split; [auto|lia]]. apply pk_first. apply ck_ok.
      apply (trans_lift w (EOneOrMore [segment]) [Concat] cur _ _ _ Hpeg quoted_inner_gram P1).
      apply (first_take w _ cell cur _ C). intros K. inversion K; subst.
      match goal with K : peg w _ cur RFail |- _ => pose proof (peg_det w _ cur _ _ Hpeg quoted_inner_gram (pegk_peg _ _ _ _ _ P1) K); discriminate end.
    + destruct H as (cur' & d & P & A' & L). destruct C as (cur2 & C & A2).
      assert (P1 : pegk w (EOneOrMore [segment]) cur (RErr cur' eof_error) (S d)) by (eapply krep_err; exact P).
      exists cur', (S (S (S d))). split; [|split; [auto|lia]]. apply pk_first. apply ck_err. eapply pk_trans; [exact P1|]. constructor.
  - destruct (ksegment_no s0 t cur B N A) as (d0 & P0 & L0).
    assert (P1 : pegk w quotedCell cur RFail (S (S d0))).
    { eapply pk_trans; [|constructor]. eapply krep_few with (k := 0%nat); [|simpl; lia]. apply rk_stop; [simpl; lia|]. apply sk_fail. exact P0. }
    destruct (kunquoted _ _ _ U cur 0 A) as (cur' & l & j & d & P & A' & L). destruct C as (cur2 & y & C & A2 & _).
    assert (P2 : pegk w (EZeroOrMore [SCharClassN cellBreakCharacters]) cur (RSucc cur' l) (S d)) by (eapply krep_ok; [exact P|simpl; lia]).
    exists cur2, y, (S (S (S d0) + S (S d)))%nat. split; [|split; [auto|]].
    + apply pk_first. apply ck_next; [exact P1|]. apply ck_ok.
      apply (trans_lift w _ [Trim] cur _ _ _ Hpeg cell_inner_gram P2).
      apply (first_skip w quotedCell cell cur _ Hpeg quoted_gram C); [eapply pegk_peg; exact P1|discriminate].
    + pose proof (blanks_in_cell _ _ B _ _ (at_bytes _ _ _ A) U). pose proof (unquoted_shorter _ _ _ U). apply run_shorter in B. lia.
Qed.

Lemma kcells s a : read_row s a -> forall cur k, at_rest w cur s ->
  match a with
  | Some (cs, t) => exists c s1 cur1 l j d, pegkr w zm [cellp; csv_erase (SSeq (bs ","))] k cur (inr (cur1, l, (k + j)%nat)) d /\
      at_rest w cur1 s1 /\ read_cell s1 (Some (c, t)) /\ (d + 6 * |s1| + 9 * |t| <= 15 * |s| + 15 /\ |t| <= |s1| /\ |s1| <= |s|)%nat
  | None => exists cur' d, pegkr w zm [cellp; csv_erase (SSeq (bs ","))] k cur (inl (cur', eof_error)) d /\ at_rest w cur' [] /\ (d <= 15 * |s| + 23)%nat
  end.
Proof.
  induction 1 as [s C|s c t C N|s c t a C R IH]; intros cur k A; pose proof (kcell _ _ cur C A) as H.
  - destruct H as (cur' & d & P & A' & L). exists cur', d. split; [|split; [auto|lia]]. apply rk_err; [simpl; lia|]. apply sk_err. auto.
  - destruct H as (cur' & x & d & P & A' & L). exists c, s, cur, [], 0%nat, (d + 2)%nat. rewrite Nat.add_0_r.
    split; [|split; [auto|split; [auto|lia]]]. apply rk_stop; [simpl; lia|]. eapply kseq_fail; [exact P|]. apply sk_fail. eapply kelit_no; eauto.
  - destruct H as (cur1 & x & d & P & A1 & L). cbn [length] in L. destruct (kelit_yes (bs ",") cur1 t A1) as (cur2 & P2 & A2).
    specialize (IH cur2 (S k) A2). destruct a as [[cs t1]|]; simpl.
    + destruct IH as (c1 & s1 & cur3 & l & j & d3 & Q & A3 & C3 & F). exists c1, s1, cur3, (([x] ++ []) ++ l), (S j), ((d + 2) + d3)%nat.
      replace (k + S j)%nat with (S k + j)%nat by lia.
      split; [|split; [auto|split; [auto|lia]]].
      eapply kmore; [simpl; lia| |exact Q]. eapply kseq_ok; [exact P|]. apply pks_one. exact P2.
    + destruct IH as (cur' & d3 & Q & A' & F). exists cur', ((d + 2) + d3)%nat. split; [|split; [auto|lia]]. eapply kmore_err; [simpl; lia| |exact Q].
      eapply kseq_ok; [exact P|]. apply pks_one. exact P2.
Qed.
Lemma line_inner_gram : peg_gram (EFlatGroup [EZeroOrMore [cellp; csv_erase (SSeq (bs ","))]; cellp]).
Proof. unfold cellp. csv_unfold. gram_tac. Qed.
Lemma krow s a cur : read_row s a -> at_rest w cur s ->
  match a with
  | Some (r, t) => exists cur' d, pegk w csv_line cur (RSucc cur' [row_ast r]) d /\ at_rest w cur' t /\ (d + 18 * |t| <= 18 * |s| + 30 /\ |t| <= |s|)%nat
  | None => exists cur' d, pegk w csv_line cur (RErr cur' eof_error) d /\ at_rest w cur' [] /\ (d <= 18 * |s| + 26)%nat
  end.
Proof.
  intros R A. pose proof (kcells _ _ R cur 0 A) as H. pose proof (row_peg w cur _ _ R A) as C. destruct a as [[cs t]|].
  - destruct H as (c & s1 & cur1 & l & j & d & Q & A1 & C1 & L). destruct (kcell _ _ cur1 C1 A1) as (cur2 & x & d2 & P & A2 & L2).
    destruct C as (cur' & C & A'). exists cur', (S (S (S d + d2)))%nat. split; [|split; [auto|lia]].
    eapply (trans_lift w _ [lineTransform] cur _ _ _ Hpeg line_inner_gram); [|exact C].
    apply pk_flat. eapply kseq_ok; [eapply krep_ok; [exact Q|simpl; lia]|]. apply pks_one. exact P.
  - destruct H as (cur' & d & Q & A' & L). exists cur', (S (S (S d))). split; [|split; [auto|lia]]. eapply pk_trans; [|apply th_err].
    apply pk_flat. apply sk_err. eapply krep_err. exact Q.
Qed.
Lemma run_moves P s t : run_of P s t -> s <> t -> ~ P [] -> (|t| < |s|)%nat.
Proof.
  intros H. destruct H as [s N|x s t Hx H]; [congruence|]. intros _ Hn. apply run_shorter in H. rewrite app_length. destruct x; [contradiction|]. cbn [length]. lia.
Qed.
Lemma no_empty_break : ~ line_break [].
Proof. cbn. intuition discriminate. Qed.
Lemma krows s a : read_rows s a -> forall cur k, at_rest w cur s ->
  match a with
  | Unclosed => exists cur' d, pegkr w zm row_item k cur (inl (cur', eof_error)) d /\ at_rest w cur' [] /\ (d <= 35 * |s| + 26)%nat
  | _ => exists r t l s1 cur1 j d, pegkr w zm row_item k cur (inr (cur1, l, (k + j)%nat)) d /\
      at_rest w cur1 s1 /\ read_row s1 (Some (r, t)) /\ (d <= 35 * |s| + 33 /\ |s1| <= |s|)%nat
  end.
Proof.
  induction 1 as [s R|s r R|s r t R N1 N2|s r t t1 a R B Br H IH]; intros cur k A; pose proof (krow _ _ cur R A) as P.
  - destruct P as (cur' & d & P & A' & L). exists cur', d. split; [|split; [auto|lia]]. apply rk_err; [simpl; lia|]. apply sk_err. auto.
  - destruct P as (cur' & d & P & A' & L). exists r, [], [], s, cur, 0%nat, (d + 3)%nat. rewrite Nat.add_0_r. split; [|split; [auto|split; [auto|lia]]].
    apply rk_stop; [simpl; lia|]. eapply kseq_fail; [exact P|]. apply sk_fail. eapply kbreaks_no; eauto.
    intros (b & Hb & x & E). unfold line_break in Hb. simpl in Hb. destruct Hb as [<-|[<-|[<-|[<-|[<-|[]]]]]]; discriminate.
  - destruct P as (cur' & d & P & A' & L). exists r, t, [], s, cur, 0%nat, (d + 3)%nat. rewrite Nat.add_0_r. split; [|split; [auto|split; [auto|lia]]].
    apply rk_stop; [simpl; lia|]. eapply kseq_fail; [exact P|]. apply sk_fail. eapply kbreaks_no; eauto.
  - destruct P as (cur1 & d & P & A1 & L). pose proof (at_line_break_moves _ _ B Br) as Mv.
    destruct (kbreaks t t1 cur1 Br Mv A1) as (cur2 & d2 & P2 & A2 & L2). pose proof (run_moves _ _ _ Br Mv no_empty_break) as Sh.
    assert (Sq : pegks w row_item cur (RSucc cur2 ([row_ast r] ++ [])) (d + d2)).
    { eapply kseq_ok; [exact P|]. apply pks_one. exact P2. }
    specialize (IH cur2 (S k) A2). destruct a as [rows| |]; cbn [on_table].
    + destruct IH as (r1 & t2 & l & s1 & cur3 & j & d3 & Q & A3 & R3 & L3). exists r1, t2, (([row_ast r] ++ []) ++ l), s1, cur3, (S j), ((d + d2) + d3)%nat.
      replace (k + S j)%nat with (S k + j)%nat by lia. split; [|split; [auto|split; [auto|lia]]]. eapply kmore; [simpl; lia|exact Sq|exact Q].
    + destruct IH as (cur' & d3 & Q & A' & L3). exists cur', ((d + d2) + d3)%nat. split; [|split; [auto|lia]]. eapply kmore_err; [simpl; lia|exact Sq|exact Q].
    + destruct IH as (r1 & t2 & l & s1 & cur3 & j & d3 & Q & A3 & R3 & L3). exists r1, t2, (([row_ast r] ++ []) ++ l), s1, cur3, (S j), ((d + d2) + d3)%nat.
      replace (k + S j)%nat with (S k + j)%nat by lia. split; [|split; [auto|split; [auto|lia]]]. eapply kmore; [simpl; lia|exact Sq|exact Q].
Qed.
Lemma doc_inner_gram : peg_gram (EFlatGroup [EZeroOrMore row_item; csv_line; SEnd]).
Proof. unfold row_item. csv_unfold. gram_tac. Qed.
Lemma kdocument s a cur : read_csv s a -> at_rest w cur s -> exists r d, pegk w document cur r d /\ (d <= 53 * |s| + 67)%nat.
Proof.
  intros R A.
  assert (G : forall b, read_rows s b -> b <> Unclosed -> (exists r, peg w document cur r) -> exists r d, pegk w document cur r d /\ (d <= 53 * |s| + 67)%nat).
  { intros b Rb Nb (r' & C). pose proof (krows _ _ Rb cur 0 A) as H.
    assert (H' : exists r t l s1 cur1 j d, pegkr w zm row_item 0 cur (inr (cur1, l, (0 + j)%nat)) d /\
      at_rest w cur1 s1 /\ read_row s1 (Some (r, t)) /\ (d <= 35 * |s| + 33 /\ |s1| <= |s|)%nat) by (destruct b; auto; congruence).
    destruct H' as (r & t & l & s1 & cur1 & j & d & Q & A1 & R1 & L). destruct (krow _ _ cur1 R1 A1) as (cur2 & d2 & P2 & A2 & L2).
    pose proof (kends t cur2 A2) as P3.
    exists r', (S (S (S d + (d2 + 1))))%nat. split; [|lia].
    assert (X : exists x, pegks w [csv_line; SEnd] cur1 x (d2 + 1)).
    { destruct t; eexists; [eapply kseq_ok|eapply kseq_fail]; [exact P2|apply pks_one; exact P3|exact P2|apply pks_one; exact P3]. }
    destruct X as (x & X).
    assert (Y : exists y, pegk w (EFlatGroup [EZeroOrMore row_item; csv_line; SEnd]) cur y (S (S d + (d2 + 1)))).
    { eexists. apply pk_flat. eapply sk_ok; [eapply krep_ok; [exact Q|simpl; lia]|exact X]. }
    destruct Y as (y & Y). exact (trans_lift w _ [documentTransform] cur _ _ _ Hpeg doc_inner_gram Y C). }
  pose proof (document_peg w cur s a R A) as C. destruct R as [s0 rows kept R W|s0 R|s0 R].
  - apply (G (Table rows)); [exact R|discriminate|]. destruct C as (cur' & C). eauto.
  - destruct (krows _ _ R cur 0 A) as (cur' & d & Q & A' & L). exists (RErr cur' eof_error), (S (S (S d))). split; [|lia].
    eapply pk_trans; [|apply th_err]. apply pk_flat. apply sk_err. eapply krep_err. exact Q.
  - apply (G Junk); [exact R|discriminate|]. eauto.
Qed.
End Count.

Lemma csv_cost s n o err : Forall is_byte s -> run (fun _ => EUnmatched) n document (new_string_ctx s) = Ok (o, err) ->
  (cost (fun _ => EUnmatched) n document (new_string_ctx s) <= 53 * length s + 67)%nat.
Proof.
  intros B R. set (w := csv_world s). assert (A : at_rest w sp0 s) by (split; [split; [auto|simpl; lia]|reflexivity]).
  destruct (csv_total s B) as (a & Ra). destruct (kdocument w (no_env_peg s) s a sp0 Ra A) as (r & d & P & L).
  destruct (cost_counts (fun _ => EUnmatched) document n (new_string_ctx s) o err (no_env_peg s) document_gram eq_refl R) as (r' & P' & _).
  rewrite (proj1 (pegk_det_all w (no_env_peg s)) document _ _ _ P' document_gram _ _ P). exact L.
Qed.
