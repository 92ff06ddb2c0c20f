(** Proofs about the CSV example. *)
From Verif Require Export M_Csv S_Csv L_Lang L_LineCol.

Definition at_rest (w : world) (cur : srcpos) (s : bytes) : Prop := good w cur /\ rest_of w cur = s.
Lemma at_step w cur cur' x t : at_rest w cur (x ++ t) -> sp_pos cur' = (sp_pos cur + length x)%nat -> at_rest w cur' t.
Proof. intros [G E] Q. destruct (rest_step w cur cur' x t G E Q). split; auto. Qed.
Lemma at_same w cur cur' s : at_rest w cur s -> sp_pos cur' = sp_pos cur -> at_rest w cur' s.
Proof. intros A Q. apply (at_step w cur cur' [] s); simpl; auto. lia. Qed.

(** The answer of a parser that recognises a language. *)
Lemma lang_at e R w cur s : lang e R -> at_rest w cur s ->
  (exists x o t cur' l ss, s = x ++ t /\ R x o /\ peg w e cur (RSucc cur' l) /\ at_rest w cur' t /\ Forall2 string_ast l ss /\ concat ss = o) \/
  (peg w e cur RFail /\ no_word R s).
Proof.
  intros L [G E]. destruct (L w cur G) as [(cur' & l & P & x & o & ss & ((t & T) & H & _) & Q & F & C)|[P N]].
  - left. exists x, o, t, cur', l, ss. rewrite E in T. split; [auto|]. split; [auto|]. split; [auto|].
    split; [|auto]. apply (at_step w cur cur' x t); auto. split; congruence.
  - right. rewrite E in N. auto.
Qed.
Lemma lit_yes s w cur t : at_rest w cur (s ++ t) -> exists cur' l, peg w (SSeq s) cur (RSucc cur' l) /\ at_rest w cur' t.
Proof.
  intros A. destruct (lang_at _ _ w cur _ (seq_lang s) A) as [(x & o & t' & cur' & l & ss & E & [-> _] & P & A' & _)|[_ N]].
  - apply app_inv_head in E. subst t'. eauto.
  - exfalso. eapply N; [reflexivity|]. split; reflexivity.
Qed.
Lemma lit_no s w cur t : at_rest w cur t -> ~ begins s t -> peg w (SSeq s) cur RFail.
Proof.
  intros A N. destruct (lang_at _ _ w cur _ (seq_lang s) A) as [(x & o & t' & cur' & l & ss & E & [-> _] & _)|[P _]]; auto.
  exfalso. apply N. exists t'. auto.
Qed.
Lemma erase_ok w e cur cur' l : peg w e cur (RSucc cur' l) -> peg w (csv_erase e) cur (RSucc cur' []).
Proof. intros H. eapply peg_trans_ok; [exact H|]. eapply (pl_ok _ 0%nat); [reflexivity|constructor]. Qed.
Lemma erase_no w e cur : peg w e cur RFail -> peg w (csv_erase e) cur RFail.
Proof. apply peg_trans_fail. Qed.
Lemma elit_yes s w cur t : at_rest w cur (s ++ t) -> exists cur', peg w (csv_erase (SSeq s)) cur (RSucc cur' []) /\ at_rest w cur' t.
Proof. intros A. destruct (lit_yes s w cur t A) as (cur' & l & P & A'). exists cur'. split; auto. eapply erase_ok; eauto. Qed.
Lemma elit_no s w cur t : at_rest w cur t -> ~ begins s t -> peg w (csv_erase (SSeq s)) cur RFail.
Proof. intros A N. apply erase_no. eapply lit_no; eauto. Qed.

(** Two sets of characters as byte strings. *)
Lemma blank_charL x : charL (fun r => In r [9; 32; 160]) x x <-> blank_char x.
Proof.
  unfold blank_char. split.
  - intros (r & H & _ & I). simpl in I. destruct I as [<-|[<-|[<-|[]]]].
    + apply encode_char in H. vm_compute in H. subst. simpl. auto.
    + apply encode_char in H. vm_compute in H. subst. simpl. auto.
    + apply encode_char in H. vm_compute in H. subst. simpl. auto.
  - intros [<-|[<-|[<-|[]]]].
    + exists 9. split; [apply (encode_valid 9); split; lia|]. simpl. auto.
    + exists 32. split; [apply (encode_valid 32); split; lia|]. simpl. auto.
    + exists 160. split; [apply (encode_valid 160); split; lia|]. simpl. auto.
Qed.
Lemma break_charL x : charL (fun r => In r [10; 11; 12; 13; 133]) x x <-> line_break x.
Proof.
  unfold line_break. split.
  - intros (r & H & _ & I). simpl in I. destruct I as [<-|[<-|[<-|[<-|[<-|[]]]]]]; apply encode_char in H; vm_compute in H; subst; simpl; auto 12.
  - intros [<-|[<-|[<-|[<-|[<-|[]]]]]]; [exists 10|exists 11|exists 12|exists 13|exists 133]; (split; [apply encode_valid; split; lia|]); simpl; auto 12.
Qed.
Lemma charL_same P x o : charL P x o -> o = x.
Proof. intros (r & _ & -> & _). auto. Qed.
Definition picks (e : pexp) (P : bytes -> Prop) : Prop := forall w cur s, at_rest w cur s ->
  (exists x t cur' l, s = x ++ t /\ P x /\ x <> [] /\ peg w e cur (RSucc cur' l) /\ at_rest w cur' t) \/
  (peg w e cur RFail /\ forall x, P x -> ~ begins x s).
Lemma picks_char e P Q : lang e (charL P) -> (forall x, charL P x x <-> Q x) -> picks e Q.
Proof.
  intros L H w cur s A. destruct (lang_at _ _ w cur s L A) as [(x & o & t & cur' & l & ss & E & K & Pg & A' & _)|[Pg N]].
  - left. exists x, t, cur', l. pose proof (charL_same _ _ _ K). subst o. split; [auto|]. split; [apply H; auto|]. split; [|auto].
    destruct K as (r & K & _). apply char_len in K. destruct x; simpl in *; [lia|discriminate].
  - right. split; auto. intros x Hx [t ->]. apply H in Hx. eapply N; eauto.
Qed.
Lemma blank_picks : picks SWhitespaceNoLineBreak blank_char.
Proof. eapply picks_char; [|apply blank_charL]. eapply okchar_lang; [apply char_sets, cs_wsn|simpl; lia]. Qed.
Lemma break_picks : picks SLineBreak line_break.
Proof. eapply picks_char; [|apply break_charL]. eapply okchar_lang; [apply char_sets, cs_lb|simpl; lia]. Qed.
(** The pieces never overlap differently. *)
Definition prefix_free (P : bytes -> Prop) : Prop := forall x y t u, P x -> P y -> x ++ t = y ++ u -> x = y /\ t = u.
Lemma charL_free P Q : (forall x, charL P x x <-> Q x) -> prefix_free Q.
Proof.
  intros H x y t u Hx Hy E. apply H in Hx. apply H in Hy. destruct Hx as (r & Hx & _), Hy as (r' & Hy & _).
  destruct (char_inj _ _ _ _ _ _ Hx Hy E) as (_ & -> & ->). auto.
Qed.
Lemma blank_free : prefix_free blank_char. Proof. eapply charL_free, blank_charL. Qed.
Lemma break_free : prefix_free line_break. Proof. eapply charL_free, break_charL. Qed.

Lemma rep_run e P w s t mn : picks e P -> prefix_free P -> run_of P s t -> forall cur k, at_rest w cur s ->
  exists cur' l j, pegr w (mkTimes mn (-1)) [e] k cur (inr (cur', l, (k + j)%nat)) /\ at_rest w cur' t /\ (s <> t -> (0 < j)%nat).
Proof.
  intros Pk Pf H. induction H as [s N|x s t Hx H IH]; intros cur k A; destruct (Pk w cur _ A) as [(y & u & cur1 & l1 & E & Hy & Ne & Pg & A1)|[Pg N']].
  - exfalso. eapply N; [exact Hy|]. exists u. auto.
  - exists cur, [], 0%nat. rewrite Nat.add_0_r. split; [apply rep_stop; [simpl; lia|apply seq_fail; auto]|]. split; auto. congruence.
  - destruct (Pf _ _ _ _ Hx Hy E) as [-> ->]. destruct (IH cur1 (S k) A1) as (cur' & l & j & Q & A' & _).
    exists cur', ((l1 ++ []) ++ l), (S j). replace (k + S j)%nat with (S k + j)%nat by lia.
    split; [eapply rep_more; [simpl; lia|eapply S_Peg.seq_ok; [exact Pg|constructor]|exact Q]|]. split; auto. lia.
  - exfalso. apply (N' x Hx). exists s. auto.
Qed.
Lemma sp_peg w cur s t : run_of blank_char s t -> at_rest w cur s -> exists cur', peg w csv_sp cur (RSucc cur' []) /\ at_rest w cur' t.
Proof.
  intros H A. destruct (rep_run _ _ w s t 0 blank_picks blank_free H cur 0 A) as (cur' & l & j & P & A' & _).
  exists cur'. split; auto. eapply erase_ok. eapply peg_rep_ok; [exact P|simpl; lia].
Qed.
Lemma breaks_peg w cur s t : run_of line_break s t -> s <> t -> at_rest w cur s ->
  exists cur', peg w (csv_erase (EOneOrMore [SLineBreak])) cur (RSucc cur' []) /\ at_rest w cur' t.
Proof.
  intros H Ne A. destruct (rep_run _ _ w s t 1 break_picks break_free H cur 0 A) as (cur' & l & j & P & A' & J).
  exists cur'. split; auto. eapply erase_ok. eapply peg_rep_ok; [exact P|]. specialize (J Ne). simpl. lia.
Qed.
Lemma breaks_no w cur s : ~ at_line_break s -> at_rest w cur s -> peg w (csv_erase (EOneOrMore [SLineBreak])) cur RFail.
Proof.
  intros N A. apply erase_no. eapply peg_rep_few with (k := 0%nat); [|simpl; lia]. apply rep_stop; [simpl; lia|]. apply seq_fail.
  destruct (break_picks w cur s A) as [(x & t & _ & _ & E & Hx & _)|[P _]]; auto. exfalso. apply N. exists x. split; auto. exists t. auto.
Qed.

(** Any character but the listed ones. *)
Lemma classN_peg cc w cur s : at_rest w cur s ->
  (exists v t cur' l, Forall (fun x => ~ begins x s) cc /\ take_char s v t /\
     peg w (SCharClassN cc) cur (RSucc cur' l) /\ at_rest w cur' t /\ Forall2 string_ast l [v]) \/
  ((s = [] \/ Exists (fun x => begins x s) cc) /\ peg w (SCharClassN cc) cur RFail).
Proof.
  intros [G E]. destruct (classN_ok (fun _ => EUnmatched) 0 cc (fresh w cur) (proj1 G) (proj2 G)) as (o & Ho & H).
  pose proof (light_peg _ _ _ _ _ _ _ Ho) as Pg. unfold leaf_result in Pg.
  assert (C : forall x, continues (fresh w cur) x <-> begins x s).
  { intros x. unfold continues. change (skipn (c_pos (fresh w cur)) (c_str (fresh w cur))) with (rest_of w cur). rewrite E. reflexivity. }
  destruct H as [(F & r & l & v & Hn & Hl & _ & Hv & Hs & Hsp & Hst)|[Ex (Hs & _)]]; rewrite Hs in Pg.
  - change (skipn (c_pos (fresh w cur)) (c_str (fresh w cur))) with (rest_of w cur) in Hn. rewrite E in Hn.
    assert (Hle : (l <= length s)%nat). { destruct Hn; simpl in *; rewrite ?app_length; lia. }
    left. exists v, (skipn l s), (c_sp o), (c_stack o). split; [eapply Forall_impl; [|exact F]; intros x Hx; rewrite <- C; auto|].
    split; [exists r, l; auto|]. split; auto. split.
    + apply (at_step w cur (c_sp o) (firstn l s)); [rewrite firstn_skipn; split; auto|]. rewrite Hsp, firstn_length_le; auto.
    + rewrite Hst. repeat constructor.
  - right. split; auto. destruct Ex as [Ex|Ex].
    + right. rewrite Exists_exists in *. destruct Ex as (x & I & Hx). exists x. split; auto. apply C. auto.
    + left. rewrite <- E. unfold rest_of. apply skipn_all2. change (c_pos (fresh w cur)) with (sp_pos cur) in Ex. simpl in Ex. lia.
Qed.
Lemma take_func s v t v' t' : Forall is_byte s -> take_char s v t -> take_char s v' t' -> v = v' /\ t = t'.
Proof.
  intros Hb (r & l & H & _ & Hv & ->) (r' & l' & H' & _ & Hv' & ->). destruct (next_func _ _ _ _ _ Hb H H') as [-> ->]. split; auto.
  apply encode_char in Hv. apply encode_char in Hv'. congruence.
Qed.
Lemma at_bytes w cur s : at_rest w cur s -> Forall is_byte s.
Proof. intros [[B _] <-]. apply Forall_skipn'. auto. Qed.
Lemma classN_yes cc w cur s v t : at_rest w cur s -> take_char s v t -> Forall (fun x => ~ begins x s) cc ->
  exists cur' l, peg w (SCharClassN cc) cur (RSucc cur' l) /\ at_rest w cur' t /\ Forall2 string_ast l [v].
Proof.
  intros A T F. destruct (classN_peg cc w cur s A) as [(v' & t' & cur' & l & _ & T' & P & A' & S')|[[->|Ex] _]].
  - destruct (take_func _ _ _ _ _ (at_bytes _ _ _ A) T T') as [<- <-]. eauto.
  - destruct T as (r & l & H & Hl & _). inversion H; subst; [lia|]. exfalso. destruct H1; simpl in *; discriminate.
  - exfalso. rewrite Exists_exists in Ex. rewrite Forall_forall in F. destruct Ex as (x & I & Hx). apply (F x I Hx).
Qed.
Lemma classN_no cc w cur s : at_rest w cur s -> (s = [] \/ Exists (fun x => begins x s) cc) -> peg w (SCharClassN cc) cur RFail.
Proof.
  intros A H. destruct (classN_peg cc w cur s A) as [(v & t & cur' & l & F & (r & k & T & Hk & _) & _)|[_ P]]; auto.
  exfalso. destruct H as [->|Ex].
  - inversion T; subst; [lia|]. destruct H0; simpl in *; discriminate.
  - rewrite Exists_exists in Ex. rewrite Forall_forall in F. destruct Ex as (x & I & Hx). apply (F x I Hx).
Qed.

(** ** Quoted cells *)
Definition q_item : pexp := EFirst [csv_erase (SSeq [34; 34]); SCharClassN [[34]]].
Definition texts (l : list ast) (o : bytes) : Prop := exists ss, Forall2 string_ast l ss /\ concat ss = o.
Lemma texts_app l o l' o' : texts l o -> texts l' o' -> texts (l ++ l') (o ++ o').
Proof. intros (ss & F & <-) (ss' & F' & <-). exists (ss ++ ss'). split; [apply Forall2_app; auto|apply concat_app]. Qed.
Lemma texts_nil : texts [] []. Proof. exists []. split; auto. Qed.
Lemma texts_one l v : Forall2 string_ast l [v] -> texts l v.
Proof. intros F. exists [v]. split; auto. simpl. apply app_nil_r. Qed.
Lemma begins_34 a b : ~ begins [a] b -> forall c, ~ begins (a :: c) b.
Proof. intros N c [t ->]. apply N. exists (c ++ t). auto. Qed.
Definition zm := qtyZeroOrMoreTimes.
Lemma inside_peg w s a : inside s a -> forall cur k, at_rest w cur s ->
  exists cur' l j, pegr w zm [q_item] k cur (inr (cur', l, (k + j)%nat)) /\
  match a with
  | Some (o, t) => at_rest w cur' (34 :: t) /\ ~ begins [34] t /\ texts l o
  | None => at_rest w cur' []
  end.
Proof.
  induction 1 as [|t a H IH|t N|s v t a N T H IH]; intros cur k A.
  - exists cur, [], 0%nat. rewrite Nat.add_0_r. split; auto. apply rep_stop; [simpl; lia|]. apply seq_fail. constructor.
    apply ch_next; [eapply elit_no; eauto; intros [x E]; discriminate|]. apply ch_next; [eapply classN_no; eauto|constructor].
  - destruct (elit_yes [34; 34] w cur t A) as (cur1 & P & A1). destruct (IH cur1 (S k) A1) as (cur' & l & j & Q & R).
    exists cur', (([] ++ []) ++ l), (S j). replace (k + S j)%nat with (S k + j)%nat by lia. split; auto.
    eapply rep_more; [simpl; lia| |exact Q]. eapply S_Peg.seq_ok; [|constructor]. constructor. apply ch_ok. auto.
  - exists cur, [], 0%nat. rewrite Nat.add_0_r. split; [|repeat split; auto using texts_nil; apply A]. apply rep_stop; [simpl; lia|]. apply seq_fail. constructor.
    apply ch_next; [eapply elit_no; eauto; intros [x E]; inversion E; apply N; exists x; auto|].
    apply ch_next; [eapply classN_no; eauto|constructor]. right. constructor. exists t. auto.
  - destruct (classN_yes [[34]] w cur s v t A T ltac:(repeat constructor; auto)) as (cur1 & l1 & P & A1 & F).
    destruct (IH cur1 (S k) A1) as (cur' & l & j & Q & R).
    exists cur', ((l1 ++ []) ++ l), (S j). replace (k + S j)%nat with (S k + j)%nat by lia. split.
    + eapply rep_more; [simpl; lia| |exact Q]. eapply S_Peg.seq_ok; [|constructor]. constructor.
      apply ch_next; [eapply elit_no; eauto; apply begins_34; auto|]. apply ch_ok. auto.
    + destruct a as [[o t1]|]; simpl; auto. destruct R as (R1 & R2 & R3). split; auto. split; auto.
      rewrite app_nil_r. apply texts_app; auto. apply texts_one; auto.
Qed.
Lemma end_yes w cur : at_rest w cur [] -> exists cur', peg w SEnd cur (RSucc cur' []) /\ at_rest w cur' [].
Proof.
  intros A. exists (mkSP (sp_pos cur) 0). split; [|eapply at_same; eauto].
  assert (E : sp_pos cur = length (w_str w)).
  { destruct A as [[_ G] E]. unfold rest_of in E. apply (f_equal (@length Z)) in E. rewrite skipn_length in E. simpl in E. lia. }
  pose proof (peg_leaf w ":string:End" (lift end_fn) 0 cur) as P. unfold lift, end_fn in P. cbv zeta in P.
  change (c_pos (set_st (fresh w cur) Unmatched)) with (sp_pos cur) in P. change (c_str (set_st (fresh w cur) Unmatched)) with (w_str w) in P.
  rewrite E, Nat.eqb_refl in P. specialize (P _ _ eq_refl). cbn in P. exact P.
Qed.
Lemma end_no w cur s : at_rest w cur s -> s <> [] -> peg w SEnd cur RFail.
Proof.
  intros A N.
  assert (E : (sp_pos cur =? length (w_str w))%nat = false).
  { destruct A as [[_ G] E]. apply Nat.eqb_neq. intros K. apply N. rewrite <- E. unfold rest_of. rewrite K. apply skipn_all. }
  pose proof (peg_leaf w ":string:End" (lift end_fn) 0 cur) as P. unfold lift, end_fn in P. cbv zeta in P.
  change (c_pos (set_st (fresh w cur) Unmatched)) with (sp_pos cur) in P. change (c_str (set_st (fresh w cur) Unmatched)) with (w_str w) in P.
  rewrite E in P. specialize (P _ _ eq_refl). cbn in P. exact P.
Qed.
Lemma error_peg w cur msg : exists cur', peg w (EError msg) cur (RErr cur' (EText msg)) /\ sp_pos cur' = sp_pos cur.
Proof. eexists. split; [|shelve]. exact (peg_leaf w ":base:Error" (lift (error_fn msg)) 0 cur _ _ eq_refl). Unshelve. reflexivity. Qed.

Definition segment : pexp := EFlatGroup quoted_segment.
Lemma segment_ok w cur s t o t1 t2 : run_of blank_char s (34 :: t) -> inside t (Some (o, t1)) -> run_of blank_char t1 t2 ->
  at_rest w cur s -> exists cur' l, peg w segment cur (RSucc cur' l) /\ at_rest w cur' t2 /\ texts l o.
Proof.
  intros B I B2 A. destruct (sp_peg w cur _ _ B A) as (c1 & P1 & A1). destruct (elit_yes [34] w c1 t A1) as (c2 & P2 & A2).
  destruct (inside_peg w _ _ I c2 0 A2) as (c3 & l & j & P3 & A3 & N & T).
  destruct (elit_yes [34] w c3 t1 A3) as (c4 & P4 & A4). destruct (sp_peg w c4 _ _ B2 A4) as (c5 & P5 & A5).
  exists c5, ([] ++ [] ++ l ++ [] ++ [] ++ []). split; [|split; [auto|rewrite !app_nil_r; auto]]. constructor. unfold quoted_segment.
  eapply S_Peg.seq_ok; [exact P1|]. eapply S_Peg.seq_ok; [exact P2|].
  eapply S_Peg.seq_ok; [eapply peg_rep_ok; [exact P3|simpl; lia]|].
  eapply S_Peg.seq_ok; [constructor; apply ch_ok; exact P4|]. eapply S_Peg.seq_ok; [exact P5|constructor].
Qed.
Definition eof_error := EText "Unexpected EOF".
Lemma segment_eof w cur s t : run_of blank_char s (34 :: t) -> inside t None -> at_rest w cur s ->
  exists cur', peg w segment cur (RErr cur' eof_error) /\ at_rest w cur' [].
Proof.
  intros B I A. destruct (sp_peg w cur _ _ B A) as (c1 & P1 & A1). destruct (elit_yes [34] w c1 t A1) as (c2 & P2 & A2).
  destruct (inside_peg w _ _ I c2 0 A2) as (c3 & l & j & P3 & A3). destruct (end_yes w c3 A3) as (c4 & P4 & A4).
  destruct (error_peg w c4 "Unexpected EOF") as (c5 & P5 & E5). exists c5. split; [|eapply at_same; eauto]. constructor. unfold quoted_segment.
  eapply seq_err_later; [exact P1|]. eapply seq_err_later; [exact P2|].
  eapply seq_err_later; [eapply peg_rep_ok; [exact P3|simpl; lia]|]. apply seq_err. constructor.
  apply ch_next; [eapply elit_no; eauto; intros [x E]; discriminate|]. apply ch_err. constructor.
  eapply seq_err_later; [exact P4|]. apply seq_err. exact P5.
Qed.
Lemma segment_no w cur s t : run_of blank_char s t -> ~ begins [34] t -> at_rest w cur s -> peg w segment cur RFail.
Proof.
  intros B N A. destruct (sp_peg w cur _ _ B A) as (c1 & P1 & A1). constructor.
  eapply seq_fail_later; [exact P1|]. apply seq_fail. eapply elit_no; eauto.
Qed.
Lemma run_of_max P s t : run_of P s t -> run_of P t t.
Proof. induction 1; auto. constructor. auto. Qed.
Definition om := qtyOneOrMoreTimes.
Lemma quoted_peg w s a : quoted s a -> forall cur k, at_rest w cur s ->
  match a with
  | Some (o, t) => exists cur' l j, pegr w om [segment] k cur (inr (cur', l, (k + S j)%nat)) /\ at_rest w cur' t /\ texts l o
  | None => exists cur', pegr w om [segment] k cur (inl (cur', eof_error)) /\ at_rest w cur' []
  end.
Proof.
  induction 1 as [s t B I|s t o t1 t2 B I B2 N|s t o t1 t2 a B I B2 Q IH]; intros cur k A.
  - destruct (segment_eof w cur s t B I A) as (cur' & P & A'). exists cur'. split; auto. apply rep_err; [simpl; lia|]. apply seq_err. auto.
  - destruct (segment_ok w cur _ _ _ _ _ B I B2 A) as (cur' & l & P & A' & T). exists cur', ((l ++ []) ++ []), 0%nat.
    split; [|rewrite !app_nil_r; auto]. eapply rep_more; [simpl; lia|eapply S_Peg.seq_ok; [exact P|constructor]|].
    replace (k + 1)%nat with (S k) by lia. apply rep_stop; [simpl; lia|]. apply seq_fail.
    eapply segment_no; [apply (run_of_max _ _ _ B2)|auto|auto].
  - destruct (segment_ok w cur _ _ _ _ _ B I B2 A) as (cur1 & l & P & A1 & T). specialize (IH cur1 (S k) A1).
    destruct a as [[o2 t3]|]; simpl.
    + destruct IH as (cur' & l2 & j & Q2 & A2 & T2). exists cur', ((l ++ []) ++ l2), (S j).
      replace (k + S (S j))%nat with (S k + S j)%nat by lia. split; [|rewrite app_nil_r; auto using texts_app].
      eapply rep_more; [simpl; lia|eapply S_Peg.seq_ok; [exact P|constructor]|exact Q2].
    + destruct IH as (cur' & Q2 & A2). exists cur'. split; auto. eapply rep_more_err; [simpl; lia|eapply S_Peg.seq_ok; [exact P|constructor]|exact Q2].
Qed.

(** ** Cells *)
Lemma in_break x : In x cellBreakCharacters <-> break_char x.
Proof. unfold break_char, line_break, cellBreakCharacters, LineBreakCharacters, NEL. simpl. intuition. Qed.
Lemma unquoted_peg w s x t : unquoted s x t -> forall cur k, at_rest w cur s ->
  exists cur' l j, pegr w zm [SCharClassN cellBreakCharacters] k cur (inr (cur', l, (k + j)%nat)) /\ at_rest w cur' t /\ texts l x.
Proof.
  induction 1 as [s H|s v t x t1 N T H IH]; intros cur k A.
  - exists cur, [], 0%nat. rewrite Nat.add_0_r. split; [|split; auto using texts_nil]. apply rep_stop; [simpl; lia|]. apply seq_fail.
    eapply classN_no; eauto. destruct H as [H|(b & Hb & H)]; auto. right. apply Exists_exists. exists b. split; auto. apply in_break. auto.
  - destruct (classN_yes cellBreakCharacters w cur s v t A T) as (cur1 & l1 & P & A1 & F).
    { apply Forall_forall. intros b Hb K. apply N. exists b. split; auto. apply in_break. auto. }
    destruct (IH cur1 (S k) A1) as (cur' & l & j & Q & A' & T'). exists cur', ((l1 ++ []) ++ l), (S j).
    replace (k + S j)%nat with (S k + j)%nat by lia. split; [|split; [auto|rewrite app_nil_r; apply texts_app; auto using texts_one]].
    eapply rep_more; [simpl; lia| |exact Q]. eapply S_Peg.seq_ok; [exact P|constructor].
Qed.
Lemma unquoted_bytes s x t : unquoted s x t -> Forall is_byte x.
Proof.
  induction 1 as [|s v t x t1 N (r & l & _ & _ & Hv & _) H IH]; auto. apply Forall_app. split; auto.
  apply valid_byte. eapply valid_char; eauto.
Qed.
Lemma spaces_app p q : spaces p -> spaces q -> spaces (p ++ q).
Proof. intros (rs & H & F) (rs' & H' & F'). exists (rs ++ rs'). split; [apply utf8_app; auto|apply Forall_app; auto]. Qed.
Lemma space_bytes r cs : space r -> utf8_char r cs -> In cs [[9]; [10]; [11]; [12]; [13]; [32]; [194; 133]; [194; 160]].
Proof. intros H Hc. unfold space in H. simpl in H. apply encode_char in Hc. subst cs.
  destruct H as [<-|[<-|[<-|[<-|[<-|[<-|[<-|[<-|[]]]]]]]]]; vm_compute; auto 12. Qed.
Lemma trimmed_split x c : trimmed x c -> exists y, trimmed_start x y /\ trimmed_end y c.
Proof.
  intros (p & q & E & Hp & Hq & Hs & He). destruct c as [|b c].
  - exists []. split.
    + exists (p ++ q). split; [rewrite app_nil_r; auto|]. split; [apply spaces_app; auto|].
      intros (r & cs & t & _ & Hc & K). symmetry in K. eapply char_not_nil; eauto.
    + exists []. split; auto. split; [exists []; split; constructor|]. auto.
  - exists ((b :: c) ++ q). split; [|exists q; auto]. exists p. split; auto. split; auto. intros (r & cs & t & Hr & Hc & K).
    pose proof (space_bytes r cs Hr Hc) as I. simpl in I.
    assert (D : length cs = 1%nat \/ (length cs = 2%nat /\ exists d : Z, cs = [194; d] /\ 128 <= d < 192)).
    { destruct I as [<-|[<-|[<-|[<-|[<-|[<-|[<-|[<-|[]]]]]]]]]; auto; right; split; auto; eexists; split; try reflexivity; lia. }
    assert (G : forall t', b :: c <> cs ++ t') by (intros t' Ec; apply Hs; exists r, cs, t'; auto).
    destruct cs as [|a cs]; [apply char_len in Hc; simpl in Hc; lia|]. cbn [app] in K. injection K as Ka K2. subst a.
    destruct D as [D|[_ (d & D & Hd)]].
    + destruct cs; [|discriminate]. apply (G c). auto.
    + injection D as Db Dc. subst b cs. destruct c as [|b2 c]; [|cbn [app] in K2; injection K2 as K3 K4; subst b2; apply (G c); auto].
      cbn [app] in K2. destruct Hq as (rs & Hq & Fq). destruct Hq as [|r' cs' rs q Hc' _]; [discriminate|]. inversion Fq as [|? ? Fr _]; subst.
      pose proof (space_bytes r' cs' Fr Hc') as I'. simpl in I'. destruct cs' as [|a' cs']; [apply char_len in Hc'; simpl in Hc'; lia|].
      cbn [app] in K2. injection K2 as Ka' _. subst a'. destruct I' as [I'|[I'|[I'|[I'|[I'|[I'|[I'|[I'|[]]]]]]]]]; inversion I'; lia.
Qed.
Lemma trimmed_func x c c' : trimmed x c -> trimmed x c' -> c = c'.
Proof.
  intros H H'. destruct (trimmed_split _ _ H) as (y & A & B), (trimmed_split _ _ H') as (y' & A' & B').
  rewrite (trimmed_start_func _ _ _ A A') in B. eapply trimmed_end_func; eauto.
Qed.
Definition cellp : pexp := EFirst [quotedCell; cell].
Lemma quoted_no w cur s t : run_of blank_char s t -> ~ begins [34] t -> at_rest w cur s -> peg w quotedCell cur RFail.
Proof.
  intros B N A. apply peg_trans_fail. eapply peg_rep_few with (k := 0%nat); [|simpl; lia]. apply rep_stop; [simpl; lia|]. apply seq_fail.
  eapply segment_no; eauto.
Qed.
Lemma cell_peg w cur s a : read_cell s a -> at_rest w cur s ->
  match a with
  | Some (c, t) => exists cur' x, peg w cellp cur (RSucc cur' [x]) /\ at_rest w cur' t /\ string_ast x c
  | None => exists cur', peg w cellp cur (RErr cur' eof_error) /\ at_rest w cur' []
  end.
Proof.
  intros [s0 a0 Q|s0 t x t1 c B N U T] A.
  - pose proof (quoted_peg w _ _ Q cur 0 A) as H. destruct a0 as [[o t]|].
    + destruct H as (cur' & l & j & P & A' & (ss & F & C)). exists cur', (text_ast l o). split; [|split; [auto|split; reflexivity]].
      constructor. apply ch_ok. eapply peg_trans_ok; [eapply peg_rep_ok; [exact P|simpl; lia]|].
      eapply (pl_ok _ 0%nat); [|constructor]. rewrite (concat_ok _ _ _ _ F), C. reflexivity.
    + destruct H as (cur' & P & A'). exists cur'. split; auto. constructor. apply ch_err. apply peg_trans_err. eapply peg_rep_err. exact P.
  - destruct (unquoted_peg w _ _ _ U cur 0 A) as (cur' & l & j & P & A' & (ss & F & C)).
    exists cur', (text_ast l c). split; [|split; [auto|split; reflexivity]]. constructor.
    apply ch_next; [eapply quoted_no; eauto|]. apply ch_ok. eapply peg_trans_ok; [eapply peg_rep_ok; [exact P|simpl; lia]|].
    eapply (pl_ok _ 0%nat); [|constructor]. unfold Trim. rewrite (with_concat_ok _ _ _ F), C.
    rewrite (trimmed_func x c (trim_both x) T (trim_both_ok x (unquoted_bytes _ _ _ U))). reflexivity.
Qed.

(** ** Rows *)
Lemma cells_peg w s a : read_row s a -> forall cur k, at_rest w cur s ->
  match a with
  | Some (cs, t) => exists cs0 c s1 cur1 l j, cs = cs0 ++ [c] /\
      pegr w zm [cellp; csv_erase (SSeq (bs ","))] k cur (inr (cur1, l, (k + j)%nat)) /\
      at_rest w cur1 s1 /\ read_cell s1 (Some (c, t)) /\ Forall2 string_ast l cs0
  | None => exists cur', pegr w zm [cellp; csv_erase (SSeq (bs ","))] k cur (inl (cur', eof_error)) /\ at_rest w cur' []
  end.
Proof.
  induction 1 as [s C|s c t C N|s c t a C R IH]; intros cur k A; pose proof (cell_peg w cur _ _ C A) as H.
  - destruct H as (cur' & P & A'). exists cur'. split; auto. apply rep_err; [simpl; lia|]. apply seq_err. auto.
  - destruct H as (cur' & x & P & A' & _). exists [], c, s, cur, [], 0%nat. rewrite Nat.add_0_r. split; auto.
    split; [|auto]. apply rep_stop; [simpl; lia|]. eapply seq_fail_later; [exact P|]. apply seq_fail. eapply elit_no; eauto.
  - destruct H as (cur1 & x & P & A1 & Sx). destruct (elit_yes (bs ",") w cur1 t A1) as (cur2 & P2 & A2).
    specialize (IH cur2 (S k) A2). destruct a as [[cs t1]|]; simpl.
    + destruct IH as (cs0 & c1 & s1 & cur3 & l & j & -> & Q & A3 & C3 & F). exists (c :: cs0), c1, s1, cur3, (([x] ++ [] ++ []) ++ l), (S j).
      split; auto. replace (k + S j)%nat with (S k + j)%nat by lia.
      split; [|split; [auto|split; [auto|constructor; auto]]].
      eapply rep_more; [simpl; lia| |exact Q]. eapply S_Peg.seq_ok; [exact P|]. eapply S_Peg.seq_ok; [exact P2|constructor].
    + destruct IH as (cur' & Q & A'). exists cur'. split; auto. eapply rep_more_err; [simpl; lia| |exact Q].
      eapply S_Peg.seq_ok; [exact P|]. eapply S_Peg.seq_ok; [exact P2|constructor].
Qed.
Lemma string_values_ok l ss : Forall2 string_ast l ss -> string_values l = Ok ss.
Proof. induction 1 as [|x s l ss [_ Hx] F IH]; simpl; auto. rewrite Hx, IH. auto. Qed.
Definition row_ast (r : list bytes) : ast := mkAst 0 "*Line" TAny (VStrs r) sp0.
Lemma row_peg w cur s a : read_row s a -> at_rest w cur s ->
  match a with
  | Some (r, t) => exists cur', peg w csv_line cur (RSucc cur' [row_ast r]) /\ at_rest w cur' t
  | None => exists cur', peg w csv_line cur (RErr cur' eof_error) /\ at_rest w cur' []
  end.
Proof.
  intros R A. pose proof (cells_peg w _ _ R cur 0 A) as H. destruct a as [[cs t]|].
  - destruct H as (cs0 & c & s1 & cur1 & l & j & -> & Q & A1 & C & F). destruct (cell_peg w cur1 _ _ C A1) as (cur2 & x & P & A2 & Sx).
    exists cur2. split; auto. eapply peg_trans_ok with (l := l ++ [x] ++ []).
    + constructor. eapply S_Peg.seq_ok; [eapply peg_rep_ok; [exact Q|simpl; lia]|]. eapply S_Peg.seq_ok; [exact P|constructor].
    + eapply (pl_ok _ 0%nat); [|constructor]. unfold lineTransform. rewrite (string_values_ok (l ++ [x] ++ []) (cs0 ++ [c])); [reflexivity|].
      apply Forall2_app; auto. constructor; auto.
  - destruct H as (cur' & Q & A'). exists cur'. split; auto. apply peg_trans_err. constructor. apply seq_err. eapply peg_rep_err. exact Q.
Qed.
Lemma at_line_break_moves s t : at_line_break s -> run_of line_break s t -> s <> t.
Proof.
  intros (w & Hw & Hb) H. assert (L : (length t < length s)%nat); [|intros ->; lia]. destruct H as [s N|x s t Hx H]; [exfalso; eapply N; eauto|].
  assert (length t <= length s)%nat by (clear - H; induction H; rewrite ?app_length; lia). rewrite app_length.
  unfold line_break in Hx. simpl in Hx. destruct Hx as [<-|[<-|[<-|[<-|[<-|[]]]]]]; simpl; lia.
Qed.
Definition row_item : list pexp := [csv_line; csv_erase (EOneOrMore [SLineBreak])].
Lemma rows_peg w s a : read_rows s a -> forall cur k, at_rest w cur s ->
  match a with
  | Table rows => exists rs r s1 cur1 j, rows = rs ++ [r] /\ pegr w zm row_item k cur (inr (cur1, map row_ast rs, (k + j)%nat)) /\
      at_rest w cur1 s1 /\ read_row s1 (Some (r, []))
  | Junk => exists l r t s1 cur1 j, pegr w zm row_item k cur (inr (cur1, l, (k + j)%nat)) /\
      at_rest w cur1 s1 /\ read_row s1 (Some (r, t)) /\ t <> []
  | Unclosed => exists cur', pegr w zm row_item k cur (inl (cur', eof_error)) /\ at_rest w cur' []
  end.
Proof.
  induction 1 as [s R|s r R|s r t R N1 N2|s r t t1 a R B Br H IH]; intros cur k A; pose proof (row_peg w cur _ _ R A) as P.
  - destruct P as (cur' & P & A'). exists cur'. split; auto. apply rep_err; [simpl; lia|]. apply seq_err. auto.
  - destruct P as (cur' & P & A'). exists [], r, s, cur, 0%nat. rewrite Nat.add_0_r. split; auto. split; [|auto].
    apply rep_stop; [simpl; lia|]. eapply seq_fail_later; [exact P|]. apply seq_fail. eapply breaks_no; eauto.
    intros (b & Hb & x & E). unfold line_break in Hb. simpl in Hb. destruct Hb as [<-|[<-|[<-|[<-|[<-|[]]]]]]; discriminate.
  - destruct P as (cur' & P & A'). exists [], r, t, s, cur, 0%nat. rewrite Nat.add_0_r. split; [|auto].
    apply rep_stop; [simpl; lia|]. eapply seq_fail_later; [exact P|]. apply seq_fail. eapply breaks_no; eauto.
  - destruct P as (cur1 & P & A1). destruct (breaks_peg w cur1 t t1 Br (at_line_break_moves _ _ B Br) A1) as (cur2 & P2 & A2).
    assert (Sq : pegs w row_item cur (RSucc cur2 ([row_ast r] ++ [] ++ []))).
    { eapply S_Peg.seq_ok; [exact P|]. eapply S_Peg.seq_ok; [exact P2|constructor]. }
    specialize (IH cur2 (S k) A2). destruct a as [rows| |]; simpl.
    + destruct IH as (rs & r1 & s1 & cur3 & j & -> & Q & A3 & R3). exists (r :: rs), r1, s1, cur3, (S j). split; auto.
      replace (k + S j)%nat with (S k + j)%nat by lia. split; [|auto]. change (map row_ast (r :: rs)) with (([row_ast r] ++ [] ++ []) ++ map row_ast rs). eapply rep_more; [simpl; lia|exact Sq|exact Q].
    + destruct IH as (cur' & Q & A'). exists cur'. split; auto. eapply rep_more_err; [simpl; lia|exact Sq|exact Q].
    + destruct IH as (l & r1 & t2 & s1 & cur3 & j & Q & A3 & R3). exists (([row_ast r] ++ [] ++ []) ++ l), r1, t2, s1, cur3, (S j).
      replace (k + S j)%nat with (S k + j)%nat by lia. split; [|auto]. eapply rep_more; [simpl; lia|exact Sq|exact Q].
Qed.
Lemma row_values_ok rs : row_values (map row_ast rs) = Ok rs.
Proof. induction rs as [|r rs IH]; simpl; auto. rewrite IH. auto. Qed.
Lemma blank_row_iff r : blank_row r = true <-> textless r.
Proof.
  unfold textless. destruct r as [|[|b c] [|c2 r]]; simpl; split; intros H; auto; try discriminate; destruct H; discriminate.
Qed.
Lemma drop_tail_spec k : forall w, length w = k -> without_tail w (drop_blank_tail k w).
Proof.
  induction k as [|k IH]; intros w L; simpl.
  - exists []. rewrite app_nil_r. split; auto. split; auto. intros l r E. exfalso. destruct w; [destruct l; discriminate|discriminate].
  - destruct (exists_last (l := w) ltac:(intros ->; discriminate)) as (l & r & ->). rewrite app_length in L. simpl in L.
    assert (Lk : length l = k) by lia. rewrite <- Lk, nth_middle. destruct (blank_row r) eqn:B.
    + rewrite firstn_app, Nat.sub_diag, firstn_all. simpl. rewrite app_nil_r, Lk. destruct (IH l Lk) as (tl & E & F & M).
      exists (tl ++ [r]). split; [rewrite app_assoc, <- E; auto|]. split; [|auto]. apply Forall_app. split; auto. constructor; auto.
      apply blank_row_iff. auto.
    + exists []. rewrite app_nil_r. split; auto. split; auto. intros l' r' E. apply app_inj_tail in E. destruct E as [_ <-].
      rewrite <- blank_row_iff. congruence.
Qed.
Lemma without_tail_func w a b : without_tail w a -> without_tail w b -> a = b.
Proof.
  intros (ta & Ea & Fa & Ma) (tb & Eb & Fb & Mb).
  assert (K : forall x y t u, w = x ++ t -> w = y ++ u -> Forall textless t -> (forall l r, y = l ++ [r] -> ~ textless r) -> (length y <= length x)%nat).
  { clear. intros x y t u Hx Hy F M. destruct (le_lt_dec (length y) (length x)) as [|L]; auto. exfalso.
    subst w. symmetry in Hy. destruct (prefix_split x t y u (eq_sym Hy) ltac:(lia)) as (e & -> & ->). rewrite app_length in L.
    destruct (exists_last (l := e) ltac:(intros ->; simpl in L; lia)) as (l & r & ->). eapply (M (x ++ l)); [apply app_assoc|].
    rewrite <- app_assoc in F. apply Forall_app in F. destruct F as [_ F]. inversion F. auto. }
  pose proof (K a b ta tb Ea Eb Fa Mb). pose proof (K b a tb ta Eb Ea Fb Ma). rewrite Ea in Eb. destruct (app_len_eq _ _ _ _ Eb ltac:(lia)). auto.
Qed.
Definition doc_ast (t : list (list bytes)) : ast := mkAst 0 "*Document" TAny (VStrss t) sp0.
Lemma document_peg w cur s a : read_csv s a -> at_rest w cur s ->
  match a with
  | Table rows => exists cur', peg w document cur (RSucc cur' [doc_ast rows])
  | Junk => peg w document cur RFail
  | Unclosed => exists cur', peg w document cur (RErr cur' eof_error) /\ at_rest w cur' []
  end.
Proof.
  intros [s0 rows kept R W|s0 R|s0 R] A; pose proof (rows_peg w _ _ R cur 0 A) as H; cbv beta iota in H.
  - destruct H as (rs & r & s1 & cur1 & j & -> & Q & A1 & R1). destruct (row_peg w cur1 _ _ R1 A1) as (cur2 & P2 & A2).
    destruct (end_yes w cur2 A2) as (cur3 & P3 & A3). exists cur3. eapply peg_trans_ok with (l := map row_ast rs ++ [row_ast r] ++ [] ++ []).
    + constructor. eapply S_Peg.seq_ok; [eapply peg_rep_ok; [exact Q|simpl; lia]|]. eapply S_Peg.seq_ok; [exact P2|].
      eapply S_Peg.seq_ok; [exact P3|constructor].
    + eapply (pl_ok _ 0%nat); [|constructor]. unfold documentTransform.
      replace (map row_ast rs ++ [row_ast r] ++ [] ++ []) with (map row_ast (rs ++ [r])) by (rewrite map_app; auto).
      rewrite row_values_ok. rewrite (without_tail_func _ _ _ W (drop_tail_spec _ _ eq_refl)). reflexivity.
  - destruct H as (cur' & Q & A'). exists cur'. split; auto. apply peg_trans_err. constructor. apply seq_err. eapply peg_rep_err. exact Q.
  - destruct H as (l & r & t & s1 & cur1 & j & Q & A1 & R1 & N). destruct (row_peg w cur1 _ _ R1 A1) as (cur2 & P2 & A2).
    apply peg_trans_fail. constructor. eapply seq_fail_later; [eapply peg_rep_ok; [exact Q|simpl; lia]|].
    eapply seq_fail_later; [exact P2|]. apply seq_fail. eapply end_no; eauto.
Qed.

(** ** Every text is read in exactly one way *)
Definition suffix (t s : bytes) : Prop := exists p, s = p ++ t.
Lemma suffix_refl s : suffix s s. Proof. exists []. auto. Qed.
Lemma suffix_trans a b c : suffix a b -> suffix b c -> suffix a c.
Proof. intros [p ->] [q ->]. exists (q ++ p). apply app_assoc. Qed.
Lemma suffix_cons b t s : suffix (b :: t) s -> suffix t s.
Proof. intros [p ->]. exists (p ++ [b]). rewrite <- app_assoc. auto. Qed.
Lemma suffix_app p t s : suffix (p ++ t) s -> suffix t s.
Proof. intros [q ->]. exists (q ++ p). apply app_assoc. Qed.
Lemma suffix_len t s : suffix t s -> (length t <= length s)%nat.
Proof. intros [p ->]. rewrite app_length. lia. Qed.
Lemma suffix_bytes t s : suffix t s -> Forall is_byte s -> Forall is_byte t.
Proof. intros [p ->] H. apply Forall_app in H. tauto. Qed.
Lemma begins_dec x : forall s, {begins x s} + {~ begins x s}.
Proof.
  induction x as [|b x IH]; intros s; [left; exists s; auto|]. destruct s as [|a s]; [right; intros [t E]; discriminate|].
  destruct (Z.eq_dec b a) as [->|N]; [|right; intros [t E]; inversion E; auto].
  destruct (IH s) as [H|H]; [left|right].
  - destruct H as [t ->]. exists t. auto.
  - intros [t E]. inversion E. apply H. exists t. auto.
Qed.
Lemma one_of_dec (l : list bytes) s : {x | In x l /\ begins x s} + {forall x, In x l -> ~ begins x s}.
Proof.
  induction l as [|y l IH]; [right; intros x []|]. destruct (begins_dec y s) as [H|H]; [left; exists y; simpl; auto|].
  destruct IH as [(x & I & Hx)|N]; [left; exists x; simpl; auto|right]. intros x [<-|I]; auto.
Qed.
Lemma run_of_total l : ~ In [] l -> forall n s, (length s < n)%nat -> exists t, run_of (fun w => In w l) s t /\ suffix t s.
Proof.
  intros Hn. induction n as [|n IH]; intros s L; [lia|]. destruct (one_of_dec l s) as [(x & I & t & ->)|N].
  - rewrite app_length in L. assert (0 < length x)%nat by (destruct x; [contradiction|simpl; lia]).
    destruct (IH t ltac:(lia)) as (u & H1 & H2). exists u. split; [apply ro_more; auto|]. eapply suffix_trans; [exact H2|]. exists x. auto.
  - exists s. split; [apply ro_stop; auto|apply suffix_refl].
Qed.
Lemma blanks_total s : exists t, run_of blank_char s t /\ suffix t s.
Proof. apply (run_of_total [[9]; [32]; [194; 160]] ltac:(simpl; intuition discriminate) (S (length s)) s). lia. Qed.
Lemma breaks_total s : exists t, run_of line_break s t /\ suffix t s.
Proof. apply (run_of_total [[10]; [11]; [12]; [13]; [194; 133]] ltac:(simpl; intuition discriminate) (S (length s)) s). lia. Qed.
Lemma take_total s : Forall is_byte s -> s <> [] -> exists v t, take_char s v t /\ suffix t s /\ (length t < length s)%nat.
Proof.
  intros Hb Hn. destruct (decode_rune s) as [r l] eqn:E. pose proof (decode_next s r l Hb E) as N.
  assert (Hl : l <> 0%nat) by (intros ->; apply Hn; apply decode_zero; rewrite E; auto).
  pose proof (decode_len s) as Le. rewrite E in Le. simpl in Le.
  destruct (char_exists r (next_scalar _ _ _ N)) as (v & Hv). exists v, (skipn l s). split; [exists r, l; repeat split; auto; lia|].
  split; [exists (firstn l s); symmetry; apply firstn_skipn|]. rewrite skipn_length.
  assert (0 < length s)%nat by (destruct s; [congruence|simpl; lia]). lia.
Qed.
Definition rest_suffix {A} (a : answer A) (s : bytes) : Prop := match a with Some (_, t) => suffix t s | None => True end.
Lemma add_rest {A} (f : A -> A) a s : rest_suffix a s -> rest_suffix (add f a) s.
Proof. destruct a as [[x t]|]; auto. Qed.
Lemma rest_weaken {A} (a : answer A) t s : rest_suffix a t -> suffix t s -> rest_suffix a s.
Proof. destruct a as [[x u]|]; simpl; auto. apply suffix_trans. Qed.
Lemma inside_total : forall n s, (length s < n)%nat -> Forall is_byte s -> exists a, inside s a /\ rest_suffix a s.
Proof.
  induction n as [|n IH]; intros s L Hb; [lia|]. destruct s as [|b s]; [exists None; split; [constructor|exact I]|].
  destruct (begins_dec [34] (b :: s)) as [[t E]|N].
  - inversion E; subst. destruct (begins_dec [34] t) as [[u ->]|N].
    + assert (Sf : suffix u (34 :: [34] ++ u)) by (exists [34; 34]; auto). simpl in L.
      destruct (IH u ltac:(lia) (suffix_bytes _ _ Sf Hb)) as (a & H & R). exists a. split; [constructor; auto|eapply rest_weaken; eauto].
    + exists (Some ([], t)). split; [constructor; auto|]. exists [34]. auto.
  - destruct (take_total (b :: s) Hb ltac:(discriminate)) as (v & t & T & Sf & Lt).
    destruct (IH t ltac:(lia) (suffix_bytes _ _ Sf Hb)) as (a & H & R). exists (add (fun x => v ++ x) a).
    split; [eapply in_char; eauto|apply add_rest; eapply rest_weaken; eauto].
Qed.
Lemma quoted_total : forall n s t, (length s < n)%nat -> Forall is_byte s -> run_of blank_char s (34 :: t) -> suffix (34 :: t) s ->
  exists a, quoted s a /\ rest_suffix a s.
Proof.
  induction n as [|n IH]; intros s t L Hb B Sf; [lia|]. pose proof (suffix_cons _ _ _ Sf) as St.
  destruct (inside_total (S (length t)) t ltac:(lia) (suffix_bytes _ _ St Hb)) as ([[o t1]|] & I & R).
  - simpl in R. destruct (blanks_total t1) as (t2 & B2 & S2). assert (S3 : suffix t2 s) by (eapply suffix_trans; [exact S2|eapply suffix_trans; eauto]).
    destruct (begins_dec [34] t2) as [[u E]|N].
    + cbn [app] in E. subst t2. pose proof (suffix_len _ _ Sf). pose proof (suffix_len _ _ (suffix_trans _ _ _ S2 R)). simpl in *.
      destruct (IH (34 :: u) u ltac:(simpl; lia) (suffix_bytes _ _ S3 Hb) (run_of_max _ _ _ B2) (suffix_refl _)) as (a & H' & R').
      exists (add (fun x => o ++ x) a). split; [eapply q_more; eauto|]. apply add_rest. eapply rest_weaken; eauto.
    + exists (Some (o, t2)). split; [eapply q_last; eauto|auto].
  - exists None. split; [eapply q_eof; eauto|exact Logic.I].
Qed.
Lemma at_break_dec s : {at_break s} + {~ at_break s}.
Proof.
  destruct (one_of_dec cellBreakCharacters s) as [(x & I & H)|N].
  - left. exists x. split; auto. apply in_break. auto.
  - right. intros (x & H & B). apply (N x); auto. apply in_break. auto.
Qed.
Lemma unquoted_total : forall n s, (length s < n)%nat -> Forall is_byte s -> exists x t, unquoted s x t /\ suffix t s.
Proof.
  induction n as [|n IH]; intros s L Hb; [lia|]. destruct (at_break_dec s) as [A|N].
  { exists [], s. split; [constructor; auto|apply suffix_refl]. }
  destruct s as [|b s]. { exists [], []. split; [constructor; auto|apply suffix_refl]. }
  destruct (take_total (b :: s) Hb ltac:(discriminate)) as (v & t & T & Sf & Lt).
  destruct (IH t ltac:(lia) (suffix_bytes _ _ Sf Hb)) as (x & t1 & H & R). exists (v ++ x), t1.
  split; [eapply uq_char; eauto|]. eapply suffix_trans; eauto.
Qed.
Lemma cell_total s : Forall is_byte s -> exists a, read_cell s a /\ rest_suffix a s.
Proof.
  intros Hb. destruct (blanks_total s) as (t & B & Sf). destruct (begins_dec [34] t) as [[u E]|N].
  - cbn [app] in E. subst t. destruct (quoted_total (S (length s)) s u ltac:(lia) Hb B Sf) as (a & H & R). exists a. split; auto. constructor. auto.
  - destruct (unquoted_total (S (length s)) s ltac:(lia) Hb) as (x & t1 & U & S1). exists (Some (trim_both x, t1)). split; [|exact S1].
    eapply rc_plain; eauto. apply trim_both_ok. eapply unquoted_bytes; eauto.
Qed.
Lemma row_total : forall n s, (length s < n)%nat -> Forall is_byte s -> exists a, read_row s a /\ rest_suffix a s.
Proof.
  induction n as [|n IH]; intros s L Hb; [lia|]. destruct (cell_total s Hb) as ([[c t]|] & C & R).
  - simpl in R. destruct (begins_dec [44] t) as [[u E]|N].
    + cbn [app] in E. subst t. pose proof (suffix_cons _ _ _ R) as Su. pose proof (suffix_len _ _ R). simpl in *.
      destruct (IH u ltac:(lia) (suffix_bytes _ _ Su Hb)) as (a & H' & R'). exists (add (cons c) a).
      split; [eapply rr_more; eauto|apply add_rest; eapply rest_weaken; eauto].
    + exists (Some ([c], t)). split; [constructor; auto|auto].
  - exists None. split; [constructor; auto|exact I].
Qed.
Lemma rows_total : forall n s, (length s < n)%nat -> Forall is_byte s -> exists a, read_rows s a.
Proof.
  induction n as [|n IH]; intros s L Hb; [lia|]. destruct (row_total (S (length s)) s ltac:(lia) Hb) as ([[r t]|] & R & Sf).
  - simpl in Sf. destruct t as [|b t]; [exists (Table [r]); constructor; auto|].
    destruct (one_of_dec LineBreakCharacters (b :: t)) as [(x & I & Hx)|N].
    + assert (A : at_line_break (b :: t)) by (exists x; split; auto).
      destruct (breaks_total (b :: t)) as (t1 & B & S1). pose proof (suffix_trans _ _ _ S1 Sf) as S2.
      assert (Lt : (length t1 < length s)%nat).
      { pose proof (suffix_len _ _ Sf). pose proof (at_line_break_moves _ _ A B) as Ne. destruct S1 as [[|y p] E]; [exfalso; apply Ne; exact E|].
        rewrite E, app_length in H. simpl in H. lia. }
      destruct (IH t1 ltac:(lia) (suffix_bytes _ _ S2 Hb)) as (a & H). exists (on_table (cons r) a). eapply rt_more; eauto.
    + exists Junk. eapply rt_junk; eauto; [discriminate|]. intros (x & Hx & B). eapply N; eauto.
  - exists Unclosed. constructor. auto.
Qed.
Lemma csv_total s : Forall is_byte s -> exists a, read_csv s a.
Proof.
  intros Hb. destruct (rows_total (S (length s)) s ltac:(lia) Hb) as ([rows| |] & R).
  - exists (Table (drop_blank_tail (length rows) rows)). econstructor; eauto. apply drop_tail_spec. auto.
  - exists Unclosed. constructor. auto.
  - exists Junk. constructor. auto.
Qed.

(** ** Parse *)
Lemma lineTransform_good : good_trans lineTransform. Proof. const_tac. Qed.
Lemma documentTransform_good : good_trans documentTransform. Proof. const_tac. Qed.
#[global] Hint Resolve lineTransform_good documentTransform_good : leafs.
Ltac csv_unfold := cbv delta [document csv_line cell quotedCell quoted_segment csv_sp csv_erase EZeroOrMore EOneOrMore
  SCharClassN SSeq SEnd EError SLineBreak SWhitespaceNoLineBreak] beta iota zeta.
Lemma document_gram : peg_gram document.
Proof. csv_unfold. gram_tac. Qed.
Lemma document_pos : gram (pos_spec str_size) document.
Proof. apply (string_pos anyT). csv_unfold. lib_tac. Qed.
Definition csv_world (s : bytes) : world := mkW s None VNil (fun _ => EUnmatched).
Lemma no_env_peg s : peg_env (csv_world s).
Proof. intros k. unfold csv_world, EUnmatched. simpl. gram_tac. Qed.
Lemma no_env_pos : forall k : nat, gram (pos_spec str_size) ((fun _ => EUnmatched) k).
Proof. intros k. apply (string_pos anyT). unfold EUnmatched. lib_tac. Qed.

Lemma document_source : gram source_spec document.
Proof. apply (lib_source anyT anyZ). csv_unfold. lib_tac. Qed.
Lemma no_env_source : forall k : nat, gram source_spec ((fun _ => EUnmatched) k).
Proof. intros k. apply (lib_source anyT anyZ). unfold EUnmatched. lib_tac. Qed.
Lemma csv_pos n s o err : run (fun _ => EUnmatched) n document (new_string_ctx s) = Ok (o, err) -> (c_pos o <= length s)%nat.
Proof.
  intros E. assert (B : in_bounds str_size (new_string_ctx s)) by (unfold in_bounds, c_pos; simpl; lia).
  destruct (pos_kept str_size _ document n _ o err no_env_pos document_pos B E) as [H _]. unfold in_bounds in H.
  destruct (source_kept _ _ _ _ _ _ no_env_source document_source E) as [Hs _].
  unfold str_size in H. rewrite Hs in H. exact H.
Qed.

Lemma trans_unmatched f tr n c o : Trans f tr n c = Ok (o, None) -> c_st o = Unmatched -> c_sp o = c_sp c.
Proof.
  unfold Trans, base_parser. destruct n as [|n]; [discriminate|]. cbn.
  destruct (f (set_st (set_cls c ":base:Trans") Matched)) as [[o1 err]|why|]; try discriminate.
  destruct (c_st (fix_status o1 err)) eqn:Es; cbn.
  - rewrite Es. destruct n; cbn; rewrite ?Es; cbn.
    all: intros H K; repeat (match type of H with context [match ?x with _ => _ end] => destruct x end; try discriminate);
      inversion H; subst; cbn in K; congruence.
  - intros H _. inversion H; subst. reflexivity.
  - intros H. inversion H; subst. congruence.
Qed.
(** What Parse must answer for a text read as [a]. *)
Definition csv_answer (s : bytes) (a : table) (r : csv_error + list (list bytes)) : Prop :=
  match a with
  | Table rows => r = inr rows
  | Unclosed => exists lc, r = inl (mkCE (Some (EText "Unexpected EOF")) lc) /\ GetLineAndColPosition s (length s) 4 = Ok lc
  | Junk => exists lc, r = inl (mkCE None lc) /\ GetLineAndColPosition s 0 4 = Ok lc
  end.
Lemma run_stable n s o err : run (fun _ => EUnmatched) n document (new_string_ctx s) = Ok (o, err) ->
  forall m, (n <= m)%nat -> run (fun _ => EUnmatched) m document (new_string_ctx s) = Ok (o, err).
Proof.
  intros E m Hm. destruct (gram_mono (fun _ => EUnmatched) document (fun k => peg_gram_mono _ (no_env_peg s k)) (peg_gram_mono _ document_gram) n m (new_string_ctx s) Hm) as [F|F];
    cbv beta in F; congruence.
Qed.
Lemma parse_reads s a : Forall is_byte s -> read_csv s a ->
  exists r, csv_answer s a r /\ exists n0, forall n, (n0 <= n)%nat -> Parse n s = Ok r.
Proof.
  intros Hb R. assert (A : at_rest (csv_world s) sp0 s) by (split; [split; [auto|simpl; lia]|reflexivity]).
  pose proof (document_peg (csv_world s) sp0 s a R A) as P.
  assert (Ad : forall r, peg (csv_world s) document sp0 r -> exists n o err, run (fun _ => EUnmatched) n document (new_string_ctx s) = Ok (o, err) /\ returns [] o err r).
  { intros r Hp. apply (peg_adequate (csv_world s) document (new_string_ctx s) (no_env_peg s) document_gram); auto. repeat split. }
  destruct a as [rows| |].
  - destruct P as (cur' & P). destruct (Ad _ P) as (n & o & err & E & -> & Hs & _ & Hst). exists (inr rows). split; [reflexivity|].
    exists n. intros m Hm. unfold Parse. rewrite (run_stable _ _ _ _ E m Hm), Hs, Hst. reflexivity.
  - destruct P as (cur' & P & A'). destruct (Ad _ P) as (n & o & err & E & -> & Hs & Hsp).
    assert (Hp : c_pos o = length s).
    { unfold c_pos. rewrite Hsp. destruct A' as [[_ G] Er]. unfold rest_of in Er. simpl in *. apply (f_equal (@length Z)) in Er.
      rewrite skipn_length in Er. simpl in Er. lia. }
    destruct (proj2 (linecol_panics s (length s) 4) ltac:(lia)) as (lc & Elc). eexists. split; [exists lc; split; [reflexivity|exact Elc]|].
    exists n. intros m Hm. unfold Parse. rewrite (run_stable _ _ _ _ E m Hm). unfold csv_fail. rewrite Hp, Elc. reflexivity.
  - destruct (Ad _ P) as (n & o & err & E & -> & Hs).
    assert (Hp : c_pos o = 0%nat).
    { unfold run in E. unfold document in E. cbn [denote] in E. apply trans_unmatched in E; auto. unfold c_pos. rewrite E. reflexivity. }
    destruct (proj2 (linecol_panics s 0 4) ltac:(lia)) as (lc & Elc). eexists. split; [exists lc; split; [reflexivity|exact Elc]|].
    exists n. intros m Hm. unfold Parse. rewrite (run_stable _ _ _ _ E m Hm), Hs. unfold csv_fail. rewrite Hp, Elc. reflexivity.
Qed.
Lemma answer_det s a a' r : csv_answer s a r -> csv_answer s a' r -> a = a'.
Proof.
  destruct a, a'; simpl; intros H H'; auto; try congruence;
    repeat match goal with H : exists _, _ |- _ => destruct H as (? & ? & _) end; congruence.
Qed.
Lemma csv_det s a a' : Forall is_byte s -> read_csv s a -> read_csv s a' -> a = a'.
Proof.
  intros Hb R R'. destruct (parse_reads s a Hb R) as (r & A & n & E), (parse_reads s a' Hb R') as (r' & A' & n' & E').
  specialize (E (Nat.max n n') ltac:(lia)). specialize (E' (Nat.max n n') ltac:(lia)). assert (r = r') by congruence. subst r'.
  eapply answer_det; eauto.
Qed.
Lemma parse_iff s a r n0 : Forall is_byte s -> (forall n, (n0 <= n)%nat -> Parse n s = Ok r) -> csv_answer s a r -> read_csv s a.
Proof.
  intros Hb E A. destruct (csv_total s Hb) as (a' & R). destruct (parse_reads s a' Hb R) as (r' & A' & n & E').
  specialize (E (Nat.max n n0) ltac:(lia)). specialize (E' (Nat.max n n0) ltac:(lia)). assert (r = r') by congruence. subst r'.
  rewrite (answer_det _ _ _ _ A A'). auto.
Qed.
