(** What the formula grammar reads: every well-formed formula, and nothing else. *)
From Verif Require Export L_FormulaLex.

(** ** Text facts *)
Definition delim (v : bytes) : Prop := v = [] \/ op_start v \/ begins [41] v.
Definition closed (v : bytes) : Prop := v = [] \/ begins [41] v.
Lemma closed_delim v : closed v -> delim v. Proof. unfold closed, delim. intuition. Qed.
Lemma delim_solid v : delim v -> solid v.
Proof.
  intros [->|[(o & t & ->)|[t ->]]]; [apply solid_nil|apply solid_head|apply solid_head]; [destruct o|]; simpl; lia.
Qed.
Lemma closed_no_op v : closed v -> ~ op_start v.
Proof. intros [->|[t ->]] (o & u & E); [discriminate|]. destruct o; inversion E. Qed.
Lemma word_next_delim b v : gap b -> delim v -> word_next (b ++ v) = false.
Proof.
  intros [|x t H G] D.
  - destruct D as [->|[(o & t & ->)|[t ->]]]; [reflexivity|destruct o; reflexivity|reflexivity].
  - unfold space_char in H. simpl in H. destruct H as [<-|[<-|[<-|[<-|[<-|[<-|[<-|[<-|[]]]]]]]]]; reflexivity.
Qed.
Lemma tail_delim u l v : tailT u l -> closed v -> delim (u ++ v).
Proof. intros [|o b t f u' l' _ _ _] C; [apply closed_delim; auto|]. right. left. exists o. eexists. reflexivity. Qed.

Inductive minusT : bytes -> nat -> Prop :=
| mn_nil : minusT [] 0
| mn_more : forall b m k, gap b -> minusT m k -> minusT ([45] ++ b ++ m) (S k).
Lemma factor_join m k t f : minusT m k -> factorT t f -> factorT (m ++ t) (negs k f).
Proof.
  induction 1 as [|b m k G H IH]; intros F; auto. replace (([45] ++ b ++ m) ++ t) with ([45] ++ b ++ (m ++ t)) by (rewrite <- !app_assoc; auto).
  change (negs (S k) f) with (FNeg (negs k f)). apply ft_neg; auto.
Qed.
Lemma factor_split t f : factorT t f -> exists m k t1 f1, t = m ++ t1 /\ minusT m k /\ atomT t1 f1 /\ f = negs k f1.
Proof.
  induction 1 as [t f A|b t f G F (m & k & t1 & f1 & -> & M & A & ->)].
  - exists [], 0%nat, t, f. repeat split; auto. constructor.
  - exists ([45] ++ b ++ m), (S k), t1, f1. split; [rewrite <- !app_assoc; auto|]. split; [constructor; auto|auto].
Qed.
Lemma literal_head w z : literal w z -> exists x t, w = x :: t /\ (x = 43 \/ dec_digit x).
Proof. intros (d & [->| ->] & I & _); destruct (int_run d I) as (x & r & -> & Hx & _); eexists _, _; split; eauto. Qed.
Lemma atom_head t f : atomT t f -> exists x u, t = x :: u /\ (x = 40 \/ x = 43 \/ dec_digit x).
Proof.
  intros [w b z H _|b t' f' b' _ _ _].
  - destruct (literal_head w z H) as (x & u & -> & Hx). exists x, (u ++ b). auto.
  - eexists 40, _. split; [reflexivity|auto].
Qed.
Lemma atom_start t f v : atomT t f -> ~ begins [45] (t ++ v) /\ solid (t ++ v).
Proof.
  intros H. destruct (atom_head t f H) as (x & u & -> & Hx). unfold dec_digit in Hx. split.
  - intros [y E]. inversion E. lia.
  - apply solid_head. simpl. lia.
Qed.
Lemma factor_solid t f v : factorT t f -> solid (t ++ v).
Proof.
  intros [t' f' H|b t' f' _ _]; [apply (atom_start t' f' v H)|]. apply solid_head. simpl. lia.
Qed.
Lemma minus_solid m k v : minusT m k -> solid v -> solid (m ++ v).
Proof. intros [|b m' k' _ _] H; auto. apply solid_head. simpl. lia. Qed.
Lemma minus_total n : forall s, (length s <= n)%nat -> solid s -> exists m k v, s = m ++ v /\ minusT m k /\ ~ begins [45] v /\ solid v.
Proof.
  induction n as [|n IH]; intros s L S'; (destruct (begins_dec [45] s) as [[t E]|N];
    [subst s|exists [], 0%nat, s; split; [auto|]; split; [constructor|auto]]).
  - simpl in L. lia.
  - destruct (gap_total t) as (b & v & -> & G & Sv). cbn [app length] in L. rewrite app_length in L. destruct (IH v ltac:(lia) Sv) as (m & k & v' & -> & M & N & Sv').
    exists ([45] ++ b ++ m), (S k), v'. split; [rewrite <- !app_assoc; auto|]. split; [constructor; auto|auto].
Qed.
Lemma not_op_closed s : ~ op_start s -> begins [41] s \/ ~ begins [41] s.
Proof. intros _. destruct (begins_dec [41] s); auto. Qed.

Definition max64 (z : Z) : Prop := z <= 2 ^ 63.
Definition in64 (z : Z) : Prop := z < 2 ^ 63.

Lemma Forall_skipn' {A} (P : A -> Prop) n l : Forall P l -> Forall P (skipn n l).
Proof. intros H. rewrite <- (firstn_skipn n l) in H. apply Forall_app in H. tauto. Qed.

Section Text.
Variables (denotes : ast -> arith -> Prop) (bad : arith -> Prop) (stop : gerr) (prod : trans) (w : world).
Hypothesis prodH : prod_ok denotes bad stop prod.
Hypothesis bad_spreads : spreads bad.
Hypothesis lit_ok : forall z, 0 <= z < 2 ^ 63 -> denotes (num z) (FLit z).
Hypothesis neg_lit_ok : forall z, 0 <= z <= 2 ^ 63 -> denotes (num (- z)) (FNeg (FLit z)).
Hypothesis stop_user : forall t, stop <> EText t.
Hypothesis stop_num : forall a b c, stop <> ENum a b c.
Hypothesis envH : w_env w = grouped_env prod.
Notation istk := (istk denotes).
Notation toks := (toks denotes).
Notation le64 := (literals max64).
Notation lt64 := (literals in64).

(** ** Numbers as factors *)
Lemma number_factor wd b z : integer_word wd -> gap b -> int_numeral 10 (strip wd) z -> int64 z ->
  exists f, factorT (wd ++ b) f /\ denotes (num z) f /\ le64 f.
Proof.
  intros (s & d & -> & Hs & Hd) G N I. rewrite strip_app, (strip_sign s Hs) in N. destruct (strip_int d Hd) as [_ F].
  assert (Z0 : forall y, numeral 10 (strip d) y -> 0 <= y) by (intros; eapply numeral_nonneg; eauto; lia).
  assert (Nd : forall c y, c = 43 \/ c = 45 -> ~ numeral 10 (c :: strip d) y).
  { intros c y Hc K. apply digit_not_sign in K. lia. }
  assert (Hh : forall c t, strip d = c :: t -> c <> 43 /\ c <> 45).
  { intros c t E. rewrite E in F. inversion F; subst. unfold dec_digit in *. lia. }
  unfold int64, max64 in *. destruct Hs as [->|[->| ->]]; cbn [app] in *.
  - assert (K : numeral 10 (strip d) z).
    { destruct N as [N|[(t & E & N)|(t & E & N)]]; auto; destruct (Hh _ _ E); congruence. }
    exists (FLit z). split; [apply ft_atom, at_lit; auto; exists d; auto|]. split; [apply lit_ok; split; [auto|lia]|]. simpl. unfold max64. lia.
  - assert (K : numeral 10 (strip d) z).
    { destruct N as [N|[(t & E & N)|(t & E & N)]]; [apply Nd in N; tauto|inversion E; subst; auto|inversion E]. }
    exists (FLit z). split; [apply ft_atom, (at_lit (43 :: d)); auto; exists d; auto|]. split; [apply lit_ok; split; [auto|lia]|]. simpl. unfold max64. lia.
  - assert (K : numeral 10 (strip d) (- z)).
    { destruct N as [N|[(t & E & N)|(t & E & N)]]; [apply Nd in N; tauto|inversion E|inversion E; subst; auto]. }
    exists (FNeg (FLit (- z))). split; [apply (ft_neg [] (d ++ b)); [constructor|apply ft_atom, at_lit; auto; exists d; auto]|].
    specialize (Z0 _ K). split; [rewrite <- (Z.opp_involutive z) at 1; apply neg_lit_ok; lia|]. simpl. unfold max64. lia.
Qed.
Lemma lit_numberT wd z b v : literal wd z -> gap b -> delim v -> numberT (wd ++ b ++ v) wd b v /\ int_numeral 10 (strip wd) z /\ 0 <= z.
Proof.
  intros (d & Hw & Hd & N) G D. split.
  - split; auto. split; [destruct Hw as [->| ->]; [exists [], d|exists [43], d]; unfold sign; auto|]. split; auto. split; [apply delim_solid; auto|apply word_next_delim; auto].
  - split; [|eapply numeral_nonneg; [|eauto]; lia]. destruct Hw as [->| ->]; [left; auto|]. right. left. exists (strip d). split; auto.
Qed.
(** A literal is read as a number. *)
Lemma num_lit cur wd z b v : literal wd z -> z < 2 ^ 63 -> gap b -> delim v -> at_rest w cur ((wd ++ b) ++ v) ->
  exists cur', peg w number cur (RSucc cur' [num z]) /\ at_rest w cur' v /\ denotes (num z) (FLit z).
Proof.
  intros H L G D A. rewrite <- app_assoc in A. destruct (lit_numberT wd z b v H G D) as (T & N & Z0).
  destruct (number_total w cur _ A) as [[_ K]|(wd' & b' & v' & z' & T' & N' & K)]; [exfalso; eapply K; eauto|].
  destruct (numberT_func _ _ _ _ _ _ _ T T') as (<- & <- & <-). pose proof (int_numeral_func _ _ _ N N'). subst z'.
  destruct K as [[_ (cur' & P & A')]|[K _]]; [|exfalso; apply K; unfold int64; lia]. exists cur'. split; auto.
Qed.
Lemma int_word_head wd : integer_word wd -> exists x t, wd = x :: t /\ (x = 43 \/ x = 45 \/ dec_digit x).
Proof.
  intros (s & b & -> & Hs & Hb). destruct (int_run _ Hb) as (d & r & -> & Hd & _). destruct Hs as [->|[->| ->]]; eexists _, _; (split; [reflexivity|auto]).
Qed.
Lemma num_paren cur t : at_rest w cur (40 :: t) -> peg w number cur RFail.
Proof.
  intros A. destruct (number_total w cur _ A) as [[P _]|(wd & b & v & z & (E & W & _) & _)]; auto.
  exfalso. destruct (int_word_head wd W) as (x & u & -> & Hx). inversion E. unfold dec_digit in Hx. lia.
Qed.
(** Inside a chain of numbers: a factor is read whole, or not at all. *)
Lemma num_factor cur t f v : factorT t f -> lt64 f -> delim v -> at_rest w cur (t ++ v) ->
  peg w number cur RFail \/ exists cur' z, peg w number cur (RSucc cur' [num z]) /\ at_rest w cur' v /\ denotes (num z) f.
Proof.
  intros F L D A. destruct F as [t f [wd b z H G|b t' f' b' _ _ _]|b t f G F].
  - right. destruct (num_lit cur wd z b v) as (cur' & P); auto. exists cur', z. auto.
  - left. eapply num_paren. exact A.
  - destruct (number_total w cur _ A) as [[P _]|(wd & b' & v' & z & T & N & K)]; auto. right.
    pose proof T as (E & W & Gb & Sv & Wn). destruct W as (s & d & -> & Hs & Hd). destruct (int_run d Hd) as (x & r & -> & Hx & Fr).
    destruct Hs as [->|[->| ->]]; cbn [app] in E; [inversion E; unfold dec_digit in Hx; lia|inversion E|].
    injection E as E. rewrite <- app_assoc in E.
    assert (b = []).
    { destruct (gap_head b G) as [Hb|(y & u & -> & Hy)]; auto. cbn [app] in E. inversion E; subst. unfold dec_digit in Hx. simpl in Hy. lia. }
    subst b. cbn [app] in *. destruct F as [t f [wd0 b0 z0 H0 G0|b0 t0 f0 b1 _ _ _]|b0 t0 f0 _ _].
    + destruct (lit_numberT wd0 z0 b0 v H0 G0 D) as ((_ & W0 & _ & Sv0 & Wn0) & N0 & Z0). simpl in L. unfold in64 in L.
      assert (H00 : literal wd0 z0) by auto. destruct H00 as (d0 & Hw0 & Hd0 & Nd0). destruct Hw0 as [->| ->].
      2:{ cbn [app] in E. inversion E; subst. unfold dec_digit in Hx. lia. }
      assert (T2 : numberT (45 :: (d0 ++ b0) ++ v) (45 :: d0) b0 v).
      { split; [rewrite <- app_assoc; auto|]. split; [exists [45], d0; unfold sign; auto|]. auto. }
      destruct (numberT_func _ _ _ _ _ _ _ T2 T) as (E1 & <- & <-). cbn [app] in E1. injection E1 as ->.
      assert (z = - z0). { eapply int_numeral_func; [exact N|]. right. right. exists (strip (x :: r)). rewrite Z.opp_involutive. split; auto. }
      subst z. destruct K as [[_ (cur' & P & A')]|[K _]]; [|exfalso; apply K; unfold int64; lia]. exists cur', (- z0). split; auto. split; auto. apply neg_lit_ok. lia.
    + cbn [app] in E. inversion E; subst. unfold dec_digit in Hx. lia.
    + cbn [app] in E. inversion E; subst. unfold dec_digit in Hx. lia.
Qed.

(** ** Minus signs *)
Lemma un_loop m k v : minusT m k -> ~ begins [45] v -> solid v -> forall cur j, at_rest w cur (m ++ v) ->
  exists cur' l, pegr w zm [unaryOperator] j cur (inr (cur', l, (j + k)%nat)) /\ at_rest w cur' v /\ toks (repeat TUn k) l.
Proof.
  intros M N Sv. induction M as [|b m k G M IH]; intros cur j A.
  - exists cur, []. rewrite Nat.add_0_r. split; [|split; [auto|constructor]]. apply rep_stop; [simpl; lia|]. apply seq_fail. eapply un_no; eauto.
  - assert (A0 : at_rest w cur ([45] ++ b ++ (m ++ v))) by (rewrite <- !app_assoc in A; exact A).
    destruct (un_yes w cur b (m ++ v) G (minus_solid m k v M Sv) A0) as (c1 & a & P & A1 & V1 & V2).
    destruct (IH c1 (S j) A1) as (c2 & l & Q & A2 & T). exists c2, (([a] ++ []) ++ l). replace (j + S k)%nat with (S j + k)%nat by lia.
    split; [eapply rep_more; [simpl; lia|eapply S_Peg.seq_ok; [exact P|constructor]|exact Q]|]. split; auto. constructor; [split; auto|exact T].
Qed.
Lemma un_peg m k v cur : minusT m k -> ~ begins [45] v -> solid v -> at_rest w cur (m ++ v) ->
  exists cur' l, peg w (EZeroOrMore [unaryOperator]) cur (RSucc cur' l) /\ at_rest w cur' v /\ toks (repeat TUn k) l.
Proof.
  intros M N Sv A. destruct (un_loop m k v M N Sv cur 0 A) as (c1 & l & P & A1 & T). exists c1, l. split; auto. eapply peg_rep_ok; [exact P|simpl; lia].
Qed.

(** ** Everything that is read is a formula *)
Definition trees (lx : list (fop * item)) : list (fop * arith) := map (fun y => (fst y, item_tree (snd y))) lx.
Definition tail_toks (lx : list (fop * item)) : list tk := flat_map (fun y => TBin (fst y) :: item_toks (snd y)) lx.
Definition tail_read (u : bytes) (lx : list (fop * item)) (asts : list ast) : Prop :=
  tailT u (trees lx) /\ Forall (fun y => le64 (snd y)) (trees lx) /\ toks (tail_toks lx) asts.
Definition chain_read (t u : bytes) (x : item) (lx : list (fop * item)) (asts : list ast) : Prop :=
  factorT t (item_tree x) /\ le64 (item_tree x) /\ tailT u (trees lx) /\ Forall (fun y => le64 (snd y)) (trees lx) /\ toks (chain_toks x lx) asts.
Lemma tail_read_nil : tail_read [] [] [].
Proof. split; [constructor|]. split; constructor. Qed.
Lemma tail_read_cons o b t u x lx lx2 s asts asts2 v : gap b -> a_cls s = "BinaryOperator"%string -> a_val s = VStr [op_byte o] ->
  chain_read t u x lx asts -> tail_read v lx2 asts2 -> tail_read (([op_byte o] ++ b ++ t ++ u) ++ v) ((o, x) :: lx ++ lx2) ([s] ++ asts ++ asts2).
Proof.
  intros G S1 S2 (F & L & T & Ls & K) (T2 & Ls2 & K2). unfold tail_read, trees, tail_toks, chain_toks in *. cbn [map fst snd flat_map]. rewrite map_app, flat_map_app. split; [|split].
  - replace (([op_byte o] ++ b ++ t ++ u) ++ v) with ([op_byte o] ++ b ++ t ++ (u ++ v)) by (rewrite <- !app_assoc; auto). apply tl_cons; auto. apply tail_app; auto.
  - constructor; auto. apply Forall_app. split; auto.
  - cbn [app]. constructor; [split; auto|]. rewrite app_assoc. apply Forall2_app; auto.
Qed.
Definition infix_bad (s : bytes) : Prop := exists p t q f, s = p ++ t ++ q /\ exprT t f /\ bad f.
Lemma infix_more p s q : infix_bad s -> infix_bad (p ++ s ++ q).
Proof. intros (p1 & t & q1 & f & -> & H). exists (p ++ p1), t, (q1 ++ q), f. split; auto. rewrite <- !app_assoc. auto. Qed.
Lemma infix_after p s : infix_bad s -> infix_bad (p ++ s).
Proof. intros H. pose proof (infix_more p s [] H) as K. rewrite app_nil_r in K. exact K. Qed.
(** Where an error is reported. *)
Definition before (cur : srcpos) : bytes := firstn (sp_pos cur) (w_str w).
Lemma before_step c x v c' : at_rest w c (x ++ v) -> at_rest w c' v -> before c' = before c ++ x.
Proof.
  intros [[_ G] E] [[_ G'] E']. unfold rest_of, before in *.
  assert (L : sp_pos c' = (sp_pos c + length x)%nat).
  { apply (f_equal (@length Z)) in E, E'. rewrite skipn_length, ?app_length in *. lia. }
  rewrite L. rewrite <- (firstn_skipn (sp_pos c) (w_str w)) at 1. rewrite E. rewrite firstn_app, firstn_length, Nat.min_l by lia.
  rewrite firstn_firstn, Nat.min_r by lia. f_equal. replace (sp_pos c + length x - sp_pos c)%nat with (length x) by lia.
  rewrite firstn_app, Nat.sub_diag, firstn_O, firstn_all. apply app_nil_r.
Qed.
Definition spot (e : gerr) (cur : srcpos) : Prop := exists q, at_rest w cur q /\ blames (before cur) q e.
Definition fine (e : gerr) (cur : srcpos) (s : bytes) : Prop := (e = stop -> infix_bad s) /\ (e <> stop -> spot e cur).
Lemma fine_after e c p s : fine e c s -> fine e c (p ++ s). Proof. intros [H1 H2]. split; auto. intros E. apply infix_after. auto. Qed.
Lemma fine_text m c s : spot (EText m) c -> fine (EText m) c s. Proof. intros H. split; auto. intros E. exfalso. eapply stop_user; eauto. Qed.
Lemma fine_num a b c cur s : spot (ENum a b c) cur -> fine (ENum a b c) cur s. Proof. intros H. split; auto. intros E. exfalso. eapply stop_num; eauto. Qed.
Definition opens (cur : srcpos) : Prop := exists p b, before cur = p ++ b /\ gap b /\ (p = [] \/ exists r, p = r ++ [40]).
Definition after_op (cur : srcpos) : Prop := exists p o b, before cur = p ++ [op_byte o] ++ b /\ gap b.
Lemma spot_same e c c' : spot e c -> sp_pos c' = sp_pos c -> spot e c'.
Proof. intros (q & A & B) E. exists q. split; [eapply at_same; eauto|]. unfold before in *. rewrite E. auto. Qed.
Lemma not_number cur s : at_rest w cur s -> (forall wd b v, ~ numberT s wd b v) -> ~ starts_number s.
Proof.
  intros [[B _] A] N (wd & t & -> & W & K). destruct (gap_total t) as (b & v & -> & G & Sv). apply (N wd b v). split; auto. split; auto. split; auto. split; auto.
  apply word_next_byte; auto. assert (F : Forall is_byte (rest_of w cur)) by (unfold rest_of; apply Forall_skipn'; exact B). rewrite A in F.
  apply Forall_app in F. tauto.
Qed.
Lemma minus_signsT m k : minusT m k -> minus_signs m.
Proof. induction 1; constructor; auto. Qed.
Lemma minus_last m k : minusT m k -> m = [] \/ exists r b, m = (r ++ [45]) ++ b /\ gap b.
Proof.
  induction 1 as [|b m k G H IH]; auto. right. destruct IH as [->|(r & b' & -> & G')].
  - exists [], b. rewrite app_nil_r. auto.
  - exists ([45] ++ b ++ r), b'. rewrite <- !app_assoc. auto.
Qed.
Lemma value_spot cur c1 m k v : at_rest w cur (m ++ v) -> at_rest w c1 v -> opens cur -> minusT m k -> no_operand v -> spot (EText "Value required") c1.
Proof.
  intros A A1 (p & b & E & G & Hp) M N. exists v. split; auto. rewrite (before_step cur m v c1 A A1), E.
  destruct (minus_last m k M) as [->|(r & b' & -> & G')].
  - rewrite app_nil_r. apply bl_value; auto. tauto.
  - replace ((p ++ b) ++ (r ++ [45]) ++ b') with ((p ++ b ++ r ++ [45]) ++ b') by (rewrite <- !app_assoc; auto).
    apply bl_value; auto. right. right. exists (p ++ b ++ r). rewrite <- !app_assoc. auto.
Qed.

(** One number. *)
Lemma number_reads cur s : at_rest w cur s ->
  (peg w number cur RFail /\ ~ starts_number s) \/
  (exists t f z v cur', s = t ++ v /\ peg w number cur (RSucc cur' [num z]) /\ at_rest w cur' v /\ factorT t f /\ denotes (num z) f /\ le64 f /\ solid v) \/
  (exists cur' e, peg w number cur (RErr cur' e) /\ fine e cur' s).
Proof.
  intros A. destruct (number_total w cur s A) as [[P N]|(wd & b & v & z & (E & W & G & Sv & _) & N & [[I (cur' & P & A')]|[I (cur' & P & A')]])].
  - left. split; auto. eapply not_number; eauto.
  - right. left. destruct (number_factor wd b z W G N I) as (f & F & D & L). exists (wd ++ b), f, z, v, cur'. rewrite <- app_assoc. auto 10.
  - right. right. eexists _, _. split; [exact P|apply fine_num]. exists v. split; auto.
    subst s. rewrite app_assoc in A. rewrite (before_step _ _ _ _ A A'). eapply bl_range; eauto.
Qed.
Definition more_numbers := EZeroOrMore [binaryOperator; number].
Lemma inner_total n : forall s cur k, (length s <= n)%nat -> at_rest w cur s -> solid s ->
  (exists u v lx asts cur' j, s = u ++ v /\ pegr w zm [binaryOperator; number] k cur (inr (cur', asts, j)) /\ at_rest w cur' v /\ tail_read u lx asts /\ solid v) \/
  (exists cur' e, pegr w zm [binaryOperator; number] k cur (inl (cur', e)) /\ fine e cur' s).
Proof.
  induction n as [|n IH]; intros s cur k L A Ss.
  { destruct s; [|simpl in L; lia]. left. exists [], [], [], [], cur, k. split; auto. split; [|split; [auto|split; [apply tail_read_nil|auto]]].
    apply rep_stop; [simpl; lia|]. apply seq_fail. eapply bin_no; [|eauto]. intros (o & t & E). discriminate. }
  assert (Stop : pegs w [binaryOperator; number] cur RFail -> exists u v lx asts cur' j, s = u ++ v /\ pegr w zm [binaryOperator; number] k cur (inr (cur', asts, j)) /\ at_rest w cur' v /\ tail_read u lx asts /\ solid v).
  { intros P. exists [], s, [], [], cur, k. split; auto. split; [apply rep_stop; [simpl; lia|auto]|]. split; auto. split; [apply tail_read_nil|auto]. }
  destruct (op_start_dec s) as [(o & t & ->)|N]; [|left; apply Stop; apply seq_fail; eapply bin_no; eauto].
  destruct (gap_total t) as (b & v & -> & G & Sv). destruct (bin_yes w cur o b v G Sv A) as (c1 & a & P & A1 & V1 & V2).
  destruct (number_reads c1 v A1) as [[Q _]|[(t1 & f & z & v1 & c2 & -> & Q & A2 & F & D & Lf & Sv1)|(c2 & e & Q & Fe)]].
  - left. apply Stop. eapply seq_fail_later; [exact P|]. apply seq_fail. exact Q.
  - assert (Q2 : pegs w [binaryOperator; number] cur (RSucc c2 ([a] ++ [num z] ++ []))) by (eapply S_Peg.seq_ok; [exact P|]; eapply S_Peg.seq_ok; [exact Q|constructor]).
    cbn [length] in L. rewrite !app_length in L.
    destruct (IH v1 c2 (S k) ltac:(lia) A2 Sv1) as [(u & v2 & lx & asts & c3 & j & -> & R & A3 & T & Sv2)|(c3 & e & R & Fe)].
    + left. exists (([op_byte o] ++ b ++ t1 ++ []) ++ u), v2, ((o, (0%nat, f)) :: [] ++ lx), ([a] ++ [num z] ++ asts), c3, j.
      split; [rewrite app_nil_r, <- !app_assoc; reflexivity|]. split; [change ([a] ++ [num z] ++ asts) with (([a] ++ [num z] ++ []) ++ asts); eapply rep_more; [simpl; lia|exact Q2|exact R]|]. split; auto. split; auto.
      apply tail_read_cons; auto. split; auto. split; auto. split; [constructor|]. split; [constructor|]. repeat constructor. exact D.
    + right. exists c3, e. split; [eapply rep_more_err; [simpl; lia|exact Q2|exact R]|].
      replace (op_byte o :: b ++ t1 ++ v1) with (([op_byte o] ++ b ++ t1) ++ v1) by (rewrite <- !app_assoc; auto). apply fine_after. auto.
  - right. exists c2, e. split; [apply rep_err; [simpl; lia|]; eapply seq_err_later; [exact P|]; apply seq_err; exact Q|].
    replace (op_byte o :: b ++ v) with (([op_byte o] ++ b) ++ v) by (rewrite <- !app_assoc; auto). apply fine_after. auto.
Qed.
Lemma simple_total s cur : at_rest w cur s ->
  (peg w simpleExpression cur RFail /\ ~ starts_number s) \/
  (exists t u v f lx asts cur', s = t ++ u ++ v /\ peg w simpleExpression cur (RSucc cur' asts) /\ at_rest w cur' v /\ chain_read t u (0%nat, f) lx asts /\ solid v) \/
  (exists cur' e, peg w simpleExpression cur (RErr cur' e) /\ fine e cur' s).
Proof.
  intros A. destruct (number_reads cur s A) as [[Q Nq]|[(t1 & f & z & v1 & c2 & -> & Q & A2 & F & D & Lf & Sv1)|(c2 & e & Q & Fe)]].
  - left. split; auto. constructor. apply seq_fail. auto.
  - right. destruct (inner_total _ v1 c2 0 (le_n _) A2 Sv1) as [(u & v2 & lx & asts & c3 & j & -> & R & A3 & (T1 & T2 & T3) & Sv2)|(c3 & e & R & Fe)].
    + left. exists t1, u, v2, f, lx, ([num z] ++ asts ++ []), c3. split; auto. split.
      { constructor. eapply S_Peg.seq_ok; [exact Q|]. eapply S_Peg.seq_ok; [eapply peg_rep_ok; [exact R|simpl; lia]|constructor]. }
      split; auto. split; auto. rewrite app_nil_r. split; auto. split; auto. split; auto. split; auto. constructor; auto.
    + right. exists c3, e. split; [|apply fine_after; auto]. constructor. eapply seq_err_later; [exact Q|]. apply seq_err. apply peg_rep_err. exact R.
  - right. right. exists c2, e. split; auto. constructor. apply seq_err. auto.
Qed.
(** What an expression parser promises at [s]. *)
Definition exprH (s : bytes) : Prop := forall cur, at_rest w cur s -> solid s -> opens cur ->
  (exists t v f a cur', s = t ++ v /\ peg w (expression prod) cur (RSucc cur' [a]) /\ at_rest w cur' v /\ exprT t f /\ le64 f /\ denotes a f /\ ~ op_start v) \/
  (exists cur' e, peg w (expression prod) cur (RErr cur' e) /\ fine e cur' s).
Lemma grouped_total s cur : at_rest w cur s -> (forall s', (length s' < length s)%nat -> exprH s') ->
  (peg w (EIndirect 0) cur RFail /\ ~ begins [40] s) \/
  (exists t v f a cur', s = t ++ v /\ peg w (EIndirect 0) cur (RSucc cur' [a]) /\ at_rest w cur' v /\ atomT t f /\ le64 f /\ denotes a f /\ solid v) \/
  (exists cur' e, peg w (EIndirect 0) cur (RErr cur' e) /\ fine e cur' s).
Proof.
  intros A H. destruct (begins_dec [40] s) as [[t ->]|N].
  2:{ left. split; auto. apply peg_indirect. rewrite envH. constructor. apply seq_fail. eapply (paren_no 40); eauto. }
  right. destruct (paren_yes 40 w cur t A) as (c1 & P1 & A1). destruct (gap_total t) as (b & v & -> & G & Sv).
  destruct (sp_0_peg w c1 b v G Sv A1) as (c2 & P2 & A2).
  assert (B1 : before c1 = before cur ++ [40]) by (eapply before_step; eauto).
  assert (Op : opens c2).
  { exists (before cur ++ [40]), b. rewrite (before_step _ _ _ _ A1 A2), B1. split; auto. split; auto. right. eauto. }
  destruct (H v ltac:(cbn [app length]; rewrite app_length; lia) c2 A2 Sv Op) as [(t1 & v1 & f & a & c3 & -> & P3 & A3 & E & L & D & No)|(c3 & e & P3 & Fe)].
  - destruct (begins_dec [41] v1) as [[v2 ->]|N].
    + destruct (paren_yes 41 w c3 v2 A3) as (c4 & P4 & A4). destruct (gap_total v2) as (b' & v3 & -> & G' & Sv3).
      destruct (sp_0_peg w c4 b' v3 G' Sv3 A4) as (c5 & P5 & A5).
      left. exists ([40] ++ b ++ t1 ++ [41] ++ b'), v3, f, a, c5. split; [rewrite <- !app_assoc; auto|]. split.
      { apply peg_indirect. rewrite envH. change [a] with ([] ++ ([] ++ [a] ++ [] ++ [] ++ []) ++ []). constructor.
        eapply S_Peg.seq_ok; [exact P1|]. eapply S_Peg.seq_ok; [|constructor]. constructor. apply ch_ok. constructor.
        eapply S_Peg.seq_ok; [exact P2|]. eapply S_Peg.seq_ok; [exact P3|]. eapply S_Peg.seq_ok; [exact P4|]. eapply S_Peg.seq_ok; [exact P5|constructor]. }
      split; auto. split; [apply at_paren; auto|]. auto.
    + right. destruct (error_peg w c1 "Error in grouped expression") as (c4 & P4 & Ec4). exists c4. eexists. split.
      2:{ apply fine_text. apply (spot_same _ c1); auto. eexists. split; [exact A1|]. rewrite B1. eapply bl_group; eauto.
          intros o [y Ey]. apply No. exists o, y. exact Ey. }
      apply peg_indirect. rewrite envH. constructor. eapply seq_err_later; [exact P1|]. apply seq_err. constructor.
      apply ch_next; [|apply ch_err; exact P4]. constructor. eapply seq_fail_later; [exact P2|]. eapply seq_fail_later; [exact P3|]. apply seq_fail. eapply (paren_no 41); eauto.
  - right. exists c3, e. split; [|rewrite app_assoc; apply fine_after; auto].
    apply peg_indirect. rewrite envH. constructor. eapply seq_err_later; [exact P1|]. apply seq_err. constructor. apply ch_err.
    constructor. eapply seq_err_later; [exact P2|]. apply seq_err. exact P3.
Qed.
(** An operand with its minus signs, and the plain chain that may follow. *)
Definition operand := EFlatGroup [EZeroOrMore [unaryOperator]; EFirst [simpleExpression; EIndirect 0]].
Definition operand_reads (e : pexp) (s : bytes) (cur : srcpos) : Prop :=
  (exists t u v x lx asts cur', s = t ++ u ++ v /\ peg w e cur (RSucc cur' asts) /\ at_rest w cur' v /\ chain_read t u x lx asts /\ solid v) \/
  (exists cur' e0, peg w e cur (RErr cur' e0) /\ fine e0 cur' s).
Lemma chain_minus m k t u f lx asts l : minusT m k -> chain_read t u (0%nat, f) lx asts -> toks (repeat TUn k) l -> chain_read (m ++ t) u (k, f) lx (l ++ asts).
Proof.
  intros M (F & L & T & Ls & K) K2. change (item_tree (0%nat, f)) with f in *. unfold chain_read. change (item_tree (k, f)) with (negs k f).
  split; [apply factor_join; auto|]. split. { clear -L. induction k; auto. } split; auto. split; auto.
  unfold chain_toks, item_toks in *. cbn [fst snd] in *. rewrite <- app_assoc. apply Forall2_app; auto.
Qed.
Lemma first_total s cur : at_rest w cur s -> (forall s', (length s' < length s)%nat -> exprH s') ->
  (peg w (EFirst [simpleExpression; EIndirect 0]) cur RFail /\ peg w simpleExpression cur RFail /\ peg w (EIndirect 0) cur RFail /\ no_operand s) \/
  (exists t u v f lx asts cur', s = t ++ u ++ v /\ (forall more, peg w (EFirst (simpleExpression :: EIndirect 0 :: more)) cur (RSucc cur' asts)) /\ at_rest w cur' v /\ chain_read t u (0%nat, f) lx asts /\ solid v) \/
  (exists cur' e, (forall more, peg w (EFirst (simpleExpression :: EIndirect 0 :: more)) cur (RErr cur' e)) /\ fine e cur' s).
Proof.
  intros A H. destruct (simple_total s cur A) as [[P Np]|[(t & u & v & f & lx & asts & c1 & E & P & A1 & C & Sv)|(c1 & e & P & Fe)]].
  - destruct (grouped_total s cur A H) as [[P2 Np2]|[(t & v & f & a & c1 & E & P2 & A1 & F & L & D & Sv)|(c1 & e & P2 & Fe)]].
    + left. split; [|split; [auto|split; [auto|split; auto]]]. constructor. apply ch_next; auto. apply ch_next; auto. constructor.
    + right. left. exists t, [], v, f, [], [a], c1. split; auto. split; [intros more; constructor; apply ch_next; auto; apply ch_ok; auto|]. split; auto. split; auto.
      split; [apply ft_atom; auto|]. split; auto. split; [constructor|]. split; [constructor|]. repeat constructor. exact D.
    + right. right. exists c1, e. split; auto. intros more. constructor. apply ch_next; auto. apply ch_err. auto.
  - right. left. exists t, u, v, f, lx, asts, c1. split; auto. split; auto. intros more. constructor. apply ch_ok. auto.
  - right. right. exists c1, e. split; auto. intros more. constructor. apply ch_err. auto.
Qed.
Definition outer := [binaryOperator; EFirst [operand; EError "Error in the expression after the binary operator"]].
Lemma operand_total s cur : at_rest w cur s -> solid s -> after_op cur -> (forall s', (length s' < length s)%nat -> exprH s') ->
  operand_reads (EFirst [operand; EError "Error in the expression after the binary operator"]) s cur.
Proof.
  intros A Ss Ho H. destruct (minus_total _ s (le_n _) Ss) as (m & k & v & -> & M & N & Sv).
  destruct (un_peg m k v cur M N Sv A) as (c1 & l & P & A1 & K).
  assert (H' : forall s', (length s' < length v)%nat -> exprH s') by (intros s' L; apply H; rewrite app_length; lia).
  destruct (first_total v c1 A1 H') as [(Q & _ & _ & No)|[(t & u & v1 & f & lx & asts & c2 & -> & Q & A2 & C & Sv1)|(c2 & e & Q & Fe)]].
  - right. destruct (error_peg w cur "Error in the expression after the binary operator") as (c2 & P2 & Ec2). exists c2. eexists. split.
    2:{ apply fine_text. apply (spot_same _ cur); auto. destruct Ho as (p & o & b & Eb & Gb). eexists. split; [exact A|]. rewrite Eb.
        apply bl_operand; auto. eapply minus_signsT; eauto. }
    constructor. apply ch_next; [constructor; eapply seq_fail_later; [exact P|apply seq_fail; exact Q]|]. apply ch_err. exact P2.
  - left. exists (m ++ t), u, v1, (k, f), lx, (l ++ asts ++ []), c2. split; [rewrite <- !app_assoc; auto|]. split.
    { constructor. apply ch_ok. constructor. eapply S_Peg.seq_ok; [exact P|]. eapply S_Peg.seq_ok; [apply Q|constructor]. }
    split; auto. split; auto. rewrite app_nil_r. apply chain_minus; auto.
  - right. exists c2, e. split; [|apply fine_after; auto]. constructor. apply ch_err. constructor. eapply seq_err_later; [exact P|]. apply seq_err. apply Q.
Qed.
Lemma outer_total n : forall s cur k, (length s <= n)%nat -> at_rest w cur s -> (forall s', (length s' < length s)%nat -> exprH s') ->
  (exists u v lx asts cur' j, s = u ++ v /\ pegr w zm outer k cur (inr (cur', asts, j)) /\ at_rest w cur' v /\ tail_read u lx asts /\ ~ op_start v) \/
  (exists cur' e, pegr w zm outer k cur (inl (cur', e)) /\ fine e cur' s).
Proof.
  induction n as [|n IH]; intros s cur k L A H; (destruct (op_start_dec s) as [(o & t & ->)|N];
    [|left; exists [], s, [], [], cur, k; split; [auto|]; split; [apply rep_stop; [simpl; lia|apply seq_fail; eapply bin_no; eauto]|]; split; [auto|split; [apply tail_read_nil|auto]]]).
  { simpl in L. lia. }
  destruct (gap_total t) as (b & v & -> & G & Sv). destruct (bin_yes w cur o b v G Sv A) as (c1 & a & P & A1 & V1 & V2).
  cbn [length] in L, H. rewrite app_length in L, H.
  assert (Ho : after_op c1).
  { exists (before cur), o, b. split; auto. eapply (before_step cur ([op_byte o] ++ b) v); [|exact A1]. rewrite <- app_assoc. exact A. }
  destruct (operand_total v c1 A1 Sv Ho) as [(t1 & u1 & v1 & x & lx & asts & c2 & -> & Q & A2 & C & Sv1)|(c2 & e & Q & Fe)]; [intros; apply H; lia| |].
  - assert (Q2 : pegs w outer cur (RSucc c2 ([a] ++ asts ++ []))) by (eapply S_Peg.seq_ok; [exact P|]; eapply S_Peg.seq_ok; [exact Q|constructor]).
    rewrite !app_length in L, H.
    destruct (IH v1 c2 (S k) ltac:(lia) A2) as [(u & v2 & lx2 & asts2 & c3 & j & -> & R & A3 & T & Nv)|(c3 & e & R & Fe)]; [intros; apply H; lia| |].
    + left. exists (([op_byte o] ++ b ++ t1 ++ u1) ++ u), v2, ((o, x) :: lx ++ lx2), ([a] ++ asts ++ asts2), c3, j.
      split; [rewrite <- !app_assoc; auto|]. split. { replace ([a] ++ asts ++ asts2) with (([a] ++ asts ++ []) ++ asts2) by (rewrite app_nil_r, <- app_assoc; auto). eapply rep_more; [simpl; lia|exact Q2|exact R]. }
      split; auto. split; auto. apply tail_read_cons; auto.
    + right. exists c3, e. split; [eapply rep_more_err; [simpl; lia|exact Q2|exact R]|].
      replace (op_byte o :: b ++ t1 ++ u1 ++ v1) with (([op_byte o] ++ b ++ t1 ++ u1) ++ v1) by (rewrite <- !app_assoc; auto). apply fine_after. auto.
  - right. exists c2, e. split; [apply rep_err; [simpl; lia|]; eapply seq_err_later; [exact P|]; apply seq_err; exact Q|].
    replace (op_byte o :: b ++ v) with (([op_byte o] ++ b) ++ v) by auto. apply fine_after. auto.
Qed.
Lemma ptree_le l : forall p c, (match p with Some (_, a) => le64 a | None => True end) -> le64 c -> Forall (fun y => le64 (snd y)) l -> le64 (ptree p c l).
Proof.
  induction l as [|[o x] l IH]; intros p c Hp Hc F; simpl.
  - destruct p as [[o a]|]; simpl; auto.
  - inversion F; subst. destruct (is_mul o); apply IH; auto; [simpl; auto|]. destruct p as [[o1 a]|]; simpl; auto.
Qed.
Theorem expr_total n : forall s, (length s < n)%nat -> exprH s.
Proof.
  induction n as [|n IH]; intros s L cur A Ss Op; [lia|].
  assert (H : forall s', (length s' < length s)%nat -> exprH s') by (intros; apply IH; lia).
  destruct (minus_total _ s (le_n _) Ss) as (m & k & v & -> & M & N & Sv).
  destruct (un_peg m k v cur M N Sv A) as (c1 & l & P & A1 & K).
  assert (H' : forall s', (length s' < length v)%nat -> exprH s') by (intros s' L'; apply H; rewrite app_length; lia).
  destruct (first_total v c1 A1 H') as [(_ & Q1 & Q2 & No)|[(t & u & v1 & f & lx & asts & c2 & -> & Q & A2 & C & Sv1)|(c2 & e & Q & Fe)]].
  - right. destruct (error_peg w c1 "Value required") as (c2 & P2 & Ec2). exists c2. eexists. split; [|apply fine_text; apply (spot_same _ c1); auto; eapply value_spot; eauto].
    apply peg_trans_err. constructor. eapply seq_err_later; [exact P|]. apply seq_err. constructor. apply ch_next; auto. apply ch_next; auto. apply ch_err. exact P2.
  - rewrite !app_length in H'.
    destruct (outer_total _ v1 c2 0 (le_n _) A2) as [(u2 & v2 & lx2 & asts2 & c3 & j & -> & R & A3 & T & Nv)|(c3 & e & R & Fe)]; [intros; apply H'; lia| |].
    + destruct (chain_minus m k t u f lx asts l M C K) as (F & Lf & T1 & Ls & Tk). destruct T as (T2 & Ls2 & Tk2).
      assert (PI : peg w expressionInner cur (RSucc c3 (l ++ asts ++ asts2 ++ []))).
      { constructor. eapply S_Peg.seq_ok; [exact P|]. eapply S_Peg.seq_ok; [apply Q|]. eapply S_Peg.seq_ok; [eapply peg_rep_ok; [exact R|simpl; lia]|constructor]. }
      rewrite app_nil_r in PI.
      assert (Tt : toks (chain_toks (k, f) (lx ++ lx2)) (l ++ asts ++ asts2)).
      { unfold chain_toks. rewrite flat_map_app, !app_assoc. unfold chain_toks in Tk. apply Forall2_app; auto. }
      assert (Te : exprT ((m ++ t) ++ u ++ u2) (chain_tree (k, f) (lx ++ lx2))).
      { unfold chain_tree. apply chain_expr; auto. rewrite map_app. apply tail_app; auto. }
      assert (Es : m ++ t ++ u ++ u2 ++ v2 = ((m ++ t) ++ u ++ u2) ++ v2) by (rewrite <- !app_assoc; auto).
      destruct (prodH (fresh w cur) _ _ _ Tt) as [(a & Pp & D)|[Pp B]].
      * left. exists ((m ++ t) ++ u ++ u2), v2, (chain_tree (k, f) (lx ++ lx2)), a, c3. split; auto. split; [eapply peg_trans_ok; eauto|].
        split; auto. split; auto. split; auto. apply ptree_le; auto. rewrite map_app. apply Forall_app. split; auto.
      * right. exists c3, stop. split; [eapply peg_trans_bad; eauto|]. split; [|congruence]. intros _. rewrite Es. exists [], ((m ++ t) ++ u ++ u2), v2, (chain_tree (k, f) (lx ++ lx2)). auto.
    + right. exists c3, e. split; [|replace (m ++ t ++ u ++ v1) with ((m ++ t ++ u) ++ v1) by (rewrite <- !app_assoc; auto); apply fine_after; auto].
      apply peg_trans_err. constructor. eapply seq_err_later; [exact P|]. eapply seq_err_later; [apply Q|]. apply seq_err. apply peg_rep_err. exact R.
  - right. exists c2, e. split; [|apply fine_after; auto]. apply peg_trans_err. constructor. eapply seq_err_later; [exact P|]. apply seq_err. apply Q.
Qed.

(** ** Every formula is read *)
Definition reads (e : pexp) (f : arith) (cur : srcpos) (v : bytes) : Prop :=
  (exists cur' a, peg w e cur (RSucc cur' [a]) /\ at_rest w cur' v /\ denotes a f) \/
  (exists cur', peg w e cur (RErr cur' stop) /\ bad f).
Definition exprC (n : nat) : Prop := forall t f r cur, (length t < n)%nat -> exprT t f -> lt64 f -> closed r -> at_rest w cur (t ++ r) ->
  reads (expression prod) f cur r.
Definition all_lt (l : list (fop * arith)) : Prop := Forall (fun y => lt64 (snd y)) l.
Lemma tail_app_split lx lx' : trees (lx ++ lx') = trees lx ++ trees lx'. Proof. apply map_app. Qed.
Lemma inner_complete u l r : tailT u l -> all_lt l -> closed r -> forall cur k, at_rest w cur (u ++ r) ->
  exists u1 u2 lx l2 asts cur' j, u = u1 ++ u2 /\ l = trees lx ++ l2 /\ tailT u2 l2 /\
    pegr w zm [binaryOperator; number] k cur (inr (cur', asts, j)) /\ at_rest w cur' (u2 ++ r) /\ toks (tail_toks lx) asts.
Proof.
  intros T Ls C. induction T as [|o b t f u l G F T IH]; intros cur k A.
  - exists [], [], [], [], [], cur, k. split; auto. split; auto. split; [constructor|]. split; [|split; [auto|constructor]].
    apply rep_stop; [simpl; lia|]. apply seq_fail. eapply bin_no; [|eauto]. apply closed_no_op. auto.
  - inversion Ls as [|? ? L1 L2]; subst. simpl in L1.
    assert (A0 : at_rest w cur ([op_byte o] ++ b ++ (t ++ u ++ r))) by (rewrite <- !app_assoc in A; exact A).
    destruct (bin_yes w cur o b _ G (factor_solid t f _ F) A0) as (c1 & a & P & A1 & V1 & V2).
    destruct (num_factor c1 t f (u ++ r) F L1 (tail_delim u l r T C) A1) as [Q|(c2 & z & Q & A2 & D)].
    + exists [], ([op_byte o] ++ b ++ t ++ u), [], ((o, f) :: l), [], cur, k. split; auto. split; auto. split; [apply tl_cons; auto|].
      split; [|split; [auto|constructor]]. apply rep_stop; [simpl; lia|]. eapply seq_fail_later; [exact P|]. apply seq_fail. exact Q.
    + destruct (IH L2 c2 (S k) A2) as (u1 & u2 & lx & l2 & asts & c3 & j & -> & -> & T2 & R & A3 & K).
      exists ([op_byte o] ++ b ++ t ++ u1), u2, ((o, (0%nat, f)) :: lx), l2, (([a] ++ [num z] ++ []) ++ asts), c3, j.
      split; [rewrite <- !app_assoc; auto|]. split; auto. split; auto. split.
      { eapply rep_more; [simpl; lia| |exact R]. eapply S_Peg.seq_ok; [exact P|]. eapply S_Peg.seq_ok; [exact Q|constructor]. }
      split; auto. cbn [app]. constructor; [split; auto|]. constructor; auto.
Qed.
(** What is left of a chain after its first operand. *)
Definition operand_done (e : pexp) (f : arith) (u : bytes) (l : list (fop * arith)) (r : bytes) (cur : srcpos) : Prop :=
  (exists u1 u2 x lx l2 asts cur', u = u1 ++ u2 /\ l = trees lx ++ l2 /\ tailT u2 l2 /\ f = item_tree x /\
    peg w e cur (RSucc cur' asts) /\ at_rest w cur' (u2 ++ r) /\ toks (chain_toks x lx) asts) \/
  (exists cur', peg w e cur (RErr cur' stop) /\ bad f).
Lemma grouped_complete n cur b t f b' v : exprC n -> (length t < n)%nat -> gap b -> exprT t f -> gap b' -> lt64 f -> delim v ->
  at_rest w cur (([40] ++ b ++ t ++ [41] ++ b') ++ v) -> reads (EIndirect 0) f cur v.
Proof.
  intros H L G E G' Lf D A.
  assert (A0 : at_rest w cur ([40] ++ (b ++ t ++ [41] ++ b' ++ v))) by (rewrite <- !app_assoc in A; exact A).
  destruct (paren_yes 40 w cur _ A0) as (c1 & P1 & A1).
  assert (Sv : solid (t ++ [41] ++ b' ++ v)).
  { destruct (expr_chain t f E) as (t0 & f0 & u & l & -> & F & _). rewrite <- app_assoc. eapply factor_solid; eauto. }
  destruct (sp_0_peg w c1 b _ G Sv A1) as (c2 & P2 & A2).
  destruct (H t f ([41] ++ b' ++ v) c2 L E Lf) as [(c3 & a & P3 & A3 & Da)|(c3 & P3 & B)]; auto.
  { right. eexists. reflexivity. }
  - destruct (paren_yes 41 w c3 _ A3) as (c4 & P4 & A4). destruct (sp_0_peg w c4 b' v G' (delim_solid v D) A4) as (c5 & P5 & A5).
    left. exists c5, a. split; [|auto]. apply peg_indirect. rewrite envH. change [a] with ([] ++ ([] ++ [a] ++ [] ++ [] ++ []) ++ []). constructor.
    eapply S_Peg.seq_ok; [exact P1|]. eapply S_Peg.seq_ok; [|constructor]. constructor. apply ch_ok. constructor.
    eapply S_Peg.seq_ok; [exact P2|]. eapply S_Peg.seq_ok; [exact P3|]. eapply S_Peg.seq_ok; [exact P4|]. eapply S_Peg.seq_ok; [exact P5|constructor].
  - right. exists c3. split; auto. apply peg_indirect. rewrite envH. constructor. eapply seq_err_later; [exact P1|]. apply seq_err. constructor. apply ch_err.
    constructor. eapply seq_err_later; [exact P2|]. apply seq_err. exact P3.
Qed.
Lemma bad_negs k f : bad f -> bad (negs k f).
Proof. intros H. induction k; auto. apply (proj1 bad_spreads). auto. Qed.
Lemma lt_negs k f : lt64 (negs k f) -> lt64 f.
Proof. induction k; auto. Qed.
Lemma operand_complete n cur t f u l r : exprC n -> (length t <= n)%nat -> factorT t f -> tailT u l -> lt64 f -> all_lt l -> closed r -> at_rest w cur (t ++ u ++ r) ->
  exists c1 l1 k, peg w (EZeroOrMore [unaryOperator]) cur (RSucc c1 l1) /\ toks (repeat TUn k) l1 /\ exists f1, f = negs k f1 /\
  ((exists u1 u2 lx l2 asts cur', u = u1 ++ u2 /\ l = trees lx ++ l2 /\ tailT u2 l2 /\ (forall more, peg w (EFirst (simpleExpression :: EIndirect 0 :: more)) c1 (RSucc cur' asts)) /\
     at_rest w cur' (u2 ++ r) /\ toks (chain_toks (0%nat, f1) lx) asts) \/
   (exists cur', (forall more, peg w (EFirst (simpleExpression :: EIndirect 0 :: more)) c1 (RErr cur' stop)) /\ bad f1)).
Proof.
  intros H Ln F T Lf Ls C A. destruct (factor_split t f F) as (m & k & t1 & f1 & -> & M & Fa & ->). rewrite <- app_assoc in A.
  destruct (atom_start t1 f1 (u ++ r) Fa) as [N Sv]. destruct (un_peg m k _ cur M N Sv A) as (c1 & l1 & P & A1 & K).
  exists c1, l1, k. split; auto. split; auto. exists f1. split; auto. apply lt_negs in Lf. pose proof (tail_delim u l r T C) as D.
  destruct Fa as [wd b z Hl G|b t f b' G E G'].
  - destruct (num_lit c1 wd z b (u ++ r) Hl Lf G D A1) as (c2 & Q & A2 & Dn).
    destruct (inner_complete u l r T Ls C c2 0 A2) as (u1 & u2 & lx & l2 & asts & c3 & j & -> & -> & T2 & R & A3 & K3).
    left. exists u1, u2, lx, l2, ([num z] ++ asts ++ []), c3. split; auto. split; auto. split; auto. split.
    { intros more. constructor. apply ch_ok. constructor. eapply S_Peg.seq_ok; [exact Q|]. eapply S_Peg.seq_ok; [eapply peg_rep_ok; [exact R|simpl; lia]|constructor]. }
    split; auto. rewrite app_nil_r. constructor; auto.
  - assert (Sf : peg w simpleExpression c1 RFail) by (constructor; apply seq_fail; eapply num_paren; exact A1).
    assert (Lt : (length t < n)%nat) by (cbn [app] in Ln; rewrite ?app_length in Ln; cbn [length] in Ln; rewrite ?app_length in Ln; cbn [length] in Ln; lia).
    destruct (grouped_complete n c1 b t f b' (u ++ r) H Lt G E G' Lf D A1) as [(c2 & a & Q & A2 & Da)|(c2 & Q & B)].
    + left. exists [], u, [], l, [a], c2. split; auto. split; auto. split; auto. split; [intros more; constructor; apply ch_next; auto; apply ch_ok; auto|].
      split; auto. repeat constructor. exact Da.
    + right. exists c2. split; auto. intros more. constructor. apply ch_next; auto. apply ch_err. auto.
Qed.
Lemma toks_chain k f lx l1 asts : toks (repeat TUn k) l1 -> toks (chain_toks (0%nat, f) lx) asts -> toks (chain_toks (k, f) lx) (l1 ++ asts).
Proof. intros H K. unfold chain_toks, item_toks in *. cbn [fst snd repeat app] in *. rewrite <- app_assoc. apply Forall2_app; auto. Qed.
Lemma toks_tail o x lx lx2 s asts asts2 : istk (TBin o) s -> toks (chain_toks x lx) asts -> toks (tail_toks lx2) asts2 ->
  toks (tail_toks ((o, x) :: lx ++ lx2)) (s :: asts ++ asts2).
Proof.
  intros H K K2. unfold tail_toks in *. cbn [flat_map fst snd]. rewrite flat_map_app. cbn [app]. constructor; auto. rewrite app_assoc. apply Forall2_app; auto.
Qed.
Lemma outer_complete n m : exprC n -> forall u l r cur k, (length u <= m)%nat -> (length u <= n)%nat -> tailT u l -> all_lt l -> closed r -> at_rest w cur (u ++ r) ->
  (exists lx asts cur' j, l = trees lx /\ pegr w zm outer k cur (inr (cur', asts, j)) /\ at_rest w cur' r /\ toks (tail_toks lx) asts) \/
  (exists cur', pegr w zm outer k cur (inl (cur', stop)) /\ Exists (fun y => bad (snd y)) l).
Proof.
  intros H. induction m as [|m IH]; intros u l r cur k Lm Ln T Ls C A; (destruct T as [|o b t f u l G F T];
    [left; exists [], [], cur, k; split; [auto|]; split; [apply rep_stop; [simpl; lia|apply seq_fail; eapply bin_no; [apply closed_no_op; exact C|eauto]]|split; [auto|constructor]]|]).
  { simpl in Lm. lia. }
  inversion Ls as [|? ? L1 L2]; subst. simpl in L1.
  assert (A0 : at_rest w cur ([op_byte o] ++ b ++ (t ++ u ++ r))) by (rewrite <- !app_assoc in A; exact A).
  destruct (bin_yes w cur o b _ G (factor_solid t f _ F) A0) as (c1 & a & P & A1 & V1 & V2).
  cbn [app length] in Lm, Ln. rewrite !app_length in Lm, Ln.
  destruct (operand_complete n c1 t f u l r H ltac:(lia) F T L1 L2 C A1) as (c2 & l1 & kk & Q & K & f1 & -> & [(u1 & u2 & lx & l2 & asts & c3 & -> & -> & T2 & R & A3 & K3)|(c3 & R & B)]).
  - unfold all_lt in L2. apply Forall_app in L2. destruct L2 as [_ L2]. rewrite !app_length in Lm, Ln.
    assert (Q2 : pegs w outer cur (RSucc c3 ([a] ++ (l1 ++ asts ++ []) ++ []))).
    { eapply S_Peg.seq_ok; [exact P|]. eapply S_Peg.seq_ok; [|constructor]. constructor. apply ch_ok. constructor. eapply S_Peg.seq_ok; [exact Q|]. eapply S_Peg.seq_ok; [apply R|constructor]. }
    rewrite !app_nil_r in Q2.
    destruct (IH u2 l2 r c3 (S k) ltac:(lia) ltac:(lia) T2 L2 C A3) as [(lx2 & asts2 & c4 & j & -> & R2 & A4 & K4)|(c4 & R2 & B)].
    + left. exists ((o, (kk, f1)) :: lx ++ lx2), (([a] ++ l1 ++ asts) ++ asts2), c4, j. split; [cbn [trees map]; rewrite map_app; auto|].
      split; [eapply rep_more; [simpl; lia|exact Q2|exact R2]|]. split; auto. cbn [app]. apply toks_tail; auto; [split; auto|]. apply toks_chain; auto.
    + right. exists c4. split; [eapply rep_more_err; [simpl; lia|exact Q2|exact R2]|]. right. apply Exists_app. auto.
  - right. exists c3. split; [|left; simpl; apply bad_negs; auto]. apply rep_err; [simpl; lia|]. eapply seq_err_later; [exact P|]. apply seq_err. constructor. apply ch_err. constructor.
    eapply seq_err_later; [exact Q|]. apply seq_err. apply R.
Qed.
Lemma ptree_lt l : forall p c, lt64 (ptree p c l) -> (match p with Some (_, a) => lt64 a | None => True end) /\ lt64 c /\ all_lt l.
Proof.
  induction l as [|[o x] l IH]; intros p c H; simpl in H.
  - destruct p as [[o a]|]; simpl in *; repeat split; try tauto; constructor.
  - destruct (is_mul o); apply IH in H; simpl in H; destruct H as (H1 & H2 & H3).
    + destruct H2. repeat split; auto. constructor; auto.
    + destruct p as [[o1 a]|]; simpl in H1; repeat split; try tauto; constructor; auto.
Qed.
Theorem expr_complete n : exprC n.
Proof.
  induction n as [|n IH]; intros t f r cur L E Lf C A; [lia|].
  destruct (expr_chain t f E) as (t0 & f0 & u & l & -> & F & T & ->). apply ptree_lt in Lf. destruct Lf as (_ & L0 & Ls).
  rewrite <- app_assoc in A. rewrite app_length in L.
  destruct (operand_complete n cur t0 f0 u l r IH ltac:(lia) F T L0 Ls C A) as (c2 & l1 & k & Q & K & f1 & -> & [(u1 & u2 & lx & l2 & asts & c3 & -> & -> & T2 & R & A3 & K3)|(c3 & R & B)]).
  - unfold all_lt in Ls. apply Forall_app in Ls. destruct Ls as [_ Ls]. rewrite !app_length in L.
    destruct (outer_complete n _ IH u2 l2 r c3 0 (le_n _) ltac:(lia) T2 Ls C A3) as [(lx2 & asts2 & c4 & j & -> & R2 & A4 & K4)|(c4 & R2 & B)].
    + assert (PI : peg w expressionInner cur (RSucc c4 (l1 ++ asts ++ asts2 ++ []))).
      { constructor. eapply S_Peg.seq_ok; [exact Q|]. eapply S_Peg.seq_ok; [apply R|]. eapply S_Peg.seq_ok; [eapply peg_rep_ok; [exact R2|simpl; lia]|constructor]. }
      rewrite app_nil_r in PI.
      assert (Tt : toks (chain_toks (k, f1) (lx ++ lx2)) (l1 ++ asts ++ asts2)).
      { pose proof (toks_chain k f1 lx l1 asts K K3) as K5. unfold chain_toks in *. rewrite flat_map_app, !app_assoc. apply Forall2_app; auto. }
      assert (Et : chain_tree (k, f1) (lx ++ lx2) = ptree None (negs k f1) (trees lx ++ trees lx2)) by (unfold chain_tree; rewrite map_app; reflexivity).
      destruct (prodH (fresh w cur) _ _ _ Tt) as [(a & Pp & D)|[Pp B]]; rewrite Et in *.
      * left. exists c4, a. split; [eapply peg_trans_ok; eauto|auto].
      * right. exists c4. split; [eapply peg_trans_bad; eauto|auto].
    + right. exists c4. split.
      { apply peg_trans_err. constructor. eapply seq_err_later; [exact Q|]. eapply seq_err_later; [apply R|]. apply seq_err. apply peg_rep_err. exact R2. }
      apply spreads_tree; auto. right. right. apply Exists_app. auto.
  - right. exists c3. split.
    { apply peg_trans_err. constructor. eapply seq_err_later; [exact Q|]. apply seq_err. apply R. }
    apply spreads_tree; auto. right. left. apply bad_negs. auto.
Qed.

(** ** The whole program *)
Lemma start_peg cur : sp_pos cur = 0%nat -> exists cur', peg w EStart cur (RSucc cur' []) /\ sp_pos cur' = 0%nat.
Proof.
  intros E. pose proof (peg_leaf w ":base:Start" (lift start_fn) 0 cur) as P. unfold lift, start_fn in P. cbv zeta in P.
  repeat match type of P with context [c_pos ?c] => change (c_pos c) with (sp_pos cur) in P end. rewrite E in P. cbn [Nat.eqb] in P.
  eexists. split; [exact (P _ _ eq_refl)|]. simpl. auto.
Qed.
Theorem program_complete s f cur : w_str w = s -> Forall is_byte s -> sp_pos cur = 0%nat -> formula s f -> lt64 f ->
  (exists cur' a, peg w (program prod) cur (RSucc cur' [a]) /\ denotes a f) \/ (exists cur', peg w (program prod) cur (RErr cur' stop) /\ bad f).
Proof.
  intros Es Hb Hc (b & t & E & G & T) Lf. destruct (start_peg cur Hc) as (c1 & P1 & Hc1).
  assert (A1 : at_rest w c1 (b ++ t)). { split; [split; [rewrite Es; auto|rewrite Hc1; lia]|]. unfold rest_of. rewrite Hc1, Es. auto. }
  assert (Sv : solid t).
  { destruct (expr_chain t f T) as (t0 & f0 & u & l & -> & F & _). eapply factor_solid; eauto. }
  destruct (sp_0_peg w c1 b t G Sv A1) as (c2 & P2 & A2). rewrite <- (app_nil_r t) in A2.
  destruct (expr_complete (S (length t)) t f [] c2 ltac:(lia) T Lf (or_introl eq_refl) A2) as [(c3 & a & P3 & A3 & D)|(c3 & P3 & B)].
  - destruct (end_yes w c3 A3) as (c4 & P4 & _). left. exists c4, a. split; auto. change [a] with ([] ++ [] ++ [a] ++ [] ++ []). constructor.
    eapply S_Peg.seq_ok; [exact P1|]. eapply S_Peg.seq_ok; [exact P2|]. eapply S_Peg.seq_ok; [exact P3|]. eapply S_Peg.seq_ok; [exact P4|constructor].
  - right. exists c3. split; auto. constructor. eapply seq_err_later; [exact P1|]. eapply seq_err_later; [exact P2|]. apply seq_err. exact P3.
Qed.
Theorem program_total s cur : w_str w = s -> Forall is_byte s -> sp_pos cur = 0%nat ->
  (exists cur' a f, peg w (program prod) cur (RSucc cur' [a]) /\ formula s f /\ le64 f /\ denotes a f) \/
  (peg w (program prod) cur RFail /\ exists t r f, s = t ++ r /\ formula t f /\ r <> [] /\ ~ op_start r) \/
  (exists cur' e, peg w (program prod) cur (RErr cur' e) /\ fine e cur' s).
Proof.
  intros Es Hb Hc. destruct (start_peg cur Hc) as (c1 & P1 & Hc1).
  assert (A1 : at_rest w c1 s). { split; [split; [rewrite Es; auto|rewrite Hc1; lia]|]. unfold rest_of. rewrite Hc1, Es. auto. }
  destruct (gap_total s) as (b & v & -> & G & Sv). destruct (sp_0_peg w c1 b v G Sv A1) as (c2 & P2 & A2).
  assert (Op : opens c2).
  { exists [], b. rewrite (before_step _ _ _ _ A1 A2). unfold before. rewrite Hc1. cbn [firstn app]. auto. }
  destruct (expr_total (S (length v)) v ltac:(lia) c2 A2 Sv Op) as [(t & r & f & a & c3 & -> & P3 & A3 & T & L & D & No)|(c3 & e & P3 & Fe)].
  - destruct r as [|x r].
    + left. destruct (end_yes w c3 A3) as (c4 & P4 & _). exists c4, a, f. split; [|split; [exists b, t; rewrite app_nil_r; auto|auto]].
      change [a] with ([] ++ [] ++ [a] ++ [] ++ []). constructor.
      eapply S_Peg.seq_ok; [exact P1|]. eapply S_Peg.seq_ok; [exact P2|]. eapply S_Peg.seq_ok; [exact P3|]. eapply S_Peg.seq_ok; [exact P4|constructor].
    + right. left. split; [|exists (b ++ t), (x :: r), f; split; [apply app_assoc|]; split; [exists b, t; auto|]; split; [discriminate|auto]].
      constructor. eapply seq_fail_later; [exact P1|]. eapply seq_fail_later; [exact P2|]. eapply seq_fail_later; [exact P3|]. apply seq_fail. eapply end_no; [exact A3|discriminate].
  - right. right. exists c3, e. split; [|apply fine_after; auto]. constructor. eapply seq_err_later; [exact P1|]. eapply seq_err_later; [exact P2|]. apply seq_err. exact P3.
Qed.
End Text.
