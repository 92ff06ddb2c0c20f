(** The formula grammar reads every text as specified in S_FormulaRead (C62). *)
From Verif Require Export L_Formula L_Torpn L_ErrText S_FormulaRead.

(** ** Tokens *)
Lemma whole_solid s b q : whole_gap s b q -> solid q. Proof. intros (_ & _ & H). exact H. Qed.
Lemma whole_total s : exists b q, whole_gap s b q.
Proof. destruct (gap_total s) as (b & v & E & G & S'). exists b, v. split; auto. Qed.
Lemma whole_func s b q b' q' : whole_gap s b q -> whole_gap s b' q' -> b = b' /\ q = q'.
Proof. intros (E & G & S') (E' & G' & S2). apply gap_func; auto. congruence. Qed.
Lemma whole_length s b q : whole_gap s b q -> (length q <= length s)%nat.
Proof. intros (-> & _). rewrite app_length. lia. Qed.
Lemma number_atT s w b v : Forall is_byte s -> numberT s w b v -> number_at s w v.
Proof.
  intros Hb (E & W & G & S' & N). exists (b ++ v), b. split; auto. split; [split; auto|]. split; auto. apply word_next_byte; auto.
  rewrite E in Hb. apply Forall_app in Hb. tauto.
Qed.
Lemma number_at_T s w q : Forall is_byte s -> number_at s w q -> exists b, numberT s w b q.
Proof.
  intros Hb (t & b & E & (-> & G & S') & W & N). exists b. split; auto. split; auto. split; auto. split; auto. apply word_next_byte; auto.
  rewrite E in Hb. apply Forall_app in Hb. tauto.
Qed.
Lemma number_at_func s w q w' q' : Forall is_byte s -> number_at s w q -> number_at s w' q' -> w = w' /\ q = q'.
Proof.
  intros Hb H H'. destruct (number_at_T s w q Hb H) as (b & T), (number_at_T s w' q' Hb H') as (b' & T').
  destruct (numberT_func _ _ _ _ _ _ _ T T') as (-> & _ & ->). auto.
Qed.
Lemma number_at_starts s w q : number_at s w q -> starts_number s.
Proof. intros (t & b & E & _ & W & N). exists w, t. auto. Qed.
Lemma starts_number_at s : starts_number s -> exists w q, number_at s w q.
Proof. intros (w & t & E & W & N). destruct (whole_total t) as (b & q & H). exists w, q, t, b. auto. Qed.
Lemma number_at_length s w q : number_at s w q -> (length q < length s)%nat.
Proof.
  intros (t & b & -> & H & W & _). apply whole_length in H. destruct (int_word_head w W) as (x & u & -> & _). rewrite app_length. simpl. lia.
Qed.
Lemma number_at_head s w q : number_at s w q -> exists x t, s = x :: t /\ (x = 43 \/ x = 45 \/ dec_digit x).
Proof. intros (t & b & -> & _ & W & _). destruct (int_word_head w W) as (x & u & -> & H). exists x, (u ++ t). auto. Qed.
Lemma number_at_suffix s w q : number_at s w q -> exists p, s = p ++ q.
Proof. intros (t & b & -> & (-> & _) & _). exists (w ++ b). rewrite <- app_assoc. auto. Qed.
Lemma signs_length s k q : signs s k q -> (length q <= length s)%nat.
Proof. induction 1 as [|t b u k q H _ IH]; auto. apply whole_length in H. simpl. lia. Qed.
Lemma signs_func s k q : signs s k q -> forall k' q', signs s k' q' -> k = k' /\ q = q'.
Proof.
  induction 1 as [s N|t b u k q H _ IH]; intros k' q' K; inversion K; subst; auto.
  - exfalso. apply N. eexists. reflexivity.
  - exfalso. match goal with N : ~ begins _ _ |- _ => apply N end. eexists. reflexivity.
  - match goal with H' : whole_gap t ?b' ?u', X : signs ?u' _ _ |- _ => destruct (whole_func _ _ _ _ _ H H') as [<- <-]; destruct (IH _ _ X); subst; auto end.
Qed.
Lemma signs_no_minus s k q : signs s k q -> ~ begins [45] q.
Proof. induction 1; auto. Qed.
Lemma signs_T m k v : minusT m k -> ~ begins [45] v -> solid v -> signs (m ++ v) k v.
Proof.
  induction 1 as [|b m k G M IH]; intros N S'; [constructor; auto|]. specialize (IH N S').
  change (([45] ++ b ++ m) ++ v) with (45 :: (b ++ m) ++ v). eapply si_more; [|exact IH]. split; [symmetry; apply app_assoc|]. split; auto. eapply minus_solid; eauto.
Qed.
Lemma negated_negs k f : negated k f = negs k f.
Proof. induction k; simpl; [reflexivity|]. rewrite IHk. reflexivity. Qed.

(** ** Precedence *)
Lemma products_fold f l t : products f l t -> all_mul l /\ t = mfold f l.
Proof.
  induction 1 as [|l t o g Ho H [M ->]]; [split; [constructor|reflexivity]|]. split.
  - apply Forall_app. split; auto. constructor; [apply mul_iff; exact Ho|constructor].
  - symmetry. apply mfold_app.
Qed.
Lemma sums_tree f l t : sums f l t -> t = ptree None f l.
Proof.
  induction 1 as [l t H|l t o g m u Ho H -> Hp].
  - apply products_fold in H. destruct H as [M ->]. rewrite ptree_mul; auto.
  - apply products_fold in Hp. destruct Hp as [M ->]. rewrite ptree_app by (apply add_iff; auto). rewrite (ptree_mul m M). reflexivity.
Qed.
Lemma sums_total f l : exists t, sums f l t.
Proof.
  induction l as [|[o g] l [t H]] using rev_ind; [exists f; constructor; constructor|].
  destruct (is_mul o) eqn:Eo.
  - apply mul_iff in Eo. inversion H as [? ? P|l1 t1 o1 g1 m u Ho H1 P]; subst.
    + eexists. apply su_one. apply pr_more; eauto.
    + eexists. rewrite <- app_assoc. cbn [app]. apply su_more; eauto. apply pr_more; eauto.
  - apply add_iff in Eo. eexists. apply su_more; eauto. constructor.
Qed.
Lemma tree_sums f l : sums f l (ptree None f l).
Proof. destruct (sums_total f l) as [t H]. rewrite <- (sums_tree f l t H). exact H. Qed.
Lemma sums_det f l t t' : sums f l t -> sums f l t' -> t = t'.
Proof. intros H H'. rewrite (sums_tree _ _ _ H), (sums_tree _ _ _ H'). reflexivity. Qed.

(** ** At most one reading *)
Lemma byte_tail p s : Forall is_byte (p ++ s) -> Forall is_byte s. Proof. intros H. apply Forall_app in H. tauto. Qed.
Lemma whole_bytes s b q : Forall is_byte s -> whole_gap s b q -> Forall is_byte q.
Proof. intros H (-> & _). eapply byte_tail; eauto. Qed.
Lemma number_bytes s w q : Forall is_byte s -> number_at s w q -> Forall is_byte q.
Proof. intros H N. destruct (number_at_suffix _ _ _ N) as (p & ->). eapply byte_tail; eauto. Qed.
Lemma signs_bytes s k q : signs s k q -> Forall is_byte s -> Forall is_byte q.
Proof. induction 1 as [|t b u k q H _ IH]; intros F; auto. inversion F; subst. apply IH. eapply whole_bytes; eauto. Qed.
Lemma operand_bytes num u k v : operand_at num u k v -> Forall is_byte u -> Forall is_byte v.
Proof. intros [|]; auto. eapply signs_bytes; eauto. Qed.
Lemma operand_length num u k v : operand_at num u k v -> (length v <= length u)%nat.
Proof. intros [|? ? ? ? _ H]; auto. eapply signs_length; eauto. Qed.
Lemma operand_func num u k v k' v' : operand_at num u k v -> operand_at num u k' v' -> k = k' /\ v = v'.
Proof.
  intros H H'. inversion H; subst; inversion H'; subst; auto.
  - exfalso. match goal with N : true = true -> ~ _ |- _ => apply (N eq_refl) end. auto.
  - exfalso. match goal with N : true = true -> ~ _ |- _ => apply (N eq_refl) end. auto.
  - eapply signs_func; eauto.
Qed.
Lemma closing_func t r a b : closing t r a -> closing t r b -> a = b.
Proof.
  intros H K; inversion H; subst; inversion K; subst; auto; try (simpl in *; contradiction).
  - match goal with A : whole_gap ?v _ _, B : whole_gap ?v _ _ |- _ => destruct (whole_func _ _ _ _ _ A B) as [_ ->] end. auto.
  - exfalso. match goal with N : ~ begins _ _ |- _ => apply N end. eexists. reflexivity.
  - exfalso. match goal with N : ~ begins _ _ |- _ => apply N end. eexists. reflexivity.
Qed.
Lemma combined_func stops f r a b : combined stops f r a -> combined stops f r b -> a = b.
Proof.
  intros H K; inversion H; subst; inversion K; subst; auto; try (simpl in *; contradiction);
    match goal with A : sums f ?l _, B : sums f ?l _ |- _ => pose proof (sums_det _ _ _ _ A B); subst; try contradiction; auto end.
Qed.
Lemma signs_suffix s k q : signs s k q -> exists p, s = p ++ q.
Proof.
  induction 1 as [s|t b u k q (-> & _) _ (p & ->)]; [exists []; auto|]. exists (45 :: b ++ p). cbn [app]. rewrite <- app_assoc. auto.
Qed.
Lemma operand_suffix num u k v : operand_at num u k v -> exists p, u = p ++ v.
Proof. intros [|? ? ? ? _ H]; [exists []; auto|eapply signs_suffix; eauto]. Qed.
Section Det.
Variable stops : arith -> Prop.
Notation primary_at := (primary_at stops). Notation expression_at := (expression_at stops). Notation others_at := (others_at stops).
(** What is left is the end of what was there. *)
Definition leaves {A : Type} (s : bytes) (r : part A) : Prop := match r with Got _ q => exists p, s = p ++ q | Bad _ q => exists p, s = p ++ q | Zero => True end.
Lemma leaves_after {A} p s (r : part A) : leaves s r -> leaves (p ++ s) r.
Proof. destruct r; simpl; auto; intros (p1 & ->); exists (p ++ p1); rewrite <- app_assoc; auto. Qed.
Lemma all_leave :
  (forall s num r, primary_at s num r -> leaves s r) /\ (forall s r, expression_at s r -> leaves s r) /\ (forall num s r, others_at num s r -> leaves s r).
Proof.
  assert (W : forall A t b u (r : part A), whole_gap t b u -> leaves u r -> leaves t r) by (intros A t b u r (-> & _) H; apply leaves_after; auto).
  assert (G : forall A s k u (r : part A), signs s k u -> leaves u r -> leaves s r) by (intros A s k u r H K; destruct (signs_suffix _ _ _ H) as (p & ->); apply leaves_after; auto).
  assert (O' : forall A num s k u (r : part A), operand_at num s k u -> leaves u r -> leaves s r) by (intros A num s k u r H K; destruct (operand_suffix _ _ _ _ H) as (p & ->); apply leaves_after; auto).
  assert (C : forall A x t (r : part A), leaves t r -> leaves (x :: t) r) by (intros A x t r H; apply (leaves_after [x]); auto).
  assert (I : forall A B s (r : part A), leaves s r -> leaves s (@instead A B r)) by (intros A B s [| |] H; simpl in *; auto).
  assert (L : forall t u b r r', whole_gap t b u -> leaves u r -> closing t r r' -> leaves (40 :: t) r').
  { intros t u b r r' Hw H K. apply C. inversion K as [f v b1 q Hv|f q N|r1 F]; subst.
    - apply (W _ t b u _ Hw). destruct H as (p & ->), Hv as (-> & _). exists (p ++ 41 :: b1). rewrite <- app_assoc. auto.
    - exists []. auto.
    - eapply W; eauto. }
  apply (reading_mut stops (fun s _ r => leaves s r) (fun s r => leaves s r) (fun _ s r => leaves s r)).
  - intros s w q z N _ _. eapply number_at_suffix; eauto.
  - intros s w q z N _ _. eapply number_at_suffix; eauto.
  - intros t b u r r' Hw _ H K. eapply L; eauto.
  - intros s k u H _. apply (G _ s k u); auto. exists []. auto.
  - intros s k u num r H _ K _. eapply G; eauto.
  - intros s k u num f q r r' H _ (p & ->) _ K Cb. apply (G _ s k _ _ H). apply leaves_after. inversion Cb; subst; auto. simpl; auto.
  - intros num s _. exists []. auto.
  - intros num o t b u k v Hw _ _. apply C. eapply W; eauto. exists []. auto.
  - intros num o t b u k v m r Hw Ho _ H _. apply C. eapply W; eauto. 
  - intros num o t b u k v m f q r Hw Ho _ (p & ->) _ H. apply C. apply (W _ t b u _ Hw). apply (O' _ num u k _ _ Ho). apply leaves_after. destruct r; auto.
Qed.
Lemma primary_length s num f q : primary_at s num (Got f q) -> (length q < length s)%nat.
Proof.
  intros H. inversion H as [? ? ? ? N|? ? ? ? N|t b u r r' Hw He Hc]; subst; [eapply number_at_length; eauto|].
  apply whole_length in Hw. inversion Hc as [f1 v b1 q1 Hv|f1 q1 N|r1 F]; subst; [|contradiction].
  apply (proj1 (proj2 all_leave)) in He. destruct He as (p & ->). apply whole_length in Hv. simpl. rewrite app_length in Hw. simpl in Hw. lia.
Qed.
Lemma primary_bytes s num f q : primary_at s num (Got f q) -> Forall is_byte s -> Forall is_byte q.
Proof. intros H F. apply (proj1 all_leave) in H. destruct H as (p & ->). eapply byte_tail; eauto. Qed.
Lemma primary_some s num r : primary_at s num r -> ~ no_operand s.
Proof. intros H [N1 N2]. inversion H; subst; [apply N2; eapply number_at_starts; eauto|apply N2; eapply number_at_starts; eauto|apply N1; eexists; reflexivity]. Qed.
Lemma no_paren_number t w q : ~ number_at (40 :: t) w q.
Proof. intros H. destruct (number_at_head _ _ _ H) as (x & u & E & Hx). inversion E; subst. unfold dec_digit in Hx. lia. Qed.
Definition one_primary (s : bytes) : Prop := Forall is_byte s -> forall num r num' r', primary_at s num r -> primary_at s num' r' -> num = num' /\ r = r'.
Definition one_expression (s : bytes) : Prop := Forall is_byte s -> forall r r', expression_at s r -> expression_at s r' -> r = r'.
Definition one_others (s : bytes) : Prop := Forall is_byte s -> forall num r r', others_at num s r -> others_at num s r' -> r = r'.
Lemma instead_not {A B} (r : part A) (x : part B) : failed r -> instead r = x -> failed x. Proof. intros F <-. destruct r; simpl in *; auto. Qed.
Lemma one_primary_step s : (forall u, (length u < length s)%nat -> one_expression u) -> one_primary s.
Proof.
  intros IH Hb num r num' r' H K.
  inversion H as [s1 w q z N Z I|s1 w q z N Z I|t b u r1 r2 Hw He Hc]; subst; inversion K as [s2 w' q' z' N' Z' I'|s2 w' q' z' N' Z' I'|t' b' u' r1' r2' Hw' He' Hc']; subst;
    try (exfalso; eapply no_paren_number; eassumption);
    try (destruct (number_at_func _ _ _ _ _ Hb N N') as [<- <-]; pose proof (int_numeral_func _ _ _ Z Z'); subst; try contradiction; auto).
  destruct (whole_func _ _ _ _ _ Hw Hw') as [<- <-]. pose proof (whole_length _ _ _ Hw) as L. inversion Hb; subst.
  pose proof (IH u ltac:(simpl; lia) (whole_bytes _ _ _ ltac:(eassumption) Hw) _ _ He He'). subst. split; auto. eapply closing_func; eauto.
Qed.
Lemma one_others_step s : (forall u, (length u < length s)%nat -> one_primary u /\ one_others u) -> one_others s.
Proof.
  intros IH Hb num r r' H K.
  inversion H as [n1 s1 E|n1 o t b u k v Hw Ho Hn|n1 o t b u k v m r1 Hw Ho Hp Hf|n1 o t b u k v m f q r1 Hw Ho Hp Hr]; subst; clear H;
  (inversion K as [n2 s2 E'|n2 o' t' b' u' k' v' Hw' Ho' Hn'|n2 o' t' b' u' k' v' m' r1' Hw' Ho' Hp' Hf'|n2 o' t' b' u' k' v' m' f' q' r1' Hw' Ho' Hp' Hr']; subst; clear K);
    try reflexivity; try (exfalso; first [eapply E|eapply E']; eexists; reflexivity);
    destruct (whole_func _ _ _ _ _ Hw Hw') as [<- <-]; destruct (operand_func _ _ _ _ _ _ Ho Ho') as [<- <-];
    try match goal with X : op_byte _ = op_byte _ |- _ => apply op_byte_inj in X; subst end; auto;
    try (exfalso; eapply primary_some; eassumption);
    pose proof (whole_length _ _ _ Hw) as L1; pose proof (operand_length _ _ _ _ Ho) as L2; inversion Hb as [|? ? _ Hb1]; subst;
    pose proof (operand_bytes _ _ _ _ Ho (whole_bytes _ _ _ Hb1 Hw)) as Bv;
    destruct (proj1 (IH v ltac:(simpl; lia)) Bv _ _ _ _ Hp Hp') as [<- Er]; subst; auto; try (simpl in *; contradiction).
  injection Er as <- <-. pose proof (primary_length _ _ _ _ Hp) as L3.
  rewrite (proj2 (IH q ltac:(simpl; lia)) (primary_bytes _ _ _ _ Hp Bv) _ _ _ Hr Hr'). reflexivity.
Qed.
Lemma one_expression_step s : (forall u, (length u <= length s)%nat -> one_primary u /\ one_others u) -> one_expression s.
Proof.
  intros IH Hb r r' H K.
  inversion H as [s1 k u Hs Hn|s1 k u num r1 Hs Hp Hf|s1 k u num f q r1 r2 Hs Hp Ho Hc]; subst; clear H;
  (inversion K as [s2 k' u' Hs' Hn'|s2 k' u' num' r1' Hs' Hp' Hf'|s2 k' u' num' f' q' r1' r2' Hs' Hp' Ho' Hc']; subst; clear K);
    destruct (signs_func _ _ _ Hs _ _ Hs') as [<- <-]; auto; try (exfalso; eapply primary_some; eassumption);
    pose proof (signs_length _ _ _ Hs) as L1; pose proof (signs_bytes _ _ _ Hs Hb) as Bu;
    destruct (proj1 (IH u ltac:(lia)) Bu _ _ _ _ Hp Hp') as [<- Er]; subst; auto; try (simpl in *; contradiction).
  injection Er as <- <-. pose proof (primary_length _ _ _ _ Hp) as L3.
  pose proof (proj2 (IH q ltac:(simpl; lia)) (primary_bytes _ _ _ _ Hp Bu) _ _ _ Ho Ho'). subst. eapply combined_func; eauto.
Qed.
Lemma one_all n : forall s, (length s < n)%nat -> one_primary s /\ one_others s /\ one_expression s.
Proof.
  induction n as [|n IH]; intros s L; [lia|].
  assert (P : forall u, (length u <= length s)%nat -> one_primary u).
  { intros u Lu. apply one_primary_step. intros v Lv. apply (IH v ltac:(lia)). }
  assert (Q : forall u, (length u <= length s)%nat -> one_others u).
  { intros u Lu. apply one_others_step. intros v Lv. split; [apply P; lia|apply (IH v ltac:(lia))]. }
  split; [apply P; auto|]. split; [apply Q; auto|]. apply one_expression_step. intros u Lu. split; auto.
Qed.
Lemma expression_func s r r' : Forall is_byte s -> expression_at s r -> expression_at s r' -> r = r'.
Proof. intros Hb. apply (proj2 (proj2 (one_all (Datatypes.S (length s)) s ltac:(lia)))). auto. Qed.
End Det.

(** ** The parser gives a reading *)
Definition after_list {A : Type} (l : list A) (r : part (list A)) : part (list A) :=
  match r with Got m q => Got (l ++ m) q | Bad e q => Bad e q | Zero => Zero end.
Section Read.
Variables (denotes : ast -> arith -> Prop) (stops : arith -> Prop) (stop : gerr) (prod : trans) (w : world).
Hypothesis prodH : prod_ok denotes stops stop prod.
Hypothesis numH : forall z, int64 z -> denotes (num z) (FLit z).
Hypothesis goesH : forall a f, denotes a f -> ~ stops f.
Hypothesis envH : w_env w = grouped_env prod.
Notation istk := (istk denotes).
Notation toks := (toks denotes).
Notation primary_at := (primary_at stops). Notation expression_at := (expression_at stops). Notation others_at := (others_at stops).

Lemma rest_bytes cur s : at_rest w cur s -> Forall is_byte s.
Proof. intros [[B _] <-]. unfold rest_of. apply Forall_skipn'. exact B. Qed.
Lemma number_gives cur s : at_rest w cur s ->
  (peg w number cur RFail /\ ~ starts_number s) \/
  (exists z q cur', peg w number cur (RSucc cur' [num z]) /\ at_rest w cur' q /\ primary_at s true (Got (FLit z) q) /\ solid q) \/
  (exists e q cur', peg w number cur (RErr cur' e) /\ at_rest w cur' q /\ primary_at s true (Bad e q)).
Proof.
  intros A. pose proof (rest_bytes _ _ A) as Hb.
  destruct (number_total w cur s A) as [[P N]|(wd & b & v & z & T & N & [[I (cur' & P & A')]|[I (cur' & P & A')]])].
  - left. split; auto. eapply not_number; eauto.
  - right. left. exists z, v, cur'. split; auto. split; auto. split; [eapply pm_number; eauto; eapply number_atT; eauto|apply T].
  - right. right. eexists _, v, cur'. split; [exact P|]. split; auto. eapply pm_range; eauto. eapply number_atT; eauto.
Qed.
(** A chain of numbers is left only where it ends. *)
Definition no_more (s : bytes) : Prop := forall o t b u, s = op_byte o :: t -> whole_gap t b u -> ~ starts_number u.
Lemma inner_gives n : forall s cur k, (length s <= n)%nat -> at_rest w cur s -> solid s ->
  (exists v lx asts cur' j, pegr w zm [binaryOperator; number] k cur (inr (cur', asts, j)) /\ at_rest w cur' v /\ solid v /\ (length v <= length s)%nat /\
     toks (tail_toks lx) asts /\ no_more v /\ forall r, others_at true v r -> others_at true s (after_list (trees lx) r)) \/
  (exists e q cur', pegr w zm [binaryOperator; number] k cur (inl (cur', e)) /\ at_rest w cur' q /\ others_at true s (Bad e q)).
Proof.
  induction n as [|n IH]; intros s cur k L A Ss.
  { destruct s; [|simpl in L; lia]. left. exists [], [], [], cur, k. split; [|split; [auto|split; [auto|split; [auto|split; [constructor|split]]]]].
    - apply rep_stop; [simpl; lia|]. apply seq_fail. eapply bin_no; [|eauto]. intros (o & t & E). discriminate.
    - intros o t b u E. discriminate.
    - intros [| |]; auto. }
  assert (Stop : pegs w [binaryOperator; number] cur RFail -> no_more s -> exists v lx asts cur' j, pegr w zm [binaryOperator; number] k cur (inr (cur', asts, j)) /\ at_rest w cur' v /\ solid v /\ (length v <= length s)%nat /\
     toks (tail_toks lx) asts /\ no_more v /\ forall r, others_at true v r -> others_at true s (after_list (trees lx) r)).
  { intros P N. exists s, [], [], cur, k. split; [apply rep_stop; [simpl; lia|auto]|]. split; auto. split; auto. split; auto. split; [constructor|]. split; auto. intros [| |]; auto. }
  destruct (op_start_dec s) as [(o & t & ->)|N].
  2:{ left. apply Stop; [apply seq_fail; eapply bin_no; eauto|]. intros o t b u -> _. exfalso. apply N. exists o, t. auto. }
  destruct (gap_total t) as (b & v & E & G & Sv). assert (Hw : whole_gap t b v) by (split; auto). subst t.
  destruct (bin_yes w cur o b v G Sv A) as (c1 & a & P & A1 & V1 & V2).
  destruct (number_gives c1 v A1) as [[Q N]|[(z & q & c2 & Q & A2 & D & Sq)|(e & q & c2 & Q & A2 & D)]].
  - left. apply Stop; [eapply seq_fail_later; [exact P|]; apply seq_fail; exact Q|].
    intros o' t' b' u' E Hw'. injection E as _ <-. destruct (whole_func _ _ _ _ _ Hw Hw') as [<- <-]. exact N.
  - assert (Q2 : pegs w [binaryOperator; number] cur (RSucc c2 ([a] ++ [num z] ++ []))) by (eapply S_Peg.seq_ok; [exact P|]; eapply S_Peg.seq_ok; [exact Q|constructor]).
    assert (Sn : starts_number v) by (inversion D; subst; eapply number_at_starts; eauto).
    assert (I : int64 z) by (inversion D; subst; auto).
    pose proof (primary_length _ _ _ _ _ D) as Lq. cbn [length] in L. rewrite app_length in L.
    assert (C : forall r, others_at true q r -> others_at true (op_byte o :: b ++ v) (before_all (o, FLit z) r)).
    { intros r Hr. apply (ot_more stops true o _ b v 0 v true (FLit z) q r); auto. constructor. auto. }
    destruct (IH q c2 (Datatypes.S k) ltac:(lia) A2 Sq) as [(v2 & lx & asts & c3 & j & R & A3 & Sv2 & L2 & T & Nm & H)|(e & q2 & c3 & R & A3 & H)].
    + left. exists v2, ((o, (0%nat, FLit z)) :: lx), (([a] ++ [num z] ++ []) ++ asts), c3, j.
      split; [eapply rep_more; [simpl; lia|exact Q2|exact R]|]. split; auto. split; auto. split; [cbn [length]; rewrite app_length; lia|].
      split; [|split; [auto|]].
      * unfold tail_toks. cbn [flat_map fst snd app]. constructor; [split; auto|]. constructor; [apply numH; auto|exact T].
      * intros r Hr. specialize (C _ (H r Hr)). destruct r; exact C.
    + right. exists e, q2, c3. split; [eapply rep_more_err; [simpl; lia|exact Q2|exact R]|]. split; auto. apply (C _ H).
  - right. exists e, q, c2. split; [apply rep_err; [simpl; lia|]; eapply seq_err_later; [exact P|]; apply seq_err; exact Q|]. split; auto.
    apply (ot_failed stops true o _ b v 0 v true (Bad e q)); auto; [|exact I]. constructor. inversion D; subst. eapply number_at_starts; eauto.
Qed.
(** What an expression parser gives at [s]. *)
Definition gives (s : bytes) : Prop := forall cur, at_rest w cur s -> solid s ->
  (exists f a q cur', peg w (expression prod) cur (RSucc cur' [a]) /\ at_rest w cur' q /\ denotes a f /\ expression_at s (Got f q)) \/
  (exists e q cur', peg w (expression prod) cur (RErr cur' e) /\ at_rest w cur' q /\ expression_at s (Bad e q)) \/
  (exists cur', peg w (expression prod) cur (RErr cur' stop) /\ expression_at s Zero).
Lemma grouped_gives s cur : at_rest w cur s -> (forall s', (length s' < length s)%nat -> gives s') ->
  (peg w (EIndirect 0) cur RFail /\ ~ begins [40] s) \/
  (exists f a q cur', peg w (EIndirect 0) cur (RSucc cur' [a]) /\ at_rest w cur' q /\ denotes a f /\ primary_at s false (Got f q) /\ solid q) \/
  (exists e q cur', peg w (EIndirect 0) cur (RErr cur' e) /\ at_rest w cur' q /\ primary_at s false (Bad e q)) \/
  (exists cur', peg w (EIndirect 0) cur (RErr cur' stop) /\ primary_at s false Zero).
Proof.
  intros A H. destruct (begins_dec [40] s) as [[t ->]|N].
  2:{ left. split; auto. apply peg_indirect. rewrite envH. constructor. apply seq_fail. eapply (paren_no 40); eauto. }
  right. destruct (paren_yes 40 w cur t A) as (c1 & P1 & A1). destruct (gap_total t) as (b & v & E & G & Sv). assert (Hw : whole_gap t b v) by (split; auto). subst t.
  destruct (sp_0_peg w c1 b v G Sv A1) as (c2 & P2 & A2).
  assert (Raise : forall c e, peg w (expression prod) c2 (RErr c e) -> peg w (EIndirect 0) cur (RErr c e)).
  { intros c e P3. apply peg_indirect. rewrite envH. constructor. eapply seq_err_later; [exact P1|]. apply seq_err. constructor. apply ch_err.
    constructor. eapply seq_err_later; [exact P2|]. apply seq_err. exact P3. }
  destruct (H v ltac:(cbn [app length]; rewrite app_length; lia) c2 A2 Sv) as [(f & a & q & c3 & P3 & A3 & D & X)|[(e & q & c3 & P3 & A3 & X)|(c3 & P3 & X)]].
  - destruct (begins_dec [41] q) as [[v2 ->]|N].
    + destruct (paren_yes 41 w c3 v2 A3) as (c4 & P4 & A4). destruct (gap_total v2) as (b' & v3 & -> & G' & Sv3).
      destruct (sp_0_peg w c4 b' v3 G' Sv3 A4) as (c5 & P5 & A5).
      left. exists f, a, v3, c5. split.
      { apply peg_indirect. rewrite envH. change [a] with ([] ++ ([] ++ [a] ++ [] ++ [] ++ []) ++ []). constructor.
        eapply S_Peg.seq_ok; [exact P1|]. eapply S_Peg.seq_ok; [|constructor]. constructor. apply ch_ok. constructor.
        eapply S_Peg.seq_ok; [exact P2|]. eapply S_Peg.seq_ok; [exact P3|]. eapply S_Peg.seq_ok; [exact P4|]. eapply S_Peg.seq_ok; [exact P5|constructor]. }
      split; auto. split; auto. split; auto. eapply pm_group; [exact Hw|exact X|]. apply (cl_done _ f (b' ++ v3) b'). split; auto.
    + right. left. destruct (error_peg w c1 "Error in grouped expression") as (c4 & P4 & Ec4). eexists _, (b ++ v), c4. split; [|split].
      * apply peg_indirect. rewrite envH. constructor. eapply seq_err_later; [exact P1|]. apply seq_err. constructor.
        apply ch_next; [|apply ch_err; exact P4]. constructor. eapply seq_fail_later; [exact P2|]. eapply seq_fail_later; [exact P3|]. apply seq_fail. eapply (paren_no 41); eauto.
      * eapply at_same; eauto.
      * eapply pm_group; [exact Hw|exact X|]. apply cl_open. auto.
  - right. left. exists e, q, c3. split; auto. split; auto. eapply pm_group; [exact Hw|exact X|]. apply cl_failed. exact I.
  - right. right. exists c3. split; auto. eapply pm_group; [exact Hw|exact X|]. apply cl_failed. exact I.
Qed.
(** A number with the numbers that follow it, or a parenthesis. *)
Lemma first_gives s cur : at_rest w cur s -> (forall s', (length s' < length s)%nat -> gives s') ->
  (peg w (EFirst [simpleExpression; EIndirect 0]) cur RFail /\ peg w simpleExpression cur RFail /\ peg w (EIndirect 0) cur RFail /\ no_operand s) \/
  (exists f q m v lx asts cur', (forall more, peg w (EFirst (simpleExpression :: EIndirect 0 :: more)) cur (RSucc cur' asts)) /\ at_rest w cur' v /\
     primary_at s m (Got f q) /\ toks (chain_toks (0%nat, f) lx) asts /\ (length v < length s)%nat /\ (m = true -> no_more v) /\
     forall r, others_at m v r -> others_at m q (after_list (trees lx) r)) \/
  (exists e q cur', (forall more, peg w (EFirst (simpleExpression :: EIndirect 0 :: more)) cur (RErr cur' e)) /\ at_rest w cur' q /\
     exists m, primary_at s m (Bad e q) \/ exists f q0, primary_at s m (Got f q0) /\ others_at m q0 (Bad e q)) \/
  (exists cur', (forall more, peg w (EFirst (simpleExpression :: EIndirect 0 :: more)) cur (RErr cur' stop)) /\ exists m, primary_at s m Zero).
Proof.
  intros A H. destruct (number_gives cur s A) as [[Q N]|[(z & q & c2 & Q & A2 & D & Sq)|(e & q & c2 & Q & A2 & D)]].
  - assert (P : peg w simpleExpression cur RFail) by (constructor; apply seq_fail; auto).
    destruct (grouped_gives s cur A H) as [[P2 Np2]|[(f & a & q & c1 & P2 & A1 & D & X & Sv)|[(e & q & c1 & P2 & A1 & X)|(c1 & P2 & X)]]].
    + left. split; [|split; [auto|split; [auto|split; auto]]]. constructor. apply ch_next; auto. apply ch_next; auto. constructor.
    + right. left. exists f, q, false, q, [], [a], c1. split; [intros more; constructor; apply ch_next; auto; apply ch_ok; auto|]. split; auto. split; auto.
      split; [repeat constructor; exact D|]. split; [eapply primary_length; eauto|]. split; [discriminate|]. intros [| |]; auto.
    + right. right. left. exists e, q, c1. split; [intros more; constructor; apply ch_next; auto; apply ch_err; auto|]. split; auto. exists false. auto.
    + right. right. right. exists c1. split; [intros more; constructor; apply ch_next; auto; apply ch_err; auto|]. exists false. auto.
  - pose proof (primary_length _ _ _ _ _ D) as Lq. assert (Iz : int64 z) by (inversion D; subst; auto).
    destruct (inner_gives _ q c2 0 (le_n _) A2 Sq) as [(v2 & lx & asts & c3 & j & R & A3 & Sv2 & L2 & T & Nm & K)|(e & q2 & c3 & R & A3 & K)].
    + right. left. exists (FLit z), q, true, v2, lx, ([num z] ++ asts ++ []), c3. split.
      { intros more. constructor. apply ch_ok. constructor. eapply S_Peg.seq_ok; [exact Q|]. eapply S_Peg.seq_ok; [eapply peg_rep_ok; [exact R|simpl; lia]|constructor]. }
      split; auto. split; auto. split; [rewrite app_nil_r; constructor; [apply numH; auto|exact T]|]. split; [lia|]. split; auto.
    + right. right. left. exists e, q2, c3. split.
      { intros more. constructor. apply ch_err. constructor. eapply seq_err_later; [exact Q|]. apply seq_err. apply peg_rep_err. exact R. }
      split; auto. exists true. right. exists (FLit z), q. auto.
  - right. right. left. exists e, q, c2. split; [intros more; constructor; apply ch_err; constructor; apply seq_err; auto|]. split; auto. exists true. auto.
Qed.
Lemma trees_app lx lx' : trees (lx ++ lx') = trees lx ++ trees lx'. Proof. apply map_app. Qed.
Lemma outer_gives n : forall m s cur k, (length s <= n)%nat -> at_rest w cur s -> (m = true -> no_more s) -> (forall s', (length s' < length s)%nat -> gives s') ->
  (exists q lx asts cur' j, pegr w zm outer k cur (inr (cur', asts, j)) /\ at_rest w cur' q /\ toks (tail_toks lx) asts /\ others_at m s (Got (trees lx) q)) \/
  (exists e q cur', pegr w zm outer k cur (inl (cur', e)) /\ at_rest w cur' q /\ others_at m s (Bad e q)) \/
  (exists cur', pegr w zm outer k cur (inl (cur', stop)) /\ others_at m s Zero).
Proof.
  induction n as [|n IH]; intros m s cur k L A Nm H; (destruct (op_start_dec s) as [(o & t & ->)|N];
    [|left; exists s, [], [], cur, k; split; [apply rep_stop; [simpl; lia|apply seq_fail; eapply bin_no; eauto]|]; split; [auto|split; [constructor|constructor; intros o [t E]; apply N; exists o, t; exact E]]]).
  { simpl in L. lia. }
  destruct (gap_total t) as (b & v & E & G & Sv). assert (Hw : whole_gap t b v) by (split; auto). subst t.
  destruct (bin_yes w cur o b v G Sv A) as (c1 & a & P & A1 & V1 & V2).
  destruct (minus_total _ v (le_n _) Sv) as (mm & kk & v1 & Ev & M & N & Sv1). pose proof (signs_T mm kk v1 M N Sv1) as Sg. rewrite <- Ev in Sg.
  assert (Oa : operand_at m v kk v1) by (apply oa_signs; auto; intros Em; eapply (Nm Em); eauto).
  rewrite Ev in A1. destruct (un_peg denotes e1 w e1_num mm kk v1 c1 M N Sv1 A1) as (c2 & l & P2 & A2 & K).
  cbn [length] in L, H. rewrite app_length in L, H. assert (Lv : (length v1 <= length v)%nat) by (rewrite Ev, app_length; lia).
  assert (Bad2 : forall c e, (forall more, peg w (EFirst (simpleExpression :: EIndirect 0 :: more)) c2 (RErr c e)) -> pegr w zm outer k cur (inl (c, e))).
  { intros c e Q. apply rep_err; [simpl; lia|]. eapply seq_err_later; [exact P|]. apply seq_err. constructor. apply ch_err. constructor. eapply seq_err_later; [exact P2|]. apply seq_err. apply Q. }
  destruct (first_gives v1 c2 A2 ltac:(intros; apply H; lia)) as [(Q & _ & _ & No)|[(f & q & m2 & v2 & lx & asts & c3 & Q & A3 & X & T & L3 & Nm2 & C)|[(e & q & c3 & Q & A3 & m2 & X)|(c3 & Q & m2 & X)]]].
  - right. left. destruct (error_peg w c1 "Error in the expression after the binary operator") as (c3 & P3 & Ec3). eexists _, v, c3. split; [|split].
    + apply rep_err; [simpl; lia|]. eapply seq_err_later; [exact P|]. apply seq_err. constructor.
      apply ch_next; [constructor; eapply seq_fail_later; [exact P2|apply seq_fail; exact Q]|]. apply ch_err. exact P3.
    + eapply at_same; [rewrite Ev; exact A1|auto].
    + eapply ot_none; eauto.
  - assert (Q2 : pegs w outer cur (RSucc c3 ([a] ++ (l ++ asts ++ []) ++ []))).
    { eapply S_Peg.seq_ok; [exact P|]. eapply S_Peg.seq_ok; [|constructor]. constructor. apply ch_ok. constructor. eapply S_Peg.seq_ok; [exact P2|]. eapply S_Peg.seq_ok; [apply Q|constructor]. }
    assert (C2 : forall r, others_at m2 v2 r -> others_at m (op_byte o :: b ++ v) (before_all (o, negated kk f) (after_list (trees lx) r))).
    { intros r Hr. eapply ot_more; eauto. }
    destruct (IH m2 v2 c3 (Datatypes.S k) ltac:(lia) A3 Nm2 ltac:(intros; apply H; lia)) as [(q2 & lx2 & asts2 & c4 & j & R & A4 & T2 & X2)|[(e & q2 & c4 & R & A4 & X2)|(c4 & R & X2)]].
    + left. exists q2, ((o, (kk, f)) :: lx ++ lx2), (([a] ++ (l ++ asts ++ []) ++ []) ++ asts2), c4, j. split; [eapply rep_more; [simpl; lia|exact Q2|exact R]|]. split; auto.
      split; [rewrite !app_nil_r; apply toks_tail; auto; [split; auto|apply toks_chain; auto]|].
      specialize (C2 _ X2). simpl in C2. rewrite negated_negs in C2. unfold trees in *. cbn [map fst snd]. rewrite map_app. exact C2.
    + right. left. exists e, q2, c4. split; [eapply rep_more_err; [simpl; lia|exact Q2|exact R]|]. split; auto. apply (C2 _ X2).
    + right. right. exists c4. split; [eapply rep_more_err; [simpl; lia|exact Q2|exact R]|]. apply (C2 _ X2).
  - right. left. exists e, q, c3. split; auto. split; auto. destruct X as [X|(f & q0 & X & Y)].
    + apply (ot_failed stops m o (b ++ v) b v kk v1 m2 (Bad e q)); auto. exact I.
    + apply (ot_more stops m o (b ++ v) b v kk v1 m2 f q0 (Bad e q)); auto.
  - right. right. exists c3. split; auto. apply (ot_failed stops m o (b ++ v) b v kk v1 m2 Zero); auto. exact I.
Qed.
Theorem expression_gives n : forall s, (length s < n)%nat -> gives s.
Proof.
  induction n as [|n IH]; intros s L cur A Ss; [lia|].
  assert (H : forall s', (length s' < length s)%nat -> gives s') by (intros; apply IH; lia).
  destruct (minus_total _ s (le_n _) Ss) as (m & k & v & Es & M & N & Sv). pose proof (signs_T m k v M N Sv) as Sg. rewrite <- Es in Sg. rewrite Es in A.
  destruct (un_peg denotes e1 w e1_num m k v cur M N Sv A) as (c1 & l & P & A1 & K). pose proof (signs_length _ _ _ Sg) as Lv.
  assert (Bad1 : forall c e, (forall more, peg w (EFirst (simpleExpression :: EIndirect 0 :: more)) c1 (RErr c e)) -> peg w (expression prod) cur (RErr c e)).
  { intros c e Q. apply peg_trans_err. constructor. eapply seq_err_later; [exact P|]. apply seq_err. apply Q. }
  destruct (first_gives v c1 A1 ltac:(intros; apply H; lia)) as [(Q & Q1 & Q2 & No)|[(f & q & m2 & v2 & lx & asts & c2 & Q & A2 & X & T & L3 & Nm2 & C)|[(e & q & c2 & Q & A2 & m2 & X)|(c2 & Q & m2 & X)]]].
  - right. left. destruct (error_peg w c1 "Value required") as (c2 & P2 & Ec2). eexists _, v, c2. split; [|split].
    + apply peg_trans_err. constructor. eapply seq_err_later; [exact P|]. apply seq_err. constructor. apply ch_next; auto. apply ch_next; auto. apply ch_err. exact P2.
    + eapply at_same; eauto.
    + eapply xp_none; eauto.
  - assert (Bad2 : forall c e, pegr w zm outer 0 c2 (inl (c, e)) -> peg w (expression prod) cur (RErr c e)).
    { intros c e R. apply peg_trans_err. constructor. eapply seq_err_later; [exact P|]. eapply seq_err_later; [apply Q|]. apply seq_err. apply peg_rep_err. exact R. }
    destruct (outer_gives _ m2 v2 c2 0 (le_n _) A2 Nm2 ltac:(intros; apply H; lia)) as [(q2 & lx2 & asts2 & c3 & j & R & A3 & T2 & X2)|[(e & q2 & c3 & R & A3 & X2)|(c3 & R & X2)]].
    + assert (PI : peg w expressionInner cur (RSucc c3 (l ++ asts ++ asts2 ++ []))).
      { constructor. eapply S_Peg.seq_ok; [exact P|]. eapply S_Peg.seq_ok; [apply Q|]. eapply S_Peg.seq_ok; [eapply peg_rep_ok; [exact R|simpl; lia]|constructor]. }
      rewrite app_nil_r in PI.
      assert (Tt : toks (chain_toks (k, f) (lx ++ lx2)) (l ++ asts ++ asts2)).
      { pose proof (toks_chain denotes k f lx l asts K T) as K5. unfold chain_toks in *. rewrite flat_map_app, !app_assoc. apply Forall2_app; auto. }
      specialize (C _ X2). cbn [after_list] in C. pose proof (tree_sums (negated k f) (trees lx ++ trees lx2)) as Su.
      assert (Et : chain_tree (k, f) (lx ++ lx2) = ptree None (negated k f) (trees lx ++ trees lx2)) by (rewrite negated_negs; unfold chain_tree, trees; rewrite map_app; reflexivity).
      destruct (prodH (fresh w cur) _ _ _ Tt) as [(a & Pp & D)|[Pp B]]; rewrite Et in *.
      * left. exists (ptree None (negated k f) (trees lx ++ trees lx2)), a, q2, c3. split; [eapply peg_trans_ok; eauto|]. split; auto. split; auto.
        eapply xp_chain; eauto. eapply cb_done; eauto.
      * right. right. exists c3. split; [eapply peg_trans_bad; eauto|]. eapply xp_chain; eauto. eapply cb_stop; eauto.
    + right. left. exists e, q2, c3. split; auto. split; auto. eapply xp_chain; [exact Sg|exact X|apply (C _ X2)|]. apply (cb_failed stops (negated k f) (Bad e q2)). exact I.
    + right. right. exists c3. split; auto. eapply xp_chain; [exact Sg|exact X|apply (C _ X2)|]. apply (cb_failed stops (negated k f) Zero). exact I.
  - right. left. exists e, q, c2. split; auto. split; auto. destruct X as [X|(f & q0 & X & Y)].
    + eapply xp_failed; eauto. exact I.
    + eapply xp_chain; [exact Sg|exact X|exact Y|]. apply (cb_failed stops (negated k f) (Bad e q)). exact I.
  - right. right. exists c2. split; auto. eapply xp_failed; eauto. exact I.
Qed.
(** The whole program. *)
Theorem program_gives s cur : w_str w = s -> Forall is_byte s -> sp_pos cur = 0%nat ->
  (exists b u f a cur', peg w (program prod) cur (RSucc cur' [a]) /\ denotes a f /\ whole_gap s b u /\ expression_at u (Got f [])) \/
  (exists b u f q, peg w (program prod) cur RFail /\ whole_gap s b u /\ expression_at u (Got f q) /\ q <> []) \/
  (exists b u e p q cur', peg w (program prod) cur (RErr cur' e) /\ sp_pos cur' = length p /\ whole_gap s b u /\ expression_at u (Bad e q) /\ s = p ++ q) \/
  (exists b u cur', peg w (program prod) cur (RErr cur' stop) /\ whole_gap s b u /\ expression_at u Zero).
Proof.
  intros Es Hb Hc. destruct (start_peg w cur Hc) as (c1 & P1 & Hc1).
  assert (A1 : at_rest w c1 s). { split; [split; [rewrite Es; auto|rewrite Hc1; lia]|]. unfold rest_of. rewrite Hc1, Es. auto. }
  destruct (gap_total s) as (b & v & E & G & Sv). assert (Hw : whole_gap s b v) by (split; auto). rewrite E in A1. destruct (sp_0_peg w c1 b v G Sv A1) as (c2 & P2 & A2).
  destruct (expression_gives (Datatypes.S (length v)) v ltac:(lia) c2 A2 Sv) as [(f & a & q & c3 & P3 & A3 & D & X)|[(e & q & c3 & P3 & A3 & X)|(c3 & P3 & X)]].
  - destruct q as [|x r].
    + left. destruct (end_yes w c3 A3) as (c4 & P4 & _). exists b, v, f, a, c4. split; auto.
      change [a] with ([] ++ [] ++ [a] ++ [] ++ []). constructor.
      eapply S_Peg.seq_ok; [exact P1|]. eapply S_Peg.seq_ok; [exact P2|]. eapply S_Peg.seq_ok; [exact P3|]. eapply S_Peg.seq_ok; [exact P4|constructor].
    + right. left. exists b, v, f, (x :: r). split; [|split; [auto|split; [auto|discriminate]]].
      constructor. eapply seq_fail_later; [exact P1|]. eapply seq_fail_later; [exact P2|]. eapply seq_fail_later; [exact P3|]. apply seq_fail. eapply end_no; [exact A3|discriminate].
  - right. right. left. exists b, v, e, (firstn (sp_pos c3) s), q, c3. split.
    { constructor. eapply seq_err_later; [exact P1|]. eapply seq_err_later; [exact P2|]. apply seq_err. exact P3. }
    destruct A3 as [[_ Lc] Er]. rewrite Es in Lc. split; [rewrite firstn_length; lia|]. split; auto. split; auto. unfold rest_of in Er. rewrite Es in Er. rewrite <- Er. symmetry. apply firstn_skipn.
  - right. right. right. exists b, v, c3. split; [|auto]. constructor. eapply seq_err_later; [exact P1|]. eapply seq_err_later; [exact P2|]. apply seq_err. exact P3.
Qed.
End Read.

(** ** At most one answer *)
Lemma reading_func {A : Type} stops (yields : arith -> A -> Prop) s a a' : (forall f x y, yields f x -> yields f y -> x = y) -> Forall is_byte s ->
  reading stops yields s a -> reading stops yields s a' -> a = a'.
Proof.
  intros Hy Hb H K.
  inversion H as [b u f x Hw X Y|b u f q Hw X N|b u e p q Hw X E|b u Hw X]; subst;
    (inversion K as [b' u' f' x' Hw' X' Y'|b' u' f' q' Hw' X' N'|b' u' e' p' q' Hw' X' E'|b' u' Hw' X']; subst);
    destruct (whole_func _ _ _ _ _ Hw Hw') as [<- <-]; pose proof (expression_func _ _ _ _ (whole_bytes _ _ _ Hb Hw) X X') as Er; try discriminate; auto;
    injection Er; intros; subst; try congruence.
  - f_equal. eapply Hy; eauto.
  - apply app_inv_tail in E'. subst. reflexivity.
Qed.
(** Every error of a reading has a text. *)
Definition texted (e : gerr) : Prop := (exists t, says (Some e) t) /\ forall w, e = ENum "ParseInt" w true -> Forall (fun b => 48 <= b < 58 \/ b = 43 \/ b = 45) w.
Lemma texted_text m : texted (EText m). Proof. split; [eexists; constructor|discriminate]. Qed.
Lemma errors_texted stops :
  (forall s num r, primary_at stops s num r -> forall e q, r = Bad e q -> texted e) /\ (forall s r, expression_at stops s r -> forall e q, r = Bad e q -> texted e) /\
  (forall num s r, others_at stops num s r -> forall e q, r = Bad e q -> texted e).
Proof.
  apply (reading_mut stops (fun _ _ r => forall e q, r = Bad e q -> texted e) (fun _ r => forall e q, r = Bad e q -> texted e) (fun _ _ r => forall e q, r = Bad e q -> texted e)); try discriminate.
  - intros s w q z N Z I e q' E. injection E as <- _. split; [eexists; constructor|]. intros w' E. injection E as <-. eapply numeral_chars; eauto.
  - intros t b u r r' Hw _ H K e q E. subst. inversion K; subst; [apply texted_text|eauto].
  - intros s k u _ _ e q E. injection E as <- _. apply texted_text.
  - intros s k u num r _ _ H _ e q E. eauto.
  - intros s k u num f q r r' _ _ _ _ H Cb e q' E. subst. inversion Cb as [| |r1 F E1 E2]; subst. destruct r as [| |]; try discriminate. simpl in E2. injection E2 as -> ->. eapply H. reflexivity.
  - intros num o t b u k v _ _ _ e q E. injection E as <- _. apply texted_text.
  - intros num o t b u k v m r _ _ _ H F e q E. destruct r; try discriminate; simpl in *. eapply H. injection E as -> ->. reflexivity.
  - intros num o t b u k v m f q r _ _ _ _ _ H e q' E. destruct r; try discriminate; simpl in *. eapply H. injection E as -> ->. reflexivity.
Qed.
Lemma failure_told {A : Type} stops (yields : arith -> A -> Prop) s x p q lc : reading stops yields s (Failure x p q) -> Z.of_nat (length s) < 10 ^ 19 ->
  GetLineAndColPosition s (length p) 4 = Ok lc -> exists t m, says x t /\ message x lc = Some m /\ told t p q m.
Proof.
  intros H L G. assert (E : s = p ++ q) by (inversion H; subst; auto).
  assert (T : exists t, says x t /\ forall w, x = Some (ENum "ParseInt" w true) -> Forall (fun b => 48 <= b < 58 \/ b = 43 \/ b = 45) w).
  { inversion H as [|b u f q' Hw X N|b u e p' q' Hw X E'|]; subst; [eexists; split; [constructor|discriminate]|].
    destruct (proj1 (proj2 (errors_texted stops)) _ _ X _ _ eq_refl) as [[t T] F]. exists t. split; auto. intros w K. injection K as ->. apply F. reflexivity. }
  destruct T as (t & T & F). subst s. destruct (message_told x lc p q t G L T F) as (m & M & K). exists t, m. auto.
Qed.

(** ** Parse *)
(** [parse] finally answers [a]; [crash] is its panic. *)
Definition finally_answers {A B : Type} (parse : nat -> bytes -> res (parse_error + B)) (wrap : A -> B) (crash : string) (s : bytes) (a : answer A) : Prop :=
  match a with
  | Value x => finally (fun n => parse n s) (Ok (inr (wrap x)))
  | Failure e p _ => exists lc, GetLineAndColPosition s (length p) 4 = Ok lc /\ finally (fun n => parse n s) (Ok (inl (mkPE e lc)))
  | Crash => finally (fun n => parse n s) (Panic crash)
  end.
Lemma formula_gives s : Forall is_byte s -> exists a, reading divides_by_zero evals s a /\ finally_answers formula_Parse (fun v => v) w0 s a.
Proof.
  intros Hb.
  assert (Gv : forall a f, valued a f -> ~ divides_by_zero f) by (intros a f (_ & z & _ & E) D; eapply evals_no_div; eauto).
  assert (Nv : forall z, int64 z -> valued (num z) (FLit z)) by (intros z _; split; [reflexivity|]; exists z; split; [reflexivity|constructor]).
  destruct (program_gives valued divides_by_zero e0 checked (f_world checked s) checked_ok Nv Gv eq_refl s sp0 eq_refl Hb eq_refl)
    as [(b & u & f & a & c & P & (_ & z & Vz & Ez) & Hw & X)|[(b & u & f & q & P & Hw & X & N)|[(b & u & e & p & q & c & P & Ep & Hw & X & Es)|(b & u & c & P & Hw & X)]]].
  - exists (Value z). split; [eapply rd_value; eauto|]. apply finally_ok; [|discriminate]. eapply parse_good; [exact checked_good|exact P|]. unfold int_answer. rewrite Vz. reflexivity.
  - exists (Failure None [] s). split; [eapply rd_more; eauto|]. destruct (parse_unmatched checked checked_good int_answer s P) as (lc & El & H). exists lc. split; auto. apply finally_ok; [exact H|discriminate].
  - exists (Failure (Some e) p q). split; [eapply rd_bad; eauto|]. destruct (parse_raised checked checked_good int_answer s c e P) as (lc & El & H). rewrite Ep in El. exists lc. split; auto.
    apply finally_ok; [exact H|]. intros lc' K. injection K as ->. destruct (proj1 (proj2 (errors_texted _)) _ _ X _ _ eq_refl) as [[t T] _]. inversion T.
  - exists Crash. split; [eapply rd_zero; eauto|]. destruct (parse_raised checked checked_good int_answer s c e0 P) as (lc & _ & H). eapply finally_panic. exact H.
Qed.
Lemma never_zero s : ~ expression_at (fun _ => False) s Zero.
Proof.
  assert (Z : (forall u num r, primary_at (fun _ => False) u num r -> r <> Zero) /\ (forall u r, expression_at (fun _ => False) u r -> r <> Zero) /\ (forall num u r, others_at (fun _ => False) num u r -> r <> Zero)).
  { apply (reading_mut (fun _ => False) (fun _ _ r => r <> Zero) (fun _ r => r <> Zero) (fun _ _ r => r <> Zero)); try discriminate; auto.
    - intros t b u r r' _ _ H K E. subst. inversion K; subst; auto.
    - intros s1 k u num f q r r' _ _ _ _ H Cb E. subst. inversion Cb; subst; [contradiction|]. destruct r; simpl in *; auto; try discriminate.
    - intros num o t b u k v m r _ _ _ H F E. destruct r; simpl in *; auto; try discriminate.
    - intros num o t b u k v m f q r _ _ _ _ _ H E. destruct r; simpl in *; auto; try discriminate. }
  intros X. apply (proj1 (proj2 Z) _ _ X eq_refl).
Qed.
Lemma torpn_gives s : Forall is_byte s -> exists a, reading (fun _ => False) postfix s a /\ finally_answers torpn_Parse inr EmptyString s a.
Proof.
  intros Hb.
  assert (Gv : forall a f, posted a f -> ~ never f) by (intros a f _ []).
  assert (Nv : forall z, int64 z -> posted (num z) (FLit z)) by (intros z _; left; split; [reflexivity|]; split; [reflexivity|]; exists z; split; [reflexivity|constructor]).
  destruct (program_gives posted never e1 torpn_prod (f_world torpn_prod s) torpn_ok Nv Gv eq_refl s sp0 eq_refl Hb eq_refl)
    as [(b & u & f & a & c & P & D & Hw & X)|[(b & u & f & q & P & Hw & X & N)|[(b & u & e & p & q & c & P & Ep & Hw & X & Es)|(b & u & c & P & Hw & X)]]].
  - destruct (posted_answer a f D) as (l & La & Pl). exists (Value l). split; [eapply rd_value; eauto|]. eapply parse_good; [exact torpn_good|exact P|exact La].
  - exists (Failure None [] s). split; [eapply rd_more; eauto|]. exact (parse_unmatched torpn_prod torpn_good rpn_answer s P).
  - exists (Failure (Some e) p q). split; [eapply rd_bad; eauto|]. simpl. rewrite <- Ep. exact (parse_raised torpn_prod torpn_good rpn_answer s c e P).
  - exfalso. eapply never_zero; eauto.
Qed.
