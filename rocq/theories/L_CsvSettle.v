(** Reading and writing CSV texts again and again (C81). *)
From Verif Require Export L_CsvBack.
From Verif Require P_CsvAny.

(** ** Breaks are characters *)
Definition brk (r : Z) : Prop := In r [44; 10; 11; 12; 13; 133].
Lemma brk_char w : break_char w -> exists r, brk r /\ utf8_char r w.
Proof.
  intros [->|[<-|[<-|[<-|[<-|[<-|[]]]]]]]; [exists 44|exists 10|exists 11|exists 12|exists 13|exists 133]; (split; [unfold brk; simpl; tauto|]); try (apply u_1; lia).
  apply (u_2 2 5); lia.
Qed.
Lemma char_brk r w : brk r -> utf8_char r w -> break_char w.
Proof.
  intros B H. rewrite <- (encode_char _ _ H). unfold brk in B. simpl in B. unfold break_char, line_break. simpl.
  repeat (destruct B as [<-|B]; [cbn; tauto|]). destruct B.
Qed.
Definition cont (b : Z) : Prop := 128 <= b < 192.
Lemma char_tail r b u : utf8_char r (b :: u) -> Forall cont u.
Proof. intros H. destruct (char_bytes _ _ H) as (b1 & t & E & F & _). injection E as _ ->. eapply Forall_impl; [|exact F]. unfold cont. simpl. lia. Qed.
Lemma brk_head w : break_char w -> exists x t, w = x :: t /\ ~ cont x.
Proof. unfold cont. intros [->|[<-|[<-|[<-|[<-|[<-|[]]]]]]]; do 2 eexists; (split; [reflexivity|lia]). Qed.
Lemma past_tail u : Forall cont u -> forall p x t s, ~ cont x -> p ++ x :: t = u ++ s -> exists q, p = u ++ q /\ s = q ++ x :: t.
Proof.
  induction 1 as [|b u Hb H IH]; intros p x t s Hx E; [exists p; auto|]. destruct p as [|y p]; cbn [app] in E; injection E as -> E; [contradiction|].
  destruct (IH p x t s Hx E) as (q & -> & ->). exists q. auto.
Qed.
Lemma has_break_app p s : has_break s -> has_break (p ++ s).
Proof. intros (q & t & -> & B). exists (p ++ q), t. rewrite app_assoc. auto. Qed.
Lemma chars_break c rs : chars c rs -> (has_break c <-> exists r, In r rs /\ brk r).
Proof.
  induction 1 as [|s r l rs N Hl H IH].
  - split; [|intros (r & [] & _)]. intros (p & t & E & w & Hw & u & ->). destruct (brk_head w Hw) as (x & y & -> & _). destruct p; discriminate.
  - split.
    + intros (p & t & E & w & Hw & u & ->). destruct (brk_char w Hw) as (r' & Hb & Hc'). destruct N as [|r cs s Hc|b s Hbad]; [lia| |].
      * destruct p as [|y p].
        { cbn [app] in E. destruct (char_inj _ _ _ _ _ _ Hc Hc' E) as (-> & _). exists r'. split; [left; reflexivity|exact Hb]. }
        destruct cs as [|b u']; [inversion Hc|]. cbn [app] in E. injection E as -> E. destruct (brk_head w Hw) as (x & v & -> & Hx).
        destruct (past_tail u' (char_tail _ _ _ Hc) p x (v ++ u) s Hx (eq_sym E)) as (q & -> & Es).
        rewrite skipn_app, skipn_all, Nat.sub_diag in IH. cbn [skipn app] in IH.
        destruct (proj1 IH) as (r2 & I2 & B2); [|exists r2; split; [right; exact I2|exact B2]]. exists q, ((x :: v) ++ u). split; [exact Es|]. exists (x :: v). split; [exact Hw|]. exists u. reflexivity.
      * destruct p as [|y p]; [exfalso; cbn [app] in E; exact (Hbad r' w u Hc' E)|]. cbn [app] in E. injection E as -> E. cbn [skipn] in IH.
        destruct (proj1 IH) as (r2 & I2 & B2); [|exists r2; split; [right; exact I2|exact B2]]. exists p, (w ++ u). split; [exact E|]. exists w. split; [exact Hw|]. exists u. reflexivity.
    + intros (r' & [<-|I'] & Hb).
      * destruct (next_valid s r l N Hl) as (cs & Hc & E & _); [unfold brk in Hb; simpl in Hb; lia|]. rewrite E. exists [], (cs ++ skipn l s). split; [reflexivity|].
        exists cs. split; [eapply char_brk; eauto|]. exists (skipn l s). reflexivity.
      * rewrite <- (firstn_skipn l s). apply has_break_app. apply IH. eauto.
Qed.
(** ** What came back is safe *)
Lemma spaces_nil : spaces []. Proof. exists []. split; constructor. Qed.
Lemma trimmed_twice x d : trimmed x d -> trimmed d d.
Proof. intros (p & q & _ & _ & _ & A & B). exists [], []. rewrite app_nil_r. split; [reflexivity|]. split; [apply spaces_nil|]. split; [apply spaces_nil|]. auto. Qed.
Lemma back_safe c d : Forall is_byte c -> readable c -> comes_back c d -> safe_cell d.
Proof.
  intros Hb R H. destruct H as [c rs d B Hc U|c rs x d B Hc U T].
  - split; [eexists; eauto|]. left. split.
    + apply (chars_break d _ (utf8_chars _ _ U)). apply (chars_break c rs Hc) in B. destruct B as (r & I & Hr). exists r. split; [|exact Hr].
      apply in_in_remove; [|exact I]. unfold brk in Hr. simpl in Hr. lia.
    + eapply utf8_no34; [exact U|]. apply remove_In.
  - assert (V : valid_text d) by (eapply trimmed_valid; [|exact T]; eexists; eauto). split; [exact V|]. right. split; [|split; [eapply trimmed_twice; exact T|]].
    + intros Bd. apply B. apply (chars_break c rs Hc). apply (chars_break x rs (utf8_chars _ _ U)). destruct T as (p & q & -> & _).
      apply has_break_app. destruct Bd as (p1 & t & -> & w & Hw & u & ->). exists p1, ((w ++ u) ++ q). rewrite <- !app_assoc. split; [reflexivity|]. exists w. split; [exact Hw|]. exists (u ++ q). reflexivity.
    + intros [u ->]. destruct R as [R|(t & R & N)]; [contradiction|]. destruct T as (p & q & E & P & _).
      destruct (unquoted_back c rs Hc B [] (or_introl eq_refl)) as (x' & U' & Un). rewrite app_nil_r in Un. rewrite (utf8_func _ _ _ U' U), E in Un.
      destruct (unquoted_start _ _ _ Un p (u ++ q) eq_refl P) as (z & Rz). rewrite (blank_func _ _ _ R Rz) in N. apply N. exists z. reflexivity.
Qed.
Lemma safe_empty : safe_cell [].
Proof.
  split; [exists []; constructor|]. right. split; [|split].
  - intros (p & t & E & w & Hw & u & ->). destruct (brk_head w Hw) as (x & y & -> & _). destruct p; discriminate.
  - exists [], []. split; [reflexivity|]. split; [apply spaces_nil|]. split; [apply spaces_nil|].
    split; intros (r & cs & t & _ & Hc & E); destruct (char_bytes _ _ Hc) as (b & u & -> & _); [discriminate|destruct t; discriminate].
  - intros [u E]. discriminate.
Qed.
Definition settled (rows : list (list bytes)) : Prop := Forall (fun r => r <> [] /\ Forall safe_cell r) rows.
Lemma row_settles r r' : Forall (Forall is_byte) r -> Forall readable r -> row_back r r' -> r' <> [] /\ Forall safe_cell r'.
Proof.
  intros Hb R H. destruct H as [|r r' N F]; [split; [discriminate|constructor; [apply safe_empty|constructor]]|].
  split; [intros ->; inversion F; subst; contradiction|]. clear N. induction F as [|c d r r' C F IH]; constructor; inversion Hb; inversion R; subst; auto. eapply back_safe; eauto.
Qed.
Notation all_bytes rows := (Forall (Forall (Forall is_byte)) rows).
Notation all_readable rows := (Forall (Forall readable) rows).
Lemma later_settles rs out : all_bytes rs -> all_readable rs -> later_back rs out -> settled out.
Proof.
  intros Hb R H. induction H as [|r rs out T H IH|r rs r' out N B H IH]; [constructor| |]; inversion Hb; inversion R; subst; auto.
  constructor; [eapply row_settles; eauto|auto]. apply IH; assumption.
Qed.
Lemma table_settles rows kept : all_bytes rows -> all_readable rows -> table_back rows kept -> settled kept.
Proof.
  intros Hb R H. destruct H as [|r rs r' out kept B L (tl & E & _)]; [constructor|]. inversion Hb; inversion R; subst.
  assert (F : settled (r' :: out)) by (constructor; [eapply row_settles; eauto|eapply later_settles; eauto]). rewrite E in F. apply Forall_app in F. apply F.
Qed.
Lemma later_texts rs out : settled rs -> later_back rs out -> out = filter (fun r => if textless_dec r then false else true) rs.
Proof.
  intros F H. induction H as [|r rs out T H IH|r rs r' out N B H IH]; [reflexivity| |]; inversion F as [|? ? [A1 A2] A3]; subst; cbn [filter].
  - destruct (textless_dec r); [auto|contradiction].
  - destruct (textless_dec r); [contradiction|]. f_equal; [apply safe_row; auto|auto].
Qed.
Lemma settled_safe rows kept : settled rows -> table_back rows kept -> safe_table kept.
Proof.
  intros F H. destruct H as [|r rs r' out kept B L (tl & E & T & M)]; [split; auto|]. inversion F as [|? ? [A1 A2] A3]; subst.
  pose proof (safe_row _ _ A1 A2 B) as ->. pose proof (later_texts _ _ A3 L) as Eo.
  assert (Fo : Forall (fun x => (x <> [] /\ Forall safe_cell x) /\ ~ textless x) out).
  { rewrite Eo. apply Forall_forall. intros x Ix. apply filter_In in Ix. destruct Ix as [Ix Tx]. split; [unfold settled in A3; rewrite Forall_forall in A3; auto|]. destruct (textless_dec x); [discriminate|assumption]. }
  destruct kept as [|k kept]; [split; auto|]. cbn [app] in E. injection E as <- E. rewrite E in Fo. apply Forall_app in Fo. destruct Fo as [Fk _]. split.
  - constructor; [auto|]. eapply Forall_impl; [|exact Fk]. simpl. tauto.
  - split; [eapply Forall_impl; [|exact Fk]; simpl; intros x [_ N] ->; apply N; right; reflexivity|].
    intros -> ->. apply (M [] [[]] eq_refl). right. reflexivity.
Qed.
Lemma settled_readable rows : settled rows -> all_readable rows.
Proof. intros F. eapply Forall_impl; [|exact F]. simpl. intros r [_ H]. eapply Forall_impl; [|exact H]. apply safe_readable. Qed.
Lemma settled_bytes rows : settled rows -> all_bytes rows.
Proof. intros F. eapply Forall_impl; [|exact F]. simpl. intros r [_ H]. eapply Forall_impl; [|exact H]. intros c [V _]. apply valid_byte. exact V. Qed.
(** ** Texts *)
Notation answers s r := (exists n0, forall n, (n0 <= n)%nat -> Parse n s = Ok r).
Lemma table_twice rows : all_bytes rows -> all_readable rows -> exists r2 r3, table_back rows r2 /\ answers (ToCsv rows) (inr r2) /\
  table_back r2 r3 /\ answers (ToCsv r2) (inr r3) /\ settled r2 /\ safe_table r3 /\ answers (ToCsv r3) (inr r3).
Proof.
  intros Hb R. destruct (parse_back rows Hb R) as (r2 & T2 & P2). pose proof (table_settles _ _ Hb R T2) as S2.
  destruct (parse_back r2 (settled_bytes _ S2) (settled_readable _ S2)) as (r3 & T3 & P3). pose proof (settled_safe _ _ S2 T3) as S3.
  exists r2, r3. repeat split; try assumption; try apply S3. apply round_trip; [|exact S3]. destruct S3 as [F _]. apply settled_bytes. exact F.
Qed.
Lemma text_read s rows : Forall is_byte s -> answers s (inr rows) -> all_bytes rows /\ all_readable rows.
Proof.
  intros Hb (n0 & H). assert (Rd : read_csv s (Table rows)) by (eapply parse_iff; eauto; reflexivity). split; [eapply P_CsvAny.csv_bytes; eauto|eapply csv_readable; eauto].
Qed.
(** Cells that were read from a text *)
Definition read_well (c : bytes) : Prop := valid_text c /\ (has_break c -> ~ In 34 c).
Lemma take_valid s v t : take_char s v t -> valid_text v.
Proof. intros (r & l & _ & _ & Hv & _). eapply valid_char; eauto. Qed.
Lemma inside_valid s a : inside s a -> match a with Some (o, _) => valid_text o | None => True end.
Proof.
  induction 1 as [|t a H IH|t N|s v t a N Tk H IH]; auto; [exists []; constructor|]. destruct a as [[o t1]|]; cbn; auto. apply valid_app; [eapply take_valid; eauto|exact IH].
Qed.
Lemma quoted_valid s a : quoted s a -> match a with Some (o, _) => valid_text o | None => True end.
Proof.
  induction 1 as [|s t o t1 t2 R I R2 N|s t o t1 t2 a R I R2 H IH]; auto; apply inside_valid in I; auto. destruct a as [[x u]|]; cbn; auto. apply valid_app; auto.
Qed.
Lemma unquoted_chars s x t : unquoted s x t -> exists rs, utf8 rs x /\ forall r, In r rs -> ~ brk r.
Proof.
  induction 1 as [s E|s v t x t1 Nb Tk H (rs & U & F)]; [exists []; split; [constructor|intros r []]|]. destruct Tk as (r & l & N & Hl & Hv & Et). exists (r :: rs).
  split; [constructor; auto|]. intros r' [<-|I']; [|auto]. intros B. apply Nb. destruct (next_valid s r l N Hl) as (cs & Hc & Es & _); [unfold brk in B; simpl in B; lia|].
  exists cs. split; [eapply char_brk; eauto|]. exists (skipn l s). exact Es.
Qed.
Lemma cell_read_well s c t : read_cell s (Some (c, t)) -> read_well c.
Proof.
  intros H. inversion H as [? ? Q|? t0 x ? ? R N U T]; subst.
  - split; [exact (quoted_valid _ _ Q)|intros _; exact (quoted_no34 _ _ Q)].
  - destruct (unquoted_chars _ _ _ U) as (rs & Ux & F). split; [eapply trimmed_valid; [eapply unquoted_valid; eauto|exact T]|]. intros B. exfalso.
    assert (Bx : has_break x).
    { destruct T as (p & q & -> & _). apply has_break_app. destruct B as (p1 & y & -> & w & Hw & u & ->). exists p1, ((w ++ u) ++ q). rewrite <- !app_assoc. split; [reflexivity|]. exists w. split; [exact Hw|]. exists (u ++ q). reflexivity. }
    apply (chars_break x rs (utf8_chars _ _ Ux)) in Bx. destruct Bx as (r & I1 & I2). exact (F r I1 I2).
Qed.
Lemma row_read_well s a : read_row s a -> match a with Some (r, _) => r <> [] /\ Forall read_well r | None => True end.
Proof.
  induction 1 as [|s c t H N|s c t a H R IH]; auto; apply cell_read_well in H; [split; [discriminate|auto]|]. destruct a as [[r u]|]; cbn in *; auto. split; [discriminate|]. constructor; [exact H|apply IH].
Qed.
Lemma rows_read_well s a : read_rows s a -> match a with Table rows => Forall (fun r => r <> [] /\ Forall read_well r) rows | _ => True end.
Proof.
  induction 1 as [|s r H|s r t H|s r t t1 a H B R Rs IH]; auto; apply row_read_well in H; auto. destruct a; cbn in *; auto.
Qed.
Lemma text_read_well s rows : Forall is_byte s -> answers s (inr rows) -> Forall (fun r => r <> [] /\ Forall read_well r) rows /\ (forall l r, rows = l ++ [r] -> ~ textless r).
Proof.
  intros Hb (n0 & H). assert (Rd : read_csv s (Table rows)) by (eapply parse_iff; eauto; reflexivity).
  inversion Rd as [? all kept R (tl & E & _ & M)| |]; subst. apply rows_read_well in R. apply Forall_app in R. split; [apply R|exact M].
Qed.
Lemma well_back c d : read_well c -> (comes_back c d <-> (has_break c /\ d = c) \/ (~ has_break c /\ trimmed c d)).
Proof.
  intros [(rs & U) Q]. pose proof (utf8_chars _ _ U) as Hc. split.
  - intros H. destruct H as [c rs' d B Hc' U'|c rs' x d B Hc' U' T].
    + left. split; [exact B|]. rewrite (chars_valid _ _ _ Hc' U) in U'. rewrite notin_remove in U' by (eapply utf8_34; eauto). eapply utf8_func; eauto.
    + right. split; [exact B|]. rewrite (chars_valid _ _ _ Hc' U) in U'. rewrite (utf8_func _ _ _ U' U) in T. exact T.
  - intros [[B ->]|[B T]].
    + eapply cb_quoted; [exact B|exact Hc|]. rewrite notin_remove by (eapply utf8_34; eauto). exact U.
    + eapply cb_plain; [exact B|exact Hc|exact U|exact T].
Qed.
Lemma last_app {A} (l : list A) : l = [] \/ exists k x, l = k ++ [x].
Proof. destruct l as [|a l] using rev_ind; [left; reflexivity|right; eauto]. Qed.
(** The second time only rows without text go. *)
Definition without_blank_rows (rows : list (list bytes)) : list (list bytes) :=
  match rows with [] => [] | r :: rs => r :: filter (fun r => if textless_dec r then false else true) rs end.
Lemma table_back_last rows kept : table_back rows kept -> forall l r, kept = l ++ [r] -> ~ textless r.
Proof. intros [|r rs r' out k B L (tl & _ & _ & M)]; [intros [|x l] r E; discriminate|exact M]. Qed.
Lemma second_time rows kept : settled rows -> (forall l r, rows = l ++ [r] -> ~ textless r) -> table_back rows kept -> kept = without_blank_rows rows.
Proof.
  intros F M H. destruct H as [|r rs r' out kept B L W]; [reflexivity|]. inversion F as [|? ? [A1 A2] A3]; subst.
  pose proof (safe_row _ _ A1 A2 B) as ->. pose proof (later_texts _ _ A3 L) as Eo. cbn [without_blank_rows]. rewrite <- Eo. eapply without_tail_func; [exact W|].
  exists []. split; [rewrite app_nil_r; reflexivity|]. split; [constructor|]. intros l x E. destruct (last_app rs) as [->|(k & y & ->)].
  - cbn in Eo. subst out. exact (M l x E).
  - assert (Ny : ~ textless y) by (apply (M (r :: k) y); reflexivity). rewrite filter_app in Eo. cbn [filter] in Eo. destruct (textless_dec y); [contradiction|].
    rewrite Eo in E. rewrite app_comm_cons in E. apply app_inj_tail in E. destruct E as [_ <-]. exact Ny.
Qed.
