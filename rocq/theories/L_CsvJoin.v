(** Texts joined by line breaks are read one after the other (C83). *)
From Verif Require Export L_CsvSettle S_CsvJoin.

(** ** What follows a line *)
Definition broken (k : bytes) : Prop := at_line_break k.
Lemma broken_head k : broken k -> exists x t, k = x :: t /\ ~ cont x /\ ~ In x [9; 32; 34; 44] /\ (x = 194 -> begins [133] t).
Proof.
  intros (w & Hw & t & ->). unfold line_break in Hw. cbn [In] in Hw. destruct Hw as [<-|[<-|[<-|[<-|[<-|[]]]]]]; cbn [app]; eexists; eexists; (split; [reflexivity|]); unfold cont; cbn [In];
    (split; [lia|]); (split; [lia|]); intros; try lia. exists t. reflexivity.
Qed.
Lemma broken_break k : broken k -> at_break k.
Proof. intros (w & Hw & B). exists w. split; [right; exact Hw|exact B]. Qed.
Lemma next_broken c k r l : c <> [] -> broken k -> next_char c r l -> next_char (c ++ k) r l.
Proof.
  intros Hc Hk H. destruct (broken_head k Hk) as (x & t & -> & Hx & _). destruct H as [|r cs s U|b s Bad]; [contradiction|rewrite <- app_assoc; constructor; exact U|].
  cbn [app]. constructor. intros r cs s' U E. destruct (char_bytes _ _ U) as (b' & u & -> & _). cbn [app] in E. injection E as <- E. symmetry in E.
  destruct (past_tail u (char_tail _ _ _ U) s x t s' Hx (eq_sym E)) as (q & -> & _). exact (Bad r (b :: u) q U eq_refl).
Qed.
Lemma take_broken s k v t : broken k -> take_char s v t -> take_char (s ++ k) v (t ++ k).
Proof.
  intros Hk (r & l & N & Hl & U & ->). pose proof (next_le _ _ _ N). exists r, l. split; [apply next_broken; auto; eapply next_nonempty; eauto|]. split; [exact Hl|]. split; [exact U|].
  rewrite skipn_app. replace (l - length s)%nat with 0%nat by lia. reflexivity.
Qed.
(** Pieces of one character *)
Definition piece (w : bytes) : Prop := exists a u, w = a :: u /\ Forall cont u.
Lemma piece_app w s k : piece w -> s <> [] -> broken k -> begins w (s ++ k) -> begins w s.
Proof.
  intros (a & u & -> & Hu) Hs Hk (y & E). destruct (broken_head k Hk) as (x & t & -> & Hx & _). destruct s as [|b s]; [contradiction|]. cbn [app] in E. injection E as -> E.
  destruct (past_tail u Hu s x t y Hx E) as (q & -> & _). exists q. reflexivity.
Qed.
Lemma begins_app w s k : begins w s -> begins w (s ++ k).
Proof. intros (t & ->). exists (t ++ k). rewrite app_assoc. reflexivity. Qed.
Lemma blank_piece w : blank_char w -> piece w.
Proof. unfold blank_char. cbn [In]. intros [<-|[<-|[<-|[]]]]; eexists; eexists; (split; [reflexivity|]); repeat constructor; unfold cont; lia. Qed.
Lemma break_piece w : line_break w -> piece w.
Proof. unfold line_break. cbn [In]. intros [<-|[<-|[<-|[<-|[<-|[]]]]]]; eexists; eexists; (split; [reflexivity|]); repeat constructor; unfold cont; lia. Qed.
Lemma one_piece b : piece [b]. Proof. exists b, []. split; [reflexivity|constructor]. Qed.
Lemma blank_broken k w : broken k -> blank_char w -> ~ begins w k.
Proof.
  intros Hk Hw (t & E). destruct (broken_head k Hk) as (x & y & -> & _ & H1 & H2). cbn [In] in H1. unfold blank_char in Hw. cbn [In] in Hw. destruct Hw as [<-|[<-|[<-|[]]]]; cbn [app] in E; injection E as -> E; try tauto.
  destruct (H2 eq_refl) as (z & Ez). rewrite Ez in E. discriminate.
Qed.
Lemma low_broken b k : broken k -> In b [34; 44] -> ~ begins [b] k.
Proof. intros Hk I (t & E). destruct (broken_head k Hk) as (x & y & -> & _ & H & _). injection E as -> _. cbn [In] in *. tauto. Qed.
Lemma low_app b s k : broken k -> In b [34; 44] -> ~ begins [b] s -> ~ begins [b] (s ++ k).
Proof. intros Hk I N B. destruct s as [|c s]; [exact (low_broken b k Hk I B)|]. apply N. eapply piece_app; eauto; [apply one_piece|discriminate]. Qed.
(** ** Lines *)
Section Extended.
Variable k : bytes.
Hypothesis Hk : broken k.
Lemma blanks_ext s t : run_of blank_char s t -> run_of blank_char (s ++ k) (t ++ k).
Proof.
  induction 1 as [s N|w s t W H IH]; [|rewrite <- app_assoc; apply ro_more; auto]. apply ro_stop. intros w Hw B. destruct s as [|c s]; [exact (blank_broken k w Hk Hw B)|].
  apply (N w Hw). eapply piece_app; eauto; [apply blank_piece; exact Hw|discriminate].
Qed.
Lemma inside_ext s a : inside s a -> match a with Some (o, t) => inside (s ++ k) (Some (o, t ++ k)) | None => True end.
Proof.
  induction 1 as [|t a H IH|t N|s v t a N T H IH]; auto.
  - destruct a as [[o u]|]; auto. cbn [app]. apply in_double. exact IH.
  - cbn [app]. apply in_close. apply low_app; auto. left. reflexivity.
  - destruct a as [[o u]|]; cbn [add]; auto. apply (in_char (s ++ k) v (t ++ k) (Some (o, u ++ k))); [apply low_app; auto; left; reflexivity|apply take_broken; auto|exact IH].
Qed.
Lemma quoted_ext s a : quoted s a -> match a with Some (o, t) => quoted (s ++ k) (Some (o, t ++ k)) | None => True end.
Proof.
  induction 1 as [|s t o t1 t2 R I R2 N|s t o t1 t2 a R I R2 H IH]; auto; apply blanks_ext in R, R2; cbn [app] in R; apply inside_ext in I.
  - eapply q_last; eauto. apply low_app; auto. left. reflexivity.
  - destruct a as [[x u]|]; cbn [add]; auto. apply (q_more (s ++ k) (t ++ k) o (t1 ++ k) (t2 ++ k) (Some (x, u ++ k))); auto.
Qed.
Lemma break_ext s : s <> [] -> at_break (s ++ k) -> at_break s.
Proof. intros N (w & W & B). exists w. split; [exact W|]. eapply piece_app; eauto. destruct W as [->|W]; [apply one_piece|apply break_piece; exact W]. Qed.
Lemma unquoted_ext s x t : unquoted s x t -> unquoted (s ++ k) x (t ++ k).
Proof.
  induction 1 as [s [->|(w & W & B)]|s v t x t1 N T H IH].
  - apply uq_stop. right. apply broken_break. exact Hk.
  - apply uq_stop. right. exists w. split; [exact W|apply begins_app; exact B].
  - eapply uq_char; [|apply take_broken; eauto|exact IH]. intros B. apply N. apply break_ext; [|exact B]. intros ->. destruct T as (r & l & Nx & Hl & _). exact (next_nonempty _ _ _ Nx Hl eq_refl).
Qed.
Lemma cell_ext s c t : read_cell s (Some (c, t)) -> read_cell (s ++ k) (Some (c, t ++ k)).
Proof.
  intros H. inversion H as [? ? Q|? t0 x ? ? R N U T]; subst; [apply rc_quoted; exact (quoted_ext _ _ Q)|].
  eapply rc_plain; [apply blanks_ext; exact R|apply low_app; auto; left; reflexivity|apply unquoted_ext; exact U|exact T].
Qed.
Lemma row_ext s a : read_row s a -> match a with Some (r, t) => read_row (s ++ k) (Some (r, t ++ k)) | None => True end.
Proof.
  induction 1 as [|s c t H N|s c t a H R IH]; auto; apply cell_ext in H.
  - apply rr_last; [exact H|]. apply low_app; auto. right. left. reflexivity.
  - destruct a as [[r u]|]; cbn [add]; auto. apply (rr_more (s ++ k) c (t ++ k) (Some (r, u ++ k))); [exact H|exact IH].
Qed.
Lemma breaks_ext s t : run_of line_break s t -> t <> [] -> run_of line_break (s ++ k) (t ++ k).
Proof.
  induction 1 as [s N|w s t W H IH]; intros Ht; [|rewrite <- app_assoc; apply ro_more; auto]. apply ro_stop. intros w Hw B. apply (N w Hw). eapply piece_app; eauto. apply break_piece; exact Hw.
Qed.
Lemma line_ext t : t <> [] -> at_line_break (t ++ k) -> at_line_break t.
Proof. intros N (w & W & B). exists w. split; [exact W|]. eapply piece_app; eauto. apply break_piece. exact W. Qed.
Lemma break_app t : at_line_break t -> at_line_break (t ++ k).
Proof. intros (w & W & B). exists w. split; [exact W|apply begins_app; exact B]. Qed.
End Extended.
(** ** Tables *)
Lemma nothing_row a : read_row [] a -> a = Some ([[]], []).
Proof.
  assert (B0 : forall t, run_of blank_char [] t -> t = []).
  { intros t R. inversion R as [? N E|w s t' W R' E]; subst; [reflexivity|]. destruct (blank_piece w W) as (x & u & -> & _). discriminate. }
  assert (U0 : forall x t, unquoted [] x t -> x = [] /\ t = []).
  { intros x t U. inversion U as [? _|? v u y t1 N (r & l & Nx & Hl & _) U']; subst; [auto|]. exfalso. exact (next_nonempty _ _ _ Nx Hl eq_refl). }
  assert (Q : forall a, ~ quoted [] a) by (intros a' Q; inversion Q as [? ? R|? ? ? ? ? R|? ? ? ? ? ? R]; subst; apply B0 in R; discriminate).
  assert (C : forall a, read_cell [] a -> a = Some ([], [])).
  { intros a' H. inversion H as [? ? Q'|? t x t1 c R N U T]; subst; [exfalso; exact (Q _ Q')|]. destruct (U0 _ _ U) as [-> ->]. destruct T as (p & q & E & _). symmetry in E. apply app_eq_nil in E. destruct E as [_ E].
    apply app_eq_nil in E. destruct E as [-> _]. reflexivity. }
  intros H. inversion H as [? X|? c t X N|? c t a' X R]; subst; apply C in X; try discriminate. injection X as -> ->. reflexivity.
Qed.
Lemma nothing_rows rows : read_rows [] (Table rows) -> rows = [[[]]].
Proof.
  intros H. inversion H as [|? r R|? r t R|? r t t1 a R B Rn Rs]; subst; apply nothing_row in R; [injection R as ->; reflexivity|]. injection R as -> ->.
  destruct B as (w & W & u & E). destruct (break_piece w W) as (x & v & -> & _). discriminate.
Qed.
Lemma rows_some s rows : read_rows s (Table rows) -> rows <> [].
Proof. intros H ->. inversion H as [|? r R|? r t R|? r t t1 a R B Rn Rs E]; subst. destruct a; discriminate. Qed.
Lemma rows_ext k t a : broken k -> run_of line_break k t -> read_rows t a -> forall s b, read_rows s b ->
  match b with Table rows => texts_last rows -> read_rows (s ++ k) (on_table (app rows) a) | Junk => read_rows (s ++ k) Junk | Unclosed => True end.
Proof.
  intros Hk Rk Ra s b H. induction H as [|s r R|s r u R N B|s r u u1 b R B Rn Rs IH]; auto.
  - intros _. apply (row_ext k Hk) in R. cbn [app] in R. eapply rt_more in Ra; [|exact R|exact Hk|exact Rk]. destruct a; exact Ra.
  - apply (row_ext k Hk) in R. eapply rt_junk; [exact R|intros E; apply app_eq_nil in E; tauto|]. intros X. apply B. exact (line_ext k Hk u N X).
  - apply (row_ext k Hk) in R. destruct b as [rows| |]; cbn [on_table]; auto.
    + intros (l & x & E & T).
      assert (Nu : u1 <> []).
      { intros ->. apply nothing_rows in Rs. subst rows. destruct l as [|? [|? l]]; cbn in E; try discriminate; [|destruct l; discriminate]. injection E as _ <-. apply T. right. reflexivity. }
      assert (TL : texts_last rows).
      { destruct l as [|y l]; cbn [app] in E; injection E as -> E; [exfalso; exact (rows_some _ _ Rs E)|]. exists l, x. auto. }
      specialize (IH TL). eapply rt_more in IH; [|exact R|apply break_app; exact B|apply breaks_ext; eauto]. destruct a; exact IH.
    + eapply rt_more in IH; [|exact R|apply break_app; exact B|apply breaks_ext; eauto]; [exact IH|]. intros ->. inversion Rs as [|? ? X|? ? ? X Nt Bt|? ? ? ? ? X Bt]; subst; apply nothing_row in X; injection X as -> ->; [contradiction|].
      destruct Bt as (w & W & v & E). destruct (break_piece w W) as (y & z & -> & _). discriminate.
Qed.
(** ** Joining *)
Lemma breaks_run b t : breaks b -> ~ at_line_break t -> broken (b ++ t) /\ run_of line_break (b ++ t) t.
Proof.
  intros (ws & N & F & ->) Nt. split.
  - destruct ws as [|w ws]; [contradiction|]. inversion F; subst. exists w. split; [assumption|]. cbn [concat]. rewrite <- app_assoc. eexists. reflexivity.
  - clear N. induction F as [|w ws W F IH]; cbn [concat app]; [|rewrite <- app_assoc; apply ro_more; auto]. apply ro_stop. intros w W B. apply Nt. exists w. auto.
Qed.
Lemma tail_join rows a b : texts_last rows -> without_tail a b -> without_tail (rows ++ a) (rows ++ b).
Proof.
  intros (l & r & E & N) (tl & -> & T & M). exists tl. split; [rewrite app_assoc; reflexivity|]. split; [exact T|]. intros l' r' E'.
  destruct (last_app b) as [->|(b' & y & ->)].
  - rewrite app_nil_r, E in E'. apply app_inj_tail in E'. destruct E' as [_ <-]. exact N.
  - rewrite app_assoc in E'. apply app_inj_tail in E'. destruct E' as [_ <-]. apply (M b' y eq_refl).
Qed.
Lemma csv_join s rows b t a : read_rows s (Table rows) -> texts_last rows -> breaks b -> ~ at_line_break t -> read_csv t a ->
  read_csv (s ++ b ++ t) (on_table (app rows) a).
Proof.
  intros Rs T B Nt Ra. destruct (breaks_run b t B Nt) as [Hk Rk]. destruct Ra as [t all kept R W|t R|t R]; cbn [on_table].
  - eapply rd_table; [exact (rows_ext _ _ _ Hk Rk R _ _ Rs T)|]. apply tail_join; auto.
  - apply rd_eof. exact (rows_ext _ _ _ Hk Rk R _ _ Rs T).
  - apply rd_junk. exact (rows_ext _ _ _ Hk Rk R _ _ Rs T).
Qed.
Lemma csv_junk s b t : Forall is_byte t -> read_csv s Junk -> breaks b -> ~ at_line_break t -> read_csv (s ++ b ++ t) Junk.
Proof.
  intros Hb Rs B Nt. destruct (breaks_run b t B Nt) as [Hk Rk]. inversion Rs; subst. destruct (rows_total (S (length t)) t (Nat.lt_succ_diag_r _) Hb) as (a & R).
  apply rd_junk. exact (rows_ext _ _ _ Hk Rk R s Junk ltac:(assumption)).
Qed.
Lemma line_starts x r : read_row x (Some (r, [])) -> ~ at_line_break x.
Proof.
  intros H B. assert (C : forall c t, read_cell x (Some (c, t)) -> t = x).
  { intros c t Hc. assert (R0 : forall y, run_of blank_char x y -> y = x).
    { intros y R. inversion R as [|w s y' W R' E]; subst; [reflexivity|]. exfalso. apply (blank_broken _ w B W). exists s. reflexivity. }
    inversion Hc as [? ? Q|? y z ? ? R N U T]; subst.
    - exfalso. apply (low_broken 34 x B); [left; reflexivity|]. inversion Q as [|? y ? ? ? R|? y ? ? ? ? R]; subst; apply R0 in R; rewrite <- R; exists y; reflexivity.
    - inversion U as [? _|? v u z' ? N']; subst; [reflexivity|]. exfalso. apply N'. apply broken_break. exact B. }
  assert (N : x <> []) by (intros ->; destruct B as (w & W & u & E); destruct (break_piece w W) as (y & z & -> & _); discriminate).
  inversion H as [|? c t X Nx E|? c t a X R E]; subst.
  - apply C in X. congruence.
  - apply C in X. apply (low_broken 44 x B); [right; left; reflexivity|]. exists t. symmetry. exact X.
Qed.
Lemma joined_rows xs s : joined xs s -> forall rows, Forall2 (fun x r => read_row x (Some (r, [])) /\ ~ textless r) xs rows ->
  read_rows s (Table rows) /\ texts_last rows /\ ~ at_line_break s.
Proof.
  induction 1 as [x|x b xs s B J IH]; intros rows F; inversion F as [|? r ? rs [R N] F']; subst.
  - inversion F'; subst. split; [apply rt_last; exact R|]. split; [exists [], r; auto|eapply line_starts; eauto].
  - destruct (IH rs F') as (Rs & (l & y & E & Ny) & Nb). destruct (breaks_run b s B Nb) as [Hk Rk]. split; [|split].
    + change (Table (r :: rs)) with (on_table (app [r]) (Table rs)). apply (rows_ext _ _ _ Hk Rk Rs x (Table [r])); [apply rt_last; exact R|exists [], r; auto].
    + exists (r :: l), y. rewrite E. auto.
    + intros X. destruct x as [|c x]; [apply nothing_row in R; injection R as ->; apply N; right; reflexivity|]. apply (line_starts _ _ R). eapply line_ext; [exact Hk|discriminate|exact X].
Qed.
