(** Beginnings of CSV texts (C87). *)
From Verif Require Export L_CsvJoin.

(** The second byte of U+0085 and U+00A0. *)
Definition second (c : Z) : Prop := c = 133 \/ c = 160.
(** Text that may be continued by [k] without changing how it starts. *)
Definition tough (t k : bytes) : Prop := t <> [] /\ (t = [194] -> forall c r, k = c :: r -> ~ second c).
Definition short_piece (w : bytes) : Prop := (exists c, w = [c]) \/ exists c, w = [194; c] /\ second c.
Lemma blank_short w : blank_char w -> short_piece w.
Proof. unfold blank_char. cbn [In]. intros [<-|[<-|[<-|[]]]]; [left; eauto|left; eauto|right]. exists 160. split; [reflexivity|unfold second; lia]. Qed.
Lemma break_short w : line_break w -> short_piece w.
Proof. unfold line_break. cbn [In]. intros [<-|[<-|[<-|[<-|[<-|[]]]]]]; [left; eauto|left; eauto|left; eauto|left; eauto|right]. exists 133. split; [reflexivity|unfold second; lia]. Qed.
Lemma tough_piece w t k : short_piece w -> tough t k -> begins w (t ++ k) -> begins w t.
Proof.
  intros W [N T] (y & E). destruct t as [|a t]; [contradiction|]. destruct W as [(c & ->)|(c & -> & Hc)]; cbn [app] in E; injection E as -> E; [exists t; reflexivity|].
  destruct t as [|b t]; cbn [app] in E; [exfalso; exact (T eq_refl c y E Hc)|]. injection E as -> _. exists t. reflexivity.
Qed.
Lemma tough_one b t k : tough t k -> ~ begins [b] t -> ~ begins [b] (t ++ k).
Proof. intros T N B. apply N. eapply tough_piece; eauto. left. eauto. Qed.
Lemma tough_break t k : tough t k -> at_break (t ++ k) -> at_break t.
Proof. intros T (w & W & B). exists w. split; [exact W|]. eapply tough_piece; eauto. destruct W as [->|W]; [left; eauto|apply break_short; exact W]. Qed.
Lemma tough_line t k : tough t k -> at_line_break (t ++ k) -> at_line_break t.
Proof. intros T (w & W & B). exists w. split; [exact W|]. eapply tough_piece; eauto. apply break_short; exact W. Qed.
Lemma tough_run (P : bytes -> Prop) s t k : (forall w, P w -> short_piece w) -> tough t k -> run_of P s t -> run_of P (s ++ k) (t ++ k).
Proof.
  intros S T. induction 1 as [s N|w s t W H IH]; [|rewrite <- app_assoc; apply ro_more; auto]. apply ro_stop. intros w W B. apply (N w W). eapply tough_piece; eauto.
Qed.
(** Characters with something behind them *)
Definition backed (s k : bytes) : Prop := (exists a x b, s = a ++ x :: b /\ ~ cont x) \/ (exists x b, k = x :: b /\ ~ cont x).
Lemma next_backed c k r l : next_char c r l -> (0 < l)%nat -> backed (skipn l c) k -> next_char (c ++ k) r l.
Proof.
  intros H Hl B. destruct H as [|r cs s U|b s Bad]; [lia|rewrite <- app_assoc; constructor; exact U|]. cbn [skipn] in B. cbn [app]. constructor. intros r cs s' U E.
  destruct (char_bytes _ _ U) as (b' & u & -> & _). cbn [app] in E. injection E as <- E.
  destruct B as [(a & x & t & -> & Hx)|(x & t & -> & Hx)].
  - rewrite <- app_assoc in E. cbn [app] in E. destruct (past_tail u (char_tail _ _ _ U) a x (t ++ k) s' Hx E) as (q & -> & _). apply (Bad r (b :: u) (q ++ x :: t) U). cbn [app]. rewrite <- app_assoc. reflexivity.
  - destruct (past_tail u (char_tail _ _ _ U) s x t s' Hx E) as (q & -> & _). exact (Bad r (b :: u) q U eq_refl).
Qed.
Lemma take_backed s v t k : take_char s v t -> backed t k -> take_char (s ++ k) v (t ++ k).
Proof.
  intros (r & l & N & Hl & U & ->) B. pose proof (next_le _ _ _ N). exists r, l. split; [apply next_backed; auto|]. split; [exact Hl|]. split; [exact U|].
  rewrite skipn_app. replace (l - length s)%nat with 0%nat by lia. reflexivity.
Qed.
(** ** Cells and rows with something behind them *)
Lemma take_split s v t : take_char s v t -> exists a, s = a ++ t.
Proof. intros (r & l & N & Hl & U & ->). exists (firstn l s). rewrite firstn_skipn. reflexivity. Qed.
Lemma inside_split s a : inside s a -> match a with Some (_, t) => exists p, s = p ++ 34 :: t | None => True end.
Proof.
  induction 1 as [|t a H IH|t N|s v t a N T H IH]; auto.
  - destruct a as [[o u]|]; auto. destruct IH as (p & ->). exists (34 :: 34 :: p). reflexivity.
  - exists []. reflexivity.
  - destruct a as [[o u]|]; cbn [add]; auto. destruct IH as (p & ->). destruct (take_split _ _ _ T) as (a & ->). exists (a ++ p). rewrite <- app_assoc. reflexivity.
Qed.
Lemma run_split P s t : run_of P s t -> exists p, s = p ++ t.
Proof. induction 1 as [s N|w s t W H (p & ->)]; [exists []; reflexivity|]. exists (w ++ p). rewrite <- app_assoc. reflexivity. Qed.
Lemma unquoted_split s x t : unquoted s x t -> (exists p, s = p ++ t) /\ (t = [] \/ at_break t).
Proof.
  induction 1 as [s H|s v t x t1 N T H [(p & ->) IH]]; [split; [exists []; reflexivity|exact H]|]. split; [|exact IH]. destruct (take_split _ _ _ T) as (a & ->). exists (a ++ p). rewrite <- app_assoc. reflexivity.
Qed.
Lemma break_head t : at_break t -> exists x u, t = x :: u /\ ~ cont x.
Proof. intros (w & W & y & ->). destruct (brk_head w W) as (x & u & -> & Hx). exists x, (u ++ y). split; [reflexivity|exact Hx]. Qed.
Lemma tough_low c t k : c <> 194 -> tough (c :: t) k.
Proof. intros H. split; [discriminate|]. intros E. injection E as -> _. contradiction. Qed.
Section More.
Variable k : bytes.
Lemma inside_more s a : inside s a -> match a with Some (o, t) => tough t k -> inside (s ++ k) (Some (o, t ++ k)) | None => True end.
Proof.
  induction 1 as [|t a H IH|t N|s v t a N T H IH]; auto.
  - destruct a as [[o u]|]; auto. intros Tu. cbn [app]. apply in_double. auto.
  - intros Tt. cbn [app]. apply in_close. apply tough_one; auto.
  - destruct a as [[o u]|]; cbn [add]; auto. intros Tu. pose proof (inside_split _ _ H) as (p & E). apply (in_char (s ++ k) v (t ++ k) (Some (o, u ++ k))); [| |auto].
    + destruct s as [|c s]; [exfalso; destruct T as (r & l & Nx & Hl & _); exact (next_nonempty _ _ _ Nx Hl eq_refl)|]. intros (y & Ey). cbn [app] in Ey. injection Ey as -> _. apply N. exists s. reflexivity.
    + apply take_backed; [exact T|]. left. exists p, 34, u. split; [exact E|unfold cont; lia].
Qed.
Lemma quoted_split s a : quoted s a -> match a with Some (_, t) => exists p, s = p ++ t | None => True end.
Proof.
  induction 1 as [|s t o t1 t2 R I R2 N|s t o t1 t2 a R I R2 H IH]; auto.
  - destruct (run_split _ _ _ R) as (p & ->), (inside_split _ _ I) as (p1 & ->), (run_split _ _ _ R2) as (p2 & ->). exists (p ++ 34 :: p1 ++ 34 :: p2). rewrite <- app_assoc. cbn [app]. rewrite <- app_assoc. reflexivity.
  - destruct a as [[x u]|]; cbn [add]; auto. destruct IH as (q & ->). destruct (run_split _ _ _ R) as (p & ->), (inside_split _ _ I) as (p1 & ->), (run_split _ _ _ R2) as (p2 & ->). exists (p ++ 34 :: p1 ++ 34 :: p2 ++ q). rewrite <- app_assoc. cbn [app]. rewrite <- app_assoc. cbn [app]. rewrite <- app_assoc. reflexivity.
Qed.
Lemma quoted_start s a : quoted s a -> exists t, run_of blank_char s (34 :: t).
Proof. intros [? t R|? t ? ? ? R|? t ? ? ? ? R]; eauto. Qed.
Lemma run_tough s t : run_of blank_char s t -> tough t k -> tough s k.
Proof.
  intros R T. inversion R as [? N E|w s' t' W R' E]; subst; [exact T|]. destruct (run_split _ _ _ R') as (p & ->). destruct T as [Nt T]. unfold blank_char in W. cbn [In] in W. destruct W as [<-|[<-|[<-|[]]]]; cbn [app].
  - apply tough_low. lia.
  - apply tough_low. lia.
  - split; [discriminate|]. intros E. discriminate.
Qed.
Lemma quoted_tough s a : quoted s a -> tough s k.
Proof. intros Q. destruct (quoted_start _ _ Q) as (t & R). eapply run_tough; [exact R|]. apply tough_low. lia. Qed.
Lemma quoted_more s a : quoted s a -> match a with Some (o, t) => tough t k -> quoted (s ++ k) (Some (o, t ++ k)) | None => True end.
Proof.
  induction 1 as [|s t o t1 t2 R I R2 N|s t o t1 t2 a R I R2 H IH]; auto.
  - intros T. apply (tough_run _ _ _ k blank_short (tough_low 34 t k ltac:(lia))) in R. cbn [app] in R. pose proof (run_tough _ _ R2 T) as T1. apply inside_more in I. eapply q_last; [exact R|exact (I T1)|exact (tough_run _ _ _ k blank_short T R2)|]. apply tough_one; auto.
  - destruct a as [[x u]|]; cbn [add]; auto. intros T. apply (tough_run _ _ _ k blank_short (tough_low 34 t k ltac:(lia))) in R. cbn [app] in R. pose proof (quoted_tough _ _ H) as T2. pose proof (run_tough _ _ R2 T2) as T1. apply inside_more in I.
    apply (q_more (s ++ k) (t ++ k) o (t1 ++ k) (t2 ++ k) (Some (x, u ++ k))); [exact R|exact (I T1)|exact (tough_run _ _ _ k blank_short T2 R2)|auto].
Qed.
Lemma unquoted_more s x t : unquoted s x t -> t <> [] -> unquoted (s ++ k) x (t ++ k).
Proof.
  induction 1 as [s [->|(w & W & B)]|s v t x t1 N T H IH]; intros Nt; [contradiction| |].
  - apply uq_stop. right. exists w. split; [exact W|apply begins_app; exact B].
  - destruct (unquoted_split _ _ _ H) as [(p & E) [E0|B]]; [contradiction|]. destruct (break_head _ B) as (c & u & Ec & Hc).
    assert (Bk : backed t k) by (left; exists p, c, u; split; [rewrite E, Ec; reflexivity|exact Hc]).
    eapply uq_char; [|apply take_backed; [exact T|exact Bk]|auto]. intros X. apply N. eapply tough_break; [|exact X].
    destruct (take_split _ _ _ T) as (a & Ea). split; [intros ->; symmetry in Ea; apply app_eq_nil in Ea; destruct Ea as [_ ->]; symmetry in E; apply app_eq_nil in E; destruct E; contradiction|].
    intros Es. exfalso. rewrite Es in Ea. assert (Et : t = []). { destruct T as (r & l & Nx & Hl & _ & ->). pose proof (next_le _ _ _ Nx). rewrite Es. destruct l; [lia|]. destruct l; reflexivity. }
    rewrite Et in E. symmetry in E. apply app_eq_nil in E. destruct E; contradiction.
Qed.
Lemma cell_more s c t : read_cell s (Some (c, t)) -> tough t k -> read_cell (s ++ k) (Some (c, t ++ k)).
Proof.
  intros H T. inversion H as [? ? Q|? t0 x ? ? R N U Tr]; subst; [apply rc_quoted; exact (quoted_more _ _ Q T)|].
  destruct (unquoted_split _ _ _ U) as [(p & Es) [E0|B]]; [destruct T; contradiction|].
  assert (T0 : tough t0 k).
  { destruct (run_split _ _ _ R) as (p0 & E0). destruct (break_head _ B) as (c0 & u & Ec & Hc). subst t.
    assert (Nb : forall w, blank_char w -> ~ In c0 w \/ c0 = 194).
    { intros w W. unfold blank_char in W. cbn [In] in W. destruct B as (w0 & W0 & y & Ey). unfold break_char, line_break in W0. cbn [In] in W0.
      assert (Hc0 : In c0 [44; 10; 11; 12; 13; 194]) by (decompose [or] W0; try contradiction; subst; cbn [app] in Ey; injection Ey as -> _; cbn; tauto). cbn [In] in Hc0.
      destruct (Z.eq_dec c0 194); [right; assumption|left]. destruct W as [<-|[<-|[<-|[]]]]; cbn [In]; lia. }
    assert (Keep : forall s0 t1, run_of blank_char s0 t1 -> forall p1, s0 = p1 ++ c0 :: u -> exists p2, t1 = p2 ++ c0 :: u).
    { clear -B Nb. induction 1 as [s0 N0|w s0 t1 W R IH]; intros p1 E; [eauto|]. apply IH with (p1 := skipn (length w) p1).
      destruct (app_eq_app _ _ _ _ E) as (l & [[E1 E2]|[E1 E2]]).
      - destruct l as [|d l].
        + rewrite app_nil_r in E1. subst w. rewrite skipn_all. cbn [app] in *. symmetry. exact E2.
        + exfalso. injection E2 as <- E2. destruct (Nb w W) as [X|X]; [apply X; rewrite E1; apply in_app_iff; right; left; reflexivity|]. subst c0.
          destruct B as (w0 & W0 & y & Ey). unfold break_char, line_break in W0. cbn [In] in W0. unfold blank_char in W. cbn [In] in W.
          assert (Eu : exists z, u = 133 :: z) by (decompose [or] W0; try contradiction; subst; cbn [app] in Ey; try discriminate; injection Ey as ->; eauto). destruct Eu as (z & ->).
          destruct W as [<-|[<-|[<-|[]]]]; destruct p1 as [|? [|? p1]]; cbn [app] in E1; try discriminate; inversion E1; subst; try discriminate; cbn [app] in E2; inversion E2; try match goal with X : [] = ?a ++ _ :: _ |- _ => destruct a; discriminate X end.
      - subst p1. rewrite skipn_app, skipn_all, Nat.sub_diag. cbn [app skipn]. exact E2. }
    destruct (Keep _ _ R p Es) as (p2 & ->). split; [destruct p2; discriminate|]. intros E. destruct p2 as [|d p2]; [|injection E as _ E; destruct p2; discriminate]. cbn [app] in E. injection E as -> ->.
    destruct B as (w0 & W0 & y & Ey). unfold break_char, line_break in W0. cbn [In] in W0. decompose [or] W0; try contradiction; subst; discriminate. }
  eapply rc_plain; [exact (tough_run _ _ _ k blank_short T0 R)|apply tough_one; auto|apply unquoted_more; [exact U|apply T]|exact Tr].
Qed.
Lemma row_more s a : read_row s a -> match a with Some (r, t) => tough t k -> read_row (s ++ k) (Some (r, t ++ k)) | None => True end.
Proof.
  induction 1 as [|s c t H N|s c t a H R IH]; auto.
  - intros T. apply cell_more in H; [|exact T]. apply rr_last; [exact H|]. apply tough_one; auto.
  - destruct a as [[r u]|]; cbn [add]; auto. intros T. apply cell_more in H; [|apply tough_low; lia]. apply (rr_more (s ++ k) c (t ++ k) (Some (r, u ++ k))); [exact H|auto].
Qed.
Lemma line_tough t : at_line_break t -> tough t k.
Proof. intros (w & W & y & ->). unfold line_break in W. cbn [In] in W. destruct W as [<-|[<-|[<-|[<-|[<-|[]]]]]]; cbn [app]; try (apply tough_low; lia). split; discriminate. Qed.
End More.
(** ** Tables *)
Lemma last_suffix (p t : bytes) : t <> [] -> last (p ++ t) 0 = last t 0.
Proof. intros N. induction p as [|x p IH]; [reflexivity|]. cbn [app]. destruct (p ++ t) as [|y q] eqn:E; [apply app_eq_nil in E; destruct E; contradiction|]. rewrite <- IH. reflexivity. Qed.
Definition may_follow (s k : bytes) : Prop := last s 0 = 194 -> forall c r, k = c :: r -> ~ second c.
Lemma tough_last t k : t <> [] -> may_follow t k -> tough t k.
Proof. intros N L. split; [exact N|]. intros ->. apply L. reflexivity. Qed.
Lemma cell_split s c t : read_cell s (Some (c, t)) -> exists p, s = p ++ t.
Proof. intros H. inversion H as [? ? Q|? t0 x ? ? R N U Tr]; subst; [exact (quoted_split _ _ Q)|]. apply (unquoted_split _ _ _ U). Qed.
Lemma row_split s a : read_row s a -> match a with Some (_, t) => exists p, s = p ++ t | None => True end.
Proof.
  induction 1 as [|s c t H N|s c t a H R IH]; auto; [exact (cell_split _ _ _ H)|]. destruct a as [[r u]|]; cbn [add]; auto. destruct (cell_split _ _ _ H) as (p & ->), IH as (q & ->). exists (p ++ 44 :: q). rewrite <- app_assoc. reflexivity.
Qed.
Lemma junk_some s : read_rows s Junk -> s <> [].
Proof.
  intros H ->. inversion H as [| |? ? ? X Nt Bt|? ? ? ? ? X Bt]; subst; apply nothing_row in X; injection X as -> ->; [contradiction|]. destruct Bt as (w & W & v & E). destruct (break_piece w W) as (y & z & -> & _). discriminate.
Qed.
Lemma junk_more s a k : read_rows s a -> a = Junk -> may_follow s k -> read_rows (s ++ k) Junk.
Proof.
  intros H. induction H as [|s r R|s r u R N B|s r u u1 b R B Rn Rs IH]; intros E L; try discriminate.
  - destruct (row_split _ _ R) as (p & Es). assert (T : tough u k) by (apply tough_last; [exact N|]; unfold may_follow; rewrite <- (last_suffix p u N), <- Es; exact L).
    eapply rt_junk; [exact (row_more k _ _ R T)|intros X; apply app_eq_nil in X; tauto|]. intros X. apply B. eapply tough_line; eauto.
  - destruct b; try discriminate. pose proof (junk_some _ Rs) as N1. destruct (row_split _ _ R) as (p & Es), (run_split _ _ _ Rn) as (p1 & Eu).
    assert (L1 : may_follow u1 k) by (unfold may_follow; rewrite <- (last_suffix (p ++ p1) u1 N1), <- app_assoc, <- Eu, <- Es; exact L).
    apply (rt_more (s ++ k) r (u ++ k) (u1 ++ k) Junk); [exact (row_more k _ _ R (line_tough k u B))|destruct B as (w & W & X); exists w; split; [exact W|apply begins_app; exact X]|exact (tough_run _ _ _ k break_short (tough_last _ _ N1 L1) Rn)|auto].
Qed.
(** An open quote is closed. *)
Lemma quote_tough t : t <> [] -> tough t [34].
Proof. intros N. split; [exact N|]. intros _ c r E. injection E as <- _. unfold second. lia. Qed.
Lemma inside_closed s a : inside s a -> a = None -> exists o, inside (s ++ [34]) (Some (o, [])).
Proof.
  induction 1 as [|t a H IH|t N|s v t a N T H IH]; intros E; try discriminate.
  - exists []. apply in_close. intros (t & E'). discriminate.
  - destruct (IH E) as (o & Io). exists o. cbn [app]. apply in_double. exact Io.
  - destruct a as [[o u]|]; [discriminate|]. destruct (IH eq_refl) as (o & Io). exists (v ++ o). apply (in_char (s ++ [34]) v (t ++ [34]) (Some (o, []))); [| |exact Io].
    + destruct s as [|c s]; [exfalso; destruct T as (r & l & Nx & Hl & _); exact (next_nonempty _ _ _ Nx Hl eq_refl)|]. intros (y & Ey). cbn [app] in Ey. injection Ey as -> _. apply N. exists s. reflexivity.
    + apply take_backed; [exact T|]. right. exists 34, []. split; [reflexivity|unfold cont; lia].
Qed.
Lemma quoted_closed s a : quoted s a -> a = None -> exists o, quoted (s ++ [34]) (Some (o, [])).
Proof.
  induction 1 as [s t R I|s t o t1 t2 R I R2 N|s t o t1 t2 a R I R2 H IH]; intros E; try discriminate.
  - destruct (inside_closed _ _ I eq_refl) as (o & Io). exists o. apply (q_last (s ++ [34]) (t ++ [34]) o [] []); [exact (tough_run _ _ _ [34] blank_short (tough_low 34 t [34] ltac:(lia)) R)|exact Io| |intros (y & Ey); discriminate].
    apply ro_stop. intros w W (y & Ey). unfold blank_char in W. cbn [In] in W. destruct W as [<-|[<-|[<-|[]]]]; discriminate.
  - destruct a as [[x u]|]; [discriminate|]. destruct (IH eq_refl) as (x & Qx). exists (o ++ x). pose proof (quoted_tough [34] _ _ H) as T2. pose proof (run_tough [34] _ _ R2 T2) as T1. apply (inside_more [34]) in I.
    apply (q_more (s ++ [34]) (t ++ [34]) o (t1 ++ [34]) (t2 ++ [34]) (Some (x, []))); [exact (tough_run _ _ _ [34] blank_short (tough_low 34 t [34] ltac:(lia)) R)|exact (I T1)|exact (tough_run _ _ _ [34] blank_short T2 R2)|exact Qx].
Qed.
Lemma row_closed s a : read_row s a -> a = None -> exists r, read_row (s ++ [34]) (Some (r, [])).
Proof.
  induction 1 as [s H|s c t H N|s c t a H R IH]; intros E; try discriminate.
  - inversion H as [? ? Q|]; subst. destruct (quoted_closed _ _ Q eq_refl) as (o & Qo). exists [o]. apply rr_last; [apply rc_quoted; exact Qo|]. intros (y & Ey). discriminate.
  - destruct a as [[r u]|]; [discriminate|]. destruct (IH eq_refl) as (r & Rr). exists (c :: r). apply (rr_more (s ++ [34]) c (t ++ [34]) (Some (r, []))); [|exact Rr]. apply (cell_more [34]) in H; [exact H|apply tough_low; lia].
Qed.
Lemma nothing_closed : ~ read_rows [] Unclosed.
Proof.
  intros H. inversion H as [? X| | |? ? ? ? ? X Bt]; subst; apply nothing_row in X; [discriminate|]. injection X as -> ->. destruct Bt as (w & W & v & E). destruct (break_piece w W) as (y & z & -> & _). discriminate.
Qed.
Lemma rows_closed s a : read_rows s a -> a = Unclosed -> exists rows, read_rows (s ++ [34]) (Table rows).
Proof.
  intros H. induction H as [s R|s r R|s r u R N B|s r u u1 b R B Rn Rs IH]; intros E; try discriminate.
  - destruct (row_closed _ _ R eq_refl) as (r & Rr). exists [r]. apply rt_last. exact Rr.
  - destruct b; try discriminate. destruct (IH eq_refl) as (rows & Rr). exists (r :: rows).
    assert (N1 : u1 <> []) by (intros ->; exact (nothing_closed Rs)).
    apply (rt_more (s ++ [34]) r (u ++ [34]) (u1 ++ [34]) (Table rows)); [exact (row_more [34] _ _ R (line_tough [34] u B))|destruct B as (w & W & X); exists w; split; [exact W|apply begins_app; exact X]|exact (tough_run _ _ _ [34] break_short (quote_tough _ N1) Rn)|exact Rr].
Qed.
