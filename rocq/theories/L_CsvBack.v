(** What comes back from a table that was written as CSV. *)
From Verif Require Export L_Csv.

(** ** Writing *)
Lemma contains_iff sub s : contains sub s = true <-> exists p t, s = p ++ sub ++ t.
Proof.
  induction s as [|b s IH]; cbn [contains]; rewrite orb_true_iff, bytes_eqb_eq.
  - rewrite firstn_nil. split.
    + intros [<-|H]; [|discriminate]. exists [], []. auto.
    + intros (p & t & E). symmetry in E. apply app_eq_nil in E. destruct E as [_ E]. apply app_eq_nil in E. destruct E as [-> _]. auto.
  - rewrite IH. split.
    + intros [E|(p & t & ->)]; [|exists (b :: p), t; auto]. exists [], (skipn (length sub) (b :: s)). simpl.
      rewrite <- E at 1. symmetry. apply firstn_skipn.
    + intros (p & t & E). destruct p as [|x p]; [left|right].
      * simpl in E. rewrite E, firstn_app, Nat.sub_diag, firstn_all. simpl. apply app_nil_r.
      * inversion E. exists p, t. auto.
Qed.
Lemma needs_quotes_iff c : needs_quotes c = true <-> has_break c.
Proof.
  unfold needs_quotes. rewrite !orb_true_iff, !contains_iff. split.
  - intros H. assert (X : exists w p t, break_char w /\ c = p ++ w ++ t).
    { destruct H as [[[[[H|H]|H]|H]|H]|H]; destruct H as (p & t & ->); eexists _, p, t; (split; [|reflexivity]); unfold break_char, line_break, NEL; simpl; auto 10. }
    destruct X as (w & p & t & Hw & ->). exists p, (w ++ t). split; auto. exists w. split; auto. exists t. auto.
  - intros (p & t & -> & w & Hw & u & ->). assert (X : exists q v, p ++ w ++ u = q ++ w ++ v) by eauto.
    unfold break_char, line_break in Hw. simpl in Hw. destruct Hw as [->|[<-|[<-|[<-|[<-|[<-|[]]]]]]]; auto 10.
Qed.
Lemma has_break_dec c : has_break c \/ ~ has_break c.
Proof. destruct (needs_quotes c) eqn:E; [left|right]; rewrite <- needs_quotes_iff; auto. congruence. Qed.
Lemma cell_text_plain c : ~ has_break c -> toCsvCell c = c.
Proof. intros H. unfold toCsvCell. destruct (needs_quotes c) eqn:E; auto. apply needs_quotes_iff in E. contradiction. Qed.
Lemma cell_text_quoted c : has_break c -> toCsvCell c = 34 :: double_quotes c ++ [34].
Proof. intros H. unfold toCsvCell. apply needs_quotes_iff in H. rewrite H. auto. Qed.
Lemma break_suffix c x t : ~ has_break c -> c = x ++ t -> ~ has_break t.
Proof. intros N -> (p & u & -> & A). apply N. exists (x ++ p), u. rewrite app_assoc. auto. Qed.

(** Text after a cell: nothing, or a comma, or a line feed. *)
Definition after_cell (k : bytes) : Prop := k = [] \/ begins [44] k \/ begins [10] k.
Lemma after_head k : after_cell k -> k = [] \/ exists b t, k = b :: t /\ (b = 44 \/ b = 10).
Proof. intros [->|[[t ->]|[t ->]]]; auto; right; eexists _, t; split; try reflexivity; auto. Qed.
(** Decoding is not influenced by what ASCII byte follows. *)
Lemma char_conts r b u : utf8_char r (b :: u) -> Forall (fun x => 128 <= x) u.
Proof.
  intros H. destruct (char_bytes _ _ H) as (b' & t & E & F & _). inversion E; subst. eapply Forall_impl; [|exact F]. simpl. lia.
Qed.
Lemma next_change b c z r l : (forall u y, Forall (fun x => 128 <= x) u -> z = u ++ y -> exists y', c = u ++ y') ->
  (forall u y, Forall (fun x => 128 <= x) u -> c = u ++ y -> exists y', z = u ++ y') ->
  next_char (b :: c) r l -> next_char (b :: z) r l.
Proof.
  intros H1 H2 N. remember (b :: c) as s eqn:E. destruct N as [|r cs s Hc|b' s Hb].
  - discriminate.
  - destruct cs as [|b' u]; [apply char_len in Hc; simpl in Hc; lia|]. cbn [app] in E. injection E as -> E.
    destruct (H2 u s (char_conts _ _ _ Hc) (eq_sym E)) as (y & ->). apply (nc_char r (b :: u) y Hc).
  - injection E as -> ->. apply nc_bad. intros r cs y Hc E. destruct cs as [|b' u]; [apply char_len in Hc; simpl in Hc; lia|].
    cbn [app] in E. injection E as <- E. destruct (H1 u y (char_conts _ _ _ Hc) E) as (y' & ->). apply (Hb r (b :: u) y' Hc). auto.
Qed.
Lemma high_app c k u y : (k = [] \/ exists b t, k = b :: t /\ b < 128) -> Forall (fun x => 128 <= x) u -> c ++ k = u ++ y -> exists y', c = u ++ y'.
Proof.
  intros Hk. revert c. induction u as [|x u IH]; intros c F E; [exists c; auto|]. inversion F; subst. destruct c as [|b c].
  - destruct Hk as [->|(b & t & -> & Hb)]; [discriminate|]. cbn [app] in E. injection E as -> _. lia.
  - cbn [app] in E. injection E as -> E. destruct (IH c H2 E) as (y' & ->). exists y'. auto.
Qed.
Lemma next_app c k r l : c <> [] -> (k = [] \/ exists b t, k = b :: t /\ b < 128) -> next_char c r l -> next_char (c ++ k) r l.
Proof.
  intros Hc Hk. destruct c as [|b c]; [congruence|]. apply next_change.
  - intros u y F E. eapply high_app; eauto.
  - intros u y F ->. exists (y ++ k). rewrite app_assoc. auto.
Qed.
Lemma high_dq c k u y : (k = [] \/ exists b t, k = b :: t /\ b < 128) -> Forall (fun x => 128 <= x) u -> double_quotes c ++ k = u ++ y -> exists y', c = u ++ y'.
Proof.
  intros Hk. revert c. induction u as [|x u IH]; intros c F E; [exists c; auto|]. inversion F; subst. destruct c as [|b c].
  - destruct Hk as [->|(b & t & -> & Hb)]; [discriminate|]. cbn in E. injection E as -> _. lia.
  - cbn [double_quotes flat_map] in E. destruct (Z.eqb_spec b 34) as [->|Nb]; [cbn in E; injection E as <- _; lia|].
    cbn [app] in E. injection E as -> E. destruct (IH c H2 E) as (y' & ->). exists y'. auto.
Qed.
Lemma dq_app a b : double_quotes (a ++ b) = double_quotes a ++ double_quotes b.
Proof. apply flat_map_app. Qed.
Lemma dq_none u : ~ In 34 u -> double_quotes u = u.
Proof.
  induction u as [|b u IH]; intros H; auto. cbn [double_quotes flat_map]. destruct (Z.eqb_spec b 34) as [->|]; [exfalso; apply H; simpl; auto|].
  cbn [app]. f_equal. apply IH. intros K. apply H. simpl. auto.
Qed.
Lemma high_none u : Forall (fun x => 128 <= x) u -> ~ In 34 u.
Proof. intros F I. rewrite Forall_forall in F. specialize (F _ I). simpl in F. lia. Qed.
Lemma char_34 r cs : utf8_char r cs -> r <> 34 -> ~ In 34 cs.
Proof.
  intros H N I. destruct cs as [|b u]; [destruct I|]. destruct I as [->|I]; [|eapply high_none; [eapply char_conts; eauto|auto]].
  assert (H' : utf8_char 34 [34]) by (constructor; lia). destruct (char_inj r (34 :: u) [] 34 [34] u H H') as (E & _); [rewrite app_nil_r; auto|congruence].
Qed.
(** The bytes of the next character. *)
Lemma next_bytes s r l : next_char s r l -> r <> 34 -> (0 < l)%nat -> ~ In 34 (firstn l s) /\ (l <= length s)%nat.
Proof.
  intros N Nr Hl. destruct N as [|r cs s Hc|b s Hb]; [lia| |].
  - rewrite firstn_app, Nat.sub_diag, firstn_all. simpl. rewrite app_nil_r, app_length. split; [eapply char_34; eauto|lia].
  - simpl. split; [|lia]. intros [->|[]]. apply (Hb 34 [34] s); [constructor; lia|auto].
Qed.
Lemma next_34 s l : Forall is_byte s -> next_char s 34 l -> l = 1%nat /\ begins [34] s.
Proof.
  intros Hb N. inversion N; subst. inversion H; subst; try lia. split; auto. exists s0. auto.
Qed.
Lemma next_dq s k r l : next_char s r l -> (0 < l)%nat -> r <> 34 -> (k = [] \/ exists b t, k = b :: t /\ b < 128) ->
  double_quotes s = firstn l s ++ double_quotes (skipn l s) /\ next_char (double_quotes s ++ k) r l.
Proof.
  intros N Hl Nr Hk. destruct (next_bytes s r l N Nr Hl) as [H34 Hle].
  assert (E : double_quotes s = firstn l s ++ double_quotes (skipn l s)).
  { rewrite <- (firstn_skipn l s) at 1. rewrite dq_app, (dq_none _ H34). auto. }
  split; auto. destruct s as [|b c]; [simpl in Hle; lia|]. destruct l as [|l]; [lia|].
  assert (Nb : b <> 34) by (intros ->; apply H34; simpl; auto).
  assert (Eb : double_quotes (b :: c) = b :: double_quotes c) by (cbn [double_quotes flat_map]; destruct (Z.eqb_spec b 34); [contradiction|auto]).
  rewrite Eb. cbn [app]. eapply next_change; [| |exact N].
  - intros u y F Ez. eapply high_dq; eauto.
  - intros u y F ->. exists (double_quotes y ++ k). rewrite dq_app, (dq_none u (high_none u F)), <- app_assoc. auto.
Qed.

(** ** Reading a quoted cell back *)
Lemma inside_back c rs : chars c rs -> Forall is_byte c -> forall k, after_cell k ->
  exists d, utf8 (remove Z.eq_dec 34 rs) d /\ inside (double_quotes c ++ 34 :: k) (Some (d, k)).
Proof.
  induction 1 as [|s r l rs N Hl H IH]; intros Hb k Hk.
  - exists []. split; [constructor|]. cbn. apply in_close. destruct (after_head k Hk) as [->|(b & t & -> & Hbt)]; intros [u E]; inversion E. lia.
  - destruct (IH (Forall_skipn' _ _ _ Hb) k Hk) as (d & U & I). cbn [remove]. destruct (Z.eq_dec 34 r) as [<-|Nr].
    + destruct (next_34 s l Hb N) as [-> [t ->]]. cbn [skipn app] in I. exists d. split; auto. cbn. apply in_double. exact I.
    + assert (K : 34 :: k = [] \/ exists b t, 34 :: k = b :: t /\ b < 128) by (right; exists 34, k; split; auto; lia).
      destruct (next_dq s (34 :: k) r l N Hl ltac:(congruence) K) as [E N2]. destruct (next_bytes s r l N ltac:(congruence) Hl) as [H34 Hle].
      destruct (char_exists r (next_scalar _ _ _ N)) as (v & Hv). exists (v ++ d). split; [constructor; auto|].
      change (Some (v ++ d, k)) with (add (fun x => v ++ x) (Some (d, k))). eapply in_char; [| |exact I].
      * rewrite E. destruct (firstn l s) as [|b u] eqn:Ef; [apply (f_equal (@length Z)) in Ef; rewrite firstn_length in Ef; simpl in Ef; lia|].
        intros [t Et]. inversion Et; subst. apply H34. simpl. auto.
      * exists r, l. split; auto. split; auto. split; auto. rewrite E, <- app_assoc, skipn_app, firstn_length.
        replace (l - Nat.min l (length s))%nat with 0%nat by lia. rewrite (skipn_all2 (firstn l s)); [auto|rewrite firstn_length; lia].
Qed.
Lemma after_blanks k : after_cell k -> run_of blank_char k k.
Proof.
  intros Hk. apply ro_stop. intros w Hw [t E]. unfold blank_char in Hw. simpl in Hw.
  destruct (after_head k Hk) as [->|(b & u & -> & Hb)]; destruct Hw as [<-|[<-|[<-|[]]]]; inversion E; lia.
Qed.
Lemma after_no34 k : after_cell k -> ~ begins [34] k.
Proof. intros Hk [t E]. destruct (after_head k Hk) as [->|(b & u & -> & Hb)]; inversion E. lia. Qed.
Lemma quoted_back c rs k : has_break c -> chars c rs -> Forall is_byte c -> after_cell k ->
  exists d, utf8 (remove Z.eq_dec 34 rs) d /\ read_cell (toCsvCell c ++ k) (Some (d, k)).
Proof.
  intros Hbr H Hb Hk. rewrite (cell_text_quoted c Hbr). destruct (inside_back c rs H Hb k Hk) as (d & U & I). exists d. split; auto.
  constructor. replace ((34 :: double_quotes c ++ [34]) ++ k) with (34 :: double_quotes c ++ 34 :: k) by (cbn; rewrite <- app_assoc; auto).
  eapply q_last; [|exact I|apply after_blanks; auto|apply after_no34; auto].
  apply ro_stop. intros w Hw [t E]. unfold blank_char in Hw. simpl in Hw. destruct Hw as [<-|[<-|[<-|[]]]]; inversion E.
Qed.

(** ** Reading an unquoted cell back *)
Lemma no_break_app c k : ~ has_break c -> c <> [] -> after_cell k -> ~ at_break (c ++ k).
Proof.
  intros N Hc Hk (w & Hw & t & E). destruct (le_lt_dec (length w) (length c)) as [L|L].
  - destruct (prefix_split w t c k (eq_sym E) L) as (e & -> & _). apply N. exists [], (w ++ e). split; auto. exists w. split; auto. exists e. auto.
  - destruct c as [|b c]; [congruence|]. unfold break_char, line_break in Hw. simpl in Hw.
    destruct Hw as [->|[<-|[<-|[<-|[<-|[<-|[]]]]]]]; cbn [length] in L; try lia.
    destruct c as [|? c]; [|simpl in L; lia]. cbn [app] in E. injection E as _ E.
    destruct (after_head k Hk) as [->|(b' & u & -> & Hb)]; [discriminate|]. injection E as -> _. lia.
Qed.
Lemma after_stop k : after_cell k -> k = [] \/ at_break k.
Proof.
  intros [->|[H|H]]; auto; right; [exists [44]|exists [10]]; (split; [unfold break_char, line_break; simpl; auto|auto]).
Qed.
Lemma after_low k : after_cell k -> k = [] \/ exists b t, k = b :: t /\ b < 128.
Proof. intros H. destruct (after_head k H) as [->|(b & t & -> & Hb)]; auto. right. exists b, t. split; auto. lia. Qed.
Lemma next_nonempty s r l : next_char s r l -> (0 < l)%nat -> s <> [].
Proof. intros N Hl ->. inversion N; subst; [lia|]. destruct cs; [apply char_len in H0; simpl in H0; lia|discriminate]. Qed.
Lemma next_le s r l : next_char s r l -> (l <= length s)%nat.
Proof. intros N. destruct N; simpl; rewrite ?app_length; lia. Qed.
Lemma skipn_le_app {A} l (s k : list A) : (l <= length s)%nat -> skipn l (s ++ k) = skipn l s ++ k.
Proof. intros H. rewrite skipn_app. replace (l - length s)%nat with 0%nat by lia. auto. Qed.
Lemma unquoted_back c rs : chars c rs -> ~ has_break c -> forall k, after_cell k -> exists x, utf8 rs x /\ unquoted (c ++ k) x k.
Proof.
  induction 1 as [|s r l rs N Hl H IH]; intros Nb k Hk.
  - exists []. split; [constructor|]. apply uq_stop. apply after_stop. auto.
  - assert (Nb' : ~ has_break (skipn l s)) by (eapply break_suffix; [exact Nb|symmetry; apply firstn_skipn]).
    destruct (IH Nb' k Hk) as (x & U & I). destruct (char_exists r (next_scalar _ _ _ N)) as (v & Hv).
    exists (v ++ x). split; [constructor; auto|]. pose proof (next_nonempty _ _ _ N Hl) as Hs.
    eapply uq_char; [apply no_break_app; auto| |exact I]. exists r, l. split; [apply next_app; auto using after_low|].
    split; auto. split; auto. symmetry. apply skipn_le_app. eapply next_le; eauto.
Qed.
Lemma run_app P c t k : run_of P c t -> run_of P (t ++ k) (t ++ k) -> run_of P (c ++ k) (t ++ k).
Proof. induction 1 as [s N|w s t Hw H IH]; intros K; auto. rewrite <- app_assoc. apply ro_more; auto. Qed.
Lemma run_stops P s : run_of P s s -> ~ P [] -> forall w, P w -> ~ begins w s.
Proof.
  intros H N. remember s as t eqn:E in H at 2. destruct H as [s M|w s t Hw H]; auto. exfalso.
  assert (length t <= length s)%nat by (clear - H; induction H; rewrite ?app_length; lia).
  apply (f_equal (@length Z)) in E. rewrite app_length in E. destruct w; [contradiction|simpl in E; lia].
Qed.
Lemma blank_app t k : run_of blank_char t t -> after_cell k -> run_of blank_char (t ++ k) (t ++ k).
Proof.
  intros H Hk. destruct t as [|b t]; [apply after_blanks; auto|].
  pose proof (run_stops _ _ H ltac:(unfold blank_char; simpl; intuition discriminate)) as M.
  apply ro_stop. intros w Hw [u E]. destruct (le_lt_dec (length w) (length (b :: t))) as [L|L].
  - destruct (prefix_split w u (b :: t) k (eq_sym E) L) as (e & Ee & _). apply (M w Hw). exists e. auto.
  - unfold blank_char in Hw. simpl in Hw. destruct Hw as [<-|[<-|[<-|[]]]]; cbn [length] in L; try lia.
    destruct t as [|? t]; [|simpl in L; lia]. cbn [app] in E. injection E as _ E.
    destruct (after_head k Hk) as [->|(b' & v & -> & Hb)]; [discriminate|]. injection E as -> _. lia.
Qed.
Lemma plain_back c rs k : ~ has_break c -> readable c -> chars c rs -> after_cell k ->
  exists x d, utf8 rs x /\ trimmed x d /\ read_cell (toCsvCell c ++ k) (Some (d, k)).
Proof.
  intros Nb [T|(t & B & N)] H Hk; [contradiction|]. rewrite (cell_text_plain c Nb). destruct (unquoted_back c rs H Nb k Hk) as (x & U & Un).
  exists x, (trim_both x). split; auto. assert (Tr : trimmed x (trim_both x)) by (apply trim_both_ok; eapply unquoted_bytes; eauto).
  split; auto. eapply rc_plain; [apply (run_app _ _ _ k B); apply blank_app; auto; eapply run_of_max; eauto| |exact Un|exact Tr].
  destruct t as [|b t]; [apply after_no34; auto|]. intros [u E]. cbn [app] in E. inversion E; subst. apply N. exists t. auto.
Qed.
Lemma chars_total : forall n s, (length s < n)%nat -> Forall is_byte s -> exists rs, chars s rs.
Proof.
  induction n as [|n IH]; intros s L Hb; [lia|]. destruct s as [|b s]; [exists []; constructor|].
  destruct (decode_rune (b :: s)) as [r l] eqn:E. pose proof (decode_next _ r l Hb E) as N.
  assert (Hl : l <> 0%nat) by (intros ->; assert (K : snd (decode_rune (b :: s)) = 0%nat) by (rewrite E; auto); apply decode_zero in K; discriminate).
  destruct (IH (skipn l (b :: s)) ltac:(rewrite skipn_length; simpl length in *; lia) (Forall_skipn' _ _ _ Hb)) as (rs & H).
  exists (r :: rs). eapply ch_more; eauto. lia.
Qed.
Lemma cell_back c k : Forall is_byte c -> readable c -> after_cell k -> exists d, comes_back c d /\ read_cell (toCsvCell c ++ k) (Some (d, k)).
Proof.
  intros Hb T Hk. destruct (chars_total (S (length c)) c ltac:(lia) Hb) as (rs & H). destruct (has_break_dec c) as [B|N].
  - destruct (quoted_back c rs k B H Hb Hk) as (d & U & R). exists d. split; auto. eapply cb_quoted; eauto.
  - destruct (plain_back c rs k N T H Hk) as (x & d & U & Tr & R). exists d. split; auto. eapply cb_plain; eauto.
Qed.

(** ** Rows *)
Definition after_row (k : bytes) : Prop := k = [] \/ begins [10] k.
Lemma row_cells r : r <> [] -> Forall (Forall is_byte) r -> Forall readable r -> forall k, after_row k ->
  exists r', Forall2 comes_back r r' /\ read_row (toCsvRow r ++ k) (Some (r', k)).
Proof.
  unfold toCsvRow. induction r as [|c r IH]; intros Hn Hb Ht k Hk; [congruence|]. inversion Hb; inversion Ht; subst. destruct r as [|c2 r].
  - destruct (cell_back c k H1 H5 ltac:(destruct Hk; unfold after_cell; auto)) as (d & C & R). exists [d]. split; [constructor; auto|].
    cbn [toCsvRow_from app]. rewrite app_nil_r. apply rr_last; auto. destruct Hk as [->|[t ->]]; intros [u E]; inversion E.
  - destruct (IH ltac:(discriminate) H2 H6 k Hk) as (r' & F & R).
    cbn [toCsvRow_from app] in R |- *.
    destruct (cell_back c (44 :: (toCsvCell c2 ++ toCsvRow_from false r) ++ k) H1 H5) as (d & C & Rc).
    { right. left. eexists. reflexivity. }
    exists (d :: r'). split; [constructor; auto|]. change (Some (d :: r', k)) with (add (cons d) (Some (r', k))).
    eapply rr_more; [|exact R]. rewrite <- app_assoc. exact Rc.
Qed.
Lemma empty_cell k : after_cell k -> read_cell k (Some ([], k)).
Proof.
  intros Hk. eapply rc_plain; [apply after_blanks; auto|apply after_no34; auto|apply uq_stop, after_stop; auto|].
  assert (K : forall r cs (t : bytes), utf8_char r cs -> [] = cs ++ t -> False).
  { intros r cs t Hc E. symmetry in E. eapply char_not_nil; eauto. }
  exists [], []. split; auto. split; [exists []; split; constructor|]. split; [exists []; split; constructor|].
  split; intros (r & cs & t & _ & Hc & E); [eapply K; eauto|]. symmetry in E. apply app_eq_nil in E. destruct E as [_ ->]. apply char_len in Hc. simpl in Hc. lia.
Qed.
Lemma row_any r : Forall (Forall is_byte) r -> Forall readable r -> forall k, after_row k ->
  exists r', row_back r r' /\ read_row (toCsvRow r ++ k) (Some (r', k)).
Proof.
  intros Hb Ht k Hk. destruct r as [|c r].
  - exists [[]]. split; [constructor|]. cbn. apply rr_last; [apply empty_cell; destruct Hk; unfold after_cell; auto|].
    destruct Hk as [->|[t ->]]; intros [u E]; inversion E.
  - destruct (row_cells (c :: r) ltac:(discriminate) Hb Ht k Hk) as (r' & F & R). exists r'. split; auto. constructor; auto. discriminate.
Qed.
Lemma textless_text r : textless r -> toCsvRow r = [].
Proof. intros [->| ->]; reflexivity. Qed.
Lemma textless_dec r : {textless r} + {~ textless r}.
Proof.
  destruct (blank_row r) eqn:E; [left; apply blank_row_iff; auto|right; rewrite <- blank_row_iff; congruence].
Defined.
Lemma row_no_break r k : ~ textless r -> after_row k -> forall w, line_break w -> ~ begins w (toCsvRow r ++ k).
Proof.
  intros Nt Hk w Hw. destruct r as [|c r]; [exfalso; apply Nt; left; auto|]. unfold toCsvRow. cbn [toCsvRow_from app].
  assert (D : forall s, begins w s -> at_line_break s) by (intros s B; exists w; auto). rewrite <- app_assoc.
  destruct (has_break_dec c) as [B|N].
  { rewrite (cell_text_quoted c B). cbn [app]. intros [t E]. unfold line_break in Hw. simpl in Hw. destruct Hw as [<-|[<-|[<-|[<-|[<-|[]]]]]]; inversion E. }
  rewrite (cell_text_plain c N). destruct c as [|b c].
  - destruct r as [|c2 r]; [exfalso; apply Nt; right; auto|]. cbn [toCsvRow_from app]. intros [t E].
    unfold line_break in Hw. simpl in Hw. destruct Hw as [<-|[<-|[<-|[<-|[<-|[]]]]]]; inversion E.
  - intros B. eapply (no_break_app (b :: c)); [exact N|discriminate| |exists w; split; [right; exact Hw|exact B]].
    destruct r as [|c2 r]; [destruct Hk; unfold after_cell; auto|]. right. left. cbn [toCsvRow_from app]. eexists. reflexivity.
Qed.
Lemma split_blank (rs : list (list bytes)) : exists bl rest, rs = bl ++ rest /\ Forall textless bl /\ (rest = [] \/ exists r rs2, rest = r :: rs2 /\ ~ textless r).
Proof.
  induction rs as [|r rs (bl & rest & -> & F & H)]; [exists [], []; auto|]. destruct (textless_dec r) as [T|N].
  - exists (r :: bl), rest. auto.
  - exists [], (r :: bl ++ rest). split; auto. split; auto. right. eauto.
Qed.
Lemma blank_text bl rest : Forall textless bl -> ToCsv_from false (bl ++ rest) = repeat 10 (length bl) ++ ToCsv_from false rest.
Proof. induction 1 as [|r bl T F IH]; auto. cbn [app ToCsv_from length repeat]. rewrite (textless_text r T), IH. auto. Qed.
Lemma blank_run n s : (forall w, line_break w -> ~ begins w s) -> run_of line_break (repeat 10 n ++ s) s.
Proof.
  intros H. induction n as [|n IH]; [apply ro_stop; auto|]. change (repeat 10 (S n) ++ s) with ([10] ++ (repeat 10 n ++ s)).
  apply ro_more; auto. unfold line_break. simpl. auto.
Qed.
Lemma later_skip bl rest out : Forall textless bl -> later_back rest out -> later_back (bl ++ rest) out.
Proof. induction 1; auto. intros H'. simpl. apply lb_skip; auto. Qed.
Lemma from_after rs : after_row (ToCsv_from false rs).
Proof. destruct rs as [|r rs]; [left; auto|]. right. cbn [ToCsv_from app]. eexists. reflexivity. Qed.
Lemma line_break_nil w : line_break w -> ~ begins w [].
Proof. intros H [t E]. unfold line_break in H. simpl in H. destruct H as [<-|[<-|[<-|[<-|[<-|[]]]]]]; discriminate. Qed.
Lemma rows_back : forall n (rs : list (list bytes)) r, (length rs < n)%nat -> Forall (Forall (Forall is_byte)) (r :: rs) -> Forall (Forall readable) (r :: rs) ->
  exists r' out tl, row_back r r' /\ later_back rs out /\ Forall textless tl /\
    read_rows (toCsvRow r ++ ToCsv_from false rs) (Table (r' :: out ++ tl)).
Proof.
  induction n as [|n IH]; intros rs r L Hb Ht; [lia|]. inversion Hb as [|? ? Hb1 Hb2]; inversion Ht as [|? ? Ht1 Ht2]; subst.
  destruct (row_any r Hb1 Ht1 _ (from_after rs)) as (r' & B & R). destruct (split_blank rs) as (bl & rest & -> & F & H).
  rewrite (blank_text bl rest F) in R |- *. destruct H as [->|(r2 & rs2 & -> & N2)].
  - cbn [ToCsv_from] in R |- *. destruct bl as [|b bl].
    + exists r', [], []. repeat split; auto; [constructor|]. apply rt_last. exact R.
    + exists r', [], [[[]]]. split; auto. split; [apply later_skip; auto; constructor|]. split; [constructor; [right; auto|auto]|].
      change (Table (r' :: [] ++ [[[]]])) with (on_table (cons r') (Table [[[]]])).
      eapply rt_more; [exact R| |apply blank_run; intros w Hw; apply line_break_nil; auto|].
      * exists [10]. split; [unfold line_break; simpl; auto|]. eexists. reflexivity.
      * apply rt_last. apply rr_last; [apply empty_cell; left; auto|intros [u E]; inversion E].
  - apply Forall_app in Hb2. destruct Hb2 as [_ Hb2]. apply Forall_app in Ht2. destruct Ht2 as [_ Ht2]. rewrite app_length in L. simpl in L.
    destruct (IH rs2 r2 ltac:(lia) Hb2 Ht2) as (r2' & out & tl & B2 & Lb & Ft & R2).
    exists r', (r2' :: out), tl. split; auto. split; [apply later_skip; auto; apply lb_keep; auto|]. split; auto.
    change (Table (r' :: (r2' :: out) ++ tl)) with (on_table (cons r') (Table (r2' :: out ++ tl))).
    assert (E : repeat 10 (length bl) ++ ToCsv_from false (r2 :: rs2) = repeat 10 (S (length bl)) ++ toCsvRow r2 ++ ToCsv_from false rs2).
    { cbn [ToCsv_from repeat]. rewrite repeat_cons, <- app_assoc. auto. }
    rewrite E in R |- *.
    eapply rt_more; [exact R| |apply blank_run; apply row_no_break; auto using from_after|exact R2].
    exists [10]. split; [unfold line_break; simpl; auto|]. eexists. reflexivity.
Qed.
Lemma without_tail_app l tl kept : Forall textless tl -> (without_tail (l ++ tl) kept <-> without_tail l kept).
Proof.
  intros F. split.
  - intros H. assert (without_tail l (drop_blank_tail (length l) l)) as W by (apply drop_tail_spec; auto).
    enough (kept = drop_blank_tail (length l) l) by (subst; auto). eapply without_tail_func; [exact H|].
    destruct W as (t & E & Ft & M). exists (t ++ tl). split; [rewrite app_assoc, <- E; auto|]. split; auto. apply Forall_app. auto.
  - intros (t & E & Ft & M). exists (t ++ tl). split; [rewrite app_assoc, <- E; auto|]. split; auto. apply Forall_app. auto.
Qed.
Lemma table_comes_back (rows : list (list bytes)) : Forall (Forall (Forall is_byte)) rows -> Forall (Forall readable) rows ->
  exists kept, table_back rows kept /\ read_csv (ToCsv rows) (Table kept).
Proof.
  intros Hb Ht. destruct rows as [|r rs].
  - exists []. split; [constructor|]. cbn. apply rd_table with (rows := [[[]]]).
    + apply rt_last. apply rr_last; [apply empty_cell; left; auto|intros [u E]; inversion E].
    + exists [[[]]]. split; auto. split; [constructor; [right; auto|constructor]|]. intros l x E. destruct l; discriminate.
  - destruct (rows_back (S (length rs)) rs r ltac:(lia) Hb Ht) as (r' & out & tl & B & Lb & F & R).
    exists (drop_blank_tail (length (r' :: out)) (r' :: out)). pose proof (drop_tail_spec _ (r' :: out) eq_refl) as W.
    split; [eapply tb_rows; eauto|]. unfold ToCsv. cbn [ToCsv_from]. eapply rd_table; [exact R|].
    change (r' :: out ++ tl) with ((r' :: out) ++ tl). apply without_tail_app; auto.
Qed.

(** ** Which tables survive *)
Lemma utf8_chars rs s : utf8 rs s -> chars s rs.
Proof.
  induction 1 as [|r cs rs s Hc H IH]; [constructor|]. apply ch_more with (l := length cs).
  - apply nc_char. auto.
  - apply char_len in Hc. lia.
  - rewrite skipn_app, skipn_all, Nat.sub_diag. exact IH.
Qed.
Lemma utf8_func rs s s' : utf8 rs s -> utf8 rs s' -> s = s'.
Proof.
  intros H. revert s'. induction H as [|r cs rs s Hc H IH]; intros s' H'; inversion H'; subst; auto.
  f_equal; [rewrite <- (encode_char _ _ Hc); apply encode_char; auto|auto].
Qed.
Lemma chars_valid rs rs' s : chars s rs -> utf8 rs' s -> rs = rs'.
Proof. intros H U. eapply chars_func; eauto using utf8_chars. apply valid_byte. exists rs'. auto. Qed.
Lemma remove_same x l : remove Z.eq_dec x l = l -> ~ In x l.
Proof. intros E H. rewrite <- E in H. eapply remove_In; eauto. Qed.
Lemma utf8_no34 rs s : utf8 rs s -> ~ In 34 rs -> ~ In 34 s.
Proof.
  induction 1 as [|r cs rs s Hc H IH]; intros N; auto. rewrite in_app_iff. intros [I|I].
  - eapply char_34; eauto. intros ->. apply N. simpl. auto.
  - apply IH; auto. intros K. apply N. simpl. auto.
Qed.
Lemma utf8_34 rs s : utf8 rs s -> ~ In 34 s -> ~ In 34 rs.
Proof.
  induction 1 as [|r cs rs s Hc H IH]; intros N; auto. rewrite in_app_iff in N. intros [->|I]; [|apply IH; auto].
  apply N. left. rewrite <- (encode_char _ _ Hc). simpl. auto.
Qed.
(** Spaces at the end of well-formed text leave well-formed text. *)
Lemma space_lead q b t : spaces q -> q = b :: t -> ~ (128 <= b < 192).
Proof.
  intros (rs & U & F) ->. inversion U as [|r cs rs' s Hc H]; subst. inversion F; subst.
  pose proof (space_bytes r cs H3 Hc) as I. destruct cs as [|x cs]; [apply char_len in Hc; simpl in Hc; lia|]. cbn [app] in H1. injection H1 as -> _.
  simpl in I. repeat (destruct I as [I|I]; [injection I as <- _; lia|]). destruct I.
Qed.
Lemma valid_before rs s : utf8 rs s -> forall c q, s = c ++ q -> spaces q -> valid_text c.
Proof.
  induction 1 as [|r cs rs s Hc H IH]; intros c q E Q.
  - symmetry in E. apply app_eq_nil in E. destruct E as [-> _]. exists []. constructor.
  - destruct (le_lt_dec (length cs) (length c)) as [L|L].
    + destruct (prefix_split cs s c q E L) as (e & -> & ->). apply valid_app; [eapply valid_char; eauto|eapply IH; eauto].
    + destruct (prefix_split c q cs s (eq_sym E) ltac:(lia)) as (e & -> & ->). destruct c as [|b c]; [exists []; constructor|]. exfalso.
      destruct e as [|x e]; [rewrite app_nil_r in L; lia|]. destruct (char_bytes _ _ Hc) as (b' & t & Et & F & _).
      cbn [app] in Et. injection Et as <- <-. apply Forall_app in F. destruct F as [_ F]. inversion F; subst. apply (space_lead _ x (e ++ s) Q eq_refl). auto.
Qed.
Lemma trimmed_valid x c : valid_text x -> trimmed x c -> valid_text c.
Proof.
  intros V (p & q & -> & (rp & Up & _) & Q & _). assert (Vp : valid_text p) by (exists rp; auto). destruct (valid_cancel _ _ Vp V) as (rs & U). eapply valid_before; eauto.
Qed.

Lemma blank_space w : blank_char w -> exists r, space r /\ utf8_char r w.
Proof.
  intros [<-|[<-|[<-|[]]]]; [exists 9|exists 32|exists 160]; (split; [unfold space; simpl; auto 12|]); try (apply u_1; lia).
  apply (u_2 2 32); lia.
Qed.
Lemma blanks_none c : ~ starts_with_space c -> run_of blank_char c c.
Proof. intros N. apply ro_stop. intros w Hw [t ->]. apply N. destruct (blank_space w Hw) as (r & Hr & Hc). exists r, w, t. auto. Qed.
Lemma blank_func s t t' : run_of blank_char s t -> run_of blank_char s t' -> t = t'.
Proof.
  intros H. revert t'. induction H as [s N|w s t Hw H IH]; intros t' H'.
  - destruct H' as [s M|w s t Hw H']; auto. exfalso. apply (N w Hw). exists s. auto.
  - remember (w ++ s) as z eqn:E. destruct H' as [z M|w' s' t' Hw' H'].
    + exfalso. apply (M w Hw). exists s. auto.
    + apply IH. destruct (blank_space w Hw) as (r & _ & Hc). destruct (blank_space w' Hw') as (r' & _ & Hc').
      destruct (char_inj _ _ _ _ _ _ Hc' Hc E) as (_ & _ & ->). auto.
Qed.
Lemma next_valid s r l : next_char s r l -> (0 < l)%nat -> r <> 65533 -> exists cs, utf8_char r cs /\ s = cs ++ skipn l s /\ l = length cs.
Proof.
  intros N Hl Nr. destruct N as [|r cs s Hc|b s Hb]; [lia| |congruence]. exists cs. split; auto. split; auto.
  rewrite skipn_app, skipn_all, Nat.sub_diag. auto.
Qed.
Lemma take_same s v t r : take_char s v t -> utf8_char r v -> r <> 65533 -> s = v ++ t.
Proof.
  intros (r' & l & N & Hl & Hv & ->) Hr Nr. assert (r = r').
  { destruct (char_inj r v [] r' v [] Hr Hv eq_refl) as (-> & _). auto. }
  subst r'. destruct (next_valid s r l N Hl Nr) as (cs & Hc & E & _). rewrite E at 1. f_equal.
  rewrite <- (encode_char _ _ Hc). apply encode_char. auto.
Qed.
Lemma unquoted_start s x t : unquoted s x t -> forall p y, x = p ++ 34 :: y -> spaces p -> exists z, run_of blank_char s (34 :: z).
Proof.
  assert (H34 : utf8_char 34 [34]) by (apply u_1; lia).
  induction 1 as [s St|s v t x t1 Nb Tk H IH]; intros p y E P; [destruct p; discriminate|].
  destruct P as (rp & U & F). destruct Tk as (r & l & N & Hl & Hv & Et). inversion U as [|rq cq rp' p' Hq U']; subst rp.
  - subst p. cbn [app] in E. change (34 :: y) with ([34] ++ y) in E. destruct (char_inj _ _ _ _ _ _ Hv H34 E) as (-> & -> & ->).
    assert (Es : s = [34] ++ t) by (eapply take_same; [|exact H34|lia]; exists 34, l; auto). subst s. exists t. apply ro_stop.
    intros w [<-|[<-|[<-|[]]]] [u Eu]; inversion Eu.
  - subst p. rewrite <- app_assoc in E. destruct (char_inj _ _ _ _ _ _ Hv Hq E) as (-> & -> & ->). inversion F; subst.
    destruct (IH p' y eq_refl ltac:(exists rp'; auto)) as (z & R). exists z.
    assert (Es : s = cq ++ skipn l s). { eapply take_same; [exists rq, l; eauto|exact Hq|]. intros ->. unfold space in H2. simpl in H2. lia. }
    rewrite Es. apply ro_more; auto. pose proof (space_bytes _ _ H2 Hq) as I. simpl in I.
    destruct (one_of_dec [[9]; [32]; [194; 160]] cq) as [(w & Hw & _)|No].
    + unfold blank_char. simpl. repeat (destruct I as [I|I]; [try (subst cq; auto; fail);
        exfalso; apply Nb; rewrite Es, <- I; eexists; (split; [|eexists; reflexivity]); unfold break_char, line_break; simpl; auto 12|]). destruct I.
    + unfold blank_char. simpl. repeat (destruct I as [I|I]; [try (subst cq; auto; fail);
        exfalso; apply Nb; rewrite Es, <- I; eexists; (split; [|eexists; reflexivity]); unfold break_char, line_break; simpl; auto 12|]). destruct I.
Qed.
Lemma unquoted_valid s x t : unquoted s x t -> valid_text x.
Proof. induction 1 as [|s v t x t1 Nb (r & l & N & Hl & Hv & Et) H IH]; [exists []; constructor|]. apply valid_app; auto. eapply valid_char; eauto. Qed.
Definition no_quote (a : answer bytes) : Prop := match a with Some (o, _) => ~ In 34 o | None => True end.
Lemma inside_no34 s a : inside s a -> no_quote a.
Proof.
  induction 1 as [|t a H IH|t N|s v t a N (r & l & Nx & Hl & Hv & Et) H IH]; simpl; auto. destruct a as [[o t']|]; simpl in *; auto.
  rewrite in_app_iff. intros [I|I]; auto. destruct (Z.eq_dec r 34) as [->|Nr]; [|eapply char_34; eauto].
  assert (H34 : utf8_char 34 [34]) by (apply u_1; lia). apply N. exists t. eapply take_same; [|exact H34|lia]. exists 34, l. auto.
Qed.
Lemma quoted_no34 s a : quoted s a -> no_quote a.
Proof.
  induction 1 as [|s t o t1 t2 R I R2 N|s t o t1 t2 a R I R2 H IH]; simpl; auto; apply inside_no34 in I; simpl in I; auto.
  destruct a as [[x u]|]; simpl in *; auto. rewrite in_app_iff. tauto.
Qed.
Lemma run_suffix P s t : run_of P s t -> suffix t s.
Proof. induction 1 as [|w s t Hw H [q ->]]; [exists []; auto|]. exists (w ++ q). rewrite app_assoc. auto. Qed.
Lemma cell_readable s c t : read_cell s (Some (c, t)) -> readable c.
Proof.
  intros H. right. inversion H as [? ? Q|? t' x ? ? R N U T]; subst.
  - destruct (blanks_total c) as (z & R & _). exists z. split; auto. apply quoted_no34 in Q. simpl in Q. intros [u ->].
    apply Q. destruct (run_suffix _ _ _ R) as (p & ->). rewrite in_app_iff. right. simpl. auto.
  - destruct T as (p & q & Ex & P & Q & Ns & _). exists c. split; [apply blanks_none; auto|]. intros [u ->].
    destruct (unquoted_start _ _ _ U p (u ++ q)) as (z & Rz); [cbn [app] in Ex; auto|auto|]. rewrite (blank_func _ _ _ R Rz) in N. apply N. exists z. auto.
Qed.
Definition row_ok (a : answer (list bytes)) : Prop := match a with Some (r, _) => Forall readable r | None => True end.
Lemma row_readable s a : read_row s a -> row_ok a.
Proof.
  induction 1 as [|s c t H N|s c t a H R IH]; simpl; auto; apply cell_readable in H; auto. destruct a as [[r u]|]; simpl in *; auto.
Qed.
Definition rows_ok (a : table) : Prop := match a with Table rows => Forall (Forall readable) rows | _ => True end.
Lemma rows_readable s a : read_rows s a -> rows_ok a.
Proof.
  induction 1 as [|s r H|s r t H|s r t t1 a H B R Rs IH]; simpl; auto; apply row_readable in H; simpl in H; auto. destruct a; simpl in *; auto.
Qed.
Lemma csv_readable s rows : read_csv s (Table rows) -> Forall (Forall readable) rows.
Proof.
  intros H. inversion H as [? ? ? R (tl & -> & _)| |]; subst. apply rows_readable in R. simpl in R. apply Forall_app in R. tauto.
Qed.

Lemma cell_survives c : comes_back c c -> readable c -> safe_cell c.
Proof.
  intros H [B|(t & R & N)].
  - inversion H as [? rs ? B' Hc U|? rs x ? NB]; subst; [|contradiction]. split; [eexists; eauto|]. left. split; auto.
    eapply utf8_no34; [exact U|]. apply remove_In.
  - remember c as d eqn:E in H at 2. destruct H as [c rs d B' Hc U|c rs x d NB Hc U T]; subst d.
    + split; [eexists; eauto|]. left. split; auto. eapply utf8_no34; [exact U|]. apply remove_In.
    + assert (V : valid_text c) by (eapply trimmed_valid; [|exact T]; eexists; eauto). split; auto. right. split; auto.
      destruct V as (rs' & U'). rewrite (chars_valid _ _ _ Hc U') in U. rewrite (utf8_func _ _ _ U U') in T. split; auto.
      intros [u ->]. apply N. assert (R' : run_of blank_char ([34] ++ u) ([34] ++ u)).
      { apply ro_stop. intros w [<-|[<-|[<-|[]]]] [z Ez]; inversion Ez. }
      rewrite (blank_func _ _ _ R R'). exists u. auto.
Qed.
Lemma safe_same c d : safe_cell c -> comes_back c d -> d = c.
Proof.
  intros ((rs' & U') & S') H. destruct H as [c rs d B' Hc U|c rs x d NB Hc U T].
  - destruct S' as [[_ N]|[N _]]; [|contradiction]. rewrite (chars_valid _ _ _ Hc U') in U.
    rewrite notin_remove in U by (eapply utf8_34; eauto). eapply utf8_func; eauto.
  - destruct S' as [[B _]|(_ & T' & _)]; [contradiction|]. rewrite (chars_valid _ _ _ Hc U') in U. rewrite (utf8_func _ _ _ U U') in T. eapply trimmed_func; eauto.
Qed.
Lemma safe_readable c : safe_cell c -> readable c.
Proof.
  intros (_ & [[B _]|(_ & T & N)]); [left; auto|right]. exists c. split; auto. destruct T as (p & q & _ & _ & _ & Ns & _). apply blanks_none. auto.
Qed.
Lemma later_len rs out : later_back rs out -> (length out <= length rs)%nat.
Proof. induction 1; simpl in *; lia. Qed.
Lemma later_all rs out : later_back rs out -> length out = length rs -> Forall2 (fun r r' => ~ textless r /\ row_back r r') rs out.
Proof.
  induction 1 as [|r rs out T H IH|r rs r' out N B H IH]; intros L; auto.
  apply later_len in H. simpl in L. lia.
Qed.
Lemma forall2_same {A} (P : A -> A -> Prop) l : Forall2 P l l -> Forall (fun x => P x x) l.
Proof. induction l as [|x l IH]; intros H; auto. inversion H; subst. auto. Qed.
Lemma row_survives r : row_back r r -> Forall readable r -> r <> [] /\ Forall safe_cell r.
Proof.
  intros H R. inversion H as [|r1 r2 N F]; subst. split; auto. apply forall2_same in F. rewrite Forall_forall in *. intros c I. apply cell_survives; auto.
Qed.
Lemma table_survives (rows : list (list bytes)) : table_back rows rows -> Forall (Forall readable) rows -> safe_table rows.
Proof.
  intros H R. inversion H as [|r rs r' out kept B L W]; subst; [split; auto|]. destruct W as (tl & E & F & M).
  cbn [app] in E. injection E as -> E. pose proof (later_len _ _ L) as Le.
  assert (tl = []) as -> by (apply (f_equal (@length (list bytes))) in E; rewrite app_length in E; destruct tl; auto; simpl in E; lia).
  rewrite app_nil_r in E. subst out. apply later_all in L; auto. apply forall2_same in L. inversion R; subst. split.
  - constructor; [apply row_survives; auto|]. rewrite Forall_forall in *. intros x I. destruct (L x I). apply row_survives; auto.
  - split; [eapply Forall_impl; [|exact L]; simpl; intros x [N _] ->; apply N; right; auto|].
    intros -> ->. apply (M [] [[]] eq_refl). right. auto.
Qed.
Lemma safe_row r r' : r <> [] -> Forall safe_cell r -> row_back r r' -> r' = r.
Proof.
  intros N F H. inversion H as [|r1 r2 _ F2]; subst; [congruence|]. clear N H. induction F2; auto. inversion F; subst. f_equal; [apply safe_same|]; auto.
Qed.
Lemma safe_later rs out : Forall (fun r => r <> [] /\ Forall safe_cell r) rs -> Forall (fun x => x <> [[]]) rs -> later_back rs out -> out = rs.
Proof.
  intros F1 F2 H. induction H as [|r rs out T H IH|r rs r' out N B H IH]; auto; inversion F1 as [|? ? [A1 A2] A3]; inversion F2; subst.
  - destruct T; contradiction.
  - f_equal; [apply safe_row; auto|auto].
Qed.
Lemma safe_table_same rows kept : safe_table rows -> table_back rows kept -> kept = rows.
Proof.
  intros [F M] H. inversion H as [|r rs r' out k B L W]; subst; auto. inversion F as [|? ? [A1 A2] A3]; subst. destruct M as [M1 M2].
  rewrite (safe_row r r' A1 A2 B), (safe_later rs out A3 M1 L) in W. eapply without_tail_func; [exact W|].
  exists []. split; [rewrite app_nil_r; auto|]. split; auto. intros l x E. destruct l as [|y l].
  - injection E as -> ->. intros [->| ->]; [congruence|]. apply M2; auto.
  - cbn [app] in E. injection E as -> ->. apply Forall_app in A3. destruct A3 as [_ A3]. apply Forall_app in M1. destruct M1 as [_ M1].
    inversion A3 as [|? ? [K1 K2] K3]; inversion M1; subst. intros [->| ->]; congruence.
Qed.

(** ** Parse after ToCsv *)
Lemma dq_bytes c : Forall is_byte c -> Forall is_byte (double_quotes c).
Proof.
  induction 1 as [|b c Hb H IH]; [constructor|]. cbn [double_quotes flat_map]. destruct (b =? 34); cbn [app]; repeat (constructor; [unfold is_byte in *; lia|]); exact IH.
Qed.
Lemma cell_bytes c : Forall is_byte c -> Forall is_byte (toCsvCell c).
Proof.
  intros H. unfold toCsvCell. destruct (needs_quotes c); auto. constructor; [unfold is_byte; lia|]. apply Forall_app. split; [apply dq_bytes; auto|].
  constructor; [unfold is_byte; lia|constructor].
Qed.
Lemma row_bytes r : Forall (Forall is_byte) r -> forall first, Forall is_byte (toCsvRow_from first r).
Proof.
  induction 1 as [|c r Hc H IH]; intros f; [constructor|]. cbn [toCsvRow_from]. apply Forall_app. split; [destruct f; repeat constructor; unfold is_byte; lia|].
  apply Forall_app. split; [apply cell_bytes; auto|auto].
Qed.
Lemma table_bytes rows : Forall (Forall (Forall is_byte)) rows -> forall first, Forall is_byte (ToCsv_from first rows).
Proof.
  induction 1 as [|r rs Hr H IH]; intros f; [constructor|]. cbn [ToCsv_from]. apply Forall_app. split; [destruct f; repeat constructor; unfold is_byte; lia|].
  apply Forall_app. split; [apply row_bytes; auto|auto].
Qed.
Lemma parse_back rows : Forall (Forall (Forall is_byte)) rows -> Forall (Forall readable) rows ->
  exists kept, table_back rows kept /\ exists n0, forall n, (n0 <= n)%nat -> Parse n (ToCsv rows) = Ok (inr kept).
Proof.
  intros Hb R. destruct (table_comes_back rows Hb R) as (kept & T & Rd). exists kept. split; auto.
  destruct (parse_reads _ _ (table_bytes rows Hb true) Rd) as (r & A & n0 & H). simpl in A. subst r. exists n0. exact H.
Qed.
Lemma round_trip rows : Forall (Forall (Forall is_byte)) rows ->
  ((exists n0, forall n, (n0 <= n)%nat -> Parse n (ToCsv rows) = Ok (inr rows)) <-> safe_table rows).
Proof.
  intros Hb. pose proof (table_bytes rows Hb true) as Hs. split.
  - intros (n0 & H). assert (Rd : read_csv (ToCsv rows) (Table rows)) by (eapply parse_iff; eauto; reflexivity).
    pose proof (csv_readable _ _ Rd) as R. destruct (table_comes_back rows Hb R) as (kept & T & Rd2).
    pose proof (csv_det _ _ _ Hs Rd Rd2) as E. injection E as <-. apply table_survives; auto.
  - intros Sf. assert (R : Forall (Forall readable) rows).
    { destruct Sf as [F _]. eapply Forall_impl; [|exact F]. simpl. intros r [_ F']. eapply Forall_impl; [|exact F']. apply safe_readable. }
    destruct (parse_back rows Hb R) as (kept & T & n0 & H). rewrite (safe_table_same _ _ Sf T) in H. eauto.
Qed.
Lemma parse_stable n m s r : (n <= m)%nat -> Parse n s = Ok r -> Parse m s = Ok r.
Proof.
  intros Hm. unfold Parse. destruct (run (fun _ => EUnmatched) n document (new_string_ctx s)) as [[o err]|w|] eqn:E; try discriminate.
  rewrite (run_stable _ _ _ _ E m Hm). auto.
Qed.
