(** CSV texts joined by commas (C89). *)
From Verif Require Export L_CsvPrefix.

(** ** Texts that end with a comma *)
Definition comma_last (s : bytes) : Prop := exists l, s = l ++ [44].
Lemma comma_rest p t : comma_last (p ++ t) -> t = [] \/ comma_last t.
Proof. intros (l & E). destruct (last_app t) as [->|(t' & y & ->)]; [left; reflexivity|right]. rewrite app_assoc in E. apply app_inj_tail in E. destruct E as [_ ->]. exists t'. reflexivity. Qed.
Lemma comma_after p b t : b <> 44 -> comma_last (p ++ b :: t) -> comma_last t.
Proof.
  intros N H. change (b :: t) with ([b] ++ t) in H. rewrite app_assoc in H. destruct (comma_rest _ _ H) as [->|C]; [|exact C]. exfalso. rewrite app_nil_r in H. destruct H as (l & E). apply app_inj_tail in E. destruct E as [_ E]. contradiction.
Qed.
Lemma comma_some s : comma_last s -> s <> [].
Proof. intros (l & ->) E. apply app_eq_nil in E. destruct E. discriminate. Qed.
Lemma comma_tough s k : comma_last s -> tough s k.
Proof. intros H. split; [apply comma_some; exact H|]. intros ->. destruct H as (l & E). destruct l as [|c l]; [discriminate|]. injection E as _ E. destruct l; discriminate. Qed.
Lemma comma_run (P : bytes -> Prop) s t : (forall w, P w -> ~ In 44 w) -> run_of P s t -> comma_last s -> comma_last t.
Proof.
  intros N H. induction H as [s _|w s t W H IH]; intros C; [exact C|]. apply IH. destruct (comma_rest _ _ C) as [->|C']; [|exact C']. exfalso. rewrite app_nil_r in C. destruct C as (l & ->). apply (N _ W). apply in_app_iff. right. left. reflexivity.
Qed.
Lemma blank_comma w : blank_char w -> ~ In 44 w.
Proof. unfold blank_char. cbn [In]. intros [<-|[<-|[<-|[]]]]; cbn [In]; lia. Qed.
Lemma line_comma w : line_break w -> ~ In 44 w.
Proof. unfold line_break. cbn [In]. intros [<-|[<-|[<-|[<-|[<-|[]]]]]]; cbn [In]; lia. Qed.
Lemma comma_take s v t : ~ at_break s -> take_char s v t -> comma_last s -> comma_last t.
Proof.
  intros N T C. destruct (take_split _ _ _ T) as (a & E). rewrite E in C. destruct (comma_rest _ _ C) as [->|C']; [|exact C']. exfalso. rewrite app_nil_r in E, C. subst a. destruct T as (r & l & Nx & Hl & U & Et). pose proof (next_le _ _ _ Nx) as L.
  assert (Hs : s = [44]).
  { destruct Nx as [|r cs s U'|b s Bad]; [lia| |].
    - rewrite skipn_app, skipn_all, Nat.sub_diag in Et. cbn in Et. subst s. rewrite app_nil_r in *. destruct (char_bytes _ _ U') as (b & u & -> & _). pose proof (char_tail _ _ _ U') as Hu. destruct (last_app u) as [->|(u' & y & ->)].
      + destruct C as (p & E). destruct p as [|c p]; [exact E|]. injection E as _ E. destruct p; discriminate.
      + exfalso. destruct C as (p & E). change (b :: u' ++ [y]) with ((b :: u') ++ [y]) in E. apply app_inj_tail in E. destruct E as [_ ->]. apply Forall_app in Hu as [_ Hu]. inversion Hu as [|? ? Hc]; subst. unfold cont in Hc. lia.
    - cbn in Et. subst s. destruct C as (p & E). destruct p as [|c p]; [exact E|]. injection E as _ E. destruct p; discriminate. }
  apply N. exists [44]. split; [left; reflexivity|]. rewrite Hs. exists []. reflexivity.
Qed.
Lemma comma_unquoted s x t : unquoted s x t -> comma_last s -> comma_last t.
Proof. induction 1 as [s _|s v t x t1 N T H IH]; auto. intros C. apply IH. eapply comma_take; eauto. Qed.
Lemma comma_quoted s a : quoted s a -> comma_last s -> match a with Some (_, t) => comma_last t | None => True end.
Proof.
  assert (K : forall s t o t1 t2, run_of blank_char s (34 :: t) -> inside t (Some (o, t1)) -> run_of blank_char t1 t2 -> comma_last s -> comma_last t2).
  { clear. intros s t o t1 t2 R I R2 C. eapply comma_run; [exact blank_comma|exact R2|]. pose proof (comma_run _ _ _ blank_comma R C) as C1. apply (comma_after [] 34 t ltac:(lia)) in C1. destruct (inside_split _ _ I) as (p & ->). apply (comma_after p 34 t1 ltac:(lia) C1). }
  induction 1 as [|s t o t1 t2 R I R2 N|s t o t1 t2 a R I R2 H IH]; auto; intros C; [exact (K _ _ _ _ _ R I R2 C)|]. specialize (IH (K _ _ _ _ _ R I R2 C)). destruct a as [[x u]|]; exact IH.
Qed.
Lemma comma_cell s c t : read_cell s (Some (c, t)) -> comma_last s -> comma_last t.
Proof. intros H C. inversion H as [? ? Q|? t0 x ? ? R N U Tr]; subst; [exact (comma_quoted _ _ Q C)|exact (comma_unquoted _ _ _ U C)]. Qed.
(** ** Rows and tables *)
Lemma row_some s a : read_row s a -> match a with Some (r, _) => r <> [] | None => True end.
Proof. intros H. destruct H as [|s c t H N|s c t [[r u]|] H R]; cbn; auto; discriminate. Qed.
Lemma row_left s a : read_row s a -> match a with Some (_, t) => exists p, s = p ++ t | None => True end.
Proof.
  assert (K : forall s c t, read_cell s (Some (c, t)) -> exists p, s = p ++ t).
  { clear. intros s c t H. inversion H as [? ? Q|? t0 x ? ? R N U Tr]; subst; [exact (quoted_split _ _ Q)|]. exact (proj1 (unquoted_split _ _ _ U)). }
  induction 1 as [|s c t H N|s c t a H R IH]; auto; [eapply K; exact H|]. destruct a as [[r u]|]; cbn [add]; auto. destruct IH as (p & ->). destruct (K _ _ _ H) as (p0 & ->). exists (p0 ++ 44 :: p). rewrite <- app_assoc. reflexivity.
Qed.
Lemma row_comma s a : read_row s a -> comma_last s -> forall r, a = Some (r, []) ->
  exists xs, r = xs ++ [[]] /\ xs <> [] /\ forall k b, read_row k b -> read_row (s ++ k) (add (app xs) b).
Proof.
  induction 1 as [|s c t H N|s c t a H R IH]; intros C r E; [discriminate| |].
  - exfalso. injection E as _ ->. apply (comma_some _ (comma_cell _ _ _ H C)). reflexivity.
  - destruct a as [[r' u]|]; [|discriminate]. cbn [add] in E. injection E as <- ->. pose proof (comma_cell _ _ _ H C) as C1. change (44 :: t) with ([44] ++ t) in C1. destruct (comma_rest _ _ C1) as [->|Ct].
    + apply nothing_row in R. injection R as ->. exists [c]. split; [reflexivity|]. split; [discriminate|]. intros k b Rk. pose proof (cell_more k _ _ _ H (tough_low 44 [] k ltac:(lia))) as Hk. pose proof (rr_more _ _ _ _ Hk Rk) as X. destruct b as [[y z]|]; exact X.
    + destruct (IH Ct r' eq_refl) as (xs & -> & Nx & F). exists (c :: xs). split; [reflexivity|]. split; [discriminate|]. intros k b Rk. pose proof (cell_more k _ _ _ H (tough_low 44 t k ltac:(lia))) as Hk. pose proof (rr_more _ _ _ _ Hk (F k b Rk)) as X. destruct b as [[y z]|]; exact X.
Qed.
(** The last row of [rows ++ [xs ++ _]] goes on with the first of a table. *)
Definition go_on (rows : list (list bytes)) (xs : list bytes) (more : list (list bytes)) : list (list bytes) :=
  match more with [] => rows | ys :: rest => rows ++ (xs ++ ys) :: rest end.
Lemma rows_comma s a : read_rows s a -> comma_last s -> forall all, a = Table all ->
  exists rows xs, all = rows ++ [xs ++ [[]]] /\ xs <> [] /\ forall k b, read_rows k b -> read_rows (s ++ k) (on_table (go_on rows xs) b).
Proof.
  induction 1 as [|s r R|s r u R N B|s r t t1 a R B Rn Rs IH]; intros C all E; try discriminate.
  - injection E as <-. destruct (row_comma _ _ R C r eq_refl) as (xs & -> & Nx & F). exists [], xs. split; [reflexivity|]. split; [exact Nx|]. intros k b Rk.
    inversion Rk as [? X|? y X|? y z X Nz Bz|? y z z1 b' X Bz Rz Ry]; subst; pose proof (F k _ X) as Y; cbn [add] in Y.
    + apply rt_eof. exact Y.
    + apply rt_last. exact Y.
    + eapply rt_junk; eauto.
    + pose proof (rt_more _ _ _ _ _ Y Bz Rz Ry) as G. destruct b' as [rest| |]; exact G.
  - destruct a as [all'| |]; try discriminate. cbn [on_table] in E. injection E as <-. destruct (row_left _ _ R) as (p & Es).
    assert (Ct : comma_last t). { rewrite Es in C. destruct (comma_rest _ _ C) as [->|Ct]; [|exact Ct]. destruct B as (w & W & y & E). destruct (break_piece w W) as (x & v & -> & _). discriminate. }
    pose proof (comma_run _ _ _ line_comma Rn Ct) as C1. destruct (IH C1 all' eq_refl) as (rows & xs & -> & Nx & F). exists (r :: rows), xs. split; [reflexivity|]. split; [exact Nx|]. intros k b Rk.
    pose proof (row_more k _ _ R (line_tough k t B)) as R'. pose proof (tough_run _ _ _ k break_short (comma_tough _ k C1) Rn) as Rn'. pose proof (rt_more _ _ _ _ _ R' (break_app k t B) Rn' (F k b Rk)) as G.
    destruct b as [[|ys rest]| |]; [exfalso; eapply rows_some; eauto|exact G|exact G|exact G].
Qed.
Lemma rows_rows s a : read_rows s a -> forall all, a = Table all -> Forall (fun r => r <> []) all.
Proof.
  induction 1 as [|s r R|s r u R N B|s r t t1 a R B Rn Rs IH]; intros all E; try discriminate.
  - injection E as <-. constructor; [exact (row_some _ _ R)|constructor].
  - destruct a as [all'| |]; try discriminate. injection E as <-. constructor; [exact (row_some _ _ R)|auto].
Qed.
Lemma long_text (xs ys : list bytes) : xs <> [] -> ys <> [] -> ~ textless (xs ++ ys).
Proof. intros Nx Ny [E|E]; [apply app_eq_nil in E; tauto|]. destruct xs as [|x [|x' xs]]; [contradiction| |discriminate]. cbn in E. injection E as _ E. contradiction. Qed.
Lemma last_kept all rows xs : all = rows ++ [xs ++ [[]]] -> xs <> [] -> forall kept, without_tail all kept -> kept = all.
Proof.
  intros -> Nx kept W. eapply without_tail_func; [exact W|]. exists []. rewrite app_nil_r. split; [reflexivity|]. split; [constructor|]. intros l r E. apply app_inj_tail in E. destruct E as [_ <-]. apply long_text; [exact Nx|discriminate].
Qed.
(** What is left without the rows of no text at the end. *)
Definition keep_on (rows : list (list bytes)) (xs : list bytes) (more : list (list bytes)) : list (list bytes) :=
  match more with [] => rows ++ [xs ++ [[]]] | ys :: rest => rows ++ (xs ++ ys) :: rest end.
Lemma csv_comma s all : read_csv s (Table all) -> comma_last s ->
  exists rows xs, all = rows ++ [xs ++ [[]]] /\ xs <> [] /\ forall k b, read_csv k b -> read_csv (s ++ k) (on_table (keep_on rows xs) b).
Proof.
  intros H C. inversion H as [? a kept R W| |]; subst. destruct (rows_comma _ _ R C a eq_refl) as (rows & xs & Ea & Nx & F). pose proof (last_kept _ _ _ Ea Nx _ W) as ->. exists rows, xs. split; [exact Ea|]. split; [exact Nx|].
  intros k b Hk. destruct Hk as [k b kept Rk Wk|k Rk|k Rk]; pose proof (F k _ Rk) as G; cbn [on_table] in *; [|apply rd_eof; exact G|apply rd_junk; exact G].
  eapply rd_table; [exact G|]. pose proof (rows_rows _ _ Rk b eq_refl) as Nr. destruct Wk as (tl & -> & T & M). destruct kept as [|ys rest]; cbn [app go_on keep_on] in *.
  - destruct tl as [|y tl]; [exfalso; exact (rows_some _ _ Rk eq_refl)|]. assert (Ty : textless y) by (inversion T; assumption). assert (Tt : Forall textless tl) by (inversion T; assumption). assert (Ny : y <> []) by (inversion Nr; assumption). destruct Ty as [Ey|Ey]; [contradiction|]. subst y. exists tl. split; [rewrite <- app_assoc; reflexivity|]. split; [exact Tt|].
    intros l r E. apply app_inj_tail in E. destruct E as [_ <-]. apply long_text; [exact Nx|discriminate].
  - exists tl. split; [rewrite <- app_assoc; reflexivity|]. split; [exact T|]. inversion Nr as [|? ? Ny _]; subst. intros l r E. destruct (last_app rest) as [->|(rest' & z & ->)].
    + apply app_inj_tail in E. destruct E as [_ <-]. apply long_text; assumption.
    + change (rows ++ (xs ++ ys) :: rest' ++ [z]) with (rows ++ ((xs ++ ys) :: rest') ++ [z]) in E. rewrite app_assoc in E. apply app_inj_tail in E. destruct E as [_ <-]. apply (M (ys :: rest') z). reflexivity.
Qed.
