(** The cells of a CSV text are made of its characters, in their order (C93). *)
From Verif Require Export S_Csv L_Csv.

(** [subseq x y]: [x] is [y] with some elements left out. *)
Inductive subseq : bytes -> bytes -> Prop :=
| su_nil : subseq [] []
| su_skip : forall b x y, subseq x y -> subseq x (b :: y)
| su_keep : forall b x y, subseq x y -> subseq (b :: x) (b :: y).
(** The text with U+FFFD for every malformed byte. *)
Definition shown (s y : bytes) : Prop := exists rs, chars s rs /\ utf8 rs y.

Lemma subseq_none y : subseq [] y.
Proof. induction y; [constructor|apply su_skip; assumption]. Qed.
Lemma subseq_refl y : subseq y y.
Proof. induction y; [constructor|apply su_keep; assumption]. Qed.
Lemma subseq_app x y x' y' : subseq x y -> subseq x' y' -> subseq (x ++ x') (y ++ y').
Proof. intros H G. induction H; cbn; [exact G|apply su_skip; assumption|apply su_keep; assumption]. Qed.
Lemma subseq_trans x y : subseq x y -> forall z, subseq y z -> subseq x z.
Proof.
  intros H z G. revert x H. induction G as [|b y z G IH|b y z G IH]; intros x H; [exact H|apply su_skip; auto|]. inversion H; subst; [apply su_skip; auto|apply su_keep; auto].
Qed.
Lemma subseq_inner p c q : subseq c (p ++ c ++ q).
Proof. pose proof (subseq_app [] p (c ++ []) (c ++ q) (subseq_none p) (subseq_app c c [] q (subseq_refl c) (subseq_none q))) as H. rewrite app_nil_r in H. exact H. Qed.
Lemma subseq_length x y : subseq x y -> (length x <= length y)%nat.
Proof. induction 1; cbn; lia. Qed.

(** [d] is shown for what is read between [s] and [t]. *)
Definition part (s t d : bytes) : Prop := (forall y, shown t y -> shown s (d ++ y)) /\ exists u, s = u ++ t.
Lemma part_refl s : part s s [].
Proof. split; [auto|exists []; reflexivity]. Qed.
Lemma part_trans s t u d e : part s t d -> part t u e -> part s u (d ++ e).
Proof. intros [A (x & ->)] [B (y & ->)]. split; [intros z H; rewrite <- app_assoc; auto|exists (x ++ y); apply app_assoc]. Qed.
Lemma part_char r cs s : utf8_char r cs -> part (cs ++ s) s cs.
Proof.
  intros U. split; [|exists cs; reflexivity]. intros y (rs & C & V). exists (r :: rs). split; [|constructor; assumption]. econstructor; [apply nc_char; exact U|destruct U; cbn; lia|]. rewrite skipn_app, skipn_all, Nat.sub_diag. exact C.
Qed.
Lemma part_ascii b s : 0 <= b < 128 -> part (b :: s) s [b].
Proof. intros H. exact (part_char b [b] s (u_1 b H)). Qed.
Lemma part_take s v t : take_char s v t -> part s t v.
Proof.
  intros (r & l & N & L & U & ->). split; [|exists (firstn l s); symmetry; apply firstn_skipn]. intros y (rs & C & V). exists (r :: rs). split; [econstructor; eassumption|constructor; assumption].
Qed.
Lemma part_pieces (P : bytes -> Prop) s t : (forall w, P w -> exists r, utf8_char r w) -> run_of P s t -> exists d, part s t d.
Proof.
  intros H R. induction R as [s N|w s t W R (d & IH)]; [exists []; apply part_refl|]. destruct (H w W) as (r & U). exists (w ++ d). eapply part_trans; [apply (part_char r); exact U|exact IH].
Qed.
Lemma blank_utf8 w : blank_char w -> exists r, utf8_char r w.
Proof. intros [<-|[<-|[<-|[]]]]; [exists 9; constructor; lia|exists 32; constructor; lia|exists (2 * 64 + 32); apply (u_2 2 32); lia]. Qed.
Lemma line_utf8 w : line_break w -> exists r, utf8_char r w.
Proof. intros [<-|[<-|[<-|[<-|[<-|[]]]]]]; [exists 10; constructor; lia|exists 11; constructor; lia|exists 12; constructor; lia|exists 13; constructor; lia|exists (2 * 64 + 5); apply (u_2 2 5); lia]. Qed.

Definition from {A : Type} (f : A -> bytes) (s : bytes) (a : answer A) : Prop :=
  match a with None => True | Some (x, t) => exists d, part s t d /\ subseq (f x) d end.
Lemma inside_from s a : inside s a -> from (fun x => x) s a.
Proof.
  induction 1 as [|t a H IH|t N|s v t a N T H IH]; cbn.
  - exact I.
  - destruct a as [[x t']|]; [|exact I]. destruct IH as (d & P & S). exists ([34] ++ [34] ++ d). split; [|cbn; apply su_skip, su_skip; exact S].
    eapply part_trans; [apply part_ascii; lia|]. eapply part_trans; [apply part_ascii; lia|exact P].
  - exists [34]. split; [apply part_ascii; lia|apply subseq_none].
  - destruct a as [[x t']|]; [|exact I]. destruct IH as (d & P & S). exists (v ++ d). split; [eapply part_trans; [apply part_take; exact T|exact P]|apply subseq_app; [apply subseq_refl|exact S]].
Qed.
Lemma opening s t o t1 t2 : run_of blank_char s (34 :: t) -> inside t (Some (o, t1)) -> run_of blank_char t1 t2 -> exists d, part s t2 d /\ subseq o d.
Proof.
  intros R1 H R2. apply (part_pieces _ _ _ blank_utf8) in R1 as (d1 & P1). apply (part_pieces _ _ _ blank_utf8) in R2 as (d2 & P2). apply inside_from in H as (d & P & S).
  exists (d1 ++ [34] ++ d ++ d2). split; [|apply (subseq_app [] d1); [apply subseq_none|]; apply (subseq_app [] [34]); [apply subseq_none|]; rewrite <- (app_nil_r o); apply subseq_app; [exact S|apply subseq_none]].
  eapply part_trans; [exact P1|]. eapply part_trans; [apply part_ascii; lia|]. eapply part_trans; [exact P|exact P2].
Qed.
Lemma quoted_from s a : quoted s a -> from (fun x => x) s a.
Proof.
  induction 1 as [s t R H|s t o t1 t2 R H R2 N|s t o t1 t2 a R H R2 Q IH].
  - exact I.
  - exact (opening _ _ _ _ _ R H R2).
  - destruct a as [[x t']|]; [|exact I]. destruct IH as (d & P & S), (opening _ _ _ _ _ R H R2) as (d1 & P1 & S1). exists (d1 ++ d). split; [eapply part_trans; eassumption|apply subseq_app; assumption].
Qed.
Lemma unquoted_from s x t : unquoted s x t -> exists d, part s t d /\ subseq x d.
Proof.
  induction 1 as [s _|s v t x t1 N T H (d & P & S)]; [exists []; split; [apply part_refl|constructor]|]. exists (v ++ d). split; [eapply part_trans; [apply part_take; exact T|exact P]|apply subseq_app; [apply subseq_refl|exact S]].
Qed.
Lemma cell_from s a : read_cell s a -> from (fun x => x) s a.
Proof.
  intros [s0 a0 Q|s0 t x t1 c R N U (p & q & E & _)]; [apply quoted_from; exact Q|]. apply unquoted_from in U as (d & P & S). exists d. split; [exact P|]. eapply subseq_trans; [|exact S]. rewrite E. apply subseq_inner.
Qed.
(** Bytes that can separate cells and rows. *)
Definition separator (b : Z) : bool := existsb (Z.eqb b) [44; 10; 11; 12; 13; 133].
Definition separators (s : bytes) : nat := length (filter separator s).
Lemma separators_app s t : separators (s ++ t) = (separators s + separators t)%nat.
Proof. unfold separators. rewrite filter_app, app_length. reflexivity. Qed.
Lemma row_from s a : read_row s a -> from (@concat Z) s a /\ match a with None => True | Some (r, t) => (length r + separators t <= 1 + separators s)%nat end.
Proof.
  induction 1 as [s H|s c t H N|s c t a H R [IH IL]].
  - split; exact I.
  - apply cell_from in H as (d & P & S). split; [exists d; split; [exact P|cbn; rewrite app_nil_r; exact S]|]. destruct P as [_ (u & ->)]. rewrite separators_app. cbn [length]. lia.
  - apply cell_from in H as (d & P & S). destruct a as [[r t']|]; [|split; exact I]. cbn [add from] in *. destruct IH as (d2 & P2 & S2). split.
    + exists (d ++ [44] ++ d2). split; [eapply part_trans; [exact P|]; eapply part_trans; [apply part_ascii; lia|exact P2]|]. cbn [concat]. apply subseq_app; [exact S|]. cbn. apply su_skip. exact S2.
    + destruct P as [_ (u & ->)]. rewrite separators_app. change (separators (44 :: t)) with (Datatypes.S (separators t)). cbn [length]. lia.
Qed.
Lemma breaks_separate t t1 : run_of line_break t t1 -> at_line_break t -> (1 + separators t1 <= separators t)%nat.
Proof.
  assert (G : forall t t1, run_of line_break t t1 -> (separators t1 <= separators t)%nat).
  { induction 1 as [s N|w s t0 W R IH]; [lia|]. rewrite separators_app. lia. }
  intros R (w & W & B). inversion R as [s N|w' s t0 W' R']; subst; [exfalso; exact (N w W B)|]. apply G in R'. rewrite separators_app. assert (1 <= separators w')%nat; [|lia]. destruct W' as [<-|[<-|[<-|[<-|[<-|[]]]]]]; cbn; lia.
Qed.
Definition cells (rows : list (list bytes)) : nat := length (concat rows).
Lemma rows_from s a : read_rows s a -> match a with Table rows => (exists d, part s [] d /\ subseq (concat (concat rows)) d) /\ (cells rows <= 1 + separators s)%nat | _ => True end.
Proof.
  induction 1 as [s H|s r H|s r t H N L|s r t t1 a H L R H2 IH]; try exact I.
  - apply row_from in H as ((d & P & S) & C). split; [exists d; split; [exact P|cbn; rewrite app_nil_r; exact S]|]. unfold cells. cbn [concat]. rewrite app_nil_r. cbn in C. lia.
  - apply row_from in H as ((d & P & S) & C). pose proof (breaks_separate _ _ R L) as B. apply (part_pieces _ _ _ line_utf8) in R as (d1 & P1). destruct a as [rows| |]; try exact I. cbn [on_table]. destruct IH as ((d2 & P2 & S2) & C2). split.
    + exists (d ++ d1 ++ d2). split; [eapply part_trans; [exact P|]; eapply part_trans; [exact P1|exact P2]|]. cbn [concat]. rewrite concat_app. apply subseq_app; [exact S|]. apply (subseq_app [] d1); [apply subseq_none|exact S2].
    + unfold cells in *. cbn [concat]. rewrite app_length. lia.
Qed.
Lemma csv_from s rows : read_csv s (Table rows) -> exists y, shown s y /\ subseq (concat (concat rows)) y /\ (cells rows <= 1 + separators s)%nat.
Proof.
  intros H. inversion H as [s0 all kept R (tail & -> & _)| |]; subst. apply rows_from in R as ((d & (P & _) & S) & C). exists d. split.
  - rewrite <- (app_nil_r d). apply P. exists []. split; constructor.
  - split; [eapply subseq_trans; [|exact S]; rewrite concat_app, concat_app; rewrite <- (app_nil_r (concat (concat rows))) at 1; apply subseq_app; [apply subseq_refl|apply subseq_none]|].
    unfold cells in *. rewrite concat_app, app_length in C. lia.
Qed.
