(** C87: beginnings of CSV texts.  An open quote can be closed, other errors are final. *)
From Verif Require Import L_CsvPrefix.

Definition answers (s : bytes) (r : csv_error + list (list bytes)) : Prop :=
  exists n0, forall n, (n0 <= n)%nat -> Parse n s = Ok r.
Lemma answers_once s a b : answers s a -> answers s b -> a = b.
Proof. intros (n & H) (m & G). specialize (H (Nat.max n m) ltac:(lia)). specialize (G (Nat.max n m) ltac:(lia)). congruence. Qed.
Lemma read_some s : Forall is_byte s ->
  (exists rows, answers s (inr rows) /\ exists all, read_rows s (Table all)) \/
  (exists lc, answers s (inl (mkCE (Some (EText "Unexpected EOF")) lc)) /\ read_rows s Unclosed) \/ (exists lc, answers s (inl (mkCE None lc)) /\ read_rows s Junk).
Proof.
  intros Hb. destruct (csv_total s Hb) as (a & R). destruct (parse_reads s a Hb R) as (r & A & H). destruct R as [s all rows R W|s R|s R]; cbn in A.
  - left. subst r. eauto.
  - right. left. destruct A as (lc & -> & _). eauto.
  - right. right. destruct A as (lc & -> & _). eauto.
Qed.
Lemma tail_total all : exists kept, without_tail all kept.
Proof.
  induction all as [|r all (kept & tl & -> & F & M)] using rev_ind; [exists [], []; repeat split; [constructor|intros [|? l] r E; discriminate]|].
  destruct (textless_dec r) as [T|T]; [exists kept, (tl ++ [r]); rewrite app_assoc; repeat split; auto; apply Forall_app; auto|]. exists ((kept ++ tl) ++ [r]), []. rewrite app_nil_r. repeat split; [constructor|].
  intros l x E. apply app_inj_tail in E. destruct E as [_ <-]. exact T.
Qed.
Lemma rows_answer s all : Forall is_byte s -> read_rows s (Table all) -> exists rows, answers s (inr rows).
Proof.
  intros Hb R. destruct (tail_total all) as (kept & W). destruct (parse_reads s (Table kept) Hb (rd_table s all kept R W)) as (r & A & H). cbn in A. subst r. exists kept. exact H.
Qed.

(** A text with a quote that is not closed is mended by a quote at its end. *)
Theorem C87_unclosed : forall s e lc, Forall is_byte s -> answers s (inl (mkCE (Some e) lc)) -> exists rows, answers (s ++ [34]) (inr rows).
Proof.
  intros s e lc Hb H. destruct (read_some s Hb) as [(rows & A & _)|[(lc' & A & R)|(lc' & A & R)]]; pose proof (answers_once _ _ _ H A) as E; try discriminate.
  destruct (rows_closed s _ R eq_refl) as (all & Ra). apply rows_answer with (all := all); [|exact Ra]. apply Forall_app. split; [exact Hb|]. repeat constructor; unfold is_byte; lia.
Qed.
Print Assumptions C87_unclosed.
(** The other error is final: whatever text follows, it is an error.  Only a character cut in
    two may look like junk after a closing quote. *)
Theorem C87_final : forall s lc k, Forall is_byte s -> Forall is_byte k -> answers s (inl (mkCE None lc)) ->
  (last s 0 = 194 -> ~ begins [133] k /\ ~ begins [160] k) -> exists lc', answers (s ++ k) (inl (mkCE None lc')).
Proof.
  intros s lc k Hb Hk H L. destruct (read_some s Hb) as [(rows & A & _)|[(lc' & A & R)|(lc' & A & R)]]; pose proof (answers_once _ _ _ H A) as E; try discriminate.
  assert (M : may_follow s k) by (intros Ls c r -> [E'|E']; subst c; destruct (L Ls) as [X Y]; [apply X|apply Y]; exists r; reflexivity).
  pose proof (junk_more s _ k R eq_refl M) as J. destruct (parse_reads (s ++ k) Junk ltac:(apply Forall_app; auto) (rd_junk _ J)) as (r & A' & H'). cbn in A'. destruct A' as (y & -> & _). exists y. exact H'.
Qed.
Print Assumptions C87_final.
(** So a beginning of an accepted text, cut between two characters, is accepted itself or
    with a quote at its end. *)
Theorem C87_prefix : forall p q rows, Forall is_byte (p ++ q) -> answers (p ++ q) (inr rows) -> (last p 0 = 194 -> ~ begins [133] q /\ ~ begins [160] q) ->
  exists rows', answers p (inr rows') \/ answers (p ++ [34]) (inr rows').
Proof.
  intros p q rows Hb H L. apply Forall_app in Hb as [Hp Hq]. destruct (read_some p Hp) as [(rs & A & _)|[(lc & A & R)|(lc & A & R)]]; [exists rs; left; exact A| |].
  - destruct (C87_unclosed p _ lc Hp A) as (rs & A'). exists rs. right. exact A'.
  - exfalso. destruct (C87_final p lc q Hp Hq A L) as (lc' & A'). pose proof (answers_once _ _ _ H A'). discriminate.
Qed.
Print Assumptions C87_prefix.

Ltac by_parse := exists 300%nat; let n := fresh in let Hn := fresh in intros n Hn; (eapply parse_stable; [exact Hn|]); vm_compute; reflexivity.
(** Cut inside of a line break of two bytes it need not be so. *)
Theorem C87_cut_refuted : answers ([34; 97; 34; 194] ++ [133]) (inr [[bs "a"]]) /\ (exists lc, answers [34; 97; 34; 194] (inl (mkCE None lc))) /\ exists lc, answers ([34; 97; 34; 194] ++ [34]) (inl (mkCE None lc)).
Proof. split; [by_parse|]. split; eexists; by_parse. Qed.
Print Assumptions C87_cut_refuted.
(** And a quote mends only open quotes: at the end of an accepted text it may be an error. *)
Theorem C87_quote_refuted : answers [34; 97; 34] (inr [[bs "a"]]) /\ exists lc, answers ([34; 97; 34] ++ [34]) (inl (mkCE (Some (EText "Unexpected EOF")) lc)).
Proof. split; [by_parse|eexists; by_parse]. Qed.
Print Assumptions C87_quote_refuted.

Example C87_unclosed_example : (exists lc, answers (bs "a," ++ [34; 98; 10; 34; 34]) (inl (mkCE (Some (EText "Unexpected EOF")) lc))) /\
  answers ((bs "a," ++ [34; 98; 10; 34; 34]) ++ [34]) (inr [[bs "a"; [98; 10]]]).
Proof. split; [eexists; by_parse|by_parse]. Qed.
Example C87_final_example : (exists lc, answers ([34; 97; 34] ++ bs "b") (inl (mkCE None lc))) /\ last ([34; 97; 34] ++ bs "b") 0 <> 194 /\ exists lc, answers (([34; 97; 34] ++ bs "b") ++ bs ",c") (inl (mkCE None lc)).
Proof. split; [eexists; by_parse|]. split; [cbn; lia|eexists; by_parse]. Qed.
Example C87_prefix_example : answers (bs "a," ++ [34; 98] ++ [10; 34]) (inr [[bs "a"; [98; 10]]]) /\ answers ((bs "a," ++ [34; 98]) ++ [34]) (inr [[bs "a"; bs "b"]]) /\ answers (bs "a,") (inr [[bs "a"; []]]).
Proof. repeat split; by_parse. Qed.
