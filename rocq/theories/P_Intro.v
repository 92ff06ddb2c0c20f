(** C73: the minimal parser of the introduction and the program main.go. *)
From Verif Require Import L_Csv L_Extra L_Err L_ErrText L_FormulaText S_ErrText M_Intro.
From Verif Require P_Csv P_Core P_Extra P_Err.

(** As [token], for a parser whose AST may have any class. *)
Definition word_parser (e : pexp) (R : tlang) : Prop :=
  forall env c, (forall k, peg_gram (env k)) -> Forall is_byte (c_str c) -> (c_pos c <= length (c_str c))%nat ->
  c_st c = Matched ->
  exists n o, run env n e c = Ok (o, None) /\
    ((exists w t a, longest R (skipn (c_pos c) (c_str c)) w t /\
        c_st o = Matched /\ c_pos o = (c_pos c + length w)%nat /\ c_stack o = c_stack c ++ [a] /\
        a_ty a = TString /\ a_val a = VStr t) \/
     (no_word R (skipn (c_pos c) (c_str c)) /\ c_st o = Unmatched)).
(** With enough fuel, and then always. *)
Definition intro_answers (e : pexp) (s : bytes) (r : option bytes + bytes) : Prop :=
  exists n0, forall n, (n0 <= n)%nat -> intro_Parse n e s = Ok r.
Definition letter_word (w : bytes) : Prop := w <> [] /\ Forall ascii_letter w.

Lemma token_word e cls R : token e cls R -> word_parser e R.
Proof.
  intros T env c A B C D. destruct (T env c A B C D) as (n & o & E & [(w & t & a & H1 & H2 & H3 & H4 & _ & H5)|H]); exists n, o; (split; [exact E|]); [left|right; exact H].
  exists w, t, a. auto.
Qed.
Lemma concat_word e R : lang e R -> peg_gram (ETrans e [Concat]) -> word_parser (ETrans e [Concat]) R.
Proof.
  intros L Hg env c He Hb Hp Hs.
  set (w := mkW (c_str c) (c_slice c) (c_tag c) env).
  assert (Hw : in_world w c) by (repeat split).
  assert (G : good w (c_sp c)) by (split; auto).
  destruct (L w (c_sp c) G) as [(cur' & l & P & x & o & ss & Lo & Q & F & C)|[P N]].
  - assert (P2 : peg w (ETrans e [Concat]) (c_sp c) (RSucc cur' [text_ast l (concat ss)])).
    { eapply peg_trans_ok; [exact P|]. eapply (pl_ok _ 0%nat); [apply concat_ok; exact F|constructor]. }
    destruct (proj1 (peg_adequate w _ c He Hg Hw Hs _) P2) as (n & out & err & E & Rr). simpl in Rr. destruct Rr as (-> & A1 & A2 & A3).
    exists n, out. split; auto. left. exists x, o. eexists. split; [exact Lo|]. split; auto. split; [unfold c_pos; congruence|].
    split; [exact A3|]. rewrite <- C. destruct l; simpl; auto.
  - assert (P2 : peg w (ETrans e [Concat]) (c_sp c) RFail) by (apply peg_trans_fail; auto).
    destruct (proj1 (peg_adequate w _ c He Hg Hw Hs _) P2) as (n & out & err & E & Rr). simpl in Rr. destruct Rr as (-> & A1).
    exists n, out. auto.
Qed.
Lemma letters_gram : peg_gram letters.
Proof. unfold letters, EOneOrMore, SAlpha. gram_tac. Qed.
Lemma letters_word : word_parser letters (outL verbatim letter_word).
Proof.
  apply concat_word; [|apply letters_gram]. eapply lang_ext; [|apply (out_more1 verbatim hom_verbatim [SAlpha] ascii_letter)].
  - intros w o. unfold outL, letter_word, runS. destruct w; simpl; intuition; try lia; discriminate.
  - apply langs_one. apply out_one; [apply alpha_lang|reflexivity].
Qed.

Lemma program_gram e : peg_gram e -> peg_gram (intro_program e).
Proof. intros H. unfold intro_program, EStart, SEnd. gram_tac; exact H. Qed.
Lemma intro_stable e : peg_gram e -> forall n s o err, run (fun _ => EUnmatched) n (intro_program e) (new_string_ctx s) = Ok (o, err) ->
  forall m, (n <= m)%nat -> run (fun _ => EUnmatched) m (intro_program e) (new_string_ctx s) = Ok (o, err).
Proof.
  intros G n s o err E m Hm. destruct (gram_mono (fun _ => EUnmatched) (intro_program e) (fun k => peg_gram_mono _ (no_env_peg s k)) (peg_gram_mono _ (program_gram e G)) n m (new_string_ctx s) Hm) as [F|F];
    cbv beta in F; congruence.
Qed.
Lemma program_fails e s : peg_gram e -> Z.of_nat (length s) < 10 ^ 19 -> peg (csv_world s) (intro_program e) sp0 RFail ->
  exists m, told (bs "Parse failed") [] s m /\ intro_answers e s (inl (Some m)).
Proof.
  intros G L P. destruct (proj1 (peg_adequate (csv_world s) _ (new_string_ctx s) (no_env_peg s) (program_gram e G) ltac:(repeat split) eq_refl _) P)
    as (n & o & err & E & R). simpl in R. destruct R as (-> & St).
  destruct (gives_up_pos _ n (intro_program e) (new_string_ctx s) o None ltac:(exact I) eq_refl E St) as [Hp _].
  destruct (proj2 (linecol_panics s 0 4) ltac:(lia)) as (lc & Elc).
  destruct (message_told None lc [] s (bs "Parse failed") Elc L sy_none ltac:(discriminate)) as (m & M & T).
  exists m. split; [exact T|]. exists n. intros k Hk. unfold intro_Parse. rewrite (intro_stable e G n s o None E k Hk), St. unfold intro_fail, c_pos.
  rewrite Hp. change (sp_pos (c_sp (new_string_ctx s))) with 0%nat. rewrite Elc, M. reflexivity.
Qed.
Lemma whole_text e R s : peg_gram e -> word_parser e R -> Forall is_byte s -> Z.of_nat (length s) < 10 ^ 19 ->
  (exists t, R s t /\ intro_answers e s (inr t)) \/
  ((forall t, ~ R s t) /\ exists m, told (bs "Parse failed") [] s m /\ intro_answers e s (inl (Some m))).
Proof.
  intros G T Hb L. destruct (start_peg (csv_world s) sp0 eq_refl) as (c1 & P1 & H1).
  set (c := set_sp (new_string_ctx s) c1).
  destruct (T (fun _ => EUnmatched) c (no_env_peg s) Hb) as (n & o & E & D); [unfold c_pos; simpl; lia|reflexivity|].
  assert (Ho : okc (csv_world s) c) by (repeat split).
  destruct (run_sound (csv_world s) e n c o None (no_env_peg s) G Ho E) as (r & P & Rr & W). change (c_sp c) with c1 in P.
  assert (Pos : c_pos c = 0%nat) by (unfold c_pos; simpl; exact H1).
  rewrite Pos in D. change (c_str c) with s in D. cbn [skipn] in D.
  destruct D as [(w & t & a & Lo & St & Hp & Hk & _ & Hv)|[N St]].
  - destruct r as [c2 l| |c2 y]; simpl in Rr; [|destruct Rr as (_ & K); congruence|destruct Rr as (K & _); congruence].
    destruct Rr as (_ & _ & Hsp & Hl). change (c_stack c) with (@nil ast) in *. simpl in Hk, Hl. rewrite Hk in Hl. subst l.
    destruct Lo as ((u & Eu) & Rw & Mx). simpl in Hp.
    assert (A2 : at_rest (csv_world s) c2 u).
    { assert (Hc : sp_pos c2 = length w) by (rewrite <- Hsp; exact Hp).
      split; [split; [exact Hb|simpl; rewrite Hc, Eu, app_length; lia]|].
      unfold rest_of. simpl. rewrite Hc, Eu, skipn_app, skipn_all, Nat.sub_diag. reflexivity. }
    destruct u as [|x u].
    + rewrite app_nil_r in Eu. subst w. left. exists t. split; [exact Rw|]. destruct (end_yes _ _ A2) as (c3 & P3 & _).
      assert (PP : peg (csv_world s) (intro_program e) sp0 (RSucc c3 ([] ++ [a] ++ [] ++ []))).
      { constructor. eapply S_Peg.seq_ok; [exact P1|]. eapply S_Peg.seq_ok; [exact P|]. eapply S_Peg.seq_ok; [exact P3|constructor]. }
      destruct (proj1 (peg_adequate (csv_world s) _ (new_string_ctx s) (no_env_peg s) (program_gram e G) ltac:(repeat split) eq_refl _) PP)
        as (n' & o' & err & E' & R'). simpl in R'. destruct R' as (-> & St' & _ & Hk').
      exists n'. intros k Hk2. unfold intro_Parse. rewrite (intro_stable e G n' s o' None E' k Hk2), St', Hk'. simpl. rewrite Hv. reflexivity.
    + right. split.
      { intros t' Ht'. specialize (Mx s t' [] (eq_sym (app_nil_r s)) Ht'). apply (f_equal (@length Z)) in Eu. rewrite app_length in Eu. simpl in Eu. lia. }
      apply program_fails; auto. constructor. eapply seq_fail_later; [exact P1|]. eapply seq_fail_later; [exact P|]. apply seq_fail.
      eapply end_no; [exact A2|discriminate].
  - right. split; [intros t Ht; exact (N s t [] (eq_sym (app_nil_r s)) Ht)|].
    destruct r as [c2 l| |c2 y]; simpl in Rr; [destruct Rr as (_ & K & _); congruence| |destruct Rr as (K & _); congruence].
    apply program_fails; auto. constructor. eapply seq_fail_later; [exact P1|]. apply seq_fail. exact P.
Qed.

(** The parser of the introduction with any parser of words between Start and End: the whole text
    is a word, and Parse answers the text that belongs to it; or it is not, and the error names line 1,
    column 1, wherever the mistake may be. *)
Theorem C73_whole_text : forall e R s, peg_gram e -> word_parser e R -> Forall is_byte s -> Z.of_nat (length s) < 10 ^ 19 ->
  (exists t, R s t /\ intro_answers e s (inr t)) \/
  ((forall t, ~ R s t) /\ exists m, told (bs "Parse failed") [] s m /\ intro_answers e s (inl (Some m))).
Proof. exact whole_text. Qed.
Print Assumptions C73_whole_text.

(** The parser of the document accepts ^[A-Za-z]+$ and gives the text back. *)
Theorem C73_minimal : forall s, Forall is_byte s -> Z.of_nat (length s) < 10 ^ 19 ->
  ((s <> [] /\ Forall ascii_letter s) <-> intro_answers letters s (inr s)) /\
  (~ (s <> [] /\ Forall ascii_letter s) -> exists m, told (bs "Parse failed") [] s m /\ intro_answers letters s (inl (Some m))).
Proof.
  intros s Hb L. destruct (whole_text letters _ s letters_gram letters_word Hb L) as [(t & [H ->] & A)|[N (m & M & A)]].
  - split; [|contradiction]. split; [intros _; exact A|intros _; exact H].
  - split; [|intros _; exists m; auto]. split.
    + intros H. exfalso. exact (N s (conj H eq_refl)).
    + intros (n1 & B). exfalso. destruct A as (n0 & A). specialize (A (n0 + n1)%nat ltac:(lia)). specialize (B (n0 + n1)%nat ltac:(lia)). congruence.
Qed.
Print Assumptions C73_minimal.

(** main.go, for any text in place of the constant: the rows as the C37 reading has them, and their CSV. *)
Theorem C73_main : forall s rows, Forall is_byte s -> read_csv s (Table rows) ->
  exists n0, forall n, (n0 <= n)%nat -> main_with n s = Ok (Println_rows rows ++ Println_string (ToCsv rows), Some [], 0).
Proof.
  intros s rows Hb R. destruct (parse_reads s _ Hb R) as (r & -> & n0 & A). exists n0. intros n Hn. unfold main_with. rewrite (A n Hn). reflexivity.
Qed.
Print Assumptions C73_main.
(** For a text that is no table nothing is written to the standard output, the message goes to the standard error and the status is -1. *)
Theorem C73_main_error : forall s, Forall is_byte s -> Z.of_nat (length s) < 10 ^ 19 -> (forall rows, ~ read_csv s (Table rows)) ->
  exists m, (told (bs "Unexpected EOF") s [] m \/ told (bs "Parse failed") [] s m) /\
  exists n0, forall n, (n0 <= n)%nat -> main_with n s = Ok ([], Some m, -1).
Proof.
  intros s Hb L N. destruct (P_Csv.C37_csv_reading s Hb) as (a & R & _ & A).
  destruct a as [rows| |]; [destruct (N rows R)| |]; destruct A as (lc & (n0 & A) & _);
    (destruct (P_Err.C57_csv_message s _ lc n0 Hb L (A n0 (le_n n0))) as (m & M & K); exists m; split; [destruct K as [[_ K]|[_ K]]; auto|];
     exists n0; intros n Hn; unfold main_with; rewrite (A n Hn); cbn [ce_err ce_pos]; rewrite M; reflexivity).
Qed.
Print Assumptions C73_main_error.

(** ** Examples *)
Example C73_foobar : intro_Parse 50 letters (bs "foobar") = Ok (inr (bs "foobar")).
Proof. vm_compute. reflexivity. Qed.
Example C73_digit : intro_Parse 50 letters (bs "foo1") =
  Ok (inl (Some (bs "Parse failed" ++ [10] ++ bs " --> Line 1, Col 1" ++ [10] ++ bs " > | foo1" ++ [10] ++ bs "   | ^^^^"))).
Proof. vm_compute. reflexivity. Qed.
Example C73_empty : exists m, intro_Parse 50 letters [] = Ok (inl (Some m)).
Proof. eexists. vm_compute. reflexivity. Qed.
Lemma integer_gram : peg_gram IntegerNumberStr.
Proof. xgram. Qed.
(** The hypotheses hold of the parsers of C31-C35, here of the integers. *)
Example C73_integer : peg_gram IntegerNumberStr /\ word_parser IntegerNumberStr (outL strip integer_word) /\
  intro_Parse 60 IntegerNumberStr (bs "-1_024") = Ok (inr (bs "-1024")).
Proof. split; [apply integer_gram|]. split; [exact (token_word _ _ _ P_Extra.C32_integer)|]. vm_compute. reflexivity. Qed.
Example C73_main_go : main_with 300 main_text =
  Ok (bs "[[0 1 2 3 4 5 6 7 8 9] [0 1 2 3 4 5 6 7 8 9]]" ++ [10] ++ main_text ++ [10], Some [], 0).
Proof. vm_compute. reflexivity. Qed.
Example C73_main_junk : main_with 300 (bs "a," ++ [34] ++ bs "b" ++ [34] ++ bs "c") =
  Ok ([], Some (bs "Parse failed" ++ [10] ++ bs " --> Line 1, Col 1" ++ [10] ++ bs " > | a," ++ [34] ++ bs "b" ++ [34] ++ bs "c" ++ [10] ++ bs "   | ^^^^"), -1).
Proof. vm_compute. reflexivity. Qed.
