(** Lemmas for C55. *)
From Verif Require Import S_Ident L_Extra L_Text.

Lemma skipn_skip {A} (l : list A) n m : skipn n (skipn m l) = skipn (m + n) l.
Proof. revert l. induction m as [|m IH]; intros [|a l]; cbn [skipn Nat.add]; auto. rewrite !skipn_nil. reflexivity. Qed.

(** ** The boundary behind a known character *)
Lemma boundary_after word w cur t r cs : (sp_pos cur <= length (w_str w))%nat ->
  firstn (sp_pos cur) (w_str w) = t ++ cs -> utf8_char r cs -> (r < 262144 \/ 786432 <= r < 1048576) ->
  (forall x l, decode_rune (skipn (sp_pos cur) (w_str w)) = (x, l) -> l <> 0%nat -> word x = false) ->
  peg w (ELight ":string:WordBoundary" (lift (word_boundary_gen word))) cur
    (if word r then RSucc (mkSP (sp_pos cur) 0) [] else RFail).
Proof.
  intros Hp E Hc Hr Hn.
  pose proof (find_prev_char _ _ _ _ _ E Hp Hc Hr) as F.
  pose proof (char_len _ _ Hc) as Lc.
  assert (P0 : sp_pos cur <> 0%nat). { intros Z0. rewrite Z0 in E. symmetry in E. apply app_eq_nil in E. destruct E as [_ ->]. simpl in Lc. lia. }
  pose proof (peg_leaf w ":string:WordBoundary" (lift (word_boundary_gen word)) 0%nat cur) as P.
  unfold lift, word_boundary_gen, with_rest in P. cbv zeta in P.
  unfold fresh, set_st, set_len, set_sp, c_pos in P. cbn [c_str c_sp sp_pos c_slice c_qty c_stack c_cls c_tag c_st] in P.
  replace (Nat.leb (sp_pos cur) (length (w_str w))) with true in P by (symmetry; apply Nat.leb_le; exact Hp).
  destruct (decode_rune (skipn (sp_pos cur) (w_str w))) as [x l] eqn:D. rewrite F in P.
  replace (Nat.eqb (sp_pos cur) 0) with false in P by (symmetry; apply Nat.eqb_neq; exact P0).
  unfold ret in P.
  destruct (Nat.eqb_spec (sp_pos cur) (length (w_str w))) as [Q|Q].
  - replace (Nat.ltb 0 (length cs)) with true in P by (symmetry; apply Nat.ltb_lt; lia). cbn [andb] in P.
    destruct (word r); exact (P _ _ eq_refl).
  - assert (L0 : l <> 0%nat).
    { intros ->. assert (Z0 : snd (decode_rune (skipn (sp_pos cur) (w_str w))) = 0%nat) by (rewrite D; reflexivity).
      apply decode_zero in Z0. apply (f_equal (@length Z)) in Z0. rewrite skipn_length in Z0. simpl in Z0. lia. }
    replace (Nat.eqb l 0) with false in P by (symmetry; apply Nat.eqb_neq; exact L0).
    replace (Nat.eqb (length cs) 0) with false in P by (symmetry; apply Nat.eqb_neq; lia). cbn [negb andb] in P.
    rewrite (Hn x l eq_refl L0) in P. cbn [negb] in P. rewrite andb_true_r, andb_false_r, orb_false_r in P.
    destruct (word r); exact (P _ _ eq_refl).
Qed.

Section Then.
Variables (e : pexp) (cls : string) (R : tlang) (word : Z -> bool).
Hypothesis T : token e cls R.
Hypothesis G : peg_gram e.
Let bnd := ELight ":string:WordBoundary" (lift (word_boundary_gen word)).
(** What follows a longest word is no word character; the word ends in a character of a
    known plane. *)
Hypothesis Ends : forall w o, R w o -> exists t r cs, w = t ++ cs /\ utf8_char r cs /\ (r < 262144 \/ 786432 <= r < 1048576).
Hypothesis Maxi : forall rest w o x l, Forall is_byte rest -> longest R rest w o -> decode_rune (skipn (length w) rest) = (x, l) -> l <> 0%nat -> word x = false.

Lemma then_gram : peg_gram (EFlatGroup [e; bnd]).
Proof.
  split; [exact G|]. split; [|exact I]. unfold bnd. change (good_leaf (lift (word_boundary_gen word))). apply word_boundary_good.
Qed.
Lemma token_then : forall env c, (forall k, peg_gram (env k)) -> Forall is_byte (c_str c) -> (c_pos c <= length (c_str c))%nat ->
  c_st c = Matched ->
  exists n o, run env n (EFlatGroup [e; bnd]) c = Ok (o, None) /\
    ((exists w t a, longest R (skipn (c_pos c) (c_str c)) w t /\ (forall u r cs, w = u ++ cs -> utf8_char r cs -> word r = true) /\
        c_st o = Matched /\ c_pos o = (c_pos c + length w)%nat /\ c_stack o = c_stack c ++ [a] /\
        a_cls a = cls /\ a_ty a = TString /\ a_val a = VStr t) \/
     (exists w t, longest R (skipn (c_pos c) (c_str c)) w t /\ (exists u r cs, w = u ++ cs /\ utf8_char r cs /\ word r = false) /\ c_st o = Unmatched) \/
     (no_word R (skipn (c_pos c) (c_str c)) /\ c_st o = Unmatched)).
Proof.
  intros env c He Hb Hp Hs. destruct (T env c He Hb Hp Hs) as (n & o & E & H).
  set (w := mkW (c_str c) (c_slice c) (c_tag c) env).
  assert (Hw : in_world w c) by (repeat split).
  pose proof then_gram as Gt.
  destruct H as [(x & s & a & Lo & S1 & P1 & K1 & C1 & T1 & V1)|[N S1]].
  - assert (P : peg w e (c_sp c) (RSucc (c_sp o) [a])).
    { apply (peg_adequate w _ c He G Hw Hs). exists n, o, None. split; [exact E|]. repeat split; auto. }
    destruct Lo as ((tl & Er) & Rx & Mx).
    destruct (Ends x s Rx) as (t & r & cs & -> & Hc & Hr).
    assert (Lp : (c_pos o <= length (w_str w))%nat).
    { cbn [w_str w]. apply (f_equal (@length Z)) in Er. rewrite skipn_length, app_length in Er. rewrite P1. lia. }
    assert (Ef : firstn (sp_pos (c_sp o)) (w_str w) = (firstn (c_pos c) (c_str c) ++ t) ++ cs).
    { change (sp_pos (c_sp o)) with (c_pos o). rewrite P1. cbn [w_str w]. rewrite <- (firstn_skipn (c_pos c) (c_str c)) at 1. rewrite Er.
      rewrite firstn_app, firstn_length, Nat.min_l by exact Hp.
      rewrite firstn_all2 by (rewrite firstn_length; lia). replace (c_pos c + length (t ++ cs) - c_pos c)%nat with (length (t ++ cs)) by lia.
      rewrite firstn_app, firstn_all, Nat.sub_diag. cbn [firstn]. rewrite app_nil_r, app_assoc. reflexivity. }
    assert (Es : skipn (sp_pos (c_sp o)) (w_str w) = skipn (length (t ++ cs)) (skipn (c_pos c) (c_str c))).
    { change (sp_pos (c_sp o)) with (c_pos o). rewrite P1. cbn [w_str w]. rewrite skipn_skip. reflexivity. }
    assert (Bn : Forall is_byte (skipn (c_pos c) (c_str c))) by (rewrite <- (firstn_skipn (c_pos c) (c_str c)) in Hb; apply Forall_app in Hb; apply Hb).
    pose proof (boundary_after word w (c_sp o) _ r cs Lp Ef Hc Hr) as B. rewrite Es in B.
    specialize (B (fun y l D L => Maxi _ _ s y l Bn (conj (ex_intro _ tl Er) (conj Rx Mx)) D L)). fold bnd in B.
    destruct (word r) eqn:Wr.
    + assert (P2 : peg w (EFlatGroup [e; bnd]) (c_sp c) (RSucc (mkSP (sp_pos (c_sp o)) 0) ([a] ++ [] ++ []))).
      { apply peg_flat. eapply S_Peg.seq_ok; [exact P|]. eapply S_Peg.seq_ok; [exact B|constructor]. }
      destruct (proj1 (peg_adequate w _ c He Gt Hw Hs _) P2) as (n2 & o2 & err & E2 & Rr). simpl in Rr. destruct Rr as (-> & A1 & A2 & A3).
      exists n2, o2. split; auto. left. exists (t ++ cs), s, a. split; [exact (conj (ex_intro _ tl Er) (conj Rx Mx))|].
      split; [|repeat split; auto; unfold c_pos in *; rewrite A2; exact P1].
      intros u r' cs' Eq Hc'. pose proof (char_suffix _ _ _ _ _ _ Hc Hc' Eq) as <-. destruct (char_inj _ _ [] _ _ [] Hc Hc' eq_refl) as (<- & _). exact Wr.
    + assert (P2 : peg w (EFlatGroup [e; bnd]) (c_sp c) RFail).
      { apply peg_flat. eapply seq_fail_later; [exact P|]. apply seq_fail. exact B. }
      destruct (proj1 (peg_adequate w _ c He Gt Hw Hs _) P2) as (n2 & o2 & err & E2 & Rr). simpl in Rr. destruct Rr as (-> & A1).
      exists n2, o2. split; auto. right. left. exists (t ++ cs), s. split; [exact (conj (ex_intro _ tl Er) (conj Rx Mx))|].
      split; [exists t, r, cs; auto|exact A1].
  - assert (P : peg w e (c_sp c) RFail).
    { apply (peg_adequate w _ c He G Hw Hs). exists n, o, None. split; [exact E|]. repeat split; auto. }
    assert (P2 : peg w (EFlatGroup [e; bnd]) (c_sp c) RFail) by (apply peg_flat, seq_fail; exact P).
    destruct (proj1 (peg_adequate w _ c He Gt Hw Hs _) P2) as (n2 & o2 & err & E2 & Rr). simpl in Rr. destruct Rr as (-> & A1).
    exists n2, o2. split; auto.
Qed.
End Then.

(** ** ASCII *)
Lemma ascii_ends w : ascii_ident w -> exists t b, w = t ++ [b] /\ word_char b.
Proof.
  intros (b & r & -> & Hb & Hr).
  assert (F : Forall word_char (b :: r)).
  { constructor; [unfold word_char, ascii_letter in *; lia|]. revert Hr. apply Forall_impl. unfold word_char, ascii_letter, dec_digit. intros. lia. }
  destruct (exists_last (l := b :: r) ltac:(discriminate)) as (t & x & E). rewrite E in *. exists t, x. split; auto.
  apply Forall_app in F. destruct F as [_ F]. inversion F; auto.
Qed.
Lemma ascii_snoc w x : ascii_ident w -> word_char x -> ascii_ident (w ++ [x]).
Proof.
  intros (b & r & -> & Hb & Hr) X. exists b, (r ++ [x]). split; [reflexivity|]. split; [exact Hb|]. apply Forall_app. split; [exact Hr|].
  constructor; [|constructor]. unfold word_char, ascii_letter, dec_digit in *. lia.
Qed.
Lemma ascii_boundary : token (EFlatGroup [AsciiIdentifierStr; SWordBoundary]) ":extra:IdentifierStr" (outL verbatim ascii_ident).
Proof.
  intros env c He Hb Hp Hs.
  assert (Ends : forall w o, outL verbatim ascii_ident w o -> exists t r cs, w = t ++ cs /\ utf8_char r cs /\ (r < 262144 \/ 786432 <= r < 1048576)).
  { intros w o [H _]. destruct (ascii_ends w H) as (t & b & -> & B). exists t, b, [b]. unfold word_char in B. split; [reflexivity|]. split; [constructor; lia|lia]. }
  assert (Maxi : forall rest w o x l, Forall is_byte rest -> longest (outL verbatim ascii_ident) rest w o -> decode_rune (skipn (length w) rest) = (x, l) -> l <> 0%nat -> isWord x = false).
  { intros rest w o x l Fb ((tl & ->) & [Hw _] & Mx) D L0. destruct (isWord x) eqn:W; [exfalso|reflexivity]. apply isWord_spec in W.
    rewrite skipn_app, skipn_all, Nat.sub_diag in D. cbn [app skipn] in D.
    destruct (decode_inv _ _ _ D) as [(_ & _ & ->)|[(cs & s' & -> & Hc & _)|[(_ & -> & _)|(b & s' & -> & B & _)]]]; [lia| |unfold word_char in W; lia|].
    - assert (Ec : cs = [x]). { assert (Hx : utf8_char x [x]) by (constructor; unfold word_char in W; lia). inversion Hc; subst; unfold word_char in W; try lia; reflexivity. }
      subst cs. specialize (Mx (w ++ [x]) (w ++ [x]) s'). rewrite <- app_assoc in Mx. specialize (Mx eq_refl). rewrite app_length in Mx. simpl in Mx.
      enough (length w + 1 <= length w)%nat by lia. apply Mx. split; [apply ascii_snoc; auto|reflexivity].
    - apply Forall_app in Fb. destruct Fb as [_ Fb]. inversion Fb as [|? ? Q _]; subst. unfold is_byte in Q. lia. }
  destruct (token_then AsciiIdentifierStr _ _ isWord ascii_ident_token ltac:(xgram) Ends Maxi env c He Hb Hp Hs) as (n & o & E & H).
  exists n, o. split; [exact E|]. destruct H as [(w & t & a & Lo & _ & H)|[(w & t & Lo & (u & r & cs & Ew & Hc & Nw) & _)|H]]; [left; exists w, t, a; auto| |auto].
  exfalso. destruct Lo as (_ & [Hw _] & _). destruct (ascii_ends w Hw) as (u' & b & -> & B).
  assert (Hx : utf8_char b [b]) by (constructor; unfold word_char in B; lia). pose proof (char_suffix _ _ _ _ _ _ Hx Hc Ew) as <-.
  destruct (char_inj _ _ [] _ _ [] Hx Hc eq_refl) as (<- & _). apply isWord_spec in B. congruence.
Qed.

(** ** Unicode *)
Lemma unicode_word_spec u r : isUnicodeWord u r = true <->
  (r = 36 \/ id_continue u r) /\ ~ in_table (ut_Pattern_Syntax u) r /\ ~ in_table (ut_Pattern_White_Space u) r.
Proof.
  unfold isUnicodeWord, id_continue, in_table. rewrite !andb_true_iff, !orb_true_iff, !negb_true_iff, !Z.eqb_eq, <- !not_true_iff_false. tauto.
Qed.
Lemma utf8_last rs w : utf8 rs w -> rs <> [] -> exists t r cs, w = t ++ cs /\ utf8_char r cs /\ In r rs.
Proof.
  induction 1 as [|r cs rs w Hc Hu IH]; [congruence|]. intros _. destruct rs as [|r' rs].
  - inversion Hu; subst. exists [], r, cs. rewrite app_nil_r. cbn. auto.
  - destruct IH as (t & x & cs' & -> & Hc' & Hi); [discriminate|]. exists (cs ++ t), x, cs'. rewrite app_assoc. split; auto. split; auto. right. exact Hi.
Qed.
Lemma utf8_snoc rs w r cs : utf8 rs w -> utf8_char r cs -> utf8 (rs ++ [r]) (w ++ cs).
Proof.
  induction 1 as [|r' cs' rs w Hc Hu IH]; intros H; cbn [app].
  - rewrite <- (app_nil_r cs). constructor; [exact H|constructor].
  - rewrite <- app_assoc. constructor; auto.
Qed.
Lemma unicode_chars u w : unicode_ident u w -> exists t r cs, w = t ++ cs /\ utf8_char r cs /\ (r = 95 \/ r = 36 \/ id_start u r \/ id_continue u r).
Proof.
  intros (r & rs & Hu & Hr & Hrs). destruct (utf8_last _ _ Hu ltac:(discriminate)) as (t & x & cs & -> & Hc & Hi). exists t, x, cs. split; auto. split; auto.
  destruct Hi as [<-|Hi]; [tauto|]. pose proof (proj1 (Forall_forall _ _) Hrs x Hi). cbn in H. tauto.
Qed.
Lemma start_continue u r : id_start u r -> id_continue u r.
Proof. unfold id_start, id_continue. tauto. Qed.
Lemma unicode_boundary u : ~ id_start u 65533 -> ~ id_continue u 65533 -> known_planes u -> underscore_word u -> dollar_syntax u ->
  token_no_dollar (EFlatGroup [UnicodeIdentifierStr u; UnicodeWordBoundary u]) ":extra:IdentifierStr" (outL verbatim (unicode_ident u)).
Proof.
  intros N1 N2 Kp Us Ds env c He Hb Hp Hs.
  assert (Ends : forall w o, outL verbatim (unicode_ident u) w o -> exists t r cs, w = t ++ cs /\ utf8_char r cs /\ (r < 262144 \/ 786432 <= r < 1048576)).
  { intros w o [H _]. destruct (unicode_chars u w H) as (t & r & cs & -> & Hc & Hr). exists t, r, cs. split; auto. split; auto.
    destruct Hr as [ -> |[ -> |Hr]]; [lia|lia|]. apply Kp. exact Hr. }
  assert (Maxi : forall rest w o x l, Forall is_byte rest -> longest (outL verbatim (unicode_ident u)) rest w o -> decode_rune (skipn (length w) rest) = (x, l) -> l <> 0%nat -> isUnicodeWord u x = false).
  { intros rest w o x l Fb ((tl & ->) & [Hw _] & Mx) D L0. destruct (isUnicodeWord u x) eqn:W; [exfalso|reflexivity]. apply unicode_word_spec in W.
    rewrite skipn_app, skipn_all, Nat.sub_diag in D. cbn [app skipn] in D.
    destruct (decode_inv _ _ _ D) as [(_ & _ & ->)|[(cs & s' & -> & Hc & _)|[(_ & -> & _)|(b & s' & -> & B & _)]]]; [lia| |destruct W as [[W|W] _]; [lia|contradiction]|].
    - specialize (Mx (w ++ cs) (w ++ cs) s'). rewrite <- app_assoc in Mx. specialize (Mx eq_refl). rewrite app_length in Mx.
      pose proof (char_len _ _ Hc). enough (length w + length cs <= length w)%nat by lia. apply Mx. split; [|reflexivity].
      destruct Hw as (r & rs & Hu & Hr & Hrs). exists r, (rs ++ [x]). split; [apply (utf8_snoc (r :: rs)); auto|]. split; [exact Hr|].
      apply Forall_app. split; [exact Hrs|]. constructor; [tauto|constructor].
    - apply Forall_app in Fb. destruct Fb as [_ Fb]. inversion Fb as [|? ? Q _]; subst. unfold is_byte in Q. lia. }
  destruct (token_then (UnicodeIdentifierStr u) _ _ (isUnicodeWord u) (unicode_ident_token u N1 N2) ltac:(xgram) Ends Maxi env c He Hb Hp Hs) as (n & o & E & H).
  exists n, o. split; [exact E|]. destruct H as [(w & t & a & Lo & Wd & H)|[(w & t & Lo & (p & r & cs & Ew & Hc & Nw) & S)|H]]; [left|right; left|auto].
  - exists w, t, a. split; [exact Lo|]. split; [|exact H]. intros (p & ->). assert (Hd : utf8_char 36 [36]) by (constructor; lia).
    pose proof (Wd p 36 [36] eq_refl Hd) as W. apply unicode_word_spec in W. destruct W as (_ & W & _). exact (W Ds).
  - exists w, t. split; [exact Lo|]. split; [|exact S]. destruct Lo as (_ & [Hw _] & _). destruct (unicode_chars u w Hw) as (p' & r' & cs' & E' & Hc' & Hr).
    rewrite E' in Ew. pose proof (char_suffix _ _ _ _ _ _ Hc' Hc Ew) as <-. destruct (char_inj _ _ [] _ _ [] Hc' Hc eq_refl) as (<- & _).
    assert (Q : id_continue u r' -> False). { intros Q. assert (isUnicodeWord u r' = true) by (apply unicode_word_spec; split; [auto|]; destruct Q as [_ Q]; exact Q). congruence. }
    destruct Hr as [ -> |[ -> |[Hr|Hr]]]; [contradiction (Q Us)| |contradiction (Q (start_continue u r' Hr))|contradiction (Q Hr)].
    assert (Hd : utf8_char 36 [36]) by (constructor; lia). assert (cs' = [36]) by (inversion Hc'; subst; try lia; reflexivity). subst cs'. exists p'. exact E'.
Qed.
