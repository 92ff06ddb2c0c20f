(** The tokens of the formula grammar: spaces, operators, parentheses, numbers. *)
From Verif Require Export L_FormulaProd L_Extra L_Csv S_Err.

(** ** Spaces *)
Lemma space_charL x : charL (fun r => In r [9; 10; 11; 12; 13; 32; 133; 160]) x x <-> space_char x.
Proof.
  unfold space_char. split.
  - intros (r & H & _ & I). simpl in I. destruct I as [<-|[<-|[<-|[<-|[<-|[<-|[<-|[<-|[]]]]]]]]]; apply encode_char in H; vm_compute in H; subst; simpl; auto 12.
  - intros [<-|[<-|[<-|[<-|[<-|[<-|[<-|[<-|[]]]]]]]]]; [exists 9|exists 10|exists 11|exists 12|exists 13|exists 32|exists 133|exists 160];
      (split; [apply encode_valid; split; lia|]); simpl; auto 12.
Qed.
Lemma space_picks : picks SWhitespace space_char.
Proof. eapply picks_char; [|apply space_charL]. eapply okchar_lang; [apply char_sets, cs_ws|simpl; lia]. Qed.
Lemma space_free : prefix_free space_char. Proof. eapply charL_free, space_charL. Qed.
(** No space follows. *)
Definition solid (s : bytes) : Prop := forall x, space_char x -> ~ begins x s.
Lemma gap_run b v : gap b -> solid v -> run_of space_char (b ++ v) v.
Proof. induction 1 as [|x t H G IH]; intros S'; simpl; [apply ro_stop; auto|]. rewrite <- app_assoc. apply ro_more; auto. Qed.
Lemma run_gap s v : run_of space_char s v -> exists b, s = b ++ v /\ gap b /\ solid v.
Proof.
  induction 1 as [s N|x s t H R (b & -> & G & S')]; [exists []; repeat split; auto; constructor|].
  exists (x ++ b). split; [apply app_assoc|]. split; auto. constructor; auto.
Qed.
Lemma gap_total s : exists b v, s = b ++ v /\ gap b /\ solid v.
Proof.
  destruct (run_of_total [[9]; [10]; [11]; [12]; [13]; [32]; [194; 133]; [194; 160]] ltac:(simpl; intuition discriminate) (S (length s)) s ltac:(lia)) as (v & R & _).
  destruct (run_gap s v R) as (b & H). exists b, v. exact H.
Qed.
Lemma sp_0_peg w cur b v : gap b -> solid v -> at_rest w cur (b ++ v) -> exists cur', peg w (erase sp_0) cur (RSucc cur' []) /\ at_rest w cur' v.
Proof.
  intros G S' A. destruct (rep_run _ _ w _ v 0 space_picks space_free (gap_run b v G S') cur 0 A) as (cur' & l & j & P & A' & _).
  exists cur'. split; auto. eapply erase_ok. eapply erase_ok. eapply peg_rep_ok; [exact P|simpl; lia].
Qed.
Lemma solid_head x t : ~ In x [9; 10; 11; 12; 13; 32; 194] -> solid (x :: t).
Proof.
  intros N y H [u E]. unfold space_char in H. simpl in H.
  destruct H as [<-|[<-|[<-|[<-|[<-|[<-|[<-|[<-|[]]]]]]]]]; inversion E; subst; apply N; simpl; auto 12.
Qed.
Lemma solid_nil : solid [].
Proof. intros y H [u E]. unfold space_char in H. simpl in H. destruct H as [<-|[<-|[<-|[<-|[<-|[<-|[<-|[<-|[]]]]]]]]]; discriminate E. Qed.
Lemma gap_head b : gap b -> b = [] \/ exists x t, b = x :: t /\ In x [9; 10; 11; 12; 13; 32; 194].
Proof.
  intros [|x t H _]; auto. right. unfold space_char in H. simpl in H.
  destruct H as [<-|[<-|[<-|[<-|[<-|[<-|[<-|[<-|[]]]]]]]]]; eexists _, _; (split; [reflexivity|simpl; auto 12]).
Qed.

(** ** Operators *)
Definition op_of (b : Z) : option fop :=
  if b =? 43 then Some OAdd else if b =? 45 then Some OSub else if b =? 42 then Some OMul else if b =? 47 then Some ODiv else None.
Lemma op_of_byte b o : op_of b = Some o <-> b = op_byte o.
Proof.
  unfold op_of. destruct (Z.eqb_spec b 43), (Z.eqb_spec b 45), (Z.eqb_spec b 42), (Z.eqb_spec b 47); destruct o; simpl; split; intros; try congruence; try lia.
Qed.
Lemma class_at cc bsl w cur s : cc = map (fun b => [b]) bsl -> at_rest w cur s ->
  match s with
  | b :: t => if existsb (Z.eqb b) bsl then exists cur' a, peg w (SCharClass cc) cur (RSucc cur' [a]) /\ at_rest w cur' t /\ a_val a = VStr [b]
              else peg w (SCharClass cc) cur RFail
  | [] => peg w (SCharClass cc) cur RFail
  end.
Proof.
  intros E A. pose proof A as A0. destruct A0 as [[Gb Gp] Er]. destruct (class_ok (fun _ => EUnmatched) 0 cc (fresh w cur) Gp) as (o & Ho & H).
  pose proof (light_peg _ _ _ _ _ _ _ Ho) as Pg. unfold leaf_result in Pg.
  assert (C : forall x, continues (fresh w cur) x <-> begins x s).
  { intros x. unfold continues. change (skipn (c_pos (fresh w cur)) (c_str (fresh w cur))) with (rest_of w cur). rewrite Er. reflexivity. }
  destruct H as [(pre & x & post & Ec & _ & (T1 & T2 & T3 & T4))|[N (Hs & _)]].
  - assert (I : In x cc) by (rewrite Ec; apply in_elt). rewrite E in I. apply in_map_iff in I. destruct I as (b & <- & I).
    apply C in T1. destruct T1 as [t ->]. cbn [app].
    assert (H : existsb (Z.eqb b) bsl = true) by (apply existsb_exists; exists b; split; auto; apply Z.eqb_refl). rewrite H.
    rewrite T2 in Pg. cbn [c_stack fresh app] in T4. rewrite T4 in Pg. eexists _, _. split; [exact Pg|]. split; [|reflexivity].
    eapply (at_step w cur _ [b]); [exact A|]. rewrite T3. reflexivity.
  - rewrite Hs in Pg. destruct s as [|b t]; auto. destruct (existsb (Z.eqb b) bsl) eqn:H; auto. apply existsb_exists in H. destruct H as (b' & I & H). apply Z.eqb_eq in H. subst b'.
    exfalso. rewrite Forall_forall in N. apply (N [b]); [rewrite E; apply in_map_iff; exists b; auto|]. apply C. exists t. auto.
Qed.
Definition op_bytes := [43; 45; 42; 47].
Lemma op_bytes_of b : existsb (Z.eqb b) op_bytes = match op_of b with Some _ => true | None => false end.
Proof. unfold op_of, op_bytes. simpl. destruct (b =? 43), (b =? 45), (b =? 42), (b =? 47); reflexivity. Qed.
Lemma rename_pipe c cls a : pipeline c [ChangeClassName cls] [a] (inr [mkAst (a_op a) cls (a_ty a) (a_val a) (a_sp a)]).
Proof. eapply (pl_ok _ 0%nat); [reflexivity|constructor]. Qed.
Lemma op_token cc bsl cls w cur x b v : cc = map (fun b => [b]) bsl -> existsb (Z.eqb x) bsl = true -> gap b -> solid v -> at_rest w cur ([x] ++ b ++ v) ->
  exists cur' a, peg w (ETrans (EFlatGroup [SCharClass cc; erase sp_0]) [ChangeClassName cls]) cur (RSucc cur' [a]) /\
    at_rest w cur' v /\ a_cls a = cls /\ a_val a = VStr [x].
Proof.
  intros E I G S' A. pose proof (class_at cc bsl w cur _ E A) as H. cbn [app] in H. rewrite I in H. destruct H as (c1 & a & P & A1 & V).
  destruct (sp_0_peg w c1 b v G S' A1) as (c2 & P2 & A2). exists c2. eexists. split.
  - eapply peg_trans_ok; [constructor; eapply S_Peg.seq_ok; [exact P|]; eapply S_Peg.seq_ok; [exact P2|constructor]|]. apply rename_pipe.
  - split; [exact A2|]. split; [reflexivity|exact V].
Qed.
Lemma op_token_no cc bsl cls w cur s : cc = map (fun b => [b]) bsl -> match s with x :: _ => existsb (Z.eqb x) bsl = false | [] => True end -> at_rest w cur s ->
  peg w (ETrans (EFlatGroup [SCharClass cc; erase sp_0]) [ChangeClassName cls]) cur RFail.
Proof.
  intros E I A. apply peg_trans_fail. constructor. apply seq_fail. pose proof (class_at cc bsl w cur _ E A) as H. destruct s; auto. rewrite I in H. auto.
Qed.
Lemma un_yes w cur b v : gap b -> solid v -> at_rest w cur ([45] ++ b ++ v) ->
  exists cur' a, peg w unaryOperator cur (RSucc cur' [a]) /\ at_rest w cur' v /\ a_cls a = "UnaryOperator"%string /\ a_val a = VStr [45].
Proof. intros. eapply (op_token _ [45]); eauto. Qed.
Lemma un_no w cur s : ~ begins [45] s -> at_rest w cur s -> peg w unaryOperator cur RFail.
Proof.
  intros N A. eapply (op_token_no _ [45]); eauto. destruct s as [|x s]; auto. simpl. destruct (Z.eqb_spec x 45) as [->|]; auto. exfalso. apply N. exists s. auto.
Qed.
Lemma bin_yes w cur o b v : gap b -> solid v -> at_rest w cur ([op_byte o] ++ b ++ v) ->
  exists cur' a, peg w binaryOperator cur (RSucc cur' [a]) /\ at_rest w cur' v /\ a_cls a = "BinaryOperator"%string /\ a_val a = VStr [op_byte o].
Proof. intros. eapply (op_token _ op_bytes); eauto. destruct o; reflexivity. Qed.
Definition op_start (s : bytes) : Prop := exists o t, s = op_byte o :: t.
Lemma bin_no w cur s : ~ op_start s -> at_rest w cur s -> peg w binaryOperator cur RFail.
Proof.
  intros N A. eapply (op_token_no _ op_bytes); eauto. destruct s as [|x s]; auto. rewrite op_bytes_of. destruct (op_of x) as [o|] eqn:E; auto.
  apply op_of_byte in E. subst x. exfalso. apply N. exists o, s. auto.
Qed.
Lemma op_start_dec s : op_start s \/ ~ op_start s.
Proof.
  destruct s as [|x s]; [right; intros (o & t & E); discriminate|]. destruct (op_of x) as [o|] eqn:E.
  - left. apply op_of_byte in E. subst. exists o, s. auto.
  - right. intros (o & t & K). inversion K; subst. assert (op_of (op_byte o) = Some o) by (apply op_of_byte; auto). congruence.
Qed.
(** Parentheses. *)
Lemma paren_yes x w cur t : at_rest w cur ([x] ++ t) -> exists cur', peg w (erase (SCharClass [[x]])) cur (RSucc cur' []) /\ at_rest w cur' t.
Proof.
  intros A. pose proof (class_at [[x]] [x] w cur _ eq_refl A) as H. simpl in H. rewrite Z.eqb_refl in H. simpl in H. destruct H as (c1 & a & P & A1 & _).
  exists c1. split; auto. eapply erase_ok. exact P.
Qed.
Lemma paren_no x w cur s : ~ begins [x] s -> at_rest w cur s -> peg w (erase (SCharClass [[x]])) cur RFail.
Proof.
  intros N A. apply erase_no. pose proof (class_at [[x]] [x] w cur _ eq_refl A) as H. destruct s as [|y s]; auto. simpl in H.
  destruct (Z.eqb_spec y x) as [->|]; [exfalso; apply N; exists s; auto|exact H].
Qed.

(** ** Numbers *)
Lemma int_group_lang : lang (EFlatGroup [opt_sign; int_part]) (O integer_word).
Proof.
  apply lang_flat. apply (out_seq _ hom_strip); [apply sign_lang|apply langs_one, int_lang|].
  eapply ext_sharp; [apply sign_ext|apply int_starts|intros ?b; unfold orP, noP, L_Extra.plus_minus, du, dec_digit; simpl; lia].
Qed.
Lemma int_word_ext w w' t t' : integer_word w -> integer_word w' -> w ++ t = w' ++ t' -> (length w < length w')%nat -> exists b u, t = b :: u /\ du b.
Proof.
  intros (s & b & -> & Hs & Hb) (s' & b' & -> & Hs' & Hb') E L. rewrite <- !app_assoc in E.
  assert (Es : s = s').
  { destruct (int_run _ Hb) as (d & r & -> & Hd & _), (int_run _ Hb') as (d' & r' & -> & Hd' & _). unfold dec_digit in *.
    destruct Hs as [->|[->| ->]], Hs' as [->|[->| ->]]; auto; cbn [app] in E; inversion E; lia. }
  subst s'. apply app_inv_head in E. rewrite !app_length in L.
  destruct (int_ext b (strip b) b' (strip b') t t' (conj Hb eq_refl) (conj Hb' eq_refl) E ltac:(lia)) as (x & u & Ht & Hx). exists x, u. auto.
Qed.
Lemma int_word_last w : integer_word w -> exists y d, w = y ++ [d] /\ du d.
Proof.
  intros (s & b & -> & _ & Hb). destruct (int_run _ Hb) as (d & r & -> & Hd & F). destruct r as [|x r _] using rev_ind.
  - exists s, d. split; auto. left. auto.
  - exists (s ++ d :: r), x. split; [rewrite <- app_assoc; reflexivity|]. apply Forall_app in F. destruct F as [_ F]. inversion F; auto.
Qed.
(** The next character continues a word. *)
Definition word_next (t : bytes) : bool := let '(ch, l) := decode_rune t in Nat.ltb 0 l && isWord ch.
Lemma du_next d t : du d -> word_next (d :: t) = true.
Proof.
  intros H. unfold word_next, decode_rune. assert (d <? 128 = true) as -> by (unfold du, dec_digit in H; lia). simpl.
  unfold isWord, in_rng. unfold du, dec_digit in H. lia.
Qed.
Lemma wb_peg w cur y d t cur0 : at_rest w cur0 ((y ++ [d]) ++ t) -> du d -> sp_pos cur = (sp_pos cur0 + length (y ++ [d]))%nat ->
  peg w SWordBoundary cur (if word_next t then RFail else RSucc (mkSP (sp_pos cur) 0) []).
Proof.
  intros A0 Hd Q. pose proof (at_step w cur0 cur _ t A0 Q) as A. destruct A as [[Gb Gp] Er]. destruct A0 as [[_ Gp0] Er0].
  pose proof (peg_leaf w ":string:WordBoundary" (lift word_boundary_fn) 0 cur) as P. unfold lift, word_boundary_fn, word_boundary_gen, with_rest in P. cbv zeta in P.
  set (c1 := set_st (set_len (fresh w cur) 0) Unmatched) in *.
  change (c_pos c1) with (sp_pos cur) in P. change (c_str c1) with (w_str w) in P. unfold rest_of in Er, Er0. rewrite Er in P.
  assert (Np : Nat.eqb (sp_pos cur) 0 = false) by (apply Nat.eqb_neq; rewrite Q, app_length; simpl; lia).
  assert (Lp : Nat.leb (sp_pos cur) (length (w_str w)) = true) by (apply Nat.leb_le; auto).
  set (pre := firstn (sp_pos cur0) (w_str w) ++ y).
  assert (Es : w_str w = pre ++ d :: t).
  { unfold pre. rewrite <- (firstn_skipn (sp_pos cur0) (w_str w)) at 1. rewrite Er0, <- !app_assoc. reflexivity. }
  assert (Ep : sp_pos cur = S (length pre)).
  { unfold pre. rewrite Q, !app_length, firstn_length_le by auto. simpl. lia. }
  assert (Fp : find_prev (w_str w) (sp_pos cur) = (d, 1%nat)).
  { rewrite Ep, Es. cbn [find_prev]. rewrite app_nth2, Nat.sub_diag by auto. cbn [nth].
    assert (wb_lead d = true) as -> by (unfold wb_lead, du, dec_digit in *; lia).
    pose proof (skipn_mid pre (d :: t) 0) as K. rewrite Nat.add_0_r in K. rewrite K. simpl.
    assert (d <? 128 = true) as -> by (unfold du, dec_digit in Hd; lia). reflexivity. }
  assert (Wd : isWord d = true) by (unfold isWord, in_rng; unfold du, dec_digit in Hd; lia).
  rewrite Np, Lp, Fp in P. unfold word_next. destruct t as [|x t].
  - assert (Nat.eqb (sp_pos cur) (length (w_str w)) = true) as E by (apply Nat.eqb_eq; rewrite Ep, Es, app_length; simpl; lia).
    cbn [decode_rune] in *. rewrite E in P. cbn [Nat.ltb Nat.leb andb] in *. rewrite Wd in P. exact (P _ _ eq_refl).
  - assert (Nat.eqb (sp_pos cur) (length (w_str w)) = false) as E by (apply Nat.eqb_neq; rewrite Ep, Es, app_length; simpl; lia).
    rewrite E in P. assert (Nz : snd (decode_rune (x :: t)) <> 0%nat).
    { unfold decode_rune. repeat match goal with |- context [if ?b then _ else _] => destruct b | |- context [match ?l with [] => _ | _ => _ end] => destruct l end; simpl; lia. }
    destruct (decode_rune (x :: t)) as [ch l]. simpl in Nz. apply Nat.eqb_neq in Nz. rewrite Nz in P. apply Nat.eqb_neq in Nz.
    assert (Nat.ltb 0 l = true) as -> by (apply Nat.ltb_lt; lia). cbn [Nat.eqb negb andb] in P. rewrite Wd in P. cbn [negb andb orb] in P.
    destruct (isWord ch); exact (P _ _ eq_refl).
Qed.
Lemma gap_func b v b' v' : gap b -> solid v -> gap b' -> solid v' -> b ++ v = b' ++ v' -> b = b' /\ v = v'.
Proof.
  intros G. revert b'. induction G as [|x t H G IH]; intros b' S' G' S2 E.
  - destruct G' as [|x' t' H' G']; auto. exfalso. apply (S' x' H'). exists (t' ++ v'). rewrite app_assoc. auto.
  - destruct G' as [|x' t' H' G']; [exfalso; apply (S2 x H); exists (t ++ v); rewrite app_assoc; auto|].
    rewrite <- !app_assoc in E. destruct (space_free _ _ _ _ H H' E) as [-> E2]. destruct (IH t' S' G' S2 E2) as [-> ->]. auto.
Qed.
(** Only what is too large fails to be read. *)
Lemma uint_loop_err base s ds : 2 <= base <= 36 -> Forall2 (digit base) s ds -> forall n e, parse_uint_loop base s n = inl e -> e = ErrRange.
Proof.
  intros Hb. induction 1 as [|c d s ds Hc H IH]; intros n e; cbn [parse_uint_loop]; [discriminate|].
  apply digit_val_spec in Hc; auto. destruct Hc as [-> Hd]. destruct (Z.leb_spec base d); [lia|].
  destruct (_ <=? n); [intros E; inversion E; auto|]. cbn zeta. destruct (_ || _); [intros E; inversion E; auto|]. apply IH.
Qed.
Lemma uint_err base s z e : 2 <= base <= 36 -> numeral base s z -> parse_uint s base = inl e -> e = ErrRange.
Proof.
  intros Hb (N & ds & F & _). unfold parse_uint. destruct s as [|c s]; [congruence|]. replace ((2 <=? base) && (base <=? 36)) with true by lia.
  eapply uint_loop_err; eauto.
Qed.
Lemma int_err base s z e : 2 <= base <= 36 -> int_numeral base s z -> parse_int s base = inl e -> e = ErrRange.
Proof.
  intros Hb N. unfold parse_int. destruct s as [|c s]; [destruct N as [[N _]|[(t & E & _)|(t & E & _)]]; congruence|].
  assert (K : exists y, numeral base (snd (if c =? 43 then (false, s) else if c =? 45 then (true, s) else (false, c :: s))) y).
  { destruct N as [N|[(t & E & N)|(t & E & N)]].
    - exists z. destruct (digit_not_sign _ _ _ _ N). destruct (Z.eqb_spec c 43); [lia|]. destruct (Z.eqb_spec c 45); [lia|]. exact N.
    - inversion E; subst. exists z. exact N.
    - inversion E; subst. exists (- z). exact N. }
  destruct K as [y K]. destruct (if c =? 43 then _ else _) as [neg t]. cbn [snd] in K. destruct (parse_uint t base) as [e1|un] eqn:P.
  - intros E; inversion E; subst. eapply uint_err; eauto.
  - destruct (negb neg && _); [intros E; inversion E; auto|]. destruct (neg && _); intros E; inversion E; auto.
Qed.
Lemma word_next_byte t : Forall is_byte t -> (word_next t = false <-> forall b u, t = b :: u -> ~ word_byte b).
Proof.
  intros Hb. unfold word_next. destruct t as [|b t]; [split; [intros _ ? ? E; discriminate|reflexivity]|].
  destruct (decode_rune (b :: t)) as [r l] eqn:E.
  assert (L : (0 < l)%nat). { pose proof (decode_zero (b :: t)) as Z. rewrite E in Z. cbn [snd] in Z. destruct l; [destruct Z as [Z _]; specialize (Z eq_refl); discriminate|lia]. }
  replace (Nat.ltb 0 l) with true by (symmetry; apply Nat.ltb_lt; exact L). cbn [andb].
  assert (K : isWord r = true <-> word_byte b).
  { inversion Hb as [|? ? Hb1 Hb2]; subst. unfold is_byte in Hb1. destruct (Z_lt_dec b 128) as [Lb|Lb].
    - unfold decode_rune in E. replace (b <? 128) with true in E by lia. inversion E; subst. unfold isWord, word_byte, in_rng. lia.
    - split; [|unfold word_byte; lia]. intros W. exfalso. assert (128 <= r); [|unfold isWord, in_rng in W; lia].
      apply decode_next in E; [|auto]. inversion E as [|r0 cs0 s0 U Es El|]; subst; try lia.
      inversion U; subst; try lia; inversion Es; subst; lia. }
  destruct (isWord r); split; auto; try discriminate.
  - intros H. exfalso. apply (H b t eq_refl), K. reflexivity.
  - intros _ b1 u E1 W. inversion E1; subst. apply K in W. discriminate.
Qed.
(** A number can be read: a longest literal that is not followed by a word character. *)
Definition numberT (s wd b v : bytes) : Prop :=
  s = wd ++ b ++ v /\ integer_word wd /\ gap b /\ solid v /\ word_next (b ++ v) = false.
Lemma numberT_func s wd b v wd' b' v' : numberT s wd b v -> numberT s wd' b' v' -> wd = wd' /\ b = b' /\ v = v'.
Proof.
  intros (E & W & G & S' & N) (E' & W' & G' & S2 & N'). rewrite E in E'.
  assert (L : length wd = length wd').
  { destruct (lt_eq_lt_dec (length wd) (length wd')) as [[L|L]|L]; auto; exfalso.
    - destruct (int_word_ext _ _ _ _ W W' E' L) as (x & u & K & Hx). rewrite K, du_next in N; auto. discriminate.
    - symmetry in E'. destruct (int_word_ext _ _ _ _ W' W E' L) as (x & u & K & Hx). rewrite K, du_next in N'; auto. discriminate. }
  destruct (app_len_eq _ _ _ _ E' L) as [-> E2]. destruct (gap_func b v b' v') as [-> ->]; auto.
Qed.
Definition num (z : Z) : ast := mkAst 0 "Number" TInt (VInt z) sp0.
Lemma int_numeral_func s z z' : int_numeral 10 s z -> int_numeral 10 s z' -> z = z'.
Proof.
  assert (B : 2 <= 10 <= 36) by lia.
  intros [H|[(t & -> & H)|(t & -> & H)]] [H'|[(t' & E & H')|(t' & E & H')]]; try (inversion E; subst);
    try (apply digit_not_sign in H; lia); try (apply digit_not_sign in H'; lia); pose proof (numeral_func _ _ _ _ B H H'); lia.
Qed.
Lemma number_total w cur s : at_rest w cur s ->
  (peg w number cur RFail /\ forall wd b v, ~ numberT s wd b v) \/
  exists wd b v z, numberT s wd b v /\ int_numeral 10 (strip wd) z /\
    ((int64 z /\ exists cur', peg w number cur (RSucc cur' [num z]) /\ at_rest w cur' v) \/
     (~ int64 z /\ exists cur', peg w number cur (RErr cur' (ENum "ParseInt" (strip wd) true)) /\ at_rest w cur' v)).
Proof.
  intros A. pose proof A as [G Er].
  destruct (int_group_lang w cur G) as [(cur' & l & P & wd & o & ss & ((t & T) & (W & Eo) & Mx) & Q & F & C)|[P N]].
  - rewrite Er in T, Mx. clear Er. subst s.
    assert (PI : peg w IntegerNumberStr cur (RSucc cur' [mkAst 0 ":extra:IntegerNumberStr" TString (VStr (strip wd)) (head_sp l)])).
    { eapply peg_trans_ok; [exact P|]. eapply (pl_ok _ 0%nat); [apply concat_ok; exact F|]. rewrite C, Eo.
      eapply (pl_ok _ 0%nat); [reflexivity|constructor]. }
    destruct (int_word_last wd W) as (y & d & Ew & Hd).
    pose proof (wb_peg w cur' y d t cur) as WB. rewrite <- Ew in WB. specialize (WB A Hd Q).
    pose proof (at_step w cur (mkSP (sp_pos cur') 0) wd t A Q) as A1.
    destruct (word_next t) eqn:Wn.
    + left. split. { apply peg_trans_fail. constructor. eapply seq_fail_later; [exact PI|]. apply seq_fail. exact WB. }
      intros wd' b' v' (E' & W' & G' & S2 & N').
      pose proof (Mx wd' (strip wd') _ E' (conj W' eq_refl)) as L. destruct (le_lt_eq_dec _ _ L) as [L2|L2].
      * symmetry in E'. destruct (int_word_ext _ _ _ _ W' W E' L2) as (x & u & K & Hx). rewrite K, du_next in N'; auto. discriminate.
      * destruct (app_len_eq _ _ _ _ E' (eq_sym L2)) as [-> E2]. congruence.
    + right. destruct (gap_total t) as (b & v & -> & Gb & Sv). destruct (integer_numeral wd W) as [z Hz].
      destruct (sp_0_peg w _ b v Gb Sv A1) as (c2 & P2 & A2). exists wd, b, v, z. split; [repeat split; auto|]. split; auto.
      assert (PF : peg w (EFlatGroup [IntegerNumberStr; SWordBoundary; erase sp_0]) cur (RSucc c2 [mkAst 0 ":extra:IntegerNumberStr" TString (VStr (strip wd)) (head_sp l)])).
      { change [mkAst 0 ":extra:IntegerNumberStr" TString (VStr (strip wd)) (head_sp l)] with ([mkAst 0 ":extra:IntegerNumberStr" TString (VStr (strip wd)) (head_sp l)] ++ [] ++ [] ++ []).
        constructor. eapply S_Peg.seq_ok; [exact PI|]. eapply S_Peg.seq_ok; [exact WB|]. eapply S_Peg.seq_ok; [exact P2|constructor]. }
      destruct (parse_int (strip wd) 10) as [e|z'] eqn:Ez.
      * right. split. { intros I. assert (parse_int (strip wd) 10 = inr z) by (apply parse_int_ok; [lia|auto]). congruence. }
        exists c2. split; auto. eapply peg_trans_bad; [exact PF|]. eapply (pl_err _ 0%nat). cbn [parseNumber a_val]. unfold parseNumber. cbn [a_val]. rewrite Ez.
        rewrite (int_err 10 _ z e ltac:(lia) Hz Ez). reflexivity.
      * apply parse_int_ok in Ez as Ez2; [|lia]. destruct Ez2 as [Hn Hi].
        assert (z' = z).
        { eapply int_numeral_func; eauto. }
        subst z'. left. split; auto. exists c2. split; auto. eapply peg_trans_ok; [exact PF|]. eapply (pl_ok _ 0%nat); [|constructor].
        unfold parseNumber. cbn [a_val]. rewrite Ez. reflexivity.
  - left. split; [apply peg_trans_fail; constructor; apply seq_fail; apply peg_trans_fail; exact P|].
    intros wd b v (E & W & _). rewrite Er in N. apply (N wd (strip wd) (b ++ v) E). split; auto.
Qed.
