(** Proofs about the transformers (C20-C24). *)
From Verif Require Export S_Trans L_Text.

(** ** C20: Concat *)
Lemma concat_loop_ok l ss : Forall2 string_ast l ss -> concat_loop l = Ok (inr (concat ss)).
Proof. induction 1 as [|a s l ss [H1 H2] H IH]; simpl; auto. rewrite H1, H2. simpl. rewrite IH. auto. Qed.
Lemma concat_ok n c l ss : Forall2 string_ast l ss -> Concat n c l = Ok (inr [text_ast l (concat ss)]).
Proof.
  intros H. unfold Concat, concat_asts. destruct l as [|a l].
  - inversion H; subst. reflexivity.
  - rewrite (concat_loop_ok _ _ H). reflexivity.
Qed.
Lemma concat_bad n c l1 ss a l2 : Forall2 string_ast l1 ss -> a_ty a <> TString ->
  Concat n c (l1 ++ a :: l2) = Ok (inl (EBadType (a_ty a))).
Proof.
  intros H Ha. assert (E : concat_loop (l1 ++ a :: l2) = Ok (inl (EBadType (a_ty a)))).
  { induction H as [|x s l1 ss [H1 H2] H IH]; simpl.
    - destruct (a_ty a); simpl; congruence.
    - rewrite H1, H2. simpl. rewrite IH. auto. }
  unfold Concat, concat_asts. destruct (l1 ++ a :: l2) eqn:L; [destruct l1; discriminate|]. rewrite E. reflexivity.
Qed.
Lemma typed_split l : Forall typed l ->
  (exists ss, Forall2 string_ast l ss) \/
  (exists l1 ss a l2, l = l1 ++ a :: l2 /\ Forall2 string_ast l1 ss /\ a_ty a <> TString).
Proof.
  induction 1 as [|a l Ha Hl IH].
  - left. exists []. constructor.
  - destruct (asttype_eqb (a_ty a) TString) eqn:E.
    + assert (Ht : a_ty a = TString) by (destruct (a_ty a); simpl in E; congruence).
      destruct (Ha Ht) as [s Hs]. destruct IH as [[ss IH]|(l1 & ss & b & l2 & -> & H1 & H2)].
      * left. exists (s :: ss). constructor; auto. split; auto.
      * right. exists (a :: l1), (s :: ss), b, l2. split; auto. split; auto. constructor; auto. split; auto.
    + right. exists [], [], a, l. split; auto. split; [constructor|]. intros Ht. rewrite Ht in E. discriminate.
Qed.

Lemma with_concat_ok l ss k : Forall2 string_ast l ss -> with_concat l k = k (text_ast l (concat ss)) (concat ss).
Proof. intros H. unfold with_concat. pose proof (concat_ok 0 (new_string_ctx []) l ss H) as E. unfold Concat in E. rewrite E. reflexivity. Qed.

(** ** Trim *)
Lemma in_cutset_spec r : in_cutset r = true <-> space r.
Proof. unfold in_cutset, space. simpl. rewrite !orb_true_iff, !Z.eqb_eq. intuition. Qed.
Lemma space_not_FFFD r : space r -> r <> 65533.
Proof. unfold space. simpl. intuition lia. Qed.
Lemma space_scalar r : space r -> scalar r.
Proof. unfold space, scalar. simpl. intuition lia. Qed.
Lemma decode_space s r l : Forall is_byte s -> decode_rune s = (r, l) -> (l <> 0%nat /\ space r) ->
  exists cs t, s = cs ++ t /\ utf8_char r cs /\ l = length cs.
Proof.
  intros Hb D [Hl Hs]. apply decode_next in D; auto. apply space_not_FFFD in Hs. inversion D; subst; try congruence. eauto.
Qed.
Lemma decode_no_space s r l : decode_rune s = (r, l) -> ~ (l <> 0%nat /\ space r) -> ~ starts_with_space s.
Proof.
  intros D Hn (r' & cs & t & Hs & Hc & ->). rewrite (decode_char _ _ _ Hc) in D. inversion D; subst. apply Hn. split; auto.
  apply char_len in Hc. lia.
Qed.
Lemma spaces_nil : spaces [].
Proof. exists []. split; constructor. Qed.
Lemma spaces_app a b : spaces a -> spaces b -> spaces (a ++ b).
Proof. intros (ra & A1 & A2) (rb & B1 & B2). exists (ra ++ rb). split; [apply utf8_app; auto|apply Forall_app; auto]. Qed.
Lemma spaces_char r cs : utf8_char r cs -> space r -> spaces cs.
Proof. intros H Hs. exists [r]. split; [|auto]. rewrite <- (app_nil_r cs). constructor; auto. constructor. Qed.
Lemma test_space l r : negb (Nat.eqb l 0) && in_cutset r = true <-> (l <> 0%nat /\ space r).
Proof. rewrite andb_true_iff, negb_true_iff, Nat.eqb_neq, in_cutset_spec. tauto. Qed.

Lemma trim_left_ok n : forall s, Forall is_byte s -> (length s <= n)%nat -> trimmed_start s (trim_left_n n s).
Proof.
  induction n as [|n IH]; intros s Hb Hn; simpl.
  - destruct s; [|simpl in Hn; lia]. exists []. split; auto. split; [apply spaces_nil|].
    intros (r & cs & t & _ & Hc & E). symmetry in E. revert E. eapply char_not_nil; eauto.
  - destruct (decode_rune s) as [r l] eqn:D. destruct (negb (Nat.eqb l 0) && in_cutset r) eqn:T.
    + apply test_space in T. destruct (decode_space s r l Hb D T) as (cs & t & -> & Hc & ->).
      rewrite skipn_app, skipn_all, Nat.sub_diag. simpl. pose proof (char_len _ _ Hc) as Hl. rewrite app_length in Hn.
      apply Forall_app in Hb. destruct (IH t ltac:(tauto) ltac:(lia)) as (p & E & Hp & Hs).
      exists (cs ++ p). split; [rewrite <- app_assoc; congruence|]. split; auto. apply spaces_app; auto.
      eapply spaces_char; eauto. tauto.
    + exists []. split; auto. split; [apply spaces_nil|]. eapply decode_no_space; eauto. rewrite <- test_space. congruence.
Qed.

(** Decoding the last character. *)
Lemma last_app {A} (t : list A) x d : last (t ++ [x]) d = x.
Proof. induction t as [|a t IH]; auto. simpl. rewrite IH. destruct t; auto. Qed.
Lemma last_start_char t b u f k :
  Forall (fun x => 128 <= x < 192) u -> (b < 128 \/ 192 <= b) -> (2 <= k <= S (length u))%nat -> (S (length u) < k + f)%nat ->
  last_start (t ++ b :: u) f k = Some (S (length u)).
Proof.
  revert k. induction f as [|f IH]; intros k Hu Hb Hk Hf; [lia|]. cbn [last_start].
  rewrite app_length. simpl length. destruct (Nat.ltb_spec (length t + S (length u)) k); [lia|].
  destruct (Nat.eq_dec k (S (length u))) as [->|Hne].
  - replace (length t + S (length u) - S (length u))%nat with (length t + 0)%nat by lia. rewrite app_nth2_plus. cbn [nth].
    unfold rune_start, is_cont, in_rng. replace ((128 <=? b) && (b <=? 191)) with false by lia. reflexivity.
  - replace (length t + S (length u) - k)%nat with (length t + (S (length u) - k))%nat by lia. rewrite app_nth2_plus.
    destruct (S (length u) - k)%nat as [|m] eqn:Em; [lia|]. cbn [nth].
    assert (In (nth m u 0) u) as Hin by (apply nth_In; lia). rewrite Forall_forall in Hu. apply Hu in Hin.
    unfold rune_start, is_cont, in_rng. replace ((128 <=? nth m u 0) && (nth m u 0 <=? 191)) with true by lia. simpl.
    apply IH; [apply Forall_forall; auto|auto|lia|lia].
Qed.
Lemma decode_last_char t r cs : utf8_char r cs -> decode_last_rune (t ++ cs) = (r, length cs).
Proof.
  intros Hc. pose proof (char_bytes _ _ Hc) as (b & u & Ecs & Hu & Hb & _).
  destruct (Z.lt_ge_cases b 128) as [Hs|Hs].
  - assert (u = [] /\ r = b) as [-> ->].
    { clear - Hc Ecs Hs. pose proof (f_equal (hd 0) Ecs) as E1. pose proof (f_equal (@tl Z) Ecs) as E2. cbn [hd tl] in E1, E2.
      destruct Hc; cbn [hd tl] in E1, E2; [split; congruence|exfalso; lia..]. }
    subst. unfold decode_last_rune. destruct (t ++ [b]) eqn:E; [destruct t; discriminate|]. rewrite <- E, last_app.
    replace (b <? 128) with true by lia. reflexivity.
  - assert (Hl : (1 <= length u <= 3)%nat).
    { split; [|apply char_len in Hc; subst cs; simpl in Hc; lia]. destruct u; simpl; [|lia].
      clear - Hc Ecs Hs. pose proof (f_equal (hd 0) Ecs) as E1. pose proof (f_equal (@tl Z) Ecs) as E2. cbn [hd tl] in E1, E2.
      destruct Hc; cbn [hd tl] in E1, E2; [lia|discriminate..]. }
    unfold decode_last_rune. destruct (t ++ cs) eqn:E; [subst cs; destruct t; discriminate|]. rewrite <- E.
    assert (128 <= last (t ++ cs) 0) as Hlast.
    { subst cs. destruct u as [|x u _] using rev_ind; [simpl in Hl; lia|].
      change (b :: u ++ [x]) with ((b :: u) ++ [x]). rewrite app_assoc, last_app.
      apply Forall_app in Hu. destruct Hu as [_ Hx]. inversion Hx; subst. lia. }
    replace (last (t ++ cs) 0 <? 128) with false by lia. rewrite Ecs at 1. rewrite last_start_char; auto; try lia.
    replace (length (t ++ cs) - S (length u))%nat with (length t) by (rewrite app_length, Ecs; simpl; lia).
    rewrite skipn_app, skipn_all, Nat.sub_diag. simpl. rewrite <- (app_nil_r cs) at 1. rewrite (decode_char _ _ _ Hc).
    rewrite Ecs at 1. simpl length. rewrite Nat.eqb_refl. reflexivity.
Qed.
Lemma decode_last_space s r l : Forall is_byte s -> decode_last_rune s = (r, l) -> l <> 0%nat /\ space r ->
  exists cs t, s = t ++ cs /\ utf8_char r cs /\ l = length cs.
Proof.
  intros Hb D [Hl Hs]. pose proof (space_not_FFFD _ Hs) as Hn. unfold decode_last_rune in D.
  destruct s as [|x s0] eqn:Es; [inversion D; subst; congruence|]. rewrite <- Es in *. assert (Hne : s <> []) by congruence. clear Es. unfold RuneError in D.
  destruct (last s 0 <? 128) eqn:E.
  - inversion D; subst. destruct s as [|y s _] using rev_ind; [congruence|]. clear D Hne.
    apply Forall_app in Hb. destruct Hb as [_ Hb]. inversion Hb; subst. rewrite last_app in *. unfold is_byte in *.
    exists [y], s. split; auto. split; auto. constructor. lia.
  - destruct (last_start s 3 2) as [k|]; [|inversion D; subst; congruence].
    destruct (decode_rune (skipn (length s - k) s)) as [r' size] eqn:D'.
    destruct (Nat.eqb_spec size k); [|inversion D; subst; congruence]. inversion D; subst r' size. subst l.
    destruct (decode_space _ _ _ (Forall_skipn' _ _ _ Hb) D' (conj Hl Hs)) as (cs & t & Ec & Hc & Hk).
    exists cs, (firstn (length s - k) s). pose proof (skipn_length (length s - k) s) as L. rewrite Ec, app_length in L.
    assert (t = []) by (destruct t; auto; simpl in L; lia). subst t. rewrite app_nil_r in Ec.
    split; [rewrite <- Ec, firstn_skipn; auto|auto].
Qed.
Lemma decode_last_no_space s r l : decode_last_rune s = (r, l) -> ~ (l <> 0%nat /\ space r) -> ~ ends_with_space s.
Proof.
  intros D Hn (r' & cs & t & Hs & Hc & ->). rewrite (decode_last_char _ _ _ Hc) in D. inversion D; subst. apply Hn. split; auto.
  apply char_len in Hc. lia.
Qed.
Lemma trim_right_ok n : forall s, Forall is_byte s -> (length s <= n)%nat -> trimmed_end s (trim_right_n n s).
Proof.
  induction n as [|n IH]; intros s Hb Hn; simpl.
  - destruct s; [|simpl in Hn; lia]. exists []. split; auto. split; [apply spaces_nil|].
    intros (r & cs & t & _ & Hc & E). apply char_len in Hc. apply (f_equal (@length Z)) in E. rewrite app_length in E. simpl in E. lia.
  - destruct (decode_last_rune s) as [r l] eqn:D. destruct (negb (Nat.eqb l 0) && in_cutset r) eqn:T.
    + apply test_space in T. destruct (decode_last_space s r l Hb D T) as (cs & t & -> & Hc & ->).
      replace (length (t ++ cs) - length cs)%nat with (length t) by (rewrite app_length; lia). rewrite firstn_len_app.
      pose proof (char_len _ _ Hc) as Hl. rewrite app_length in Hn.
      apply Forall_app in Hb. destruct (IH t ltac:(tauto) ltac:(lia)) as (p & E & Hp & Hs).
      exists (p ++ cs). split; [rewrite app_assoc; congruence|]. split; auto. apply spaces_app; auto.
      eapply spaces_char; eauto. tauto.
    + exists []. rewrite app_nil_r. split; auto. split; [apply spaces_nil|]. eapply decode_last_no_space; eauto. rewrite <- test_space. congruence.
Qed.
Lemma trim_both_ok s : Forall is_byte s -> trimmed s (trim_both s).
Proof.
  intros Hb. unfold trim_both, trim_right, trim_left.
  destruct (trim_left_ok (length s) s Hb (le_n _)) as (p & E & Hp & Hs). set (t := trim_left_n (length s) s) in *.
  assert (Ht : Forall is_byte t) by (rewrite E in Hb; apply Forall_app in Hb; tauto).
  destruct (trim_right_ok (length t) t Ht (le_n _)) as (q & Eq & Hq & He). set (u := trim_right_n (length t) t) in *.
  exists p, q. split; [rewrite <- Eq; auto|]. repeat split; auto.
  intros (r & cs & x & A & B & C). apply Hs. exists r, cs, (x ++ q). rewrite Eq, C, app_assoc. auto.
Qed.

(** The three results are unique. *)
Lemma spaces_prefix_cons p r cs : spaces (cs ++ p) -> utf8_char r cs -> space r /\ spaces p.
Proof.
  intros (rs & H1 & H2) Hc. destruct (utf8_cons_inv _ _ _ _ H1 Hc) as (rs' & -> & H). inversion H2; subst. split; auto. exists rs'. auto.
Qed.
Lemma trimmed_start_func s t t' : trimmed_start s t -> trimmed_start s t' -> t = t'.
Proof.
  intros (p & -> & (rs & H1 & H2) & H) (p' & E & (rs' & H1' & H2') & H'). revert p' rs' E H1' H2'.
  induction H1 as [|r cs rs p Hc H1 IH]; intros p' rs' E H1' H2'.
  - destruct H1' as [|r cs rs' p' Hc _]; auto. exfalso. apply H. inversion H2'; subst. exists r, cs, (p' ++ t').
    split; auto. split; auto. simpl in E. rewrite <- app_assoc in E. auto.
  - inversion H2; subst. destruct H1' as [|r' cs' rs' p' Hc' H1'].
    + exfalso. apply H'. exists r, cs, (p ++ t). split; auto. split; auto. simpl in E. rewrite <- E, <- app_assoc. auto.
    + rewrite <- !app_assoc in E. destruct (char_inj _ _ _ _ _ _ Hc Hc' E) as (-> & -> & E'). inversion H2'; subst. eapply IH; eauto.
Qed.

(** ** C21 *)
Lemma digit_val_spec base c d : 2 <= base <= 36 -> (digit base c d <-> digit_val c = Some d /\ d < base).
Proof.
  intros Hb. unfold digit_val, lower, in_rng. split.
  - intros [d' H1 H2|d' H1 H2|d' H1 H2].
    + replace ((48 <=? 48 + d') && (48 + d' <=? 57)) with true by lia. split; auto. f_equal. lia.
    + replace ((48 <=? 97 + (d' - 10)) && (97 + (d' - 10) <=? 57)) with false by lia.
      replace ((65 <=? 97 + (d' - 10)) && (97 + (d' - 10) <=? 90)) with false by lia.
      replace ((97 <=? 97 + (d' - 10)) && (97 + (d' - 10) <=? 122)) with true by lia. split; auto. f_equal. lia.
    + replace ((48 <=? 65 + (d' - 10)) && (65 + (d' - 10) <=? 57)) with false by lia.
      replace ((65 <=? 65 + (d' - 10)) && (65 + (d' - 10) <=? 90)) with true by lia.
      replace ((97 <=? 65 + (d' - 10) + 32) && (65 + (d' - 10) + 32 <=? 122)) with true by lia. split; auto. f_equal. lia.
  - intros [H Hd]. destruct ((48 <=? c) && (c <=? 57)) eqn:E1.
    + inversion H; subst. replace c with (48 + (c - 48)) at 1 by lia. constructor; lia.
    + destruct ((65 <=? c) && (c <=? 90)) eqn:E2.
      * destruct ((97 <=? c + 32) && (c + 32 <=? 122)) eqn:E3; inversion H; subst.
        replace c with (65 + ((c + 32 - 97 + 10) - 10)) at 1 by lia. apply d_upper; lia.
      * destruct ((97 <=? c) && (c <=? 122)) eqn:E3; inversion H; subst.
        replace c with (97 + ((c - 97 + 10) - 10)) at 1 by lia. apply d_lower; lia.
Qed.
Lemma digit_nonneg base c d : digit base c d -> 0 <= d < base.
Proof. destruct 1; lia. Qed.
Lemma positional_nonneg base ds : 2 <= base -> Forall (fun d => 0 <= d < base) ds -> 0 <= positional base ds.
Proof.
  intros Hb. induction 1 as [|d ds Hd H IH]; simpl; [lia|]. pose proof (Z.pow_nonneg base (Z.of_nat (length ds)) ltac:(lia)). nia.
Qed.
Lemma digits_range base s ds : Forall2 (digit base) s ds -> Forall (fun d => 0 <= d < base) ds.
Proof. induction 1; constructor; auto. eapply digit_nonneg; eauto. Qed.

(** The loop, started with the value of the digits already read. *)
Lemma loop_ok base : 2 <= base <= 36 -> forall s n z, 0 <= n <= maxUint64 ->
  (parse_uint_loop base s n = inr z <->
   exists ds, Forall2 (digit base) s ds /\ z = n * base ^ Z.of_nat (length ds) + positional base ds /\ z <= maxUint64).
Proof.
  intros Hb. induction s as [|c s IH]; intros n z Hn.
  - cbn. split.
    + intros E. inversion E; subst. exists []. cbn. split; [constructor|]. lia.
    + intros (ds & H & -> & _). inversion H; subst. cbn. f_equal. lia.
  - cbn [parse_uint_loop]. destruct (digit_val c) as [d|] eqn:Ed.
    2:{ split; [discriminate|]. intros (ds & H & _). inversion H; subst. apply digit_val_spec in H2; auto. destruct H2. congruence. }
    destruct (base <=? d) eqn:Eb.
    { split; [discriminate|]. intros (ds & H & _). inversion H; subst. apply digit_val_spec in H2; auto. destruct H2 as [H2 H5].
      rewrite Ed in H2. inversion H2; subst. lia. }
    assert (Hd : digit base c d) by (apply digit_val_spec; auto; split; auto; lia).
    pose proof (digit_nonneg _ _ _ Hd) as Hd0.
    assert (Key : forall z', (exists ds, Forall2 (digit base) (c :: s) ds /\ z' = n * base ^ Z.of_nat (length ds) + positional base ds /\ z' <= maxUint64) <->
      n * base + d <= maxUint64 /\ exists ds, Forall2 (digit base) s ds /\ z' = (n * base + d) * base ^ Z.of_nat (length ds) + positional base ds /\ z' <= maxUint64).
    { intros z'. split.
      - intros (ds & H & Ez & Hz). inversion H as [|? d' ? ds' Hd' H']; subst.
        assert (d' = d). { apply digit_val_spec in Hd'; auto. destruct Hd'. congruence. } subst d'.
        cbn [length positional] in *. rewrite Nat2Z.inj_succ, Z.pow_succ_r in * by lia.
        pose proof (positional_nonneg base ds' ltac:(lia) (digits_range _ _ _ H')) as Hp.
        pose proof (Z.pow_pos_nonneg base (Z.of_nat (length ds')) ltac:(lia) ltac:(lia)) as Hw.
        split; [nia|]. exists ds'. split; auto. split; [ring|auto].
      - intros (H0 & ds & H & -> & Hz). exists (d :: ds). split; [constructor; auto|]. cbn [length positional] in *.
        rewrite Nat2Z.inj_succ, Z.pow_succ_r by lia. split; [ring|auto]. }
    rewrite Key. clear Key.
    assert (Hm : maxUint64 = 18446744073709551615) by reflexivity. assert (H64 : two64 = maxUint64 + 1) by reflexivity.
    destruct (maxUint64 / base + 1 <=? n) eqn:Ec.
    + split; [discriminate|]. intros [H0 _]. exfalso. apply Z.leb_le in Ec.
      pose proof (Z.div_mod maxUint64 base ltac:(lia)). pose proof (Z.mod_pos_bound maxUint64 base ltac:(lia)). nia.
    + apply Z.leb_gt in Ec. assert (Hnb : n * base <= maxUint64).
      { pose proof (Z.mul_div_le maxUint64 base ltac:(lia)). nia. }
      rewrite (Z.mod_small (n * base)) by nia. cbv zeta.
      destruct (Z.le_gt_cases (n * base + d) maxUint64) as [Hle|Hgt].
      * rewrite (Z.mod_small (n * base + d)) by nia. replace ((n * base + d <? n * base) || (maxUint64 <? n * base + d)) with false by lia.
        rewrite IH by nia. tauto.
      * replace ((n * base + d) mod two64) with (n * base + d - two64).
        2:{ apply (Z.mod_unique _ _ 1); lia. }
        replace ((n * base + d - two64 <? n * base) || (maxUint64 <? n * base + d - two64)) with true by lia.
        split; [discriminate|lia].
Qed.
Lemma parse_uint_ok base s z : 2 <= base <= 36 ->
  (parse_uint s base = inr z <-> numeral base s z /\ uint64 z).
Proof.
  intros Hb. unfold parse_uint, numeral, uint64. destruct s as [|c s]; [split; [discriminate|tauto]|].
  replace ((2 <=? base) && (base <=? 36)) with true by lia. rewrite loop_ok by (unfold maxUint64; lia).
  split.
  - intros (ds & H & -> & Hz). split; [split; [discriminate|exists ds; split; auto; lia]|].
    pose proof (positional_nonneg base ds ltac:(lia) (digits_range _ _ _ H)). unfold maxUint64 in *. lia.
  - intros ((_ & ds & H & Ez) & Hz). exists ds. split; auto. split; [lia|]. unfold maxUint64. lia.
Qed.
Lemma numeral_func base s z z' : 2 <= base <= 36 -> numeral base s z -> numeral base s z' -> z = z'.
Proof.
  intros Hb (_ & ds & H & ->) (_ & ds' & H' & ->). f_equal. revert ds' H'. induction H as [|c d s ds Hc H IH]; intros ds' H'; inversion H'; subst; auto.
  f_equal; auto. apply digit_val_spec in Hc; auto. apply digit_val_spec in H2; auto. destruct Hc, H2. congruence.
Qed.
Lemma numeral_nonneg base s z : 2 <= base -> numeral base s z -> 0 <= z.
Proof. intros Hb (_ & ds & H & ->). apply positional_nonneg; auto. eapply digits_range; eauto. Qed.
Lemma digit_not_sign base s z c : numeral base (c :: s) z -> c <> 43 /\ c <> 45.
Proof. intros (_ & ds & H & _). inversion H as [|? ? ? ? Hd]; subst. destruct Hd; lia. Qed.

Lemma parse_int_ok base s z : 2 <= base <= 36 ->
  (parse_int s base = inr z <-> int_numeral base s z /\ int64 z).
Proof.
  intros Hb. unfold parse_int, int_numeral, int64. destruct s as [|c s].
  { split; [discriminate|]. intros [[[H _]|[(t & H & _)|(t & H & _)]] _]; congruence. }
  assert (U : forall t z, parse_uint t base = inr z <-> numeral base t z /\ uint64 z) by (intros; apply parse_uint_ok; auto).
  assert (N : forall t z, numeral base t z -> 0 <= z) by (intros; eapply numeral_nonneg; eauto; lia).
  assert (F : forall t z z', numeral base t z -> numeral base t z' -> z = z') by (intros; eapply numeral_func; eauto).
  unfold uint64 in U. change (2 ^ 64) with 18446744073709551616 in U. change (2 ^ 63) with two63. unfold two63 in *.
  destruct (c =? 43) eqn:E43; [apply Z.eqb_eq in E43; subst c|]; [|destruct (c =? 45) eqn:E45; [apply Z.eqb_eq in E45; subst c|]].
  - assert (X : int_numeral base (43 :: s) z <-> numeral base s z).
    { unfold int_numeral. split; [|eauto]. intros [H|[(t & E & H)|(t & E & H)]]; [|congruence|congruence].
      apply digit_not_sign in H. lia. }
    unfold int_numeral in X. rewrite X. destruct (parse_uint s base) as [e|un] eqn:P.
    + split; [discriminate|]. intros [H Hz]. pose proof (N _ _ H). assert (parse_uint s base = inr z) by (apply U; split; auto; lia). congruence.
    + apply U in P. destruct P as [P1 P2]. cbn [negb andb]. destruct (9223372036854775808 <=? un) eqn:L.
      * split; [discriminate|]. intros [H Hz]. pose proof (F _ _ _ H P1). lia.
      * split; [intros E; inversion E; subst; split; auto; lia|]. intros [H Hz]. f_equal. eapply F; eauto.
  - assert (X : int_numeral base (45 :: s) z <-> numeral base s (- z)).
    { unfold int_numeral. split; [|eauto]. intros [H|[(t & E & H)|(t & E & H)]]; [|congruence|congruence].
      apply digit_not_sign in H. lia. }
    unfold int_numeral in X. rewrite X. destruct (parse_uint s base) as [e|un] eqn:P.
    + split; [discriminate|]. intros [H Hz]. pose proof (N _ _ H). assert (parse_uint s base = inr (- z)) by (apply U; split; auto; lia). congruence.
    + apply U in P. destruct P as [P1 P2]. cbn [negb andb]. destruct (9223372036854775808 <? un) eqn:L.
      * split; [discriminate|]. intros [H Hz]. pose proof (F _ _ _ H P1). lia.
      * split; [intros E; inversion E; subst; replace (- - un) with un by lia; split; auto; lia|].
        intros [H Hz]. f_equal. pose proof (F _ _ _ H P1). lia.
  - assert (X : int_numeral base (c :: s) z <-> numeral base (c :: s) z).
    { unfold int_numeral. split; [|eauto]. intros [H|[(t & E & H)|(t & E & H)]]; auto; inversion E; subst; discriminate. }
    unfold int_numeral in X. rewrite X. destruct (parse_uint (c :: s) base) as [e|un] eqn:P.
    + split; [discriminate|]. intros [H Hz]. pose proof (N _ _ H). assert (parse_uint (c :: s) base = inr z) by (apply U; split; auto; lia). congruence.
    + apply U in P. destruct P as [P1 P2]. cbn [negb andb]. destruct (9223372036854775808 <=? un) eqn:L.
      * split; [discriminate|]. intros [H Hz]. pose proof (F _ _ _ H P1). lia.
      * split; [intros E; inversion E; subst; split; auto; lia|]. intros [H Hz]. f_equal. eapply F; eauto.
Qed.

Lemma ParseInt_ok n c base l ss : 2 <= base <= 36 -> Forall2 string_ast l ss ->
  (exists z, int_numeral base (concat ss) z /\ int64 z /\
     ParseIntRadix base n c l = Ok (inr [mkAst 0 (head_cls l) TInt (VInt z) (head_sp l)])) \/
  ((forall z, int_numeral base (concat ss) z -> ~ int64 z) /\
     exists e, ParseIntRadix base n c l = Ok (inl e)).
Proof.
  intros Hb H. unfold ParseIntRadix. rewrite (with_concat_ok _ _ _ H).
  destruct (parse_int (concat ss) base) as [e|z] eqn:P.
  - right. split; [|eexists; reflexivity]. intros z H1 H2. assert (parse_int (concat ss) base = inr z) by (apply parse_int_ok; auto). congruence.
  - left. exists z. apply parse_int_ok in P; auto. destruct P. repeat split; auto; apply H1.
Qed.
Lemma ParseUint_ok n c base l ss : 2 <= base <= 36 -> Forall2 string_ast l ss -> concat ss <> [] ->
  (exists z, uint_numeral base (concat ss) z /\ uint64 z /\
     ParseUintRadix base n c l = Ok (inr [mkAst 0 (head_cls l) TUint (VUint z) (head_sp l)])) \/
  ((forall z, uint_numeral base (concat ss) z -> ~ uint64 z) /\
     exists e, ParseUintRadix base n c l = Ok (inl e)).
Proof.
  intros Hb H Hn. unfold ParseUintRadix. rewrite (with_concat_ok _ _ _ H). destruct (concat ss) as [|x s]; [congruence|].
  assert (X : forall z, uint_numeral base (x :: s) z <-> numeral base (if x =? 43 then s else x :: s) z).
  { intros z. unfold uint_numeral. destruct (x =? 43) eqn:E.
    - apply Z.eqb_eq in E. subst x. split; [|eauto]. intros [H1|(t & E & H1)]; [apply digit_not_sign in H1; lia|congruence].
    - split; auto. intros [H1|(t & E' & H1)]; auto. inversion E'; subst. discriminate. }
  destruct (parse_uint _ base) as [e|z] eqn:P.
  - right. split; [|eexists; reflexivity]. intros z H1 H2. apply X in H1.
    assert (parse_uint (if x =? 43 then s else x :: s) base = inr z) by (apply parse_uint_ok; auto). congruence.
  - left. exists z. apply parse_uint_ok in P; auto. destruct P. split; [apply X; auto|]. auto.
Qed.

(** ** C22 *)
Lemma to_int32_id z : int32 z -> to_int32 z = z.
Proof. unfold int32, to_int32. change (2 ^ 31) with 2147483648. intros H. rewrite Z.mod_small; lia. Qed.
Lemma encode_text z : rune_text z (encode_rune z).
Proof.
  unfold rune_text. assert (D : scalar z \/ ~ scalar z) by (unfold scalar; lia). destruct D as [D|D].
  - left. apply encode_valid; auto.
  - right. split; auto. rewrite encode_invalid; auto. apply (u_3 15 63 61); lia.
Qed.

(** ** C24 *)
Lemma history_keeps step : (forall v l, a_op (fst (step v l)) = a_op v /\ a_cls (fst (step v l)) = a_cls v /\
    a_ty (fst (step v l)) = a_ty v /\ a_val (fst (step v l)) = a_val v) ->
  forall calls v, a_op (history step v calls) = a_op v /\ a_cls (history step v calls) = a_cls v /\
    a_ty (history step v calls) = a_ty v /\ a_val (history step v calls) = a_val v.
Proof.
  intros Hs. induction calls as [|l calls IH]; intros v; simpl; auto. destruct (IH (fst (step v l))) as (A & B & C & D).
  destruct (Hs v l) as (A' & B' & C' & D'). repeat split; congruence.
Qed.
Lemma set_asp_eta a p : set_asp a p = mkAst (a_op a) (a_cls a) (a_ty a) (a_val a) p.
Proof. reflexivity. Qed.
Lemma prepend_history v calls x l : nth_result prepend_step v calls (x :: l) = set_asp v (a_sp x) :: x :: l.
Proof.
  unfold nth_result. simpl. f_equal.
  destruct (history_keeps prepend_step) with (calls := calls) (v := v) as (A & B & C & D); [|unfold set_asp; congruence].
  intros v' [|y l']; repeat split; reflexivity.
Qed.
Lemma push_history v calls l x : nth_result push_step v calls (l ++ [x]) = l ++ [x; set_asp v (a_sp x)].
Proof.
  unfold nth_result. destruct (history_keeps push_step) with (calls := calls) (v := v) as (A & B & C & D).
  { intros v' [|y l']; repeat split; reflexivity. }
  set (h := history push_step v calls) in *. unfold push_step.
  destruct (l ++ [x]) eqn:E; [destruct l; discriminate|]. rewrite <- E. simpl. rewrite last_app, <- app_assoc. simpl.
  unfold set_asp. rewrite A, B, C, D. reflexivity.
Qed.

(** What an empty list receives: the variable keeps the position of the last
    non-empty call. *)
Lemma history_app step : forall a b v, history step v (a ++ b) = history step (history step v a) b.
Proof. induction a as [|l a IH]; intros b v; simpl; auto. Qed.
Lemma prepend_stale v calls x l k : 
  nth_result prepend_step v (calls ++ (x :: l) :: repeat [] k) [] = [set_asp v (a_sp x)].
Proof.
  unfold nth_result. rewrite history_app. cbn [history].
  assert (R : forall k w, history prepend_step w (repeat [] k) = w) by (induction k0; intros; cbn; auto).
  rewrite R. cbn. f_equal. destruct (history_keeps prepend_step) with (calls := calls) (v := v) as (A & B & C & D).
  { intros v' [|y l']; repeat split; reflexivity. }
  unfold set_asp. rewrite A, B, C, D. reflexivity.
Qed.
Lemma push_stale v calls l x k : 
  nth_result push_step v (calls ++ (l ++ [x]) :: repeat [] k) [] = [set_asp v (a_sp x)].
Proof.
  unfold nth_result. rewrite history_app. cbn [history].
  assert (R : forall k w, history push_step w (repeat [] k) = w) by (induction k0; intros; cbn; auto).
  rewrite R. cbn. f_equal. destruct (history_keeps push_step) with (calls := calls) (v := v) as (A & B & C & D).
  { intros v' [|y l']; repeat split; reflexivity. }
  set (h := history push_step v calls) in *. destruct (l ++ [x]) eqn:E; [destruct l; discriminate|]. rewrite <- E, last_app.
  unfold set_asp. rewrite A, B, C, D. reflexivity.
Qed.
Lemma trimmed_end_func s t t' : trimmed_end s t -> trimmed_end s t' -> t = t'.
Proof.
  assert (K : forall p, spaces p -> p <> [] -> forall t, ends_with_space (t ++ p)).
  { clear. intros p (rs & H1 & H2). induction H1 as [|r cs rs p Hc H1 IH]; [congruence|]. intros _ t. inversion H2; subst.
    destruct p as [|y p].
    - exists r, cs, t. rewrite app_nil_r. auto.
    - rewrite app_assoc. apply IH; auto. discriminate. }
  assert (L : forall p q t t', t ++ p = t' ++ q -> spaces p -> spaces q -> ~ ends_with_space t -> ~ ends_with_space t' ->
    (length p <= length q)%nat -> t = t').
  { clear. intros p q t t' E (rp & Hp1 & Hp2) Hq Ht Ht' Hl.
    assert (length t' <= length t)%nat as Hl' by (apply (f_equal (@length Z)) in E; rewrite !app_length in E; lia).
    assert (exists m, t = t' ++ m) as [m ->].
    { exists (skipn (length t') t). rewrite <- (firstn_skipn (length t') t) at 1. f_equal.
      apply (f_equal (firstn (length t'))) in E. rewrite !firstn_app, Nat.sub_diag, firstn_all in E.
      replace (length t' - length t)%nat with 0%nat in E by lia. cbn [firstn] in E. rewrite !app_nil_r in E. auto. }
    rewrite <- app_assoc in E. apply app_inv_head in E. subst q.
    destruct m as [|y m]; [rewrite app_nil_r; auto|]. exfalso. destruct Hq as (rq & Hq1 & Hq2).
    (* y :: m is a sequence of space characters because p is cut off from the end *)
    assert (S : forall m rq, utf8 rq (m ++ p) -> Forall space rq -> m <> [] -> ends_with_space m ).
    { clear - Hp1 Hp2. intros m rq H. remember (m ++ p) as z eqn:Ez. revert m Ez.
      induction H as [|r cs rs s Hc H IH]; intros m Ez Hs Hm; [destruct m; [congruence|discriminate]|].
      inversion Hs; subst. destruct (Nat.le_gt_cases (length cs) (length m)) as [Hle|Hgt].
      - assert (exists m', m = cs ++ m') as [m' ->].
        { exists (skipn (length cs) m). rewrite <- (firstn_skipn (length cs) m) at 1. f_equal.
          apply (f_equal (firstn (length cs))) in Ez. rewrite !firstn_app, Nat.sub_diag, firstn_all in Ez.
          replace (length cs - length m)%nat with 0%nat in Ez by lia. cbn [firstn] in Ez. rewrite !app_nil_r in Ez. auto. }
        rewrite <- app_assoc in Ez. apply app_inv_head in Ez. destruct m' as [|y m'].
        + exists r, cs, []. rewrite app_nil_r. auto.
        + destruct (IH (y :: m') Ez H3 ltac:(discriminate)) as (r' & cs' & t & A & B & C).
          exists r', cs', (cs ++ t). rewrite C, app_assoc. auto.
      - exfalso. (* p would start with a continuation byte *)
        destruct (char_bytes _ _ Hc) as (b & u & -> & Hu & _). destruct m as [|y m]; [congruence|].
        cbn in Ez, Hgt. injection Ez as -> Ez.
        assert (exists x u', p = x :: u' /\ 128 <= x < 192) as (x & u' & -> & Hx).
        { clear - Hu Ez Hgt. revert u Hu Ez Hgt. induction m as [|y m IH]; intros u Hu Ez Hgt; (destruct u as [|z u]; [cbn in Hgt; lia|]).
          - cbn in Ez. inversion Hu; subst. eauto.
          - cbn in Ez, Hgt. injection Ez as -> Ez. inversion Hu; subst. eapply IH; eauto. lia. }
        inversion Hp1 as [|r2 cs2 rs2 s2 Hc2 Hs2 E1 E2]; subst. destruct (char_bytes _ _ Hc2) as (b2 & u2 & -> & _ & Hb2 & _).
        cbn in E2. injection E2 as E2 _. lia. }
    destruct (S (y :: m) rq Hq1 Hq2 ltac:(discriminate)) as (r & cs & t & A & B & C).
    apply Ht. exists r, cs, (t' ++ t). rewrite C, app_assoc. auto. }
  intros (p & E & Hp & Ht) (q & E' & Hq & Ht'). rewrite E in E'.
  destruct (Nat.le_gt_cases (length p) (length q)).
  - eapply (L p q); eauto.
  - symmetry. eapply (L q p); eauto. lia.
Qed.

(** ** C23 *)
Lemma list_ends_ok n c a l :
  (exists a', Prepend a n c l = Ok (inr (a' :: l)) /\ exists p, a' = set_asp a p) /\
  (exists a', Push a n c l = Ok (inr (l ++ [a'])) /\ exists p, a' = set_asp a p) /\
  Pop n c (l ++ [a]) = Ok (inr l) /\ Pop n c [] = Ok (inr []).
Proof.
  assert (S : a = set_asp a (a_sp a)) by (destruct a; reflexivity).
  split; [|split; [|split; [|reflexivity]]].
  - unfold Prepend, prepend_step. destruct l; simpl; eexists; split; try reflexivity; eauto.
  - unfold Push, push_step. destruct l; simpl; eexists; split; try reflexivity; eauto.
  - unfold Pop, tok. rewrite removelast_last. reflexivity.
Qed.
Lemma exchange_panics n c l : (2 <= length l)%nat -> exists w, Exchange n c l = Panic w.
Proof.
  intros H. unfold Exchange. apply Nat.leb_le in H as H'. rewrite H'.
  destruct (nth_error l (length l - 1)) eqn:E1; [|eauto].
  destruct (nth_error l (length l - 2)) eqn:E2; [|eauto].
  unfold set_index at 1. replace (Nat.ltb _ _) with false; [eauto|].
  symmetry. apply Nat.ltb_ge. rewrite firstn_length. lia.
Qed.
Lemma roll_is_identity : (forall k n c l, Roll k n c l = Ok (inr l)) /\
  exists k l, (0 < k < Z.of_nat (length l)) /\ ~ rolled k l l.
Proof.
  split.
  - intros k n c l. unfold Roll. repeat match goal with |- context [if ?b then _ else _] => destruct b end; reflexivity.
  - exists 1, [mkAst 0 "a" TNil VNil sp0; mkAst 1 "b" TNil VNil sp0]. split; [simpl; lia|].
    intros [(_ & a & b & E & L & E')|(H & _)]; [|lia].
    destruct a as [|x [|y a]]; simpl in L; try lia. simpl in E. inversion E; subst. discriminate.
Qed.

(** ** ToSlice *)
Lemma set_all_ok set l vs : Forall2 (fun a v => set (a_val a) = Some v) l vs -> set_all set l = Some vs.
Proof. induction 1 as [|a v l vs H _ IH]; [reflexivity|]. cbn [set_all]. rewrite H, IH. reflexivity. Qed.
Lemma set_all_none set l : set_all set l = None <-> exists a, In a l /\ set (a_val a) = None.
Proof.
  induction l as [|a l IH]; cbn [set_all]; [split; [discriminate|intros (a & [] & _)]|].
  destruct (set (a_val a)) as [v|] eqn:E.
  - destruct (set_all set l) as [vs|].
    + split; [discriminate|]. intros (b & [<-|Hb] & Hn); [congruence|]. assert (Some vs = None) by (apply IH; eauto). discriminate.
    + split; [|auto]. intros _. destruct (proj1 IH eq_refl) as (b & Hb & Hn). exists b. split; [right|]; auto.
  - split; [|auto]. intros _. exists a. split; [left|]; auto.
Qed.
Lemma to_slice_ok n c sl l vs : c_slice c = Some sl -> Forall2 (fun a v => sl_set sl (a_val a) = Some v) l vs ->
  ToSlice n c l = Ok (inr [mkAst 0 (head_cls l) TListOfAny (sl_mk sl vs) (head_sp l)]).
Proof.
  intros E H. unfold ToSlice. rewrite E. destruct H as [|a v l vs Ha H]; [reflexivity|].
  rewrite (set_all_ok (sl_set sl) (a :: l) (v :: vs)); [reflexivity|constructor; auto].
Qed.
Lemma to_slice_panics n c l : (exists w, ToSlice n c l = Panic w) <->
  (c_slice c = None \/ exists sl a, c_slice c = Some sl /\ In a l /\ sl_set sl (a_val a) = None).
Proof.
  unfold ToSlice. destruct (c_slice c) as [sl|] eqn:E; [|split; [auto|eauto]]. destruct l as [|a l].
  - split; [intros (w & H); discriminate|]. intros [H|(sl' & b & _ & [] & _)]. discriminate.
  - destruct (set_all (sl_set sl) (a :: l)) as [vs|] eqn:Es.
    + split; [intros (w & H); discriminate|]. intros [H|(sl' & b & H & Hb & Hn)]; [discriminate|]. injection H as <-.
      assert (set_all (sl_set sl) (a :: l) = None) by (apply set_all_none; eauto). congruence.
    + split; [|eauto]. intros _. right. apply set_all_none in Es as (b & Hb & Hn). eauto.
Qed.
