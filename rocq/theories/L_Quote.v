(** Lemmas for C64. *)
From Verif Require Import L_Trans L_Utf8 L_NumErr L_FloatUse.
From Verif Require Export S_Quote.

(** ** Hexadecimal digits *)
Lemma hex_digit_ok d : 0 <= d < 16 -> digit 16 (hex_digit d) d.
Proof.
  intros H. unfold hex_digit. destruct (Z.ltb_spec d 10); [apply d_num; lia|].
  replace (87 + d) with (97 + (d - 10)) by lia. apply d_lower; lia.
Qed.
Lemma positional_snoc base ds d : positional base (ds ++ [d]) = positional base ds * base + d.
Proof.
  induction ds as [|x ds IH]; [cbn; lia|]. cbn [app positional]. rewrite IH, app_length. cbn [length].
  replace (Z.of_nat (length ds + 1)) with (Z.of_nat (length ds) + 1) by lia. rewrite Z.pow_add_r, Z.pow_1_r by lia. ring.
Qed.
Lemma hexes_ok n : forall r, 0 <= r < 16 ^ Z.of_nat n -> exists ds, Forall2 (digit 16) (hexes n r) ds /\ length (hexes n r) = n /\ positional 16 ds = r.
Proof.
  induction n as [|n IH]; intros r H; cbn [hexes].
  - exists []. cbn in *. repeat split; [constructor|lia].
  - rewrite Nat2Z.inj_succ, Z.pow_succ_r in H by lia.
    destruct (IH (r / 16)) as (ds & F & L & P). { split; [apply Z.div_pos; lia|apply Z.div_lt_upper_bound; lia]. }
    exists (ds ++ [r mod 16]). split; [|split].
    + apply Forall2_app; [exact F|]. constructor; [|constructor]. apply hex_digit_ok. apply Z.mod_pos_bound. lia.
    + rewrite app_length, L. cbn. lia.
    + rewrite positional_snoc, P. pose proof (Z.div_mod r 16 ltac:(lia)). lia.
Qed.

(** ** Quote *)
Lemma byte_escape b q s : 0 <= b < 256 -> literal_text q s -> literal_text (bs "\x" ++ hexes 2 b ++ q) (b :: s).
Proof.
  intros H L. change (bs "\x") with [92; 120]. cbn [hexes app]. replace b with (16 * ((b / 16) mod 16) + b mod 16) at 3.
  - apply lt_byte; [| |exact L]; apply hex_digit_ok, Z.mod_pos_bound; lia.
  - assert (0 <= b / 16 < 16) by (split; [apply Z.div_pos; lia|apply Z.div_lt_upper_bound; lia]). rewrite (Z.mod_small (b / 16)) by lia.
    pose proof (Z.div_mod b 16 ltac:(lia)). lia.
Qed.
Lemma escape_ok isprint r cs q s : prints isprint -> utf8_char r cs -> literal_text q s -> literal_text (escape_rune isprint r ++ q) (cs ++ s).
Proof.
  intros Pr H L. pose proof (char_scalar _ _ H) as Sc. unfold scalar in Sc. unfold escape_rune.
  assert (One : 0 <= r < 128 -> cs = [r]). { intros B. inversion H; subst; try lia. reflexivity. }
  assert (Esc : forall e, In (e, r) escapes -> 0 <= r < 128 -> literal_text (92 :: e :: q) (cs ++ s)).
  { intros e I B. rewrite (One B). apply lt_escape; auto. }
  destruct (Z.eqb_spec r 34) as [->|N1]; [apply (Esc 34); cbn; [tauto|lia]|].
  destruct (Z.eqb_spec r 92) as [->|N2]; [apply (Esc 92); cbn; [tauto|lia]|]. cbn [orb].
  destruct (isprint r) eqn:P. { rewrite (encode_char _ _ H). destruct (Pr r P). apply (lt_char r); auto. }
  destruct (Z.eqb_spec r 7) as [->|M1]; [apply (Esc 97); cbn; [tauto|lia]|].
  destruct (Z.eqb_spec r 8) as [->|M2]; [apply (Esc 98); cbn; [tauto|lia]|].
  destruct (Z.eqb_spec r 12) as [->|M3]; [apply (Esc 102); cbn; [tauto|lia]|].
  destruct (Z.eqb_spec r 10) as [->|M4]; [apply (Esc 110); cbn; [tauto|lia]|].
  destruct (Z.eqb_spec r 13) as [->|M5]; [apply (Esc 114); cbn; [tauto|lia]|].
  destruct (Z.eqb_spec r 9) as [->|M6]; [apply (Esc 116); cbn; [tauto|lia]|].
  destruct (Z.eqb_spec r 11) as [->|M7]; [apply (Esc 118); cbn; [tauto|lia]|].
  destruct ((r <? 32) || (r =? 127)) eqn:C.
  - rewrite One by lia. rewrite <- app_assoc. apply byte_escape; [lia|exact L].
  - replace (valid_rune r) with true by (unfold valid_rune, in_rng; lia).
    destruct (Z.ltb_spec r 65536); rewrite <- app_assoc.
    + destruct (hexes_ok 4 r) as (ds & F & Le & Po); [change (16 ^ Z.of_nat 4) with 65536; lia|]. rewrite <- Po in H.
      change (bs "\u") with [92; 117]. cbn [app]. apply (lt_u _ ds); auto.
    + destruct (hexes_ok 8 r) as (ds & F & Le & Po); [change (16 ^ Z.of_nat 8) with 4294967296; lia|]. rewrite <- Po in H.
      change (bs "\U") with [92; 85]. cbn [app]. apply (lt_U _ ds); auto.
Qed.
Lemma loop_ok isprint : prints isprint -> forall n s, Forall is_byte s -> (length s <= n)%nat -> literal_text (quote_loop isprint n s) s.
Proof.
  intros Pr. induction n as [|n IH]; intros s Hb Le.
  - destruct s; [constructor|cbn in Le; lia].
  - destruct s as [|b t] eqn:Es; [constructor|]. rewrite <- Es in *. assert (Ne : s <> []) by (rewrite Es; discriminate).
    replace (quote_loop isprint (S n) s) with (let '(r, width) := decode_rune s in
      (if Nat.eqb width 1 && (r =? RuneError) then bs "\x" ++ hexes 2 b else escape_rune isprint r) ++ quote_loop isprint n (skipn width s)) by (rewrite Es; reflexivity).
    destruct (decode_rune s) as [r l] eqn:D.
    destruct (decode_inv _ _ _ D) as [(-> & _)|[(cs & s' & E & H & ->)|[(_ & -> & ->)|(b' & s' & E & Hn & _)]]].
    + congruence.
    + rewrite E. rewrite skipn_app, skipn_all, Nat.sub_diag. cbn [app skipn].
      assert (Lc := char_len _ _ H).
      assert (N : Nat.eqb (length cs) 1 && (r =? RuneError) = false).
      { destruct (Nat.eqb_spec (length cs) 1) as [L1|]; [|reflexivity]. inversion H; subst; cbn in L1; try lia. unfold RuneError. lia. }
      rewrite N. apply escape_ok; auto. apply IH.
      * rewrite E in Hb. apply Forall_app in Hb. apply Hb.
      * rewrite E, app_length in Le. lia.
    + change (Nat.eqb 1 1 && (65533 =? RuneError)) with true. rewrite Es. cbn [skipn]. rewrite <- app_assoc. rewrite Es in Hb, Le. inversion Hb; subst.
      apply byte_escape; [unfold is_byte in *; lia|]. apply IH; [auto|cbn in Le; lia].
    + rewrite E in Hb. inversion Hb; subst. unfold is_byte in *. lia.
Qed.
Lemma quote_ok isprint s : prints isprint -> Forall is_byte s -> exists q, QuoteAll isprint s = [34] ++ q ++ [34] /\ literal_text q s.
Proof. intros Pr Hb. eexists. split; [reflexivity|]. apply loop_ok; auto. Qed.

(** ** A literal has one value *)
Lemma char_prefix r cs r' cs' a b : utf8_char r cs -> utf8_char r' cs' -> cs ++ a = cs' ++ b -> cs = cs' /\ a = b /\ r = r'.
Proof.
  intros H H' E. pose proof (decode_char _ _ a H) as D. rewrite E, (decode_char _ _ b H') in D. injection D as Dr Dl.
  subst r'. rewrite <- (encode_char _ _ H), <- (encode_char _ _ H') in *. apply app_inv_head in E. auto.
Qed.
Lemma char_head r cs : utf8_char r cs -> exists c t, cs = c :: t /\ (r = c \/ 128 <= c).
Proof. destruct 1; do 2 eexists; (split; [reflexivity|]); lia. Qed.
Lemma not_backslash r cs q z : utf8_char r cs -> r <> 92 -> cs ++ q = 92 :: z -> False.
Proof. intros H N E. destruct (char_head _ _ H) as (c & t & -> & [->|G]); injection E; intros; lia. Qed.
Lemma char_unique r cs cs' : utf8_char r cs -> utf8_char r cs' -> cs = cs'.
Proof. intros H H'. rewrite <- (encode_char _ _ H). apply encode_char, H'. Qed.
Lemma digit16_func b d d' : digit 16 b d -> digit 16 b d' -> d = d'.
Proof. intros H H'. inversion H; inversion H'; subst; lia. Qed.
Lemma digits16_func hs ds ds' : Forall2 (digit 16) hs ds -> Forall2 (digit 16) hs ds' -> ds = ds'.
Proof.
  intros H. revert ds'. induction H as [|h d hs ds D F IH]; intros ds' H'; inversion H' as [|? d' ? ? D' F']; subst; [reflexivity|].
  f_equal; [eapply digit16_func; eauto|auto].
Qed.
Lemma app_same_length {A} (a a' b b' : list A) : length a = length a' -> a ++ b = a' ++ b' -> a = a' /\ b = b'.
Proof.
  revert a'. induction a as [|x a IH]; intros [|x' a'] L E; try discriminate; [auto|]. injection E as -> E. injection L as L.
  destruct (IH _ L E) as [-> ->]. auto.
Qed.
Lemma escape_cases e b : In (e, b) escapes -> e <> 120 /\ e <> 117 /\ e <> 85 /\ forall b', In (e, b') escapes -> b' = b.
Proof.
  intros H. unfold escapes in *. cbn [In] in H. repeat (destruct H as [H|H]; [injection H as <- <-; repeat split; try lia;
    intros b' H'; cbn [In] in H'; repeat (destruct H' as [H'|H']; [injection H'; lia|]); contradiction|]). contradiction.
Qed.
Lemma literal_func q s : literal_text q s -> forall s', literal_text q s' -> s = s'.
Proof.
  induction 1 as [|r cs q s C1 C2 C3 C4 C5 L IH|e b q s I L IH|h l x y q s D1 D2 L IH|hs ds cs q s F Le C L IH|hs ds cs q s F Le C L IH]; intros s' H'.
  - inversion H' as [|r' cs' q' s0 C1' ? ? ? ? ? E| | | |]; subst; [reflexivity|]. destruct (char_head _ _ C1') as (c & t & -> & _). discriminate.
  - remember (cs ++ q) as z eqn:Ez. destruct H' as [|r' cs' q' s0 C1' C2' C3' C4' C5' L'|e b q' s0 I L'|h l x y q' s0 D1 D2 L'|hs ds cs' q' s0 F Le C L'|hs ds cs' q' s0 F Le C L'].
    + destruct (char_head _ _ C1) as (c & t & -> & _). discriminate.
    + destruct (char_prefix _ _ _ _ _ _ C1' C1 Ez) as (-> & -> & _). f_equal. auto.
    + elim (not_backslash _ _ _ _ C1 C5 (eq_sym Ez)).
    + elim (not_backslash _ _ _ _ C1 C5 (eq_sym Ez)).
    + elim (not_backslash _ _ _ _ C1 C5 (eq_sym Ez)).
    + elim (not_backslash _ _ _ _ C1 C5 (eq_sym Ez)).
  - destruct (escape_cases _ _ I) as (N1 & N2 & N3 & U). remember (92 :: e :: q) as z eqn:Ez. destruct H' as [|r' cs' q' s0 C1' C2' C3' C4' C5' L'|e' b' q' s0 I' L'|h l x y q' s0 D1 D2 L'|hs ds cs' q' s0 F Le C L'|hs ds cs' q' s0 F Le C L'].
    + discriminate.
    + elim (not_backslash _ _ _ _ C1' C5' Ez).
    + injection Ez as -> ->. rewrite (U _ I'). f_equal. auto.
    + injection Ez as E1 _. congruence.
    + injection Ez as E1 _. congruence.
    + injection Ez as E1 _. congruence.
  - remember (92 :: 120 :: h :: l :: q) as z eqn:Ez. destruct H' as [|r' cs' q' s0 C1' C2' C3' C4' C5' L'|e' b' q' s0 I' L'|h' l' x' y' q' s0 D1' D2' L'|hs ds cs' q' s0 F Le C L'|hs ds cs' q' s0 F Le C L'].
    + discriminate.
    + elim (not_backslash _ _ _ _ C1' C5' Ez).
    + destruct (escape_cases _ _ I') as (N1 & _). injection Ez as E1 _. congruence.
    + injection Ez as -> -> ->. rewrite (digit16_func _ _ _ D1 D1'), (digit16_func _ _ _ D2 D2'). f_equal. auto.
    + discriminate.
    + discriminate.
  - remember (92 :: 117 :: hs ++ q) as z eqn:Ez. destruct H' as [|r' cs' q' s0 C1' C2' C3' C4' C5' L'|e' b' q' s0 I' L'|h' l' x' y' q' s0 D1' D2' L'|hs' ds' cs' q' s0 F' Le' C' L'|hs' ds' cs' q' s0 F' Le' C' L'].
    + discriminate.
    + elim (not_backslash _ _ _ _ C1' C5' Ez).
    + destruct (escape_cases _ _ I') as (_ & N1 & _). injection Ez as E1 _. congruence.
    + discriminate.
    + injection Ez as E. destruct (app_same_length _ _ _ _ (eq_trans Le' (eq_sym Le)) E) as [-> ->].
      rewrite (digits16_func _ _ _ F' F) in C'. rewrite (char_unique _ _ _ C C'). f_equal. auto.
    + discriminate.
  - remember (92 :: 85 :: hs ++ q) as z eqn:Ez. destruct H' as [|r' cs' q' s0 C1' C2' C3' C4' C5' L'|e' b' q' s0 I' L'|h' l' x' y' q' s0 D1' D2' L'|hs' ds' cs' q' s0 F' Le' C' L'|hs' ds' cs' q' s0 F' Le' C' L'].
    + discriminate.
    + elim (not_backslash _ _ _ _ C1' C5' Ez).
    + destruct (escape_cases _ _ I') as (_ & _ & N1 & _). injection Ez as E1 _. congruence.
    + discriminate.
    + discriminate.
    + injection Ez as E. destruct (app_same_length _ _ _ _ (eq_trans Le' (eq_sym Le)) E) as [-> ->].
      rewrite (digits16_func _ _ _ F' F) in C'. rewrite (char_unique _ _ _ C C'). f_equal. auto.
Qed.

(** ** ASCII texts *)
Lemma ascii_rune isprint b : prints_ascii isprint -> 0 <= b < 128 -> escape_rune isprint b = quote_byte b.
Proof.
  intros Pa B. unfold escape_rune, quote_byte. rewrite (Pa b B). destruct ((b =? 34) || (b =? 92)); [reflexivity|].
  destruct ((32 <=? b) && (b <? 127)) eqn:P. { unfold encode_rune. replace (valid_rune b) with true by (unfold valid_rune, in_rng; lia). replace (b <? 128) with true by lia. reflexivity. }
  destruct (b =? 7); [reflexivity|]. destruct (b =? 8); [reflexivity|]. destruct (b =? 12); [reflexivity|]. destruct (b =? 10); [reflexivity|].
  destruct (b =? 13); [reflexivity|]. destruct (b =? 9); [reflexivity|]. destruct (b =? 11); [reflexivity|].
  replace ((b <? 32) || (b =? 127)) with true by lia. f_equal. cbn [hexes app]. f_equal.
  rewrite (Z.mod_small (b / 16)); [reflexivity|]. split; [apply Z.div_pos; lia|apply Z.div_lt_upper_bound; lia].
Qed.
Lemma ascii_loop isprint : prints_ascii isprint -> forall s n, Forall is_byte s -> forallb (fun b => b <? 128) s = true -> (length s <= n)%nat ->
  quote_loop isprint n s = flat_map quote_byte s.
Proof.
  intros Pa. induction s as [|b s IH]; intros n Hb A Le; [destruct n; reflexivity|]. destruct n as [|n]; [cbn in Le; lia|].
  cbn [forallb] in A. apply andb_true_iff in A. destruct A as [A1 A2]. inversion Hb as [|? ? B Hb']; subst. unfold is_byte in B.
  cbn [quote_loop decode_rune]. rewrite A1. cbn [skipn Nat.eqb flat_map]. replace (b =? RuneError) with false by (unfold RuneError; lia). cbn [andb].
  rewrite ascii_rune by (auto; lia). f_equal. apply IH; auto. cbn in Le. lia.
Qed.
Lemma ascii_quote isprint s q : prints_ascii isprint -> Forall is_byte s -> Quote s = Some q -> QuoteAll isprint s = q.
Proof.
  intros Pa Hb. unfold Quote. destruct (forallb _ s) eqn:A; [|discriminate]. intros E. injection E as <-. unfold QuoteAll. rewrite ascii_loop; auto.
Qed.
Definition error_bytes (e : gerr) : Prop := match e with ENum _ s _ => Forall is_byte s | _ => True end.
Lemma ascii_error isprint e t : prints_ascii isprint -> error_bytes e -> error_text e = Some t -> error_text_all isprint e = Some t.
Proof.
  intros Pa Hb. assert (N : forall fn num range x, Forall is_byte num -> num_text fn num range = Some x -> num_text_all isprint fn num range = x).
  { intros fn num range x Hn. unfold num_text, num_text_all. destruct (Quote num) as [q|] eqn:Q; [|discriminate]. intros E. injection E as <-.
    rewrite (ascii_quote _ _ _ Pa Hn Q). reflexivity. }
  assert (W : forall who fn str num range x, Forall is_byte num -> wrapped who fn str num range = Some x -> wrapped_all isprint who fn str num range = x).
  { intros who fn str num range x Hn. unfold wrapped, wrapped_all. destruct (num_text fn num range) as [y|] eqn:Q; [|discriminate]. intros E. injection E as <-.
    rewrite (N _ _ _ _ Hn Q). reflexivity. }
  destruct e as [m|ty|who s range|u]; cbn [error_text error_text_all error_bytes] in *; auto.
  destruct (String.eqb who "ParseInt"); [intros E; f_equal; auto|]. destruct (String.eqb who "ParseFloat"); [intros E; f_equal; auto|].
  destruct (negb range); [discriminate|]. destruct (String.eqb who "parseIntImpl"); [intros E; f_equal; auto|].
  destruct (String.eqb who "parseUintImpl"); [|auto]. intros E. f_equal. apply W; [|exact E].
  destruct s as [|c s]; [constructor|]. inversion Hb; subst. destruct (c =? 43); auto.
Qed.

(** ** Messages *)
Lemma wrapped_message isprint who fn str num range : prints isprint -> Forall is_byte num ->
  number_message who fn str num range (wrapped_all isprint who fn str num range).
Proof.
  intros Pr Hb. destruct (quote_ok isprint num Pr Hb) as (q & E & L). exists q. split; [exact L|]. unfold wrapped_all, num_text_all. rewrite E.
  change (bs ":strconv.") with (bs ":" ++ bs "strconv."). rewrite <- !app_assoc. reflexivity.
Qed.
Lemma int_message isprint n c base l ss e : prints isprint -> 2 <= base <= 36 -> Forall2 string_ast l ss -> Forall is_byte (concat ss) ->
  ParseIntRadix base n c l = Ok (inl e) ->
  exists range m, int_fault base (concat ss) range /\ error_text_all isprint e = Some m /\
    number_message "parseIntImpl" "ParseInt" (concat ss) (concat ss) range m.
Proof.
  intros Pr Hb H By. unfold ParseIntRadix. rewrite (with_concat_ok _ _ _ H). destruct (parse_int (concat ss) base) as [er|z] eqn:P; [|discriminate].
  intros E. injection E as <-. exists (is_range er). eexists. split; [apply parse_int_error; auto|]. split; [reflexivity|]. apply wrapped_message; auto.
Qed.
Lemma uint_message isprint n c base l ss e : prints isprint -> 2 <= base <= 36 -> Forall2 string_ast l ss -> Forall is_byte (concat ss) ->
  ParseUintRadix base n c l = Ok (inl e) ->
  exists t range m, (concat ss = 43 :: t \/ (concat ss = t /\ forall u, t <> 43 :: u)) /\ uint_fault base t range /\ error_text_all isprint e = Some m /\
    number_message "parseUintImpl" "ParseUint" (concat ss) t range m.
Proof.
  intros Pr Hb H By. unfold ParseUintRadix. rewrite (with_concat_ok _ _ _ H). destruct (concat ss) as [|x s]; [discriminate|].
  set (t := if x =? 43 then s else x :: s). destruct (parse_uint _ base) as [er|z] eqn:P; [|discriminate].
  intros E. injection E as <-. exists t, (is_range er). eexists. split; [|split; [apply parse_uint_error; auto|split; [reflexivity|]]].
  - unfold t. destruct (Z.eqb_spec x 43) as [->|N]; [left; reflexivity|right]. split; [reflexivity|]. intros u. congruence.
  - apply wrapped_message; [auto|]. inversion By; subst. destruct (x =? 43); auto.
Qed.
Lemma float_message isprint n c l ss e : prints isprint -> Forall2 string_ast l ss -> Forall is_byte (concat ss) ->
  ParseFloat strconv_ParseFloat64 n c l = Ok (inl e) ->
  exists er m, float_answer (concat ss) (inl er) /\ error_text_all isprint e = Some m /\
    number_message "ParseFloat" "ParseFloat" (concat ss) (concat ss) (is_range er) m.
Proof.
  intros Pr H By E. destruct (ParseFloat_all n c l ss H) as ([er|x] & A & E'); rewrite E in E'; [|discriminate]. injection E' as ->.
  exists er. eexists. split; [exact A|]. split; [reflexivity|]. apply wrapped_message; auto.
Qed.
