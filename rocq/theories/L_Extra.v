(** Proofs about extra/extra.go. *)
From Verif Require Export S_Extra L_Lang L_Leaf.

(** ** Words with a homomorphic output *)
Definition catS (A B : bytes -> Prop) (w : bytes) : Prop := exists a b, w = a ++ b /\ A a /\ B b.
Definition altS (A B : bytes -> Prop) (w : bytes) : Prop := A w \/ B w.
Definition optS (A : bytes -> Prop) (w : bytes) : Prop := A w \/ w = [].
Definition oneS (P : Z -> Prop) (w : bytes) : Prop := exists b, w = [b] /\ P b.
Definition runS (mn : nat) (P : Z -> Prop) (w : bytes) : Prop := Forall P w /\ (mn <= length w)%nat.
Definition hom (f : bytes -> bytes) : Prop := f [] = [] /\ forall a b, f (a ++ b) = f a ++ f b.
Definition incl (R R' : tlang) : Prop := forall w o, R w o -> R' w o.

Lemma ext_sub R R' P : incl R R' -> ext R' P -> ext R P.
Proof. intros H X w o w' o' t t' A B. eapply X; eauto. Qed.
Lemma starts_sub R R' P : incl R R' -> starts R' P -> starts R P.
Proof. intros H X b t o A. eapply X; eauto. Qed.
Lemma nonempty_sub R R' : incl R R' -> nonempty R' -> nonempty R.
Proof. intros H X w o A. eapply X; eauto. Qed.
Lemma code_sub R R' : incl R R' -> prefix_code R' -> prefix_code R.
Proof. intros H X w o w' o' t t' A B. eapply X; eauto. Qed.
Lemma apart_sub A A' B B' : incl A A' -> incl B B' -> apart A' B' -> apart A B.
Proof. intros H K X w o w' o' t t' HA HB. eapply X; eauto. Qed.

Section Out.
Variable f : bytes -> bytes.
Hypothesis Hf : hom f.
Notation out := (outL f).

Lemma out_cat A B w o : seqL (out A) (out B) w o <-> out (catS A B) w o.
Proof.
  destruct Hf as [f0 fa]. split.
  - intros (w1 & o1 & w2 & o2 & -> & -> & [H1 ->] & [H2 ->]). split; [exists w1, w2; auto|symmetry; apply fa].
  - intros [(a & b & -> & H1 & H2) ->]. exists a, (f a), b, (f b). repeat split; auto.
Qed.
Lemma out_alt A B w o : altL (out A) (out B) w o <-> out (altS A B) w o.
Proof. unfold altL, outL, altS. tauto. Qed.
Lemma out_opt A w o : optL (out A) w o <-> out (optS A) w o.
Proof.
  destruct Hf as [f0 fa]. unfold optL, altL, insL, outL, optS. split.
  - intros [[H ->]|[-> ->]]; auto.
  - intros [[H| ->] ->]; auto.
Qed.
Lemma out_one e P : lang e (oneL P) -> (forall b, P b -> f [b] = [b]) -> lang e (out (oneS P)).
Proof.
  intros L H. eapply lang_ext; [|exact L]. intros w o. split.
  - intros (b & -> & -> & Hp). split; [exists b; auto|symmetry; auto].
  - intros [(b & -> & Hp) ->]. exists b. rewrite H; auto.
Qed.
Lemma out_erased e P : lang e (oneL P) -> (forall b, P b -> f [b] = []) -> lang (erase e) (out (oneS P)).
Proof.
  intros L H. eapply lang_ext; [|apply lang_erase; exact L]. intros w o. split.
  - intros (o1 & (b & -> & -> & Hp) & ->). split; [exists b; auto|symmetry; auto].
  - intros [(b & -> & Hp) ->]. exists [b]. rewrite H; auto. split; auto. exists b. auto.
Qed.
Lemma out_lit b : f [b] = [b] -> lang (SSeq [b]) (out (oneS (fun x => x = b))).
Proof.
  intros H. eapply lang_ext; [|apply seq_lang]. intros w o. split.
  - intros [-> ->]. split; [exists b; auto|congruence].
  - intros [(x & -> & ->) ->]. split; auto.
Qed.
Lemma out_class cc l : cc = map (fun b => [b]) l -> (forall b, In b l -> f [b] = [b]) -> lang (SCharClass cc) (out (oneS (fun x => In x l))).
Proof. intros E H. apply out_one; auto. apply class_lang. auto. Qed.
Lemma out_seq e es A B : lang e (out A) -> langs es (out B) -> sharp (out A) (out B) -> langs (e :: es) (out (catS A B)).
Proof. intros L1 L2 S. eapply langs_ext; [apply out_cat|]. apply langs_cons; auto. Qed.
Lemma out_optional es A : langs es (out A) -> lang (EZeroOrOnce es) (out (optS A)).
Proof. intros L. eapply lang_ext; [apply out_opt|]. apply lang_opt. auto. Qed.
Lemma out_first2 e1 e2 A B : lang e1 (out A) -> lang e2 (out B) -> prefer (out A) (out B) -> lang (EFirst [e1; e2]) (out (altS A B)).
Proof. intros L1 L2 P. eapply lang_ext; [apply out_alt|]. apply lang_first2; auto. Qed.
Lemma out_first3 e1 e2 e3 A B C : lang e1 (out A) -> lang e2 (out B) -> lang e3 (out C) -> prefer (out A) (out B) -> prefer (out A) (out C) ->
  prefer (out B) (out C) -> lang (EFirst [e1; e2; e3]) (out (altS A (altS B C))).
Proof.
  intros L1 L2 L3 P1 P2 P3. eapply lang_ext; [|eapply lang_first3; [exact L1|exact L2|exact L3|auto..]].
  unfold altL, outL, altS. intros. tauto.
Qed.
(** Pairs of one-byte sets. *)
Lemma one_prefer P Q : prefer (out (oneS P)) (out (oneS Q)).
Proof. intros w o w' o' t t' [(b & -> & _) _] [(b' & -> & _) _] _. auto. Qed.
Lemma outone_code P : prefix_code (out (oneS P)).
Proof. intros w o w' o' t t' [(b & -> & _) _] [(b' & -> & _) _] _. auto. Qed.
Lemma outone_nonempty P : nonempty (out (oneS P)).
Proof. intros w o [(b & -> & _) _]. discriminate. Qed.
Lemma outone_starts P : starts (out (oneS P)) P.
Proof. intros b t o [(x & E & H) _]. inversion E; subst. auto. Qed.
Lemma outone_or e P Q : lang e (out (altS (oneS P) (oneS Q))) -> lang e (out (oneS (orP P Q))).
Proof.
  apply lang_ext. intros w o. unfold outL, altS, oneS, orP. split.
  - intros [[(b & -> & H)|(b & -> & H)] ->]; split; auto; exists b; auto.
  - intros [(b & -> & [H|H]) ->]; split; auto; [left|right]; exists b; auto.
Qed.
Lemma out_weaken e A B : (forall w, A w <-> B w) -> lang e (out A) -> lang e (out B).
Proof. intros H. apply lang_ext. intros w o. unfold outL. rewrite H. tauto. Qed.
(** Runs of a byte set. *)
Lemma pow_one P k : forall w o, powL (out (oneS P)) k w o <-> Forall P w /\ length w = k /\ o = f w.
Proof.
  destruct Hf as [f0 fa]. induction k as [|k IH]; intros w o; simpl.
  - split; [intros [-> ->]; auto|]. intros (_ & L & ->). destruct w; [|discriminate]. split; auto.
  - split.
    + intros (w1 & o1 & w2 & o2 & -> & -> & [(b & -> & Hb) ->] & H). apply IH in H. destruct H as (F & L & ->).
      simpl. rewrite <- fa. auto.
    + intros (F & L & ->). destruct w as [|b w]; [discriminate|]. inversion F; subst.
      exists [b], (f [b]), w, (f w). split; auto. split; [apply (fa [b] w)|]. split; [split; auto; exists b; auto|].
      apply IH. simpl in L. auto.
Qed.
Lemma out_rep mn mx es P : langs es (out (oneS P)) ->
  lang (ERepeat (mkTimes mn mx) es) (out (fun w => Forall P w /\ mn <= Z.of_nat (length w) /\ (mx < 0 \/ Z.of_nat (length w) <= mx))).
Proof.
  intros L. eapply lang_ext; [|apply lang_repeat; [exact L|apply outone_code|apply outone_nonempty]].
  intros w o. unfold repL, outL. split.
  - intros (k & H & A & B). apply pow_one in H. destruct H as (F & <- & ->). auto.
  - intros ((F & A & B) & ->). exists (length w). split; [apply pow_one; auto|auto].
Qed.
Lemma out_more es P : langs es (out (oneS P)) -> lang (EZeroOrMore es) (out (runS 0 P)).
Proof.
  intros L. eapply out_weaken; [|apply out_rep; exact L]. intros w. unfold runS. split; [intros (A & _); split; auto; lia|].
  intros (A & _). split; auto. lia.
Qed.
Lemma out_more1 es P : langs es (out (oneS P)) -> lang (EOneOrMore es) (out (runS 1 P)).
Proof.
  intros L. eapply out_weaken; [|apply out_rep; exact L]. intros w. unfold runS. split; [intros (A & B & _); split; auto; lia|].
  intros (A & B). split; auto. lia.
Qed.
(** The calculus of starts and extensions. *)
Lemma outrun_ext n P : ext (out (runS n P)) P.
Proof.
  intros w o w' o' t t' [[A _] _] [[B _] _] E L. eapply (run_ext P (fun x => x)); [split; [exact A|reflexivity]|split; [exact B|reflexivity]|exact E|exact L].
Qed.
Lemma outrun_starts n P : starts (out (runS n P)) P.
Proof. intros b t o [[H _] _]. inversion H; auto. Qed.
Lemma outrun_nonempty P : nonempty (out (runS 1 P)).
Proof. intros w o [[_ H] _] ->. simpl in H. lia. Qed.
Lemma cat_incl A B : incl (out (catS A B)) (seqL (out A) (out B)).
Proof. intros w o H. apply out_cat. auto. Qed.
Lemma outcat_ext A B PA PB Q : ext (out A) PA -> ext (out B) PB -> starts (out B) Q -> disjoint PA Q -> ext (out (catS A B)) (orP PA PB).
Proof. intros. eapply ext_sub; [apply cat_incl|]. eapply seq_ext; eauto. Qed.
Lemma outcat_starts A B Q : nonempty (out A) -> starts (out A) Q -> starts (out (catS A B)) Q.
Proof. intros. eapply starts_sub; [apply cat_incl|]. apply starts_seq; auto. Qed.
Lemma outcat_starts2 A B Q Q' : starts (out A) Q -> starts (out B) Q' -> starts (out (catS A B)) (orP Q Q').
Proof. intros. eapply starts_sub; [apply cat_incl|]. apply starts_seq2; auto. Qed.
Lemma outcat_nonempty A B : nonempty (out A) -> nonempty (out (catS A B)).
Proof. intros. eapply nonempty_sub; [apply cat_incl|]. apply seq_nonempty; auto. Qed.
Lemma outcat_nonempty_r A B : nonempty (out B) -> nonempty (out (catS A B)).
Proof. intros. eapply nonempty_sub; [apply cat_incl|]. apply seq_nonempty_r; auto. Qed.
Lemma outcat_code A B : prefix_code (out A) -> prefix_code (out B) -> prefix_code (out (catS A B)).
Proof. intros. eapply code_sub; [apply cat_incl|]. apply seq_code; auto. Qed.
Lemma alt_incl A B : incl (out (altS A B)) (altL (out A) (out B)).
Proof. intros w o H. apply out_alt. auto. Qed.
Lemma outalt_ext A B PA PB : ext (out A) PA -> ext (out B) PB -> apart (out A) (out B) -> ext (out (altS A B)) (orP PA PB).
Proof. intros. eapply ext_sub; [apply alt_incl|]. apply alt_ext; auto. Qed.
Lemma outalt_starts A B Q Q' : starts (out A) Q -> starts (out B) Q' -> starts (out (altS A B)) (orP Q Q').
Proof. intros. eapply starts_sub; [apply alt_incl|]. apply starts_alt; auto. Qed.
Lemma outalt_nonempty A B : nonempty (out A) -> nonempty (out B) -> nonempty (out (altS A B)).
Proof. intros. eapply nonempty_sub; [apply alt_incl|]. apply alt_nonempty; auto. Qed.
Lemma opt_incl A : incl (out (optS A)) (optL (out A)).
Proof. intros w o H. apply out_opt. auto. Qed.
Lemma outopt_ext A P Q : ext (out A) P -> starts (out A) Q -> ext (out (optS A)) (orP P Q).
Proof. intros. eapply ext_sub; [apply opt_incl|]. apply opt_ext; auto. Qed.
Lemma outopt_starts A Q : starts (out A) Q -> starts (out (optS A)) Q.
Proof. intros. eapply starts_sub; [apply opt_incl|]. apply starts_opt; auto. Qed.
Lemma outcat_apart A B C P Q1 Q2 : ext (out A) P -> nonempty (out B) -> nonempty (out C) -> starts (out B) Q1 -> starts (out C) Q2 ->
  disjoint Q1 Q2 -> disjoint P Q1 -> disjoint P Q2 -> apart (out (catS A B)) (out (catS A C)).
Proof. intros. eapply apart_sub; [apply cat_incl|apply cat_incl|]. eapply seq_apart; eauto. Qed.
End Out.

Lemma hom_strip : hom strip.
Proof.
  split; auto. intros a b. unfold strip. induction a as [|x a IH]; simpl; auto.
  destruct (negb (x =? 95)); simpl; congruence.
Qed.
Lemma hom_verbatim : hom verbatim.
Proof. split; auto. Qed.
Lemma strip_keep b : b <> 95 -> strip [b] = [b].
Proof. intros H. unfold strip. simpl. destruct (Z.eqb_spec b 95); [contradiction|reflexivity]. Qed.

(** From a language to the token. *)
Lemma token_of e cls R : lang e R -> peg_gram (ETrans e [Concat; ChangeClassName cls]) -> token (ETrans e [Concat; ChangeClassName cls]) cls R.
Proof.
  intros L Hg env c He Hb Hp Hs.
  set (w := mkW (c_str c) (c_slice c) (c_tag c) env).
  assert (Hw : in_world w c) by (repeat split).
  assert (G : good w (c_sp c)) by (split; auto).
  destruct (L w (c_sp c) G) as [(cur' & l & P & x & o & ss & Lo & Q & F & C)|[P N]].
  - assert (P2 : peg w (ETrans e [Concat; ChangeClassName cls]) (c_sp c) (RSucc cur' [mkAst 0 cls TString (VStr (concat ss)) (head_sp l)])).
    { eapply peg_trans_ok; [exact P|]. eapply (pl_ok _ 0%nat); [apply concat_ok; exact F|].
      eapply (pl_ok _ 0%nat); [reflexivity|constructor]. }
    destruct (proj1 (peg_adequate w _ c He Hg Hw Hs _) P2) as (n & out & err & E & Rr). simpl in Rr. destruct Rr as (-> & A1 & A2 & A3).
    exists n, out. split; auto. left. exists x, o. eexists. split; [exact Lo|]. split; auto. split; [unfold c_pos; congruence|].
    split; [exact A3|]. simpl. rewrite C. auto.
  - assert (P2 : peg w (ETrans e [Concat; ChangeClassName cls]) (c_sp c) RFail) by (apply peg_trans_fail; auto).
    destruct (proj1 (peg_adequate w _ c He Hg Hw Hs _) P2) as (n & out & err & E & Rr). simpl in Rr. destruct Rr as (-> & A1).
    exists n, out. auto.
Qed.

(** ** Leaves of extra.go *)
Lemma range_lang a b : 0 <= a -> b < 128 -> lang (range a b) (oneL (fun x => a <= x <= b)).
Proof.
  intros Ha Hb. unfold range, SCharRange. eapply lang_ext; [|eapply char_set_lang; [apply cs_range|]].
  - intros w o. unfold oneL. split; intros (x & -> & -> & H); exists x; (split; [auto|split; [auto|]]).
    + destruct H as (r & [<-|[]] & H). exact H.
    + eexists. split; [left; reflexivity|exact H].
  - intros r (x & [<-|[]] & H). simpl in H. lia.
Qed.
Lemma number_lang : lang SNumber (oneL dec_digit).
Proof. refine (char_set_lang _ _ _ _ cs_number _). intros r H. simpl in H. lia. Qed.
Lemma alpha_lang : lang SAlpha (oneL ascii_letter).
Proof. refine (char_set_lang _ _ _ _ cs_alpha _). intros r H. simpl in H. lia. Qed.
Lemma alnum_lang : lang SAlnum (oneL (fun r => 65 <= r <= 90 \/ 97 <= r <= 122 \/ 48 <= r <= 57)).
Proof. refine (char_set_lang _ _ _ _ cs_alnum _). intros r H. simpl in H. lia. Qed.

Notation O := (outL strip).
Lemma us_out : lang (erase (cc1 "_")) (O (oneS (fun b => b = 95))).
Proof.
  apply out_erased; [|intros b ->; reflexivity]. eapply lang_ext; [|apply (class_lang [bs "_"] [95]); reflexivity].
  intros w o. unfold oneL. split; intros (b & -> & -> & H); exists b; repeat split; simpl in *; intuition.
Qed.
Lemma number_out : lang SNumber (O (oneS dec_digit)).
Proof. apply out_one; [apply number_lang|]. intros b H. apply strip_keep. unfold dec_digit in H. lia. Qed.
Lemma range_out a b : 0 <= a -> b < 95 -> lang (range a b) (O (oneS (fun x => a <= x <= b))).
Proof. intros Ha Hb. apply out_one; [apply range_lang; lia|]. intros x H. apply strip_keep. lia. Qed.
Lemma range_out2 a b : 95 < a -> b < 128 -> lang (range a b) (O (oneS (fun x => a <= x <= b))).
Proof. intros Ha Hb. apply out_one; [apply range_lang; lia|]. intros x H. apply strip_keep. lia. Qed.

(** A digit, then digits and underscores. *)
Lemma one_more A es (P Q : Z -> Prop) : lang A (O (oneS P)) -> langs es (O (oneS Q)) ->
  langs [A; EZeroOrMore es] (O (catS (oneS P) (runS 0 Q))).
Proof.
  intros LA LE. apply out_seq; [apply hom_strip|exact LA| |apply code_sharp, outone_code].
  apply langs_one. apply out_more; [apply hom_strip|exact LE].
Qed.

Lemma du_out : lang dig_us (O (oneS (fun b => dec_digit b \/ b = 95))).
Proof. apply outone_or. apply out_first2; [apply number_out|apply us_out|apply one_prefer]. Qed.
Lemma spaced_cat D w : catS (oneS D) (runS 0 (fun b => D b \/ b = 95)) w <-> spaced D w.
Proof.
  split.
  - intros (a & b & -> & (d & -> & Hd) & F & _). exists d, b. auto.
  - intros (d & r & -> & Hd & F). exists [d], r. split; auto. split; [exists d; auto|split; auto; lia].
Qed.
Lemma spaced_lang A B D : lang A (O (oneS D)) -> lang B (O (oneS (fun b => D b \/ b = 95))) ->
  lang (EFlatGroup [A; EZeroOrMore [B]]) (O (spaced D)).
Proof.
  intros LA LB. eapply out_weaken; [apply spaced_cat|]. apply lang_flat. apply one_more; auto. apply langs_one. auto.
Qed.
Lemma based_lang A (D : Z -> Prop) : lang A (O (oneS D)) -> lang (EFlatGroup [A; EZeroOrMore [EFirst [A; erase (cc1 "_")]]]) (O (spaced D)).
Proof. intros LA. apply spaced_lang; auto. apply outone_or. apply out_first2; [auto|apply us_out|apply one_prefer]. Qed.

Lemma pad9_good : good_trans pad9.
Proof. const_tac. Qed.
#[global] Hint Resolve pad9_good : leafs.
Ltac xgram := cbv delta [BinaryNumberStr OctalNumberStr HexNumberStr IntegerNumberStr FloatNumberStr NumericStr AsciiIdentifierStr
    UnicodeIdentifierStr DateStr DateTimeStr TimeStr date_part hm_part seconds_part zone_part int_part dig_us opt_sign exponentStr
    range cc1 cc2 sq erase EZeroOrMore EOneOrMore EZeroOrOnce EOnce EZero SCharRange SCharClass SCharClassFn SSeq SNumber SAlpha SAlnum
    app] beta iota zeta; gram_tac.
Lemma binary_token : token BinaryNumberStr ":extra:BinaryNumberStr" (O (spaced bin_digit)).
Proof. apply token_of; [apply based_lang, range_out; lia|xgram]. Qed.
Lemma octal_token : token OctalNumberStr ":extra:OctalNumberStr" (O (spaced oct_digit)).
Proof. apply token_of; [apply based_lang, range_out; lia|xgram]. Qed.
Lemma out_or3 P Q R w : altS (oneS P) (altS (oneS Q) (oneS R)) w <-> oneS (fun b => P b \/ Q b \/ R b) w.
Proof.
  unfold altS, oneS. split.
  - intros [(b & -> & H)|[(b & -> & H)|(b & -> & H)]]; exists b; auto.
  - intros (b & -> & [H|[H|H]]); [left|right; left|right; right]; exists b; auto.
Qed.
Lemma lang_first4 e1 e2 e3 e4 R1 R2 R3 R4 : lang e1 R1 -> lang e2 R2 -> lang e3 R3 -> lang e4 R4 ->
  prefer R1 (altL R2 (altL R3 R4)) -> prefer R2 (altL R3 R4) -> prefer R3 R4 -> lang (EFirst [e1; e2; e3; e4]) (altL R1 (altL R2 (altL R3 R4))).
Proof.
  intros L1 L2 L3 L4 P1 P2 P3. apply lang_first. apply langc_cons; auto. apply langc_cons; auto. apply langc_cons; auto.
  intros w cur G. destruct (L4 w cur G) as [(cur' & l & P & Y)|[P N]].
  - left. exists cur', l. split; auto. eapply ch_ok; eauto.
  - right. split; auto. eapply ch_next; eauto. constructor.
Qed.
Lemma hex_digit_lang : lang (EFirst [SNumber; range 65 70; range 97 102]) (O (oneS hex_digit)).
Proof.
  eapply out_weaken; [intros w; exact (out_or3 dec_digit (fun b => 65 <= b <= 70) (fun b => 97 <= b <= 102) w)|].
  apply out_first3; [apply number_out|apply range_out; lia|apply range_out2; lia|apply one_prefer..].
Qed.
Lemma hex_rest_lang : lang (EFirst [SNumber; range 65 70; range 97 102; erase (cc1 "_")]) (O (oneS (fun b => hex_digit b \/ b = 95))).
Proof.
  eapply lang_ext; [|eapply lang_first4; [apply number_out|apply (range_out 65 70); lia|apply (range_out2 97 102); lia|apply us_out|..]].
  - intros w o. unfold altL, outL, oneS, hex_digit, dec_digit. split.
    + intros [[(b & -> & H) ->]|[[(b & -> & H) ->]|[[(b & -> & H) ->]|[(b & -> & H) ->]]]]; split; auto; exists b; split; auto; lia.
    + intros [(b & -> & [[H|[H|H]]|H]) ->]; [left|right; left|right; right; left|right; right; right]; split; auto; exists b; auto.
  - intros w o w' o' t t' [(b & -> & _) _] [[(b' & -> & _) _]|[[(b' & -> & _) _]|[(b' & -> & _) _]]] _; auto.
  - intros w o w' o' t t' [(b & -> & _) _] [[(b' & -> & _) _]|[(b' & -> & _) _]] _; auto.
  - apply one_prefer.
Qed.
Lemma hex_token : token HexNumberStr ":extra:HexNumberStr" (O (spaced hex_digit)).
Proof. apply token_of; [|xgram]. apply spaced_lang; [apply hex_digit_lang|apply hex_rest_lang]. Qed.

(** ** Integers *)
Definition plus_minus (b : Z) : Prop := b = 43 \/ b = 45.
Lemma sign_lang : lang opt_sign (O sign).
Proof.
  eapply out_weaken; [|apply out_optional; [apply hom_strip|apply langs_one; apply (out_class _ _ [43; 45]); [reflexivity|intros b [<-|[<-|[]]]; reflexivity]]].
  intros w. unfold optS, oneS, sign. split.
  - intros [(b & -> & [<-|[<-|[]]])| ->]; auto.
  - intros [->|[->| ->]]; auto; left; eexists; split; try reflexivity; simpl; auto.
Qed.
Lemma sign_ext : ext (O sign) plus_minus.
Proof.
  intros w o w' o' t t' [A _] [B _] E L. destruct A as [->|[->| ->]], B as [->|[->| ->]]; simpl in L; try lia; simpl in E; subst t; eexists _, t'; split; try reflexivity; unfold plus_minus; auto.
Qed.
Lemma sign_starts : starts (O sign) plus_minus.
Proof. intros b t o [[E|[E|E]] _]; inversion E; unfold plus_minus; auto. Qed.
Definition du (b : Z) : Prop := dec_digit b \/ b = 95.
Lemma zero_int_lang : lang (EFlatGroup [cc1 "0"; EZeroOrMore [erase (cc1 "_")]]) (O (catS (oneS (fun b => b = 48)) (runS 0 (fun b => b = 95)))).
Proof.
  apply lang_flat. apply one_more; [|apply langs_one, us_out].
  apply out_one; [|intros b ->; reflexivity]. eapply lang_ext; [|apply (class_lang [bs "0"] [48]); reflexivity].
  intros w o. unfold oneL. split; intros (b & -> & -> & H); exists b; repeat split; simpl in *; intuition.
Qed.
Lemma int_lang : lang int_part (O int_shape).
Proof.
  set (Z0 := catS (oneS (fun b => b = 48)) (runS 0 (fun b => b = 95))).
  set (N := fun w => exists d r, w = d :: r /\ 49 <= d <= 57 /\ Forall du r).
  eapply lang_ext; [|eapply (lang_cut _ _ (O Z0) (O (spaced dec_digit)) (O N))].
  - intros w o. unfold altL, outL, int_shape. split.
    + intros [[(a & b & -> & (x & -> & ->) & F & _) ->]|[H ->]]; split; auto. left. exists b. auto.
    + intros [[(r & -> & F)|H] ->]; [left|right]; split; auto. exists [48], r. split; auto. split; [exists 48; auto|split; auto; lia].
  - apply zero_int_lang.
  - apply spaced_lang; [apply number_out|apply du_out].
  - intros w o [(d & r & -> & H & F) ->]. split; auto. exists d, r. split; auto. split; [unfold dec_digit; lia|exact F].
  - intros w o [(d & r & -> & H & F) ->]. destruct (Z.eq_dec d 48) as [->|Hd].
    + right. exists [48], [48], r. split; auto. split; [|reflexivity]. exists [48], []. split; auto. split; [exists 48; auto|split; auto].
    + left. split; auto. exists d, r. split; auto. split; [unfold dec_digit in H; lia|exact F].
  - intros w o w' o' t t' [(a & b & -> & (x & -> & ->) & _) _] [(d & r & -> & H & _) _] E. inversion E. lia.
Qed.
Lemma int_starts : starts (O int_shape) dec_digit.
Proof. intros b t o [[(r & E & _)|(d & r & E & H & _)] _]; inversion E; subst; unfold dec_digit; lia. Qed.
Lemma int_nonempty : nonempty (O int_shape).
Proof. intros w o [[(r & -> & _)|(d & r & -> & H & _)] _]; discriminate. Qed.
Lemma int_run w : int_shape w -> exists d r, w = d :: r /\ dec_digit d /\ Forall du r.
Proof.
  intros [(r & -> & F)|(d & r & -> & H & F)]; eexists _, _; (split; [reflexivity|]); split; try (unfold dec_digit; lia); auto.
  eapply Forall_impl; [|exact F]. intros b ->. right. auto.
Qed.
Lemma int_ext : ext (O int_shape) du.
Proof.
  intros w o w' o' t t' [A _] [B _] E L. apply int_run in A. apply int_run in B.
  destruct A as (d & r & -> & H & F), B as (d' & r' & -> & H' & F').
  eapply (run_ext du (fun x => x) (d :: r) _ (d' :: r')); [split; [constructor; [left; auto|exact F]|reflexivity]|split; [constructor; [left; auto|exact F']|reflexivity]|exact E|exact L].
Qed.
Ltac disj := intros ?b; unfold orP, noP, plus_minus, du, dec_digit; simpl; lia.
Lemma integer_token : token IntegerNumberStr ":extra:IntegerNumberStr" (O integer_word).
Proof.
  apply token_of; [|xgram]. apply lang_flat.
  apply (out_seq _ hom_strip); [apply sign_lang|apply langs_one, int_lang|].
  eapply ext_sharp; [apply sign_ext|apply int_starts|disj].
Qed.

(** ** Floats *)
Definition dot (b : Z) : Prop := b = 46.
Definition expo (b : Z) : Prop := b = 69 \/ b = 101.
Lemma dot_lang : lang (cc1 ".") (O (oneS dot)).
Proof.
  apply out_one; [|intros b ->; reflexivity]. eapply lang_ext; [|apply (class_lang [bs "."] [46]); reflexivity].
  intros w o. unfold oneL, dot. split; intros (b & -> & -> & H); exists b; repeat split; simpl in *; intuition.
Qed.
Lemma e_lang : lang (cc2 "E" "e") (O (oneS expo)).
Proof.
  apply out_one; [|intros b [->| ->]; reflexivity]. eapply lang_ext; [|apply (class_lang [bs "E"; bs "e"] [69; 101]); reflexivity].
  intros w o. unfold oneL, expo. split; intros (b & -> & -> & H); exists b; repeat split; simpl in *; intuition.
Qed.
Lemma spaced_starts : starts (O (spaced dec_digit)) dec_digit.
Proof. intros b t o [(d & r & E & H & _) _]. inversion E; subst; auto. Qed.
Lemma spaced_ext : ext (O (spaced dec_digit)) du.
Proof.
  intros w o w' o' t t' [(d & r & -> & H & F) _] [(d' & r' & -> & H' & F') _] E L.
  eapply (run_ext du (fun x => x) (d :: r) _ (d' :: r')); [split; [constructor; [left; auto|exact F]|reflexivity]|split; [constructor; [left; auto|exact F']|reflexivity]|exact E|exact L].
Qed.
Definition expS : bytes -> Prop := catS (oneS expo) (catS sign (spaced dec_digit)).
Lemma exp_lang : lang exponentStr (O expS).
Proof.
  apply lang_flat. apply (out_seq _ hom_strip); [apply e_lang| |apply code_sharp, outone_code].
  apply (out_seq _ hom_strip); [apply sign_lang|apply langs_one; apply spaced_lang; [apply number_out|apply du_out]|].
  eapply ext_sharp; [apply sign_ext|apply spaced_starts|disj].
Qed.
Lemma exp_starts : starts (O expS) expo.
Proof. apply (outcat_starts _ hom_strip); [apply outone_nonempty|apply outone_starts]. Qed.
Lemma exp_nonempty : nonempty (O expS).
Proof. apply (outcat_nonempty _ hom_strip), outone_nonempty. Qed.
Lemma exp_word w : expS w <-> exponent_word w.
Proof.
  split.
  - intros (a & b & -> & (e & -> & He) & (s & d & -> & Hs & Hd)). exists e, s, d. auto.
  - intros (e & s & b & -> & He & Hs & Hb). exists [e], (s ++ b). split; auto. split; [exists e; auto|]. exists s, b. auto.
Qed.
Lemma optexp_lang : lang (EZeroOrOnce [exponentStr]) (O (optS expS)).
Proof. apply (out_optional _ hom_strip), langs_one, exp_lang. Qed.
Lemma optexp_starts : starts (O (optS expS)) expo.
Proof. apply (outopt_starts _ hom_strip), exp_starts. Qed.

Definition dotS : bytes -> Prop := catS (oneS dot) (runS 0 du).
Definition dot1S : bytes -> Prop := catS (oneS dot) (runS 1 du).
Lemma du_langs : langs [dig_us] (O (oneS du)).
Proof. apply langs_one, du_out. Qed.
Lemma dots_lang : langs [cc1 "."; EZeroOrMore [dig_us]] (O dotS).
Proof.
  apply (out_seq _ hom_strip); [apply dot_lang| |apply code_sharp, outone_code].
  apply langs_one, (out_more _ hom_strip), du_langs.
Qed.
Lemma dot_ext n : ext (O (catS (oneS dot) (runS n du))) (orP noP du).
Proof.
  eapply (outcat_ext _ hom_strip); [apply code_ext, outone_code|apply outrun_ext|apply outrun_starts|intros b []].
Qed.
Lemma dot_starts n : starts (O (catS (oneS dot) (runS n du))) dot.
Proof. apply (outcat_starts _ hom_strip); [apply outone_nonempty|apply outone_starts]. Qed.
Lemma dot_nonempty n : nonempty (O (catS (oneS dot) (runS n du))).
Proof. apply (outcat_nonempty _ hom_strip), outone_nonempty. Qed.

Ltac disj ::= intros ?b; unfold orP, noP, plus_minus, du, dec_digit, dot, expo; simpl; lia.

Definition F1 := catS int_shape (catS dotS (optS expS)).
Definition F2 := catS (oneS dot) (catS (runS 1 du) (optS expS)).
Definition F3 := catS int_shape expS.
Lemma F1_lang : lang (EFlatGroup [int_part; EFlatGroup [cc1 "."; EZeroOrMore [dig_us]]; EZeroOrOnce [exponentStr]]) (O F1).
Proof.
  apply lang_flat. apply (out_seq _ hom_strip); [apply int_lang| |].
  - apply (out_seq _ hom_strip); [apply lang_flat, dots_lang|apply langs_one, optexp_lang|].
    eapply ext_sharp; [apply dot_ext|apply optexp_starts|disj].
  - eapply ext_sharp; [apply int_ext|apply (outcat_starts _ hom_strip); [apply dot_nonempty|apply dot_starts]|disj].
Qed.
Lemma F2_lang : lang (EFlatGroup [cc1 "."; EOneOrMore [dig_us]; EZeroOrOnce [exponentStr]]) (O F2).
Proof.
  apply lang_flat. apply (out_seq _ hom_strip); [apply dot_lang| |apply code_sharp, outone_code].
  apply (out_seq _ hom_strip); [apply (out_more1 _ hom_strip), du_langs|apply langs_one, optexp_lang|].
  eapply ext_sharp; [apply outrun_ext|apply optexp_starts|disj].
Qed.
Lemma F3_lang : lang (EFlatGroup [int_part; exponentStr]) (O F3).
Proof.
  apply lang_flat. apply (out_seq _ hom_strip); [apply int_lang|apply langs_one, exp_lang|].
  eapply ext_sharp; [apply int_ext|apply exp_starts|disj].
Qed.
Lemma F1_starts : starts (O F1) dec_digit.
Proof. apply (outcat_starts _ hom_strip); [apply int_nonempty|apply int_starts]. Qed.
Lemma F2_starts : starts (O F2) dot.
Proof. apply (outcat_starts _ hom_strip); [apply outone_nonempty|apply outone_starts]. Qed.
Lemma F3_starts : starts (O F3) dec_digit.
Proof. apply (outcat_starts _ hom_strip); [apply int_nonempty|apply int_starts]. Qed.
Lemma F1_nonempty : nonempty (O F1). Proof. apply (outcat_nonempty _ hom_strip), int_nonempty. Qed.
Lemma F2_nonempty : nonempty (O F2). Proof. apply (outcat_nonempty _ hom_strip), outone_nonempty. Qed.
Lemma F3_nonempty : nonempty (O F3). Proof. apply (outcat_nonempty _ hom_strip), int_nonempty. Qed.
Lemma float_lang : lang (EFlatGroup [opt_sign;
       EFirst [EFlatGroup [int_part; EFlatGroup [cc1 "."; EZeroOrMore [dig_us]]; EZeroOrOnce [exponentStr]];
         EFlatGroup [cc1 "."; EOneOrMore [dig_us]; EZeroOrOnce [exponentStr]];
         EFlatGroup [int_part; exponentStr]]]) (O (catS sign (altS F1 (altS F2 F3)))).
Proof.
  apply lang_flat. apply (out_seq _ hom_strip); [apply sign_lang|apply langs_one|].
  - apply out_first3; [apply F1_lang|apply F2_lang|apply F3_lang|apply apart_prefer..].
    + eapply starts_apart; [apply F1_nonempty|apply F2_nonempty|apply F1_starts|apply F2_starts|disj].
    + eapply (outcat_apart _ hom_strip); [apply int_ext|apply (outcat_nonempty _ hom_strip), dot_nonempty|apply exp_nonempty|
        apply (outcat_starts _ hom_strip); [apply dot_nonempty|apply dot_starts]|apply exp_starts|disj|disj|disj].
    + eapply starts_apart; [apply F2_nonempty|apply F3_nonempty|apply F2_starts|apply F3_starts|disj].
  - eapply ext_sharp; [apply sign_ext|apply outalt_starts; [apply F1_starts|apply outalt_starts; [apply F2_starts|apply F3_starts]]|disj].
Qed.
Lemma optexp_word w : optS expS w <-> opt_exponent w.
Proof. unfold optS, opt_exponent. rewrite exp_word. tauto. Qed.
Lemma float_word_eq w : catS sign (altS F1 (altS F2 F3)) w <-> float_word w.
Proof.
  split.
  - intros (s & b & -> & Hs & [H|[H|H]]).
    + destruct H as (i & r & -> & Hi & (m & x & -> & (p & f & -> & (c & -> & ->) & F & _) & Hx)). exists s, (i ++ 46 :: f), x.
      split; [rewrite <- !app_assoc; reflexivity|]. split; auto. left. split; [left; exists i, f; auto|apply optexp_word; auto].
    + destruct H as (i & r & -> & (c & -> & ->) & (f & x & -> & (F & L) & Hx)). exists s, (46 :: f), x. split; auto. split; auto. left.
      split; [right; exists f; split; auto; split; [destruct f; [simpl in L; lia|discriminate]|auto]|apply optexp_word; auto].
    + destruct H as (i & x & -> & Hi & Hx). exists s, i, x. split; auto. split; auto. right. split; auto. apply exp_word. auto.
  - intros (s & m & x & -> & Hs & [[[(i & f & -> & Hi & F)|(f & -> & N & F)] Hx]|[Hi Hx]]); exists s; eexists; (split; [reflexivity|]); (split; [auto|]).
    + left. rewrite <- app_assoc. exists i, ((46 :: f) ++ x). split; auto. split; auto. exists (46 :: f), x. split; auto. split; [|apply optexp_word; auto].
      exists [46], f. split; auto. split; [exists 46; split; auto; reflexivity|split; auto; lia].
    + right. left. exists [46], (f ++ x). split; auto. split; [exists 46; split; auto; reflexivity|]. exists f, x. split; auto. split; [|apply optexp_word; auto].
      split; auto. destruct f; [congruence|simpl; lia].
    + right. right. exists m, x. split; auto. split; auto. apply exp_word. auto.
Qed.
Lemma float_token : token FloatNumberStr ":extra:FloatNumberStr" (O float_word).
Proof. apply token_of; [|xgram]. eapply out_weaken; [apply float_word_eq|apply float_lang]. Qed.

Definition N1 := catS int_shape (optS dotS).
Lemma N1_lang : lang (EFlatGroup [int_part; EZeroOrOnce [cc1 "."; EZeroOrMore [dig_us]]]) (O N1).
Proof.
  apply lang_flat. apply (out_seq _ hom_strip); [apply int_lang|apply langs_one, (out_optional _ hom_strip), dots_lang|].
  eapply ext_sharp; [apply int_ext|apply (outopt_starts _ hom_strip), dot_starts|disj].
Qed.
Lemma N2_lang : lang (EFlatGroup [cc1 "."; EOneOrMore [dig_us]]) (O dot1S).
Proof.
  apply lang_flat, (out_seq _ hom_strip); [apply dot_lang|apply langs_one, (out_more1 _ hom_strip), du_langs|apply code_sharp, outone_code].
Qed.
Lemma N1_starts : starts (O N1) dec_digit.
Proof. apply (outcat_starts _ hom_strip); [apply int_nonempty|apply int_starts]. Qed.
Lemma N1_ext : ext (O N1) (orP du (orP (orP noP du) dot)).
Proof.
  eapply (outcat_ext _ hom_strip); [apply int_ext|apply (outopt_ext _ hom_strip); [apply dot_ext|apply dot_starts]|apply (outopt_starts _ hom_strip), dot_starts|disj].
Qed.
Lemma N_apart : apart (O N1) (O dot1S).
Proof. eapply starts_apart; [apply (outcat_nonempty _ hom_strip), int_nonempty|apply dot_nonempty|apply N1_starts|apply dot_starts|disj]. Qed.
Lemma numeric_lang : lang (EFlatGroup [opt_sign;
       EFirst [
         EFlatGroup [int_part; EZeroOrOnce [cc1 "."; EZeroOrMore [dig_us]]];
         EFlatGroup [cc1 "."; EOneOrMore [dig_us]]];
       EZeroOrOnce [exponentStr]]) (O (catS sign (catS (altS N1 dot1S) (optS expS)))).
Proof.
  apply lang_flat. apply (out_seq _ hom_strip); [apply sign_lang|apply (out_seq _ hom_strip)|].
  - apply out_first2; [apply N1_lang|apply N2_lang|apply apart_prefer, N_apart].
  - apply langs_one, optexp_lang.
  - eapply ext_sharp; [apply outalt_ext; [apply N1_ext|apply dot_ext|apply N_apart]|apply optexp_starts|disj].
  - eapply ext_sharp; [apply sign_ext|apply (outcat_starts _ hom_strip); [apply outalt_nonempty; [apply (outcat_nonempty _ hom_strip), int_nonempty|apply dot_nonempty]|
      apply outalt_starts; [apply N1_starts|apply dot_starts]]|disj].
Qed.
Lemma numeric_word_eq w : catS sign (catS (altS N1 dot1S) (optS expS)) w <-> numeric_word w.
Proof.
  split.
  - intros (s & b & -> & Hs & (m & x & -> & Hm & Hx)). exists s, m, x. split; auto. split; auto. split; [|apply optexp_word; auto].
    destruct Hm as [(i & r & -> & Hi & [(p & f & -> & (c & -> & ->) & F & _)| ->])|(p & f & -> & (c & -> & ->) & F & L)].
    + left. left. exists i, f. auto.
    + right. rewrite app_nil_r. auto.
    + left. right. exists f. split; auto. split; [destruct f; [simpl in L; lia|discriminate]|auto].
  - intros (s & m & x & -> & Hs & Hm & Hx). exists s, (m ++ x). split; auto. split; auto. exists m, x. split; auto. split; [|apply optexp_word; auto].
    destruct Hm as [[(i & f & -> & Hi & F)|(f & -> & N & F)]|Hi].
    + left. exists i, (46 :: f). split; auto. split; auto. left. exists [46], f. split; auto. split; [exists 46; split; auto; reflexivity|split; auto; lia].
    + right. exists [46], f. split; auto. split; [exists 46; split; auto; reflexivity|split; auto]. destruct f; [congruence|simpl; lia].
    + left. exists m, []. rewrite app_nil_r. split; auto. split; auto. right. auto.
Qed.
Lemma numeric_token : token NumericStr ":extra:NumericStr" (O numeric_word).
Proof. apply token_of; [|xgram]. eapply out_weaken; [apply numeric_word_eq|apply numeric_lang]. Qed.

(** ** What the texts are worth *)
Lemma strip_app a b : strip (a ++ b) = strip a ++ strip b.
Proof. apply (proj2 hom_strip). Qed.
Lemma strip_sign s : sign s -> strip s = s.
Proof. intros [->|[->| ->]]; reflexivity. Qed.
Lemma strip_cons b s : b <> 95 -> strip (b :: s) = b :: strip s.
Proof. intros H. change (b :: s) with ([b] ++ s). rewrite strip_app, strip_keep; auto. Qed.
Lemma strip_du s : Forall du s -> Forall dec_digit (strip s).
Proof.
  intros F. apply Forall_forall. intros b Hb. unfold strip in Hb. apply filter_In in Hb. destruct Hb as [Hi Hn].
  rewrite Forall_forall in F. destruct (F b Hi) as [H| ->]; auto. discriminate.
Qed.
Lemma strip_int i : int_shape i -> strip i <> [] /\ Forall dec_digit (strip i).
Proof.
  intros H. apply int_run in H. destruct H as (d & r & -> & Hd & F). rewrite strip_cons by (unfold dec_digit in Hd; lia).
  split; [discriminate|]. constructor; auto. apply strip_du. auto.
Qed.
Lemma strip_exp x : opt_exponent x -> strip x = [] \/ exists e s' ds, strip x = e :: s' ++ ds /\ (e = 69 \/ e = 101) /\ sign s' /\ ds <> [] /\ Forall dec_digit ds.
Proof.
  intros [->|(e & s & b & -> & He & Hs & (d & r & -> & Hd & F))]; [left; reflexivity|]. right. exists e, s, (strip (d :: r)).
  rewrite strip_cons by lia. rewrite strip_app, (strip_sign s Hs). split; auto. split; auto. split; auto.
  rewrite strip_cons by (unfold dec_digit in Hd; lia). split; [discriminate|]. constructor; auto. apply strip_du. auto.
Qed.
Lemma decimal_point i f x s : sign s -> int_shape i -> Forall du f -> opt_exponent x -> decimal_float (strip (s ++ (i ++ 46 :: f) ++ x)).
Proof.
  intros Hs Hi Hf Hx. rewrite !strip_app, (strip_sign s Hs). rewrite strip_cons by lia. exists s, (strip i), [46], (strip f), (strip x).
  split; [rewrite <- !app_assoc; reflexivity|]. destruct (strip_int i Hi) as [N F]. split; auto. split; auto. split; auto. split; [apply strip_du; auto|].
  split; [destruct (strip i); [congruence|discriminate]|]. apply strip_exp. auto.
Qed.
Lemma decimal_int i x s : sign s -> int_shape i -> opt_exponent x -> decimal_float (strip (s ++ i ++ x)).
Proof.
  intros Hs Hi Hx. rewrite !strip_app, (strip_sign s Hs). exists s, (strip i), [], [], (strip x).
  split; [reflexivity|]. destruct (strip_int i Hi) as [N F]. split; auto. split; auto. split; auto. split; [auto|].
  split; [rewrite app_nil_r; auto|]. apply strip_exp. auto.
Qed.
Lemma decimal_frac f x s d : sign s -> Forall du f -> In d f -> dec_digit d -> opt_exponent x -> decimal_float (strip (s ++ (46 :: f) ++ x)).
Proof.
  intros Hs Hf Hi Hd Hx. rewrite !strip_app, (strip_sign s Hs). rewrite strip_cons by lia. exists s, [], [46], (strip f), (strip x).
  split; [reflexivity|]. split; auto. split; auto. split; auto. split; [apply strip_du; auto|].
  split; [|apply strip_exp; auto]. simpl. intros E. assert (In d (strip f)) as K.
  { unfold strip. apply filter_In. split; auto. unfold dec_digit in Hd. destruct (Z.eqb_spec d 95); [lia|reflexivity]. }
  rewrite E in K. destruct K.
Qed.
Lemma app_eq_split {A} (a b c d : list A) : a ++ b = c ++ d -> (exists e, c = a ++ e /\ b = e ++ d) \/ (exists e, a = c ++ e /\ d = e ++ b).
Proof.
  intros H. destruct (le_lt_dec (length a) (length c)).
  - left. apply prefix_split; auto.
  - right. destruct (prefix_split c d a b (eq_sym H) ltac:(lia)) as (e & -> & ->). exists e. auto.
Qed.
Lemma frac_digit f x s : sign s -> Forall du f -> opt_exponent x -> has_mantissa_digit (s ++ (46 :: f) ++ x) -> exists d, In d f /\ dec_digit d.
Proof.
  intros Hs Hf Hx (pre & d & post & E & Hd & N1 & N2).
  destruct (Exists_dec dec_digit f) as [H|H]. { intros b. unfold dec_digit. destruct (Z_le_dec 48 b), (Z_le_dec b 57); [left; lia|right; lia..]. }
  - apply Exists_exists in H. exact H.
  - exfalso. rewrite app_assoc in E. destruct (app_eq_split _ _ _ _ (eq_sym E)) as [(e & E1 & E2)|(e & E1 & E2)].
    + assert (In d (s ++ 46 :: f) \/ e = [] ) as [K|K]. { destruct e as [|y e]; auto. inversion E2; subst. left. rewrite E1. apply in_elt. }
      * apply in_app_or in K. destruct K as [K|[K|K]].
        -- destruct Hs as [->|[->| ->]]; [destruct K|destruct K as [<-|[]]|destruct K as [<-|[]]]; unfold dec_digit in Hd; lia.
        -- unfold dec_digit in Hd. lia.
        -- apply H. apply Exists_exists. eauto.
      * subst e. simpl in E2. destruct Hx as [->|(e & s' & b & -> & He & _)]; [discriminate|]. inversion E2; subst. unfold dec_digit in Hd. lia.
    + destruct Hx as [->|(y & s' & b & -> & He & _)].
      { apply (f_equal (@length Z)) in E2. rewrite app_length in E2. simpl in E2. lia. }
      destruct e as [|y' e]; inversion E2; subst; [unfold dec_digit in Hd; lia|].
      destruct He as [->| ->]; [apply N1|apply N2]; apply in_elt.
Qed.
Lemma float_decimal w : float_word w -> has_mantissa_digit w -> decimal_float (strip w).
Proof.
  intros (s & m & x & -> & Hs & [[[(i & f & -> & Hi & F)|(f & -> & N & F)] Hx]|[Hi Hx]]) Hd.
  - apply decimal_point; auto.
  - destruct (frac_digit f x s Hs F Hx Hd) as (d & K1 & K2). eapply decimal_frac; eauto.
  - apply decimal_int; auto. right. auto.
Qed.
Lemma numeric_decimal w : numeric_word w -> has_mantissa_digit w -> decimal_float (strip w).
Proof.
  intros (s & m & x & -> & Hs & [[(i & f & -> & Hi & F)|(f & -> & N & F)]|Hi] & Hx) Hd.
  - apply decimal_point; auto.
  - destruct (frac_digit f x s Hs F Hx Hd) as (d & K1 & K2). eapply decimal_frac; eauto.
  - apply decimal_int; auto.
Qed.
Lemma numeral_dec s : Forall dec_digit s -> exists ds, Forall2 (digit 10) s ds.
Proof.
  induction 1 as [|b s H F IH]; [exists []; constructor|]. destruct IH as [ds IH]. exists ((b - 48) :: ds). constructor; auto.
  unfold dec_digit in H. replace b with (48 + (b - 48)) at 1 by lia. apply d_num; lia.
Qed.
Lemma integer_numeral w : integer_word w -> exists z, int_numeral 10 (strip w) z.
Proof.
  intros (s & b & -> & Hs & Hb). rewrite strip_app, (strip_sign s Hs). destruct (strip_int b Hb) as [N F].
  destruct (numeral_dec _ F) as [ds Hds]. assert (numeral 10 (strip b) (positional 10 ds)) as K by (split; auto; exists ds; auto).
  destruct Hs as [->|[->| ->]].
  - exists (positional 10 ds). left. auto.
  - exists (positional 10 ds). right. left. exists (strip b). auto.
  - exists (- positional 10 ds). right. right. exists (strip b). rewrite Z.opp_involutive. auto.
Qed.

(** ** Where words exist *)
Lemma spaced_exists D rest : (exists w o t, rest = w ++ t /\ O (spaced D) w o) <-> exists d t, rest = d :: t /\ D d.
Proof.
  split.
  - intros (w & o & t & -> & (d & r & -> & H & _) & _). exists d, (r ++ t). auto.
  - intros (d & t & -> & H). exists [d], (strip [d]), t. split; auto. split; auto. exists d, []. auto.
Qed.
Lemma integer_exists rest : (exists w o t, rest = w ++ t /\ O integer_word w o) <-> exists s d t, rest = s ++ d :: t /\ sign s /\ dec_digit d.
Proof.
  split.
  - intros (w & o & t & -> & (s & b & -> & Hs & Hb) & _). apply int_run in Hb. destruct Hb as (d & r & -> & Hd & _).
    exists s, d, (r ++ t). rewrite <- app_assoc. auto.
  - intros (s & d & t & -> & Hs & Hd). exists (s ++ [d]), (strip (s ++ [d])), t. rewrite <- app_assoc. split; auto. split; auto.
    exists s, [d]. split; auto. split; auto. destruct (Z.eq_dec d 48) as [->|]; [left; exists []; auto|right].
    exists d, []. unfold dec_digit in Hd. split; auto. split; auto. lia.
Qed.

(** ** Identifiers *)
Notation Vb := (outL verbatim).
Lemma ascii_ident_lang : lang (EFlatGroup [EOnce [EFirst [SAlpha; cc2 "_" "$"]]; EZeroOrMore [EFirst [SAlnum; cc2 "_" "$"]]]) (Vb ascii_ident).
Proof.
  assert (C : lang (cc2 "_" "$") (Vb (oneS (fun b => b = 95 \/ b = 36)))).
  { apply out_one; [|auto]. eapply lang_ext; [|apply (class_lang [bs "_"; bs "$"] [95; 36]); reflexivity].
    intros w o. unfold oneL. split; intros (b & -> & -> & H); exists b; repeat split; simpl in *; intuition. }
  set (S1 := fun b => ascii_letter b \/ b = 95 \/ b = 36). set (S2 := fun b => ascii_letter b \/ dec_digit b \/ b = 95 \/ b = 36).
  eapply out_weaken; [|apply lang_flat, (out_seq _ hom_verbatim)].
  - intros w. instantiate (1 := runS 0 S2). instantiate (1 := oneS S1). split.
    + intros (a & b & -> & (x & -> & Hx) & F & _). exists x, b. auto.
    + intros (b & r & -> & H & F). exists [b], r. split; auto. split; [exists b; auto|split; auto; lia].
  - apply lang_once, langs_one. apply outone_or. apply out_first2; [apply out_one; [apply alpha_lang|auto]|apply C|apply one_prefer].
  - apply langs_one, (out_more _ hom_verbatim), langs_one. eapply out_weaken; [|apply outone_or, out_first2; [apply out_one; [apply alnum_lang|auto]|apply C|apply one_prefer]].
    intros w. unfold oneS, orP, S2, ascii_letter, dec_digit. split; intros (b & -> & H); exists b; (split; [auto|lia]).
  - apply code_sharp, outone_code.
Qed.
Lemma ascii_ident_token : token AsciiIdentifierStr ":extra:IdentifierStr" (Vb ascii_ident).
Proof. apply token_of; [apply ascii_ident_lang|xgram]. Qed.

Definition charS (P : Z -> Prop) (w : bytes) : Prop := exists r, utf8_char r w /\ P r.
Lemma charS_code P : prefix_code (Vb (charS P)).
Proof.
  intros w o w' o' t t' [(r & H & Hp) ->] [(r' & H' & Hp') ->] E. eapply (char_code (fun _ => True)); [exists r|exists r'|exact E]; auto.
Qed.
Lemma charS_nonempty P : nonempty (Vb (charS P)).
Proof. intros w o [(r & H & Hp) ->] ->. apply char_len in H. simpl in H. lia. Qed.
Lemma fn_out f P : (forall r, f r = true <-> P r) -> ~ P 65533 -> lang (SCharClassFn f) (Vb (charS P)).
Proof.
  intros E H. eapply lang_ext; [|eapply okchar_lang; [apply char_sets, cs_fn|]].
  - intros w o. unfold charL, outL, charS, verbatim. split.
    + intros (r & A & -> & B). split; auto. exists r. split; auto. apply E. auto.
    + intros [(r & A & B) ->]. exists r. split; auto. split; auto. apply E. auto.
  - cbv beta. rewrite E. auto.
Qed.
Lemma chars_out e (P : Z -> Prop) : (forall r, P r -> 0 <= r < 128) -> lang e (oneL P) -> lang e (Vb (charS P)).
Proof.
  intros H. apply lang_ext. intros w o. rewrite <- (charL_ascii P H). unfold charL, outL, charS, verbatim. split.
  - intros (r & A & -> & B). split; eauto.
  - intros [(r & A & B) ->]. eauto.
Qed.
Lemma char_first e1 e2 P Q : lang e1 (Vb (charS P)) -> lang e2 (Vb (charS Q)) -> lang (EFirst [e1; e2]) (Vb (charS (fun r => P r \/ Q r))).
Proof.
  intros L1 L2. eapply out_weaken; [|apply out_first2; [exact L1|exact L2|]].
  - intros w. unfold altS, charS. split; [intros [(r & A & B)|(r & A & B)]; exists r; auto|intros (r & A & [B|B]); [left|right]; exists r; auto].
  - intros w o w' o' t t' [(r & H & Hp) ->] [(r' & H' & Hp') ->] E.
    assert (length w = length w'); [|lia]. eapply (char_code (fun _ => True)); [exists r|exists r'|exact E]; auto.
Qed.
Lemma pow_chars P k : forall w o, powL (Vb (charS P)) k w o <-> exists rs, utf8 rs w /\ Forall P rs /\ length rs = k /\ o = w.
Proof.
  induction k as [|k IH]; intros w o; simpl.
  - split; [intros [-> ->]; exists []; repeat split; constructor|]. intros (rs & U & F & L & ->). destruct rs; [|discriminate]. inversion U; subst. split; auto.
  - split.
    + intros (w1 & o1 & w2 & o2 & -> & -> & [(b & Hb & Hp) ->] & H). apply IH in H. destruct H as (rs & U & F & L & ->).
      exists (b :: rs). split; [constructor; auto|]. split; [constructor; auto|]. split; [simpl; lia|reflexivity].
    + intros (rs & U & F & L & ->). destruct U as [|r cs rs s Hr U]; [discriminate|]. inversion F; subst.
      exists cs, cs, s, s. split; auto. split; auto. split; [split; [exists r; auto|reflexivity]|]. apply IH. exists rs. simpl in L. auto.
Qed.
Lemma unicode_ident_lang u : ~ id_start u 65533 -> ~ id_continue u 65533 ->
  lang (EFlatGroup [EOnce [EFirst [cc2 "_" "$"; SCharClassFn (id_start_fn u)]]; EZeroOrMore [EFirst [cc1 "$"; SCharClassFn (id_continue_fn u)]]]) (Vb (unicode_ident u)).
Proof.
  intros H1 H2.
  assert (C : lang (cc2 "_" "$") (Vb (charS (fun b => b = 95 \/ b = 36)))).
  { apply chars_out; [intros; lia|]. eapply lang_ext; [|apply (class_lang [bs "_"; bs "$"] [95; 36]); reflexivity].
    intros w o. unfold oneL. split; intros (b & -> & -> & H); exists b; repeat split; simpl in *; intuition. }
  assert (D : lang (cc1 "$") (Vb (charS (fun b => b = 36)))).
  { apply chars_out; [intros; lia|]. eapply lang_ext; [|apply (class_lang [bs "$"] [36]); reflexivity].
    intros w o. unfold oneL. split; intros (b & -> & -> & H); exists b; repeat split; simpl in *; intuition. }
  assert (E1 : forall r, id_start_fn u r = true <-> id_start u r).
  { intros r. unfold id_start_fn, id_start, in_table. rewrite !andb_true_iff, !orb_true_iff, !negb_true_iff, !not_true_iff_false. tauto. }
  assert (E2 : forall r, id_continue_fn u r = true <-> id_continue u r).
  { intros r. unfold id_continue_fn, id_continue, in_table. rewrite !andb_true_iff, !orb_true_iff, !negb_true_iff, !not_true_iff_false, !Z.eqb_eq. tauto. }
  pose proof (char_first _ _ _ _ C (fn_out _ _ E1 H1)) as L1. pose proof (char_first _ _ _ _ D (fn_out _ _ E2 H2)) as L2.
  eapply lang_ext; [|apply lang_flat, langs_cons; [apply lang_once, langs_one, L1|apply langs_one; unfold EZeroOrMore; apply lang_repeat; [apply langs_one, L2|apply charS_code|apply charS_nonempty]|apply code_sharp, charS_code]].
  intros w o. split.
  - intros (w1 & o1 & w2 & o2 & -> & -> & [(r & Hr & Hp) ->] & (k & Hk & _)). apply pow_chars in Hk. destruct Hk as (rs & U & F & _ & ->).
    split; [|reflexivity]. exists r, rs. split; [constructor; auto|]. split; [tauto|auto].
  - intros [(r & rs & U & Hr & F) ->]. inversion U as [|r' cs rs' s Hc U']; subst. exists cs, cs, s, s. split; auto. split; auto. split.
    + split; [exists r; split; auto; tauto|reflexivity].
    + exists (length rs). split; [apply pow_chars; exists rs; auto|]. simpl. lia.
Qed.
Lemma unicode_ident_token u : ~ id_start u 65533 -> ~ id_continue u 65533 -> token (UnicodeIdentifierStr u) ":extra:IdentifierStr" (Vb (unicode_ident u)).
Proof. intros H1 H2. apply token_of; [apply unicode_ident_lang; auto|xgram]. Qed.

(** ** Dates and times *)
Lemma lit1 b : lang (SSeq [b]) (Vb (oneS (fun x => x = b))).
Proof. apply out_lit. reflexivity. Qed.
Lemma rng a b : 0 <= a -> b < 128 -> lang (range a b) (Vb (oneS (fun x => a <= x <= b))).
Proof. intros. apply out_one; [apply range_lang; auto|auto]. Qed.
Definition dashP (b : Z) : Prop := b = 45.
Definition dashes : bytes -> Prop := oneS dashP.
Definition mdS : bytes -> Prop := catS dashes (catS (oneS (fun x => 48 <= x <= 49)) (catS (oneS (fun x => 48 <= x <= 57)) (catS dashes
  (catS (oneS (fun x => 48 <= x <= 51)) (oneS (fun x => 48 <= x <= 57)))))).
Definition dateS : bytes -> Prop := catS (optS dashes) (catS (runS 4 dec_digit) mdS).
Lemma md_langs : langs [sq "-"; range 48 49; range 48 57; sq "-"; range 48 51; range 48 57] (Vb mdS).
Proof.
  unfold mdS. repeat (apply (out_seq _ hom_verbatim); [first [apply lit1|apply rng; lia]| |apply code_sharp, outone_code]).
  apply langs_one, rng; lia.
Qed.
Lemma md_code : prefix_code (Vb mdS).
Proof. unfold mdS. repeat (apply (outcat_code _ hom_verbatim); [apply outone_code|]). apply outone_code. Qed.
Lemma md_starts : starts (Vb mdS) dashP.
Proof. apply (outcat_starts _ hom_verbatim); [apply outone_nonempty|apply outone_starts]. Qed.
Lemma year_lang : lang (ERepeat (mkTimes 4 (-1)) [SNumber]) (Vb (runS 4 dec_digit)).
Proof.
  eapply out_weaken; [|apply (out_rep _ hom_verbatim), langs_one, out_one; [apply number_lang|auto]].
  intros w. unfold runS. split; [intros (A & B & _); split; auto; lia|intros (A & B); split; auto; lia].
Qed.
Lemma ym_starts : starts (Vb (catS (runS 4 dec_digit) mdS)) (orP dec_digit dashP).
Proof. apply (outcat_starts2 _ hom_verbatim); [apply outrun_starts|apply md_starts]. Qed.
Lemma ym_starts' : starts (Vb (catS (runS 4 dec_digit) mdS)) dec_digit.
Proof.
  apply (outcat_starts _ hom_verbatim); [|apply outrun_starts]. intros w o [[_ H] _] ->. simpl in H. lia.
Qed.
Lemma dash_lang : lang (EZeroOrOnce [sq "-"]) (Vb (optS dashes)).
Proof. apply (out_optional _ hom_verbatim), langs_one, lit1. Qed.
Ltac disj ::= intros ?b; unfold orP, noP, plus_minus, du, dec_digit, dot, expo, dashP; simpl; lia.
Lemma dash_ext : ext (Vb (optS dashes)) (orP noP dashP).
Proof. apply (outopt_ext _ hom_verbatim); [apply code_ext, outone_code|apply outone_starts]. Qed.
Lemma date_langs : langs date_part (Vb dateS).
Proof.
  apply (out_seq _ hom_verbatim); [apply dash_lang|apply (out_seq _ hom_verbatim); [apply year_lang|apply md_langs|]|].
  - eapply ext_sharp; [apply outrun_ext|apply md_starts|disj].
  - eapply ext_sharp; [apply dash_ext|apply ym_starts'|disj].
Qed.
Lemma date_ext : ext (Vb dateS) (orP (orP noP dashP) (orP dec_digit noP)).
Proof.
  eapply (outcat_ext _ hom_verbatim); [apply dash_ext|eapply (outcat_ext _ hom_verbatim); [apply outrun_ext|apply code_ext, md_code|apply md_starts|disj]|apply ym_starts'|disj].
Qed.
Lemma date_word_eq w : dateS w <-> date_word w.
Proof.
  split.
  - intros (s & r & -> & Hs & (y & m & -> & [Fy Ly] & Hm)).
    destruct Hm as (a & b & -> & (x & -> & ->) & (a1 & b1 & -> & (m1 & -> & H1) & (a2 & b2 & -> & (m2 & -> & H2) & (a3 & b3 & -> & (x' & -> & ->) &
      (a4 & b4 & -> & (d1 & -> & H3) & (d2 & -> & H4)))))). exists s, y, m1, m2, d1, d2. split; [reflexivity|].
    split; [|auto 8]. destruct Hs as [(x & -> & ->)| ->]; auto.
  - intros (s & y & m1 & m2 & d1 & d2 & -> & Hs & Ly & Fy & H1 & H2 & H3 & H4). exists s, (y ++ [45; m1; m2; 45; d1; d2]). split; auto.
    split; [destruct Hs as [->| ->]; [right; auto|left; exists 45; split; [reflexivity|reflexivity]]|].
    exists y, [45; m1; m2; 45; d1; d2]. split; auto. split; [split; auto|].
    exists [45], [m1; m2; 45; d1; d2]. split; auto. split; [exists 45; split; reflexivity|].
    exists [m1], [m2; 45; d1; d2]. split; auto. split; [exists m1; auto|].
    exists [m2], [45; d1; d2]. split; auto. split; [exists m2; auto|].
    exists [45], [d1; d2]. split; auto. split; [exists 45; split; reflexivity|].
    exists [d1], [d2]. split; auto. split; [exists d1; auto|exists d2; auto].
Qed.
Lemma date_token : token DateStr ":extra:DateStr" (Vb date_word).
Proof. apply token_of; [|xgram]. eapply out_weaken; [apply date_word_eq|apply lang_flat, date_langs]. Qed.

Definition hmS : bytes -> Prop := catS (oneS (fun x => 48 <= x <= 50)) (catS (oneS (fun x => 48 <= x <= 57)) (catS (oneS (fun x => x = 58))
  (catS (oneS (fun x => 48 <= x <= 53)) (oneS (fun x => 48 <= x <= 57))))).
Lemma hm_code : prefix_code (Vb hmS).
Proof. unfold hmS. repeat (apply (outcat_code _ hom_verbatim); [apply outone_code|]). apply outone_code. Qed.
Lemma hm_word w : hmS w <-> clock w.
Proof.
  split.
  - intros (a1 & b1 & -> & (h1 & -> & H1) & (a2 & b2 & -> & (h2 & -> & H2) & (a3 & b3 & -> & (x' & -> & ->) &
      (a4 & b4 & -> & (m1 & -> & H3) & (m2 & -> & H4))))). exists h1, h2, m1, m2. auto 8.
  - intros (h1 & h2 & m1 & m2 & -> & H1 & H2 & H3 & H4).
    exists [h1], [h2; 58; m1; m2]. split; auto. split; [exists h1; auto|].
    exists [h2], [58; m1; m2]. split; auto. split; [exists h2; auto|].
    exists [58], [m1; m2]. split; auto. split; [exists 58; auto|].
    exists [m1], [m2]. split; auto. split; [exists m1; auto|exists m2; auto].
Qed.
(** Lists of parsers, one after the other. *)
Lemma pegs_app_ok w es1 es2 r : forall cur cur1 l1, pegs w es1 cur (RSucc cur1 l1) -> pegs w es2 cur1 r ->
  match r with RSucc cur2 l2 => pegs w (es1 ++ es2) cur (RSucc cur2 (l1 ++ l2)) | _ => pegs w (es1 ++ es2) cur r end.
Proof.
  induction es1 as [|e es1 IH]; intros cur cur1 l1 P Q; inversion P; subst; simpl.
  - destruct r; auto.
  - match goal with H : pegs w es1 _ (RSucc cur1 _) |- _ => specialize (IH _ _ _ H Q) end. destruct r.
    + rewrite <- app_assoc. eapply S_Peg.seq_ok; eauto.
    + eapply seq_fail_later; eauto.
    + eapply seq_err_later; eauto.
Qed.
Lemma pegs_app_fail w es1 es2 : forall cur, pegs w es1 cur RFail -> pegs w (es1 ++ es2) cur RFail.
Proof.
  induction es1 as [|e es1 IH]; intros cur P; inversion P; subst; simpl.
  - eapply seq_fail_later; eauto.
  - apply seq_fail. auto.
Qed.
Lemma langs_app es1 es2 R1 R2 : langs es1 R1 -> langs es2 R2 -> sharp R1 R2 -> langs (es1 ++ es2) (seqL R1 R2).
Proof.
  intros L1 L2 S. assert (L : langs (EFlatGroup es1 :: es2) (seqL R1 R2)) by (apply langs_cons; auto; apply lang_flat; auto).
  intros w cur G. destruct (L w cur G) as [(cur' & l & P & Y)|[P N]].
  - left. exists cur', l. split; auto. inversion P; subst.
    match goal with H : peg w (EFlatGroup es1) _ _, K : pegs w es2 _ (RSucc ?c ?y) |- _ =>
      inversion H; subst; match goal with H' : pegs w es1 _ _ |- _ => exact (pegs_app_ok _ _ _ (RSucc c y) _ _ _ H' K) end end.
  - right. split; auto. inversion P; subst.
    + match goal with H : peg w (EFlatGroup es1) _ _, K : pegs w es2 _ _ |- _ =>
        inversion H; subst; match goal with H' : pegs w es1 _ _ |- _ => exact (pegs_app_ok _ _ _ RFail _ _ _ H' K) end end.
    + match goal with H : peg w (EFlatGroup es1) _ _ |- _ => inversion H; subst end. apply pegs_app_fail. auto.
Qed.

Lemma hm_langs : langs hm_part (Vb hmS).
Proof.
  unfold hmS. repeat (apply (out_seq _ hom_verbatim); [first [apply lit1|apply rng; lia]| |apply code_sharp, outone_code]).
  apply langs_one, rng; lia.
Qed.
Lemma altins_ext R s P Q : ext R P -> starts R Q -> ext (altL R (insL s)) (orP P Q).
Proof.
  intros X S w o w' o' t t' [A|[-> _]] [B|[-> _]] E L; simpl in *; try lia.
  - destruct (X _ _ _ _ _ _ A B E L) as (b & r & -> & Hb). exists b, r. split; auto. left. auto.
  - destruct w' as [|b w']; simpl in *; [lia|]. subst t. exists b, (w' ++ t'). split; auto. right. eapply S; eauto.
Qed.
Lemma ins_prefer R s : prefer R (insL s).
Proof. intros w o w' o' t t' _ [-> _] _. simpl. lia. Qed.
Lemma map_ext f R P : ext R P -> ext (mapL f R) P.
Proof. intros X w o w' o' t t' (o1 & A & _) (o2 & B & _). eapply X; eauto. Qed.
Definition padded (s : bytes) : bytes := firstn 9 (s ++ zeros 9).
Definition fracW (w : bytes) : Prop := Forall dec_digit w /\ 1 <= Z.of_nat (length w) /\ (9 < 0 \/ Z.of_nat (length w) <= 9).
Definition pointL : tlang := seqL (Vb (oneS dot)) (mapL padded (Vb fracW)).
Definition fracL : tlang := altL pointL (insL (46 :: zeros 9)).
Definition ssL : tlang := seqL (Vb (oneS (fun x => x = 58))) (seqL (Vb (oneS (fun x => 48 <= x <= 54))) (seqL (Vb (oneS (fun x => 48 <= x <= 57))) fracL)).
Definition secL : tlang := altL ssL (insL ([58; 48; 48; 46] ++ zeros 9)).
Lemma frac_lang : lang (ETrans (ERepeat (mkTimes 1 9) [range 48 57]) [Concat; pad9]) (mapL padded (Vb fracW)).
Proof.
  apply lang_trans.
  - apply (out_rep _ hom_verbatim 1 9), langs_one, rng; lia.
  - intros c l ss F. exists [mkAst 0 "" TString (VStr (padded (concat ss))) sp0], [padded (concat ss)]. split.
    + eapply (pl_ok _ 0%nat); [apply concat_ok; exact F|]. eapply (pl_ok _ 0%nat); [reflexivity|constructor].
    + split; [repeat constructor|simpl; apply app_nil_r].
Qed.
Lemma point_lang : lang (EFlatGroup [sq "."; ETrans (ERepeat (mkTimes 1 9) [range 48 57]) [Concat; pad9]]) pointL.
Proof. apply lang_flat, langs_cons; [apply lit1|apply langs_one, frac_lang|apply code_sharp, outone_code]. Qed.
Lemma ss_lang : langs [sq ":"; range 48 54; range 48 57;
      EFirst [EFlatGroup [sq "."; ETrans (ERepeat (mkTimes 1 9) [range 48 57]) [Concat; pad9]]; EZero [strA ".000000000"]]] ssL.
Proof.
  unfold ssL. repeat (apply langs_cons; [first [apply lit1|apply rng; lia]| |apply code_sharp, outone_code]).
  apply langs_one, lang_first2; [apply point_lang|apply zero_lang; split; reflexivity|apply ins_prefer].
Qed.
Lemma sec_lang : lang seconds_part secL.
Proof. apply lang_first2; [apply lang_flat, ss_lang|apply zero_lang; split; reflexivity|apply ins_prefer]. Qed.
Lemma fracW_ext : ext (Vb fracW) dec_digit.
Proof.
  intros w o w' o' t t' [[A _] _] [[B _] _] E L. eapply (run_ext dec_digit (fun x => x)); [split; [exact A|reflexivity]|split; [exact B|reflexivity]|exact E|exact L].
Qed.
Lemma fracW_starts : starts (mapL padded (Vb fracW)) dec_digit.
Proof. apply starts_map. intros b t o [[H _] _]. inversion H; auto. Qed.
Lemma one_seq_ext P R Q : ext R Q -> ext (seqL (Vb (oneS P)) R) (orP noP Q).
Proof. intros X. apply (seq_ext _ _ noP Q (fun _ => True)); [apply code_ext, outone_code|exact X|intros ? ? ? ?; exact I|intros b []]. Qed.
Lemma sec_ext : ext secL (orP (orP noP (orP noP (orP noP (orP (orP noP dec_digit) dot)))) (fun x => x = 58)).
Proof.
  apply altins_ext.
  - repeat apply one_seq_ext. apply altins_ext; [|apply starts_seq; [apply outone_nonempty|apply outone_starts]].
    apply one_seq_ext, map_ext, fracW_ext.
  - apply starts_seq; [apply outone_nonempty|apply outone_starts].
Qed.
Definition zone1 : tlang := seqL (mapL (fun _ => []) (litL [90])) (insL [43; 48; 48; 58; 48; 48]).
Definition zone2 : bytes -> Prop := catS (oneS plus_minus) (catS (fun w => Forall (fun x => 48 <= x <= 57) w /\ 2 <= Z.of_nat (length w) /\ (2 < 0 \/ Z.of_nat (length w) <= 2))
  (catS (oneS (fun x => x = 58)) (catS (oneS (fun x => 48 <= x <= 53)) (oneS (fun x => 48 <= x <= 57))))).
Lemma zone1_lang : lang (EFlatGroup [erase (sq "Z"); EZero [strA "+00:00"]]) zone1.
Proof.
  apply lang_flat, langs_cons; [apply lang_erase, seq_lang|apply langs_one, zero_lang; split; reflexivity|].
  intros w1 o1 w2 o2 w1' o1' t t' _ [-> _] N. congruence.
Qed.
Lemma two_code (P : Z -> Prop) : prefix_code (Vb (fun w => Forall P w /\ 2 <= Z.of_nat (length w) /\ (2 < 0 \/ Z.of_nat (length w) <= 2))).
Proof. intros w o w' o' t t' [[_ A] _] [[_ B] _] _. lia. Qed.
Lemma zone2_lang : lang (EFlatGroup [cc2 "+" "-"; ERepeat (mkTimes 2 2) [range 48 57]; sq ":"; range 48 53; range 48 57]) (Vb zone2).
Proof.
  apply lang_flat. apply (out_seq _ hom_verbatim).
  - apply out_one; [|auto]. eapply lang_ext; [|apply (class_lang [bs "+"; bs "-"] [43; 45]); reflexivity].
    intros w o. unfold oneL, plus_minus. split; intros (b & -> & -> & H); exists b; repeat split; simpl in *; intuition.
  - apply (out_seq _ hom_verbatim); [apply (out_rep _ hom_verbatim 2 2), langs_one, rng; lia| |apply code_sharp, two_code].
    repeat (apply (out_seq _ hom_verbatim); [first [apply lit1|apply rng; lia]| |apply code_sharp, outone_code]).
    apply langs_one, rng; lia.
  - apply code_sharp, outone_code.
Qed.
Lemma zone_lang : lang zone_part (altL zone1 (Vb zone2)).
Proof.
  apply lang_first2; [apply zone1_lang|apply zone2_lang|]. apply apart_prefer.
  intros w o w' o' t t' (w1 & o1 & w2 & o2 & -> & -> & (o3 & [-> _] & _) & _) [(a & b & -> & (x & -> & Hx) & _) _] E.
  inversion E. subst. destruct Hx; discriminate.
Qed.
Lemma zone_starts : starts (altL zone1 (Vb zone2)) (fun b => b = 90 \/ b = 43 \/ b = 45).
Proof.
  intros b t o [(w1 & o1 & w2 & o2 & E & _ & (o3 & [-> _] & _) & _)|[(a & r & E & (x & -> & Hx) & _) _]]; inversion E; subst; auto.
Qed.
Lemma time_langs : langs (hm_part ++ [seconds_part]) (seqL (Vb hmS) secL).
Proof. apply langs_app; [apply hm_langs|apply langs_one, sec_lang|apply code_sharp, hm_code]. Qed.
Definition timeR : tlang := seqL (Vb hmS) secL.
Lemma time_eq w o : timeR w o <-> timeL w o.
Proof.
  split.
  - intros (h & oh & s & os & -> & -> & [Hh ->] & Hs). unfold verbatim. exists h. split; [apply hm_word; auto|].
    destruct Hs as [(w1 & o1 & w2 & o2 & -> & -> & [(x & -> & ->) ->] & (w3 & o3 & w4 & o4 & -> & -> & [(s1 & -> & H1) ->] &
      (w5 & o5 & w6 & o6 & -> & -> & [(s2 & -> & H2) ->] & [Hf|[-> ->]])))|[-> ->]].
    + right. exists s1, s2. split; auto. split; auto. right.
      destruct Hf as (w7 & o7 & w8 & o8 & -> & -> & [(p & -> & ->) ->] & (f & [(F & L1 & L2) ->] & ->)). unfold verbatim. exists w8.
      split; [lia|]. split; auto. split; [reflexivity|]. unfold padded.
      assert (E : firstn 9 (w8 ++ zeros 9) = w8 ++ zeros (9 - length w8)).
      { rewrite firstn_app, firstn_all2 by lia. f_equal. clear - L2. unfold zeros.
        assert (K : (length w8 <= 9)%nat) by lia. revert K. generalize (length w8). intros n K.
        do 10 (destruct n as [|n]; [reflexivity|]). lia. }
      rewrite E. reflexivity.
    + right. exists s1, s2. split; auto.
    + left. rewrite app_nil_r. auto.
  - intros (h & Hh & H). apply hm_word in Hh.
    assert (B : forall r q, secL r q -> timeR (h ++ r) (h ++ q)) by (intros r q K; exists h, h, r, q; repeat split; auto).
    destruct H as [[-> ->]|(s1 & s2 & H1 & H2 & [[-> ->]|(f & L & F & -> & ->)])].
    + rewrite <- (app_nil_r h) at 1. apply B. right. split; auto.
    + apply B. left. exists [58], [58], [s1; s2], (s1 :: s2 :: 46 :: zeros 9). split; auto. split; auto. split; [split; auto; exists 58; auto|].
      exists [s1], [s1], [s2], (s2 :: 46 :: zeros 9). split; auto. split; auto. split; [split; auto; exists s1; auto|].
      exists [s2], [s2], [], (46 :: zeros 9). split; auto. split; auto. split; [split; auto; exists s2; auto|]. right. split; auto.
    + apply B. left. exists [58], [58], ([s1; s2; 46] ++ f), (s1 :: s2 :: 46 :: f ++ zeros (9 - length f)). split; auto. split; auto. split; [split; auto; exists 58; auto|].
      exists [s1], [s1], ([s2; 46] ++ f), (s2 :: 46 :: f ++ zeros (9 - length f)). split; auto. split; auto. split; [split; auto; exists s1; auto|].
      exists [s2], [s2], (46 :: f), (46 :: f ++ zeros (9 - length f)). split; auto. split; auto. split; [split; auto; exists s2; auto|]. left.
      exists [46], [46], f, (f ++ zeros (9 - length f)). split; auto. split; auto. split; [split; auto; exists 46; split; auto; reflexivity|].
      exists f. split; [split; [split; [auto|lia]|reflexivity]|]. unfold padded.
      rewrite firstn_app, firstn_all2 by lia. f_equal. unfold zeros. clear - L. revert L. generalize (length f). intros n K.
      do 10 (destruct n as [|n]; [reflexivity|]). lia.
Qed.
Lemma time_token : token TimeStr ":extra:TimeStr" timeL.
Proof. apply token_of; [|xgram]. eapply lang_ext; [apply time_eq|apply lang_flat, time_langs]. Qed.
Lemma zone_eq w o : altL zone1 (Vb zone2) w o <-> zoneL w o.
Proof.
  split.
  - intros [(w1 & o1 & w2 & o2 & -> & -> & (o3 & [-> ->] & ->) & [-> ->])|[H ->]]; [left; auto|]. right.
    destruct H as (a1 & b1 & -> & (s & -> & Hs) & (a2 & b2 & -> & (F & L1 & L2) & (a3 & b3 & -> & (x & -> & ->) & (a4 & b4 & -> & (m1 & -> & H1) & (m2 & -> & H2))))).
    destruct a2 as [|h1 [|h2 [|? ?]]]; simpl in L1, L2; try lia. inversion F as [|? ? X1 F']; subst. inversion F' as [|? ? X2 _]; subst.
    exists s, h1, h2, m1, m2. auto 10.
  - intros [[-> ->]|(s & h1 & h2 & m1 & m2 & Hs & H1 & H2 & H3 & H4 & -> & ->)].
    + left. exists [90], [], [], [43; 48; 48; 58; 48; 48]. repeat split; auto. exists [90]. repeat split.
    + right. split; auto. exists [s], [h1; h2; 58; m1; m2]. split; auto. split; [exists s; auto|].
      exists [h1; h2], [58; m1; m2]. split; auto. split; [split; [constructor; [exact H1|constructor; [exact H2|constructor]]|simpl; lia]|].
      exists [58], [m1; m2]. split; auto. split; [exists 58; auto|].
      exists [m1], [m2]. split; auto. split; [exists m1; auto|exists m2; auto].
Qed.
Ltac disj ::= intros ?b; unfold orP, noP, plus_minus, du, dec_digit, dot, expo, dashP; simpl; lia.
Lemma dt_langs : langs (date_part ++ [sq "T"] ++ hm_part ++ [seconds_part; zone_part])
  (seqL (Vb dateS) (seqL (Vb (oneS (fun x => x = 84))) (seqL (Vb hmS) (seqL secL (altL zone1 (Vb zone2)))))).
Proof.
  apply langs_app; [apply date_langs|apply langs_app; [apply langs_one, lit1|apply langs_app; [apply hm_langs|apply langs_cons; [apply sec_lang|apply langs_one, zone_lang|]|]|]|].
  - eapply ext_sharp; [apply sec_ext|apply zone_starts|disj].
  - apply code_sharp, hm_code.
  - apply code_sharp, outone_code.
  - eapply ext_sharp; [apply date_ext|apply starts_seq; [apply outone_nonempty|apply outone_starts]|disj].
Qed.
Lemma date_time_token : token DateTimeStr ":extra:DateTimeStr" date_timeL.
Proof.
  apply token_of; [|xgram]. eapply lang_ext; [|apply lang_flat, dt_langs]. intros w o. split.
  - intros (d & od & w1 & o1 & -> & -> & [Hd ->] & (x & ox & w2 & o2 & -> & -> & [(y & -> & ->) ->] & (h & oh & w3 & o3 & -> & -> & Hh & (s & os & z & oz & -> & -> & Hs & Hz)))).
    exists d, (h ++ s), (oh ++ os), z, oz. split; [apply date_word_eq; auto|]. split; [apply time_eq; exists h, oh, s, os; auto|].
    split; [apply zone_eq; auto|]. unfold verbatim. rewrite <- !app_assoc. auto.
  - intros (d & t & t' & z & z' & Hd & Ht & Hz & -> & ->). apply date_word_eq in Hd. apply time_eq in Ht. apply zone_eq in Hz.
    destruct Ht as (h & oh & s & os & -> & -> & Hh & Hs). exists d, d. do 2 eexists. split; [reflexivity|]. split; [reflexivity|]. split; [split; auto|].
    exists [84], [84]. do 2 eexists. split; [reflexivity|]. split; [reflexivity|]. split; [split; auto; exists 84; auto|].
    exists h, oh, (s ++ z), (os ++ z'). rewrite <- !app_assoc. split; auto. split; auto. split; auto. exists s, os, z, z'. auto.
Qed.
Lemma zeros_digits n : Forall dec_digit (zeros n).
Proof. unfold zeros. induction n; simpl; constructor; auto. unfold dec_digit. lia. Qed.
Lemma time_fixed w o : timeL w o -> fixed_time o.
Proof.
  intros (h & Hh & [[-> ->]|(s1 & s2 & H1 & H2 & [[-> ->]|(f & L & F & -> & ->)])]).
  - exists h, 48, 48, (zeros 9). unfold dec_digit. repeat split; auto; try lia. apply (zeros_digits 9).
  - exists h, s1, s2, (zeros 9). unfold dec_digit in *. repeat split; auto; try lia. apply (zeros_digits 9).
  - exists h, s1, s2, (f ++ zeros (9 - length f)). unfold dec_digit in H2 |- *. split; auto. split; auto. split; [lia|]. split; [lia|].
    split; [rewrite app_length; unfold zeros; rewrite repeat_length; lia|]. apply Forall_app. split; auto. apply zeros_digits.
Qed.
