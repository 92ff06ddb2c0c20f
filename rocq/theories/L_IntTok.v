(** Lemmas for C58 and C59. *)
From Verif Require Import L_Extra L_Trans.
From Verif Require Export S_IntTok.

(** ** Tokens *)
Definition keeps_going (t : trans) : Prop := mono_trans t /\ trans_ok t.
Lemma value_token e cls R t ty mk (value_of : bytes -> Z -> Prop) fits : token e cls R -> peg_gram e -> keeps_going t ->
  (forall n c a s w, string_ast a s -> R w s ->
     (exists z, value_of s z /\ fits z /\ t n c [a] = Ok (inr [mkAst 0 (a_cls a) ty (mk z) (a_sp a)])) \/
     ((forall z, value_of s z -> ~ fits z) /\ exists x, t n c [a] = Ok (inl x))) ->
  integer_value_token (ETrans e [t]) cls R ty mk value_of fits.
Proof.
  intros T G Gt0 HT env c He Hb Hp Hs. destruct (T env c He Hb Hp Hs) as (n & o & E & H).
  set (w := mkW (c_str c) (c_slice c) (c_tag c) env).
  assert (Hw : in_world w c) by (repeat split).
  assert (Gt : peg_gram (ETrans e [t])). { split; [exact G|]. split; [exact Gt0|exact I]. }
  destruct H as [(x & s & a & Lo & S1 & P1 & K1 & C1 & T1 & V1)|[N S1]].
  - assert (P : peg w e (c_sp c) (RSucc (c_sp o) [a])).
    { apply (peg_adequate w _ c He G Hw Hs). exists n, o, None. split; [exact E|]. repeat split; auto. }
    destruct (HT 0%nat (fresh w (c_sp c)) a s x) as [(y & Hy & Fy & Et)|[Ny [er Et]]]; [split; auto|apply Lo| |].
    + assert (P2 : peg w (ETrans e [t]) (c_sp c) (RSucc (c_sp o) [mkAst 0 (a_cls a) ty (mk y) (a_sp a)])).
      { eapply peg_trans_ok; [exact P|]. eapply (pl_ok _ 0%nat); [exact Et|constructor]. }
      destruct (proj1 (peg_adequate w _ c He Gt Hw Hs _) P2) as (n2 & o2 & err & E2 & Rr). simpl in Rr. destruct Rr as (-> & A1 & A2 & A3).
      exists n2, o2, None. split; auto. left. exists x, s, y. eexists. split; [exact Lo|]. split; [exact Hy|]. split; [exact Fy|]. split; [auto|]. split; [auto|].
      split; [unfold c_pos in *; rewrite A2; auto|]. split; [exact A3|]. auto.
    + assert (P2 : peg w (ETrans e [t]) (c_sp c) (RErr (c_sp o) er)).
      { eapply peg_trans_bad; [exact P|]. eapply (pl_err _ 0%nat); exact Et. }
      destruct (proj1 (peg_adequate w _ c He Gt Hw Hs _) P2) as (n2 & o2 & err & E2 & Rr). simpl in Rr. destruct Rr as (-> & A1 & A2).
      exists n2, o2. eexists. split; [exact E2|]. right. left. exists x, s. split; [exact Lo|]. split; [exact Ny|]. split; [discriminate|exact A1].
  - assert (P : peg w e (c_sp c) RFail).
    { apply (peg_adequate w _ c He G Hw Hs). exists n, o, None. split; [exact E|]. repeat split; auto. }
    assert (P2 : peg w (ETrans e [t]) (c_sp c) RFail) by (apply peg_trans_fail; auto).
    destruct (proj1 (peg_adequate w _ c He Gt Hw Hs _) P2) as (n2 & o2 & err & E2 & Rr). simpl in Rr. destruct Rr as (-> & A1).
    exists n2, o2, None. split; auto.
Qed.
Lemma parse_int_going base : keeps_going (ParseIntRadix base).
Proof. split; [intros n m c l _; unfold ParseIntRadix; intros; auto|intros n c c' l _ _ _ _; reflexivity]. Qed.
Lemma parse_uint_going base : keeps_going (ParseUintRadix base).
Proof. split; [intros n m c l _; unfold ParseUintRadix; intros; auto|intros n c c' l _ _ _ _; reflexivity]. Qed.

Lemma int_value_token e cls R base : 2 <= base <= 36 -> token e cls R -> peg_gram e ->
  integer_value_token (ETrans e [ParseIntRadix base]) cls R TInt VInt (int_numeral base) int64.
Proof.
  intros Hb T G. apply value_token; auto using parse_int_going. intros n c a s w Sa _.
  destruct (ParseInt_ok n c base [a] [s] Hb (Forall2_cons _ _ Sa (Forall2_nil _))) as [(z & A & B & E)|(A & E)]; cbn [concat] in *; rewrite app_nil_r in *; eauto.
Qed.
Lemma uint_value_token e cls R base : 2 <= base <= 36 -> token e cls R -> peg_gram e -> (forall w s, R w s -> s <> []) ->
  integer_value_token (ETrans e [ParseUintRadix base]) cls R TUint VUint (uint_numeral base) uint64.
Proof.
  intros Hb T G Hn. apply value_token; auto using parse_uint_going. intros n c a s w Sa Rw.
  destruct (ParseUint_ok n c base [a] [s] Hb (Forall2_cons _ _ Sa (Forall2_nil _))) as [(z & A & B & E)|(A & E)]; cbn [concat] in *; rewrite app_nil_r in *; eauto.
Qed.

(** ** Literals *)
Lemma literal_loop base s : forall n u, parse_literal_loop base s n u =
  match parse_uint_loop base (strip s) n with inl e => inl e | inr z => inr (z, u || existsb (Z.eqb 95) s) end.
Proof.
  induction s as [|c s IH]; intros n u; [cbn; rewrite orb_false_r; reflexivity|].
  cbn [parse_literal_loop existsb]. unfold strip. cbn [filter]. rewrite (Z.eqb_sym 95 c). destruct (Z.eqb_spec c 95) as [->|N]; cbn [negb].
  - rewrite IH. fold (strip s). destruct (parse_uint_loop base (strip s) n); [reflexivity|]. rewrite orb_true_r. reflexivity.
  - cbn [parse_uint_loop]. destruct (digit_val c); [|reflexivity]. destruct (base <=? z); [reflexivity|]. destruct (maxUint64 / base + 1 <=? n); [reflexivity|].
    cbv zeta. destruct (_ || _); [reflexivity|]. rewrite IH. fold (strip s). reflexivity.
Qed.
Lemma digit_byte base b d : digit base b d -> b <> 95 /\ b <> 43 /\ b <> 45.
Proof. destruct 1; lia. Qed.

Section Scan.
Variables (base : Z) (hex : bool).
Hypothesis Hb : (base <= 10 /\ hex = false) \/ (base <= 16 /\ hex = true).
Lemma digit_scan b d : digit base b d -> in_rng 48 57 b || (hex && in_rng 97 102 (lower b)) = true.
Proof. unfold lower, in_rng. destruct Hb as [[B ->]|[B ->]]; destruct 1; cbn [andb]; repeat match goal with |- context [if ?x then _ else _] => destruct x eqn:? end; lia. Qed.
Lemma strip_digit c r ds : Forall2 (digit base) (strip (c :: r)) ds -> c <> 95 -> exists d ds', ds = d :: ds' /\ digit base c d /\ Forall2 (digit base) (strip r) ds'.
Proof.
  unfold strip. cbn [filter]. intros H N. destruct (Z.eqb_spec c 95); [contradiction|]. cbn [negb] in H. inversion H; subst. eauto.
Qed.
Lemma scan_ok t : forall ds, Forall2 (digit base) (strip t) ds ->
  (underscore_scan hex t 95 = true <-> separated base t ds) /\
  (underscore_scan hex t 48 = true <-> (t = [] /\ ds = []) \/ exists u t', one_underscore u /\ t = u ++ t' /\ separated base t' ds).
Proof.
  induction t as [|c r IH]; intros ds F.
  - cbn. inversion F; subst. split; split; try discriminate; auto. intros H. inversion H.
  - destruct (Z.eq_dec c 95) as [->|N].
    + cbn [underscore_scan]. replace (in_rng 48 57 95 || (hex && in_rng 97 102 (lower 95))) with false by (destruct hex; reflexivity). cbn [Z.eqb].
      change (95 =? 95) with true. change (95 =? 48) with false. change (48 =? 48) with true. cbv iota.
      assert (X : forall t ds, ~ separated base (95 :: t) ds). { intros t ds0 S. inversion S; subst; match goal with H : digit base 95 _ |- _ => destruct (digit_byte _ _ _ H) end; lia. }
      split.
      * split; [discriminate|]. intros S. elim (X _ _ S).
      * destruct (IH ds F) as [A _]. rewrite A. split.
        -- intros S. right. exists [95], r. split; [right; reflexivity|]. auto.
        -- intros [[? _]|(u & t' & [->| ->] & E & S)]; [discriminate|cbn in E; subst t'; elim (X _ _ S)|]. injection E as ->. exact S.
    + destruct (strip_digit c r ds F N) as (d & ds' & -> & Hd & F'). destruct (IH ds' F') as [_ B].
      assert (Sc : forall saw, underscore_scan hex (c :: r) saw = underscore_scan hex r 48) by (intros saw; cbn [underscore_scan]; rewrite (digit_scan _ _ Hd); reflexivity).
      assert (Y : underscore_scan hex r 48 = true <-> separated base (c :: r) (d :: ds')).
      { rewrite B. split.
        - intros [[-> ->]|(u & t' & [->| ->] & -> & S)]; [apply sp_last|apply sp_next|apply sp_under]; auto.
        - intros S. inversion S; subst; [left; auto|right; exists [], r; split; [left|]; auto|right; exists [95], t; split; [right|]; auto]. }
      rewrite !Sc. split; [exact Y|]. rewrite Y. split.
      * intros S. right. exists [], (c :: r). split; [left|]; auto.
      * intros [[? _]|(u & t' & [->| ->] & E & S)]; [discriminate|cbn in E; subst t'; exact S|]. injection E as ->. congruence.
Qed.
Lemma scan_start t ds : Forall2 (digit base) (strip t) ds -> t <> [] -> (underscore_scan hex t 94 = true <-> separated base t ds).
Proof.
  intros F N. rewrite <- (proj1 (scan_ok t ds F)). destruct t as [|c r]; [congruence|]. cbn [underscore_scan].
  destruct (in_rng 48 57 c || (hex && in_rng 97 102 (lower c))) eqn:E; [tauto|]. change (94 =? 48) with false. change (95 =? 48) with false. change (94 =? 95) with false. change (95 =? 95) with true.
  destruct (Z.eqb_spec c 95); [tauto|]. destruct (strip_digit c r ds F n) as (d & ds' & _ & Hd & _). apply digit_scan in Hd. congruence.
Qed.
Lemma scan_plain t ds saw : Forall2 (digit base) (strip t) ds -> existsb (Z.eqb 95) t = false -> saw <> 95 -> underscore_scan hex t saw = true.
Proof.
  revert ds saw. induction t as [|c r IH]; intros ds saw F E N.
  - cbn. destruct (Z.eqb_spec saw 95); [congruence|reflexivity].
  - cbn [existsb] in E. apply orb_false_iff in E. destruct E as [E1 E2]. apply Z.eqb_neq in E1.
    destruct (strip_digit c r ds F ltac:(congruence)) as (d & ds' & _ & Hd & F'). cbn [underscore_scan]. rewrite (digit_scan _ _ Hd). eapply IH; eauto. lia.
Qed.
End Scan.
Lemma separated_strip base t ds : separated base t ds -> Forall2 (digit base) (strip t) ds.
Proof.
  assert (X : forall b d t, digit base b d -> strip (b :: t) = b :: strip t).
  { intros b d t0 H. unfold strip. cbn [filter]. destruct (Z.eqb_spec b 95); [destruct (digit_byte _ _ _ H); contradiction|reflexivity]. }
  induction 1; rewrite (X _ d) by auto; (constructor; [auto|]); [constructor|exact IHseparated|exact IHseparated].
Qed.
Lemma under_strip u t : one_underscore u -> strip (u ++ t) = strip t.
Proof. intros [->| ->]; reflexivity. Qed.

Lemma loop0 base t z : 2 <= base <= 36 ->
  (parse_uint_loop base (strip t) 0 = inr z <-> exists ds, Forall2 (digit base) (strip t) ds /\ z = positional base ds /\ uint64 z).
Proof.
  intros Hb. rewrite loop_ok by (auto; unfold maxUint64; lia). unfold uint64. split; intros (ds & F & E & L); exists ds; (split; [exact F|]).
  - assert (Ez : z = positional base ds) by lia. split; [exact Ez|]. pose proof (positional_nonneg base ds ltac:(lia) (digits_range _ _ _ F)). unfold maxUint64 in L. lia.
  - unfold maxUint64. lia.
Qed.
(** The shape of all cases: [ok] is the test of the underscores of the text. *)
Lemma literal_case base t ok z (P : list Z -> Prop) : 2 <= base <= 36 ->
  (forall ds, Forall2 (digit base) (strip t) ds -> existsb (Z.eqb 95) t = false -> ok = true) ->
  (forall ds, Forall2 (digit base) (strip t) ds -> (ok = true <-> P ds)) ->
  (forall ds, P ds -> Forall2 (digit base) (strip t) ds) ->
  (match parse_literal_loop base t 0 false with
   | inl e => inl e
   | inr (n, us) => if us && negb ok then inl ErrSyntax else inr n
   end = inr z <-> exists ds, P ds /\ z = positional base ds /\ uint64 z).
Proof.
  intros Hb Hp Ho Hf. rewrite literal_loop. cbn [orb]. destruct (parse_uint_loop base (strip t) 0) as [e|n] eqn:L.
  - split; [discriminate|]. intros (ds & H & E & U). assert (X : parse_uint_loop base (strip t) 0 = inr z) by (apply loop0; eauto). congruence.
  - apply loop0 in L; auto. destruct L as (ds & F & E & U).
    assert (K : existsb (Z.eqb 95) t && negb ok = false <-> ok = true).
    { specialize (Hp ds F). destruct (existsb (Z.eqb 95) t), ok; cbn; intuition congruence. }
    split.
    + destruct (existsb (Z.eqb 95) t && negb ok); [discriminate|]. intros X. injection X as <-. exists ds. split; [apply Ho; [exact F|apply K; reflexivity]|auto].
    + intros (ds' & H & -> & U'). assert (X : ok = true) by (apply (Ho ds'); auto). apply K in X. rewrite X. f_equal. rewrite E.
      pose proof (Hf _ H) as F'. assert (ds' = ds); [|congruence].
      { clear -F F' Hb. revert ds F. induction F' as [|b d s l Hd _ IH]; intros ds F; inversion F; subst; [reflexivity|]. f_equal; auto.
        apply digit_val_spec in Hd; auto. apply digit_val_spec in H1; auto. destruct Hd, H1. congruence. }
Qed.
Lemma lower_is x l : 97 <= l <= 122 -> (lower x = l <-> x = l \/ x = l - 32).
Proof. unfold lower, in_rng. intros H. destruct ((65 <=? x) && (x <=? 90)) eqn:E; lia. Qed.

Lemma not_digit8 b d : digit 8 b d -> ~ (lower b = 98 \/ lower b = 111 \/ lower b = 120).
Proof. intros H. rewrite !lower_is by lia. destruct H; lia. Qed.
Lemma separated_nonempty base ds : ~ separated base [] ds.
Proof. intros H. inversion H. Qed.
Lemma separated_first base c t ds : separated base (c :: t) ds -> exists d, digit base c d.
Proof. intros H. inversion H; subst; eauto. Qed.

(** Behind a prefix. *)
Lemma prefix_case base hex t ok z : 2 <= base <= 36 -> ((base <= 10 /\ hex = false) \/ (base <= 16 /\ hex = true)) ->
  t <> [] -> ok = underscore_scan hex t 48 ->
  (match parse_literal_loop base t 0 false with
   | inl e => inl e
   | inr (n, us) => if us && negb ok then inl ErrSyntax else inr n
   end = inr z <-> exists u t' ds, one_underscore u /\ t = u ++ t' /\ separated base t' ds /\ z = positional base ds /\ uint64 z).
Proof.
  intros Hb Hh Nt ->. rewrite (literal_case base t _ z (fun ds => exists u t', one_underscore u /\ t = u ++ t' /\ separated base t' ds)); auto.
  - split; [intros (ds & (u & t' & A & B & C) & D)|intros (u & t' & ds & A & B & C & D)]; eauto 10.
  - intros ds F E. eapply scan_plain; eauto. lia.
  - intros ds F. rewrite (proj2 (scan_ok base hex Hh t ds F)). split; [intros [[? _]|H]; [congruence|exact H]|auto].
  - intros ds (u & t' & A & -> & S). rewrite under_strip by auto. apply separated_strip, S.
Qed.
Lemma parse_literal_ok s z : s <> [] -> (parse_literal s = inr z <-> go_literal s z /\ uint64 z).
Proof.
  destruct s as [|c r]; [congruence|]. intros _. unfold parse_literal, literal_prefix. destruct (Z.eqb_spec c 48) as [->|N].
  2:{ rewrite (literal_case 10 (c :: r) _ z (separated 10 (c :: r))); [|lia| | |].
      - split.
        + intros (ds & S & -> & U). split; [apply gl_decimal; auto|exact U].
        + intros [G U]. inversion G; subst; try congruence. eauto.
      - intros ds F E. assert (Nc : c <> 95) by (intros ->; discriminate). destruct (strip_digit 10 c r ds F Nc) as (d & _ & _ & Hd & _).
        destruct (digit_byte _ _ _ Hd) as (_ & D1 & D2). unfold underscore_ok. replace ((c =? 45) || (c =? 43)) with false by lia.
        replace (c =? 48) with false by lia. destruct r; eapply (scan_plain 10 false); eauto; lia.
      - intros ds F. rewrite <- (scan_start 10 false ltac:(lia) (c :: r) ds F) by discriminate.
        unfold underscore_ok. destruct ((c =? 45) || (c =? 43)) eqn:Sg.
        + exfalso. destruct (strip_digit 10 c r ds F ltac:(lia)) as (d & _ & _ & Hd & _). destruct (digit_byte _ _ _ Hd). lia.
        + replace (c =? 48) with false by lia. destruct r; reflexivity.
      - apply separated_strip. }
  destruct r as [|x r].
  { cbn. split.
    - intros E. injection E as <-. split; [constructor|unfold uint64; lia].
    - intros [G _]. inversion G; subst; try congruence.
      match goal with H : one_underscore ?u, E : ?u ++ ?t = [], S : separated _ ?t _ |- _ => apply app_eq_nil in E; destruct E as [-> ->]; elim (separated_nonempty _ _ S) end. }
  assert (Oct : ~ (lower x = 98 \/ lower x = 111 \/ lower x = 120) -> forall z, go_literal (48 :: x :: r) z <-> exists u t ds, one_underscore u /\ x :: r = u ++ t /\ separated 8 t ds /\ z = positional 8 ds).
  { intros Nx y. rewrite !lower_is in Nx by lia. split.
    - intros G. inversion G; subst; try congruence; try lia. eauto 10.
    - intros (u & t & ds & A & B & C & ->). rewrite B. apply gl_old_octal; auto. }
  assert (OctCase : ~ (lower x = 98 \/ lower x = 111 \/ lower x = 120) ->
    (match parse_literal_loop 8 (x :: r) 0 false with
     | inl e => inl e
     | inr (n, us) => if us && negb (underscore_ok (48 :: x :: r)) then inl ErrSyntax else inr n
     end = inr z <-> go_literal (48 :: x :: r) z /\ uint64 z)).
  { intros Nx. rewrite (prefix_case 8 false (x :: r)); [|lia|lia|discriminate|].
    - rewrite (Oct Nx). split; [intros (u & t & ds & A & B & C & -> & U)|intros ((u & t & ds & A & B & C & ->) & U)]; eauto 10.
    - unfold underscore_ok. change ((48 =? 45) || (48 =? 43)) with false. cbv iota. change (48 =? 48) with true.
      replace ((lower x =? 98) || (lower x =? 111) || (lower x =? 120)) with false by lia. reflexivity. }
  assert (Old : (lower x = 98 \/ lower x = 111 \/ lower x = 120) -> forall u t ds, one_underscore u -> x :: r = u ++ t -> separated 8 t ds -> False).
  { intros Lx u t ds [->| ->] E S.
    - cbn in E. subst t. destruct (separated_first _ _ _ _ S) as (d & Hd). exact (not_digit8 _ _ Hd Lx).
    - injection E as -> _. cbn in Lx. lia. }
  destruct r as [|y t].
  { destruct (Z.eq_dec (lower x) 98) as [E1|N1]; [|destruct (Z.eq_dec (lower x) 111) as [E2|N2]; [|destruct (Z.eq_dec (lower x) 120) as [E3|N3]; [|apply OctCase; tauto]]].
    all: assert (Lx : lower x = 98 \/ lower x = 111 \/ lower x = 120) by tauto.
    all: split; [|intros [G _]; exfalso; inversion G; subst; try congruence; [..|eapply Old; eauto|];
           match goal with H : one_underscore ?u, E : ?u ++ ?t = [] |- _ => apply app_eq_nil in E; destruct E as [-> ->] end; eapply separated_nonempty; eauto].
    all: rewrite literal_loop; destruct (parse_uint_loop 8 (strip [x]) 0) eqn:L; [discriminate|]; exfalso;
         apply loop0 in L; [|lia]; destruct L as (ds & F & _);
         assert (Nx : x <> 95) by (intros ->; cbn in Lx; lia); destruct (strip_digit 8 x [] ds F Nx) as (d & _ & _ & Hd & _); exact (not_digit8 _ _ Hd Lx). }
  assert (Ok : forall l, lower x = l -> l = 98 \/ l = 111 \/ l = 120 -> underscore_ok (48 :: x :: y :: t) = underscore_scan (l =? 120) (y :: t) 48).
  { intros l El Hl. unfold underscore_ok. change ((48 =? 45) || (48 =? 43)) with false. cbv iota. change (48 =? 48) with true.
    rewrite El. replace ((l =? 98) || (l =? 111) || (l =? 120)) with true by lia. reflexivity. }
  destruct (Z.eqb_spec (lower x) 98) as [E1|N1]; [|destruct (Z.eqb_spec (lower x) 111) as [E2|N2]; [|destruct (Z.eqb_spec (lower x) 120) as [E3|N3]; [|apply OctCase; tauto]]].
  - rewrite (prefix_case 2 false (y :: t)); [|lia|lia|discriminate|exact (Ok _ E1 ltac:(tauto))]. pose proof (proj1 (lower_is x 98 ltac:(lia)) E1) as Hx. split.
    + intros (u & t' & ds & A & B & C & -> & U). rewrite B. split; [apply gl_binary; auto|exact U].
    + intros [G U]. inversion G; subst; try congruence; try lia; [eauto 10|exfalso; eapply Old; eauto].
  - rewrite (prefix_case 8 false (y :: t)); [|lia|lia|discriminate|exact (Ok _ E2 ltac:(tauto))]. pose proof (proj1 (lower_is x 111 ltac:(lia)) E2) as Hx. split.
    + intros (u & t' & ds & A & B & C & -> & U). rewrite B. split; [apply gl_octal; auto|exact U].
    + intros [G U]. inversion G; subst; try congruence; try lia; [eauto 10|exfalso; eapply Old; eauto].
  - rewrite (prefix_case 16 true (y :: t)); [|lia|lia|discriminate|exact (Ok _ E3 ltac:(tauto))]. pose proof (proj1 (lower_is x 120 ltac:(lia)) E3) as Hx. split.
    + intros (u & t' & ds & A & B & C & -> & U). rewrite B. split; [apply gl_hex; auto|exact U].
    + intros [G U]. inversion G; subst; try congruence; try lia; [exfalso; eapply Old; eauto|eauto 10].
Qed.
Lemma literal_nonempty s z : go_literal s z -> s <> [].
Proof. destruct 1; discriminate. Qed.
Lemma parse_uint_literal s z : parse_uint s 0 = inr z <-> go_literal s z /\ uint64 z.
Proof.
  destruct s as [|c r]; [cbn; split; [discriminate|intros [G _]; elim (literal_nonempty _ _ G); reflexivity]|].
  change (parse_uint (c :: r) 0) with (parse_literal (c :: r)). apply parse_literal_ok. discriminate.
Qed.
Lemma separated_nonneg base t ds : 2 <= base -> separated base t ds -> 0 <= positional base ds.
Proof. intros Hb S. apply positional_nonneg; auto. eapply digits_range. apply separated_strip. exact S. Qed.
Lemma literal_nonneg s z : go_literal s z -> 0 <= z.
Proof. destruct 1; try lia; eapply separated_nonneg; eauto; lia. Qed.
Lemma literal_sign s z c : go_literal (c :: s) z -> c <> 43 /\ c <> 45.
Proof. intros G. inversion G; subst; try lia. destruct (separated_first _ _ _ _ H3) as (d & Hd). apply digit_byte in Hd. lia. Qed.
Lemma digits_func base s ds ds' : 2 <= base <= 36 -> Forall2 (digit base) s ds -> Forall2 (digit base) s ds' -> ds = ds'.
Proof.
  intros Hb H. revert ds'. induction H as [|c d s ds Hc H IH]; intros ds' H'; inversion H'; subst; auto.
  f_equal; auto. apply digit_val_spec in Hc; auto. apply digit_val_spec in H2; auto. destruct Hc, H2. congruence.
Qed.
Lemma under_unique base u t ds u' t' ds' : 2 <= base <= 36 -> one_underscore u -> one_underscore u' -> separated base t ds -> separated base t' ds' -> u ++ t = u' ++ t' -> ds = ds'.
Proof.
  intros Hb U U' S S' E. eapply digits_func; [exact Hb|apply separated_strip; exact S|]. rewrite <- (under_strip u t U), E, (under_strip u' t' U'). apply separated_strip. exact S'.
Qed.
Lemma literal_func s z z' : go_literal s z -> go_literal s z' -> z = z'.
Proof.
  intros G G'.
  assert (Z8 : forall x t u0 t0 ds, x = 98 \/ x = 66 \/ x = 111 \/ x = 79 \/ x = 120 \/ x = 88 -> one_underscore u0 -> separated 8 t0 ds -> u0 ++ t0 = x :: t -> False).
  { intros x t u0 t0 ds Hx [->| ->] S E; [cbn in E; subst t0; destruct (separated_first _ _ _ _ S) as (d & Hd); destruct Hd; lia|injection E as <- _; lia]. }
  destruct G; inversion G'; subst; try congruence; try lia.
  all: try (f_equal; match goal with
    | U : one_underscore ?u, S : separated ?b ?t _, U' : one_underscore ?u', S' : separated ?b ?t' _, E : ?u ++ ?t = ?u' ++ ?t' |- _ =>
        first [exact (under_unique b u t _ u' t' _ ltac:(lia) U U' S S' E)|symmetry; exact (under_unique b u t _ u' t' _ ltac:(lia) U U' S S' E)]
    end).
  all: try (exfalso; match goal with
    | U : one_underscore ?u, S : separated 8 ?t _, E : ?x :: ?r = ?u ++ ?t |- _ => refine (Z8 x r u t _ _ U S (eq_sym E)); lia
    | U : one_underscore ?u, S : separated 8 ?t _, E : ?u ++ ?t = ?x :: ?r |- _ => refine (Z8 x r u t _ _ U S E); lia
    end).
  all: try (match goal with H : one_underscore ?u, E : ?u ++ ?t = [], S : separated _ ?t _ |- _ => apply app_eq_nil in E; destruct E as [-> ->]; elim (separated_nonempty _ _ S) end).
  all: try (match goal with H : one_underscore ?u, E : [] = ?u ++ ?t, S : separated _ ?t _ |- _ => symmetry in E; apply app_eq_nil in E; destruct E as [-> ->]; elim (separated_nonempty _ _ S) end).
  f_equal. eapply (under_unique 10 [] (b :: t) ds []); eauto; try (left; reflexivity). lia.
Qed.

Lemma parse_int_literal s z : parse_int s 0 = inr z <-> signed_literal s z /\ int64 z.
Proof.
  unfold parse_int, signed_literal, int64. destruct s as [|c s].
  { split; [discriminate|]. intros [[H|[(t & H & _)|(t & H & _)]] _]; try congruence. elim (literal_nonempty _ _ H); reflexivity. }
  pose proof parse_uint_literal as U. pose proof literal_nonneg as N. pose proof literal_func as F.
  unfold uint64 in U. change (2 ^ 64) with 18446744073709551616 in U. change (2 ^ 63) with two63. unfold two63 in *.
  destruct (c =? 43) eqn:E43; [apply Z.eqb_eq in E43; subst c|]; [|destruct (c =? 45) eqn:E45; [apply Z.eqb_eq in E45; subst c|]].
  - assert (X : signed_literal (43 :: s) z <-> go_literal s z).
    { unfold signed_literal. split; [|eauto]. intros [H|[(t & E & H)|(t & E & H)]]; [|congruence|congruence]. apply literal_sign in H. lia. }
    unfold signed_literal in X. rewrite X. destruct (parse_uint s 0) as [e|un] eqn:P.
    + split; [discriminate|]. intros [H Hz]. pose proof (N _ _ H). assert (parse_uint s 0 = inr z) by (apply U; split; auto; lia). congruence.
    + apply U in P. destruct P as [P1 P2]. cbn [negb andb]. destruct (9223372036854775808 <=? un) eqn:L.
      * split; [discriminate|]. intros [H Hz]. pose proof (F _ _ _ H P1). lia.
      * split; [intros E; inversion E; subst; split; auto; lia|]. intros [H Hz]. f_equal. eapply F; eauto.
  - assert (X : signed_literal (45 :: s) z <-> go_literal s (- z)).
    { unfold signed_literal. split; [|eauto]. intros [H|[(t & E & H)|(t & E & H)]]; [|congruence|congruence]. apply literal_sign in H. lia. }
    unfold signed_literal in X. rewrite X. destruct (parse_uint s 0) as [e|un] eqn:P.
    + split; [discriminate|]. intros [H Hz]. pose proof (N _ _ H). assert (parse_uint s 0 = inr (- z)) by (apply U; split; auto; lia). congruence.
    + apply U in P. destruct P as [P1 P2]. cbn [negb andb]. destruct (9223372036854775808 <? un) eqn:L.
      * split; [discriminate|]. intros [H Hz]. pose proof (F _ _ _ H P1). lia.
      * split; [intros E; inversion E; subst; rewrite Z.opp_involutive; split; auto; lia|]. intros [H Hz]. f_equal. pose proof (F _ _ _ H P1). lia.
  - assert (X : signed_literal (c :: s) z <-> go_literal (c :: s) z).
    { unfold signed_literal. split; [|eauto]. intros [H|[(t & E & H)|(t & E & H)]]; auto; inversion E; subst; discriminate. }
    unfold signed_literal in X. rewrite X. destruct (parse_uint (c :: s) 0) as [e|un] eqn:P.
    + split; [discriminate|]. intros [H Hz]. pose proof (N _ _ H). assert (parse_uint (c :: s) 0 = inr z) by (apply U; split; auto; lia). congruence.
    + apply U in P. destruct P as [P1 P2]. cbn [negb andb]. destruct (9223372036854775808 <=? un) eqn:L.
      * split; [discriminate|]. intros [H Hz]. pose proof (F _ _ _ H P1). lia.
      * split; [intros E; inversion E; subst; split; auto; lia|]. intros [H Hz]. f_equal. eapply F; eauto.
Qed.

Lemma ParseInt_literal n c l ss : Forall2 string_ast l ss ->
  (exists z, signed_literal (concat ss) z /\ int64 z /\
     ParseIntRadix 0 n c l = Ok (inr [mkAst 0 (head_cls l) TInt (VInt z) (head_sp l)])) \/
  ((forall z, signed_literal (concat ss) z -> ~ int64 z) /\ exists e, ParseIntRadix 0 n c l = Ok (inl e)).
Proof.
  intros H. unfold ParseIntRadix. rewrite (with_concat_ok _ _ _ H).
  destruct (parse_int (concat ss) 0) as [e|z] eqn:P.
  - right. split; [|eexists; reflexivity]. intros z H1 H2. assert (parse_int (concat ss) 0 = inr z) by (apply parse_int_literal; auto). congruence.
  - left. exists z. apply parse_int_literal in P. destruct P. auto.
Qed.
Lemma ParseUint_literal n c l ss : Forall2 string_ast l ss ->
  (exists z, plus_literal (concat ss) z /\ uint64 z /\
     ParseUintRadix 0 n c l = Ok (inr [mkAst 0 (head_cls l) TUint (VUint z) (head_sp l)])) \/
  (concat ss <> [] /\ (forall z, plus_literal (concat ss) z -> ~ uint64 z) /\ exists e, ParseUintRadix 0 n c l = Ok (inl e)) \/
  (concat ss = [] /\ ParseUintRadix 0 n c l = Panic "index out of range").
Proof.
  intros H. unfold ParseUintRadix. rewrite (with_concat_ok _ _ _ H). destruct (concat ss) as [|x s]; [right; right; auto|].
  assert (X : forall z, plus_literal (x :: s) z <-> go_literal (if x =? 43 then s else x :: s) z).
  { intros z. unfold plus_literal. destruct (x =? 43) eqn:E.
    - apply Z.eqb_eq in E. subst x. split; [|eauto]. intros [H1|(t & E & H1)]; [apply literal_sign in H1; lia|congruence].
    - split; auto. intros [H1|(t & E' & H1)]; auto. inversion E'; subst. discriminate. }
  destruct (parse_uint _ 0) as [e|z] eqn:P.
  - right. left. split; [discriminate|]. split; [|eexists; reflexivity]. intros z H1 H2. apply X in H1.
    assert (parse_uint (if x =? 43 then s else x :: s) 0 = inr z) by (apply parse_uint_literal; auto). congruence.
  - left. exists z. apply parse_uint_literal in P. destruct P. split; [apply X; auto|]. auto.
Qed.

(** ** The values of the words *)
Lemma spaced_value (D : Z -> Prop) base w : (forall b, D b -> exists d, digit base b d) -> spaced D w -> exists z, numeral base (strip w) z.
Proof.
  intros HD (b & r & -> & Hb & F). destruct (HD b Hb) as [d Hd]. rewrite strip_cons by (apply digit_byte in Hd; tauto).
  assert (X : exists ds, Forall2 (digit base) (strip r) ds).
  { clear -HD F. induction F as [|x r [Hx| ->] _ [ds IH]].
    - exists []. constructor.
    - destruct (HD x Hx) as [e He]. exists (e :: ds). rewrite strip_cons by (apply digit_byte in He; tauto). constructor; auto.
    - exists ds. exact IH. }
  destruct X as [ds Hds]. exists (positional base (d :: ds)). split; [discriminate|]. exists (d :: ds). split; [constructor; auto|reflexivity].
Qed.
Lemma bin_digit_ok b : bin_digit b -> exists d, digit 2 b d.
Proof. unfold bin_digit. intros H. exists (b - 48). replace b with (48 + (b - 48)) at 1 by lia. constructor; lia. Qed.
Lemma oct_digit_ok b : oct_digit b -> exists d, digit 8 b d.
Proof. unfold oct_digit. intros H. exists (b - 48). replace b with (48 + (b - 48)) at 1 by lia. constructor; lia. Qed.
Lemma hex_digit_ok b : hex_digit b -> exists d, digit 16 b d.
Proof.
  unfold hex_digit. intros [H|[H|H]].
  - exists (b - 48). replace b with (48 + (b - 48)) at 1 by lia. apply d_num; lia.
  - exists (b - 55). replace b with (65 + (b - 55 - 10)) at 1 by lia. apply d_upper; lia.
  - exists (b - 87). replace b with (97 + (b - 87 - 10)) at 1 by lia. apply d_lower; lia.
Qed.
Lemma strip_spaced (D : Z -> Prop) base w s : (forall b, D b -> exists d, digit base b d) -> outL strip (spaced D) w s -> s <> [].
Proof. intros HD [W ->]. destruct (spaced_value D base w HD W) as (z & N & _). exact N. Qed.
Lemma strip_integer w s : outL strip integer_word w s -> s <> [].
Proof.
  intros [W ->] E. destruct (integer_numeral w W) as [z Hz]. rewrite E in Hz. destruct Hz as [[N _]|[(t & F & _)|(t & F & _)]]; congruence.
Qed.
