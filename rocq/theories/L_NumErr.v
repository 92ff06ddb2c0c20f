(** Lemmas for the errors of strconv (C21, C45). *)
From Verif Require Import S_NumErr L_Trans.

Lemma loop_error base : 2 <= base <= 36 -> forall s n, 0 <= n <= maxUint64 -> forall e, parse_uint_loop base s n = inl e ->
  (e = ErrRange /\ exists p r ds, s = p ++ r /\ p <> [] /\ Forall2 (digit base) p ds /\ maxUint64 < n * base ^ Z.of_nat (length ds) + positional base ds) \/
  (e = ErrSyntax /\ (forall ds, ~ Forall2 (digit base) s ds) /\
    forall p r ds, s = p ++ r -> Forall2 (digit base) p ds -> n * base ^ Z.of_nat (length ds) + positional base ds <= maxUint64).
Proof.
  intros Hb. assert (Hm : maxUint64 = 18446744073709551615) by reflexivity. assert (H64 : two64 = maxUint64 + 1) by reflexivity.
  induction s as [|c s IH]; intros n Hn e; [discriminate|]. cbn [parse_uint_loop].
  assert (Bad : (forall d, ~ digit base c d) -> e = ErrSyntax -> e = ErrSyntax /\ (forall ds, ~ Forall2 (digit base) (c :: s) ds) /\
    forall p r ds, c :: s = p ++ r -> Forall2 (digit base) p ds -> n * base ^ Z.of_nat (length ds) + positional base ds <= maxUint64).
  { intros N Ee. split; [exact Ee|]. split.
    - intros ds H. inversion H as [|? d]; subst. eapply N; eauto.
    - intros p r ds E H. destruct H as [|x d p ds Hd H]; [cbn; lia|]. cbn in E. injection E as -> _. elim (N d Hd). }
  destruct (digit_val c) as [d|] eqn:Ed.
  2:{ intros E. injection E as <-. right. apply Bad; auto. intros d Hd. apply digit_val_spec in Hd; auto. destruct Hd. congruence. }
  destruct (Z.leb_spec base d) as [Eb|Eb].
  { intros E. injection E as <-. right. apply Bad; auto. intros d' Hd. apply digit_val_spec in Hd; auto. destruct Hd. assert (d' = d) by congruence. subst d'. lia. }
  assert (Hd : digit base c d) by (apply digit_val_spec; auto).
  pose proof (digit_nonneg _ _ _ Hd) as Hd0.
  assert (Large : maxUint64 < n * base + d -> exists p r ds, c :: s = p ++ r /\ p <> [] /\ Forall2 (digit base) p ds /\ maxUint64 < n * base ^ Z.of_nat (length ds) + positional base ds).
  { intros L. exists [c], s, [d]. split; [reflexivity|]. split; [discriminate|]. split; [repeat constructor; exact Hd|]. cbn [length positional]. change (Z.of_nat 1) with 1. change (Z.of_nat 0) with 0. rewrite Z.pow_1_r, Z.pow_0_r. lia. }
  destruct (Z.leb_spec (maxUint64 / base + 1) n) as [Ec|Ec].
  { intros E. injection E as <-. left. split; [reflexivity|]. apply Large. pose proof (Z.div_mod maxUint64 base ltac:(lia)). pose proof (Z.mod_pos_bound maxUint64 base ltac:(lia)). nia. }
  assert (Hnb : n * base <= maxUint64). { pose proof (Z.mul_div_le maxUint64 base ltac:(lia)). nia. }
  rewrite (Z.mod_small (n * base)) by nia. cbv zeta. destruct (Z.le_gt_cases (n * base + d) maxUint64) as [Hle|Hgt].
  - rewrite (Z.mod_small (n * base + d)) by nia. replace ((n * base + d <? n * base) || (maxUint64 <? n * base + d)) with false by lia.
    intros E. assert (Step : forall ds, n * base ^ Z.of_nat (length (d :: ds)) + positional base (d :: ds) = (n * base + d) * base ^ Z.of_nat (length ds) + positional base ds).
    { intros ds. cbn [length positional]. rewrite Nat2Z.inj_succ, Z.pow_succ_r by lia. ring. }
    destruct (IH (n * base + d) ltac:(nia) e E) as [(-> & p & r & ds & -> & Np & F & L)|(-> & N & B)].
    + left. split; [reflexivity|]. exists (c :: p), r, (d :: ds). split; [reflexivity|]. split; [discriminate|]. split; [constructor; auto|]. rewrite Step. exact L.
    + right. split; [reflexivity|]. split.
      * intros ds H. inversion H; subst. eapply N; eauto.
      * intros p r ds Es H. destruct H as [|x d' p ds Hd' H]; [cbn; lia|]. cbn in Es. injection Es as -> Es.
        assert (d' = d). { apply digit_val_spec in Hd'; auto. destruct Hd'. congruence. } subst d'. rewrite Step. eapply B; eauto.
  - replace ((n * base + d) mod two64) with (n * base + d - two64) by (apply (Z.mod_unique _ _ 1); lia).
    replace ((n * base + d - two64 <? n * base) || (maxUint64 <? n * base + d - two64)) with true by lia.
    intros E. injection E as <-. left. split; [reflexivity|]. apply Large. lia.
Qed.
Lemma parse_uint_error base s e : 2 <= base <= 36 -> parse_uint s base = inl e -> uint_fault base s (is_range e).
Proof.
  intros Hb. assert (H64 : 2 ^ 64 = maxUint64 + 1) by reflexivity. unfold parse_uint. destruct s as [|c s].
  - intros E. injection E as <-. right. split; [reflexivity|]. split.
    + intros (p & r & z & E & [N _] & _). destruct p; [congruence|discriminate].
    + intros z [N _]. congruence.
  - replace ((2 <=? base) && (base <=? 36)) with true by lia. intros E.
    destruct (loop_error base Hb (c :: s) 0 ltac:(unfold maxUint64; lia) e E) as [(-> & p & r & ds & Es & Np & F & L)|(-> & N & B)].
    + left. split; [reflexivity|]. exists p, r, (positional base ds). split; [exact Es|]. split; [split; [exact Np|eauto]|lia].
    + right. split; [reflexivity|]. split.
      * intros (p & r & z & Es & (_ & ds & F & ->) & L). specialize (B p r ds Es F). lia.
      * intros z (_ & ds & F & _). eapply N; eauto.
Qed.
Lemma parse_int_error base s e : 2 <= base <= 36 -> parse_int s base = inl e -> int_fault base s (is_range e).
Proof.
  intros Hb. assert (E63 : 2 ^ 63 = two63) by reflexivity. unfold parse_int. destruct s as [|c s].
  - intros E. injection E as <-. exists false, []. split; [right; right; split; [reflexivity|]; split; [reflexivity|intros u; split; discriminate]|]. right.
    split; [reflexivity|]. split.
    + intros (p & r & z & E & [N _] & _). destruct p; [congruence|discriminate].
    + intros z [N _]. congruence.
  - destruct (if c =? 43 then _ else _) as [neg t] eqn:D.
    assert (U : unsigned (c :: s) neg t).
    { destruct (Z.eqb_spec c 43) as [->|N1]; [injection D as <- <-; left; auto|]. destruct (Z.eqb_spec c 45) as [->|N2]; [injection D as <- <-; right; left; auto|].
      injection D as <- <-. right. right. split; [reflexivity|]. split; [reflexivity|]. intros u. split; congruence. }
    intros E. exists neg, t. split; [exact U|]. destruct (parse_uint t base) as [e1|un] eqn:P.
    + injection E as ->. destruct (parse_uint_error base t e Hb P) as [[-> L]|[-> L]]; [left; auto|right; auto].
    + apply parse_uint_ok in P; auto. destruct P as [P Hu]. unfold uint64 in Hu. left. unfold int64.
      destruct neg; cbn [negb andb] in E.
      * destruct (Z.ltb_spec two63 un) as [L|L]; [|discriminate]. injection E as <-. split; [reflexivity|]. right. exists un. split; [exact P|lia].
      * destruct (Z.leb_spec two63 un) as [L|L]; [|discriminate]. injection E as <-. split; [reflexivity|]. right. exists un. split; [exact P|lia].
Qed.
(** The faults exclude the values, and each other. *)
Lemma fault_uint base s r : 2 <= base <= 36 -> uint_fault base s r -> exists e, parse_uint s base = inl e /\ is_range e = r.
Proof.
  intros Hb F. assert (B : forall p t z z', s = p ++ t -> numeral base p z -> numeral base s z' -> z <= z').
  { intros p t z z' -> (_ & ds & Hp & ->) (_ & ds' & H & ->). apply Forall2_app_inv_l in H. destruct H as (d1 & d2 & H1 & H2 & ->).
    assert (d1 = ds). { clear -Hb Hp H1. revert d1 H1. induction Hp as [|x d p ds Hx Hp IH]; intros d1 H1; inversion H1; subst; [reflexivity|]. f_equal; auto.
      apply digit_val_spec in Hx; auto. match goal with H : digit base x _ |- _ => apply digit_val_spec in H; auto; destruct H end. destruct Hx. congruence. }
    subst d1. clear -Hb Hp H2. assert (E : positional base (ds ++ d2) = positional base ds * base ^ Z.of_nat (length d2) + positional base d2).
    { clear. induction ds as [|d ds IH]; cbn [app positional]; [lia|]. rewrite IH, app_length, Nat2Z.inj_add, Z.pow_add_r by lia. ring. }
    rewrite E. pose proof (positional_nonneg base ds ltac:(lia) (digits_range _ _ _ Hp)). pose proof (positional_nonneg base d2 ltac:(lia) (digits_range _ _ _ H2)).
    pose proof (Z.pow_pos_nonneg base (Z.of_nat (length d2)) ltac:(lia) ltac:(lia)). nia. }
  destruct (parse_uint s base) as [e|z] eqn:P.
  - exists e. split; [reflexivity|]. destruct (parse_uint_error base s e Hb P) as [[-> L]|[-> [L _]]]; destruct F as [[-> L']|[-> [L' _]]]; congruence || contradiction.
  - exfalso. apply parse_uint_ok in P; auto. destruct P as [P [_ Hu]]. destruct F as [[_ (p & t & z' & E & Np & L)]|[_ [_ N]]]; [|exact (N z P)].
    specialize (B p t z' z E Np P). lia.
Qed.
Lemma unsigned_func s n t n' t' : unsigned s n t -> unsigned s n' t' -> n = n' /\ t = t'.
Proof.
  intros [[-> ->]|[[-> ->]|(-> & -> & N)]] [[-> E]|[[-> E]|(-> & E & N')]]; try (injection E as <-; auto); try discriminate; try (split; congruence).
  - destruct (N' t) as [X _]. elim X. reflexivity.
  - destruct (N' t) as [_ X]. elim X. reflexivity.
  - destruct (N t') as [X _]. elim X. exact E.
  - destruct (N t') as [_ X]. elim X. exact E.
Qed.
Lemma fault_int base s r : 2 <= base <= 36 -> int_fault base s r -> exists e, parse_int s base = inl e /\ is_range e = r.
Proof.
  intros Hb (neg & t & U & F). destruct (parse_int s base) as [e|z] eqn:P.
  - exists e. split; [reflexivity|]. destruct (parse_int_error base s e Hb P) as (neg' & t' & U' & F'). destruct (unsigned_func _ _ _ _ _ U U') as [<- <-].
    destruct F as [[-> L]|[-> [L1 L2]]]; destruct F' as [[E' L']|[E' [L1' L2']]]; rewrite E'; try reflexivity; exfalso.
    + destruct L as [L|(z & L & _)]; [contradiction|exact (L2' z L)].
    + destruct L' as [L'|(z & L' & _)]; [contradiction|exact (L2 z L')].
  - exfalso. apply parse_int_ok in P; auto. destruct P as [P Hu].
    assert (K : exists y, numeral base t y /\ z = if neg then - y else y).
    { destruct P as [P|[(u & -> & P)|(u & -> & P)]].
      - assert (unsigned s false s). { right. right. split; [reflexivity|]. split; [reflexivity|]. intros u. split; intros ->; apply digit_not_sign in P; lia. }
        destruct (unsigned_func _ _ _ _ _ U H) as [-> ->]. eauto.
      - destruct (unsigned_func _ _ _ _ _ U (or_introl (conj eq_refl eq_refl))) as [-> ->]. eauto.
      - destruct (unsigned_func _ _ _ _ _ U (or_intror (or_introl (conj eq_refl eq_refl)))) as [-> ->]. exists (- z). split; [exact P|lia]. }
    destruct K as (y & N & ->). destruct F as [[_ [L|(z & N' & L)]]|[_ [_ L]]]; [|rewrite (numeral_func _ _ _ _ Hb N' N) in L; contradiction|exact (L y N)].
    destruct (fault_uint base t true Hb (or_introl (conj eq_refl L))) as (e & E & _).
    assert (uint64 y). { pose proof (numeral_nonneg base t y ltac:(lia) N). unfold int64 in Hu. unfold uint64. destruct neg; lia. }
    assert (parse_uint t base = inr y) by (apply parse_uint_ok; auto). congruence.
Qed.
