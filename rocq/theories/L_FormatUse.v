(** Lemmas for C71: the texts of floats, reading them back, float32. *)
From Verif Require Export L_Format.

(** ** Layout *)
Lemma fmt_layout neg ds t : ds <> [] -> -999 < t + Z.of_nat (length ds) < 1000 -> layout neg ds t (fmt_g neg ds (t + Z.of_nat (length ds))).
Proof.
  intros Ne B. set (n := Z.of_nat (length ds)) in *. assert (1 <= n) by (unfold n; destruct ds; [contradiction|cbn; lia]). unfold fmt_g.
  destruct ((t + n - 1 <? -4) || (6 <=? t + n - 1))%bool eqn:E.
  - destruct ds as [|d rest]; [contradiction|]. unfold fmt_e. cbn [firstn skipn app].
    assert (X : t + n - 1 = t + Z.of_nat (length rest)) by (unfold n; cbn [length]; lia).
    change (minus neg) with (if neg then [45] else []).
    assert (Y : (match rest with [] => [] | z :: l => 46 :: z :: l end) = (if rest then [] else 46 :: rest)) by (destruct rest; reflexivity). rewrite Y.
    apply ly_exp with (ex := t + n - 1); auto; [rewrite orb_true_iff in E; lia|].
    set (ex := t + n - 1) in *. exists (if ex <? 0 then 45 else 43). eexists. split; [reflexivity|].
    assert (G : ((if ex <? 0 then 45 else 43) = 43 /\ 0 <= ex) \/ ((if ex <? 0 then 45 else 43) = 45 /\ ex < 0)) by (destruct (Z.ltb_spec ex 0); auto).
    assert (A : 0 <= Z.abs ex < 1000) by (unfold ex; lia). generalize dependent (Z.abs ex). intros a A. clear E X.
    destruct (Z.ltb_spec a 10); [|destruct (Z.ltb_spec a 100)].
    + split; [|split; [exact G|left; reflexivity]]. apply numeral_digits. split; [discriminate|]. split; [repeat constructor; unfold dec_digit; lia|]. unfold dval. cbn [fold_left]. lia.
    + split; [|split; [exact G|left; reflexivity]]. pose proof (Z.div_mod a 10 ltac:(lia)). pose proof (Z.mod_pos_bound a 10 eq_refl).
      apply numeral_digits. split; [discriminate|]. split; [repeat constructor; unfold dec_digit; lia|]. unfold dval. cbn [fold_left]. lia.
    + split; [|split; [exact G|right; split; [reflexivity|lia]]]. pose proof (Z.div_mod a 10 ltac:(lia)). pose proof (Z.mod_pos_bound a 10 eq_refl).
      assert (D : a / 100 = a / 10 / 10) by (rewrite Z.div_div by lia; reflexivity). rewrite D. pose proof (Z.div_mod (a / 10) 10 ltac:(lia)). pose proof (Z.mod_pos_bound (a / 10) 10 eq_refl).
      apply numeral_digits. split; [discriminate|]. split; [repeat constructor; unfold dec_digit; lia|]. unfold dval. cbn [fold_left]. lia.
  - rewrite orb_false_iff in E. unfold fmt_f. fold n. change (minus neg) with (if neg then [45] else []). replace (n - (t + n)) with (- t) by lia. replace (t + n - n) with t by lia.
    destruct (Z.ltb_spec 0 (t + n)) as [P|P].
    + destruct (Z.ltb_spec 0 (- t)) as [T|T].
      * replace (Z.to_nat t) with 0%nat by lia. replace (Z.to_nat (- (t + n))) with 0%nat by lia. cbn [repeat app]. rewrite app_nil_r.
        assert (L : length (firstn (Z.to_nat (t + n)) ds) = Z.to_nat (t + n)) by (apply firstn_length_le; lia).
        apply ly_point; [symmetry; apply firstn_skipn| | |lia|rewrite L; lia].
        -- intros K. rewrite K in L. cbn in L. lia.
        -- rewrite skipn_length. lia.
      * rewrite app_nil_r. rewrite firstn_all2 by lia. apply ly_int; lia.
    + assert (T : (0 <? - t) = true) by lia. rewrite T. replace (Z.to_nat (t + n)) with 0%nat by lia. cbn [skipn app].
      apply ly_small with (z := Z.to_nat (- (t + n))); lia.
Qed.

(** ** Reading *)
Definition dvals (s : bytes) : list Z := map (fun b => b - 48) s.
Lemma dvals_digits s : Forall dec_digit s -> Forall2 (digit 10) s (dvals s).
Proof.
  induction 1 as [|b s D F IH]; cbn; constructor; auto. unfold dec_digit in D. replace b with (48 + (b - 48)) at 1 by lia. constructor; lia.
Qed.
Lemma dvals_value s : Forall dec_digit s -> positional 10 (dvals s) = dval 0 s.
Proof.
  intros F. destruct s as [|b s]; [reflexivity|]. assert (N : numeral 10 (b :: s) (positional 10 (dvals (b :: s)))) by (split; [discriminate|]; exists (dvals (b :: s)); split; [apply dvals_digits; exact F|reflexivity]).
  apply numeral_digits in N as (_ & _ & E). exact E.
Qed.
Lemma digits_separated s ds : Forall2 (digit 10) s ds -> s <> [] -> separated 10 s ds.
Proof.
  induction 1 as [|b d s ds D F IH]; intros Ne; [contradiction|]. destruct s as [|b' s]; [inversion F; subst; constructor; auto|]. constructor; auto. apply IH. discriminate.
Qed.
Lemma digits_group s : Forall dec_digit s -> digit_group 10 s (dvals s).
Proof. intros F. destruct s as [|b s]; [left; auto|right]. apply digits_separated; [apply dvals_digits; auto|discriminate]. Qed.
Lemma minus_signed (neg : bool) : signed (if neg then [45] else []) neg.
Proof. destruct neg; [right|left]; auto. Qed.
Lemma exponent_reads x ex : exponent_text x ex -> exponent_part 101 (101 :: x) ex /\ Z.abs ex < 1000.
Proof.
  intros (g & ds & -> & N & G & L). pose proof N as N'. apply numeral_digits in N' as (Ne & F & E). pose proof (dval_bounds ds 0 F ltac:(lia)) as B. split.
  - exists 101, [g], (ex <? 0), ds, (dvals ds). split; [reflexivity|]. split; [left; reflexivity|]. split; [destruct G as [[-> G]|[-> G]]; destruct (Z.ltb_spec ex 0); try lia; [left|right]; auto|].
    split; [apply digits_separated; [apply dvals_digits; auto|auto]|]. rewrite dvals_value by auto. rewrite <- E. destruct (Z.ltb_spec ex 0); lia.
  - rewrite E. assert (10 ^ Z.of_nat (length ds) <= 1000) by (destruct L as [->|[-> _]]; discriminate). lia.
Qed.
Lemma dval_scale a v : Forall dec_digit a -> dval v a = v * 10 ^ Z.of_nat (length a) + dval 0 a.
Proof.
  intros F. revert v. induction F as [|b a D F IH]; intros v; [cbn; lia|]. unfold dval in *. cbn [fold_left length]. rewrite IH, (IH (0 * 10 + (b - 48))). rewrite Nat2Z.inj_succ, Z.pow_succ_r by lia. lia.
Qed.
Lemma zeros_digits n : Forall dec_digit (repeat 48 n).
Proof. induction n; constructor; auto. unfold dec_digit. lia. Qed.
Lemma zeros_value n : dval 0 (repeat 48 n) = 0.
Proof. induction n; [reflexivity|]. unfold dval in *. cbn [repeat fold_left]. exact IHn. Qed.
Lemma rounds_shift neg m e k t z : finite64 neg m e -> 0 < k -> 0 <= z -> rounds_to (S754_finite neg m e) k t -> rounds_to (S754_finite neg m e) (k * 10 ^ z) (t - z).
Proof.
  intros F K Z0 R. assert (0 < 10 ^ z) by (apply pow10; auto). set (s := Z.max 0 (z - t)).
  apply (rounds_iff neg m e _ _ s F) in R; auto; [|lia|lia]. apply (rounds_iff neg m e _ _ s F); [nia|lia|lia|].
  rewrite <- Z.mul_assoc, <- Z.pow_add_r by lia. replace (z + (t - z + s)) with (t + s) by lia. exact R.
Qed.
Lemma literal_value s neg m e k t ex : rounds_to (S754_finite neg m e) k t -> float_literal s neg k 10 t ex -> Z.abs ex < 1000 -> strconv_ParseFloat64 s = inr (S754_finite neg m e).
Proof.
  intros R L B. destruct (ParseFloat64_answer s) as (_ & _ & A & _). specialize (A _ _ _ _ _ L ltac:(lia)).
  unfold rounds_to in R. cbn [negative] in R. eapply nearest_func; [|exact A|exact R]. unfold denom_of. apply pow10. lia.
Qed.
Lemma fl_dec s (neg : bool) m t i p f x ex : s = (if neg then [45] else []) ++ i ++ p ++ f ++ x -> Forall dec_digit i -> point_part p f -> Forall dec_digit f -> i <> [] ->
  m = dval 0 (i ++ f) -> ((x = [] /\ ex = 0) \/ exponent_part 101 x ex) -> t = ex - Z.of_nat (length f) -> float_literal s neg m 10 t ex.
Proof.
  intros E Di P Df Ne Em X ->. assert (L : length f = length (dvals f)) by (unfold dvals; rewrite map_length; reflexivity). rewrite L.
  apply fl_decimal with (sg := if neg then [45] else []) (i := i) (p := p) (f := f) (x := x) (di := dvals i) (df := dvals f); auto.
  - apply minus_signed.
  - apply digits_group; auto.
  - apply digits_group; auto.
  - destruct i; [contradiction|discriminate].
  - unfold dvals. rewrite <- map_app. fold (dvals (i ++ f)). rewrite dvals_value by (apply Forall_app; auto). exact Em.
Qed.
Lemma layout_reads neg m e ds k t s : finite64 neg m e -> canonical ds k -> 0 < k -> rounds_to (S754_finite neg m e) k t -> layout neg ds t s ->
  strconv_ParseFloat64 s = inr (S754_finite neg m e).
Proof.
  intros F C K R L. destruct (canonical_size _ _ C K) as (Ne & D & E & _).
  destruct L as [d rest x ex -> -> H X|T1 T2|a b -> Na T1 T2 T3|z T1 T2].
  - destruct (exponent_reads _ _ X) as [P B]. inversion D as [|? ? D0 D1]; subst.
    eapply literal_value; [exact R| |exact B]. apply fl_dec with (i := [d]) (p := if rest then [] else [46]) (f := rest) (x := 101 :: x); auto.
    + destruct rest; reflexivity.
    + destruct rest; [right; auto|left; auto].
    + discriminate.
    + lia.
  - apply (literal_value _ neg m e (k * 10 ^ t) (t - t) 0); [apply rounds_shift; auto| |lia].
    assert (D' : Forall dec_digit (ds ++ repeat 48 (Z.to_nat t))) by (apply Forall_app; split; [auto|apply zeros_digits]).
    apply fl_dec with (i := ds ++ repeat 48 (Z.to_nat t)) (p := []) (f := []) (x := []); auto.
    + rewrite !app_nil_r. reflexivity.
    + right; auto.
    + destruct ds; [contradiction|discriminate].
    + rewrite app_nil_r, dval_app, <- E, dval_scale, zeros_value, repeat_length by apply zeros_digits. rewrite Z2Nat.id by lia. lia.
    + cbn. lia.
  - apply Forall_app in D as [Da Db]. eapply literal_value with (ex := 0); [exact R| |lia].
    apply fl_dec with (i := a) (p := [46]) (f := b) (x := []); auto.
    + rewrite !app_nil_r. reflexivity.
    + left; auto.
  - assert (D' : Forall dec_digit (repeat 48 z ++ ds)) by (apply Forall_app; split; [apply zeros_digits|auto]).
    eapply literal_value with (ex := 0); [exact R| |lia].
    apply fl_dec with (i := [48]) (p := [46]) (f := repeat 48 z ++ ds) (x := []); auto.
    + cbn [app]. rewrite !app_nil_r. reflexivity.
    + constructor; [unfold dec_digit; lia|constructor].
    + left; auto.
    + discriminate.
    + change ([48] ++ repeat 48 z ++ ds) with (repeat 48 (S z) ++ ds). rewrite dval_app, zeros_value. exact E.
    + rewrite app_length, repeat_length. lia.
Qed.

Lemma format_text x : a_double x -> float_text x (FormatFloat x) /\ strconv_ParseFloat64 (FormatFloat x) = inr x.
Proof.
  destruct x as [neg|neg| |neg m e]; intros A; [destruct neg; split; vm_compute; reflexivity..|split; vm_compute; reflexivity|].
  cbn [a_double] in A. destruct (shortest_ok neg m e A) as (ds & t & k & E & S & C & K & R & B). unfold FormatFloat. rewrite E.
  assert (Ne : ds <> []) by (apply (canonical_size _ _ C K)). pose proof (fmt_layout neg ds t Ne B) as L.
  split; [exists ds, t; auto|]. eapply layout_reads; eauto.
Qed.
(** Texts of floats need no quotes. *)
Lemma minus_bytes (neg : bool) : Forall (fun b => 33 <= b < 127 /\ b <> 44 /\ b <> 34) (if neg then [45] else []).
Proof. destruct neg; constructor; [lia|constructor]. Qed.
Lemma digit_bytes ds : Forall dec_digit ds -> Forall (fun b => 33 <= b < 127 /\ b <> 44 /\ b <> 34) ds.
Proof. apply Forall_impl. unfold dec_digit. intros. lia. Qed.
Lemma layout_bytes neg ds t s : Forall dec_digit ds -> layout neg ds t s -> Forall (fun b => 33 <= b < 127 /\ b <> 44 /\ b <> 34) s.
Proof.
  intros D L. destruct L as [d rest x ex -> -> H X|T1 T2|a b -> Na T1 T2 T3|z T1 T2]; (apply Forall_app; split; [apply minus_bytes|]).
  - inversion D; subst. constructor; [unfold dec_digit in *; lia|]. apply Forall_app. split; [destruct rest; constructor; [lia|apply digit_bytes; auto]|].
    constructor; [lia|]. destruct X as (g & xs & -> & N & G & _). apply numeral_digits in N as (_ & F & _). constructor; [lia|apply digit_bytes; auto].
  - apply Forall_app. split; apply digit_bytes; auto. apply zeros_digits.
  - apply Forall_app in D as [Da Db]. apply Forall_app. split; [apply digit_bytes; auto|]. constructor; [lia|apply digit_bytes; auto].
  - constructor; [lia|]. constructor; [lia|]. apply Forall_app. split; apply digit_bytes; auto. apply zeros_digits.
Qed.
Lemma format_bytes x : a_double x -> FormatFloat x <> [] /\ safe_cell (FormatFloat x).
Proof.
  intros A. split.
  - intros E. destruct (format_text x A) as [_ P]. rewrite E in P. discriminate P.
  - apply graphic_safe. destruct x as [neg|neg| |neg m e]; [destruct neg; vm_compute; repeat constructor; discriminate..|vm_compute; repeat constructor; discriminate|].
    cbn [a_double] in A. destruct (shortest_ok neg m e A) as (ds & t & k & E & S & C & K & R & B). unfold FormatFloat. rewrite E.
    destruct (canonical_size _ _ C K) as (Ne & F & _). eapply layout_bytes; [exact F|]. apply fmt_layout; auto.
Qed.

