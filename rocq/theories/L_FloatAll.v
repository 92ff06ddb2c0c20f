(** Lemmas for C63. *)
From Verif Require Import L_Trans L_Extra L_Float L_IntTok.
From Verif Require Export S_FloatAll.

(** ** Rounding *)
Definition to_float (b : Z) (neg : bool) (m e : Z) : numerr + spec_float :=
  if m =? 0 then inr (S754_zero neg)
  else
    let '(u, p) := round_units (m * b ^ Z.max e 0) (b ^ Z.max (- e) 0) in
    if 2045 <? p then inl ErrRange
    else match u with
         | Z.pos x => inr (S754_finite neg x (p - 1074))
         | _ => inr (S754_zero neg)
         end.
Lemma decimal_is neg m e : decimal_to_float neg m e = to_float 10 neg m e.
Proof. reflexivity. Qed.
Lemma binary_is neg m e : binary_to_float neg m e = to_float 2 neg m e.
Proof. reflexivity. Qed.
Lemma denom_pos b k : 2 <= b -> 0 < denom_of b k.
Proof. intros H. unfold denom_of. apply Z.pow_pos_nonneg; lia. Qed.
Lemma zero_rounded neg d : 0 < d -> nearest neg 0 d (inr (S754_zero neg)).
Proof.
  intros D. left. exists (S754_zero neg). split; [reflexivity|]. split; [|split; [reflexivity|]].
  - unfold rounded, distance. cbn [units finite_double normal_form even_mantissa]. split; [auto|]. split; [auto|]. split; [|auto].
    intros y _. rewrite Z.mul_0_l. change (Z.abs (0 - 0 * 2 ^ 1074)) with 0. apply Z.abs_nonneg.
  - unfold too_large. change (Z.abs 0) with 0. intros K. apply (Z.lt_irrefl 0). eapply Z.lt_le_trans; [|exact K].
    apply Z.mul_pos_pos; [reflexivity|exact D].
Qed.
Lemma to_float_rounds b neg m k : 2 <= b -> 0 <= m -> nearest neg (numer_of neg m b k) (denom_of b k) (to_float b neg m k).
Proof.
  intros Hb H. unfold to_float. fold (denom_of b k). pose proof (denom_pos b k Hb) as D.
  destruct (Z.eqb_spec m 0) as [ -> |Hm].
  - unfold numer_of. rewrite Z.mul_0_l, Z.mul_0_r. apply zero_rounded, D.
  - assert (N0 : 0 < m * b ^ Z.max k 0) by (apply Z.mul_pos_pos; [lia|apply Z.pow_pos_nonneg; lia]).
    assert (Nu : numer_of neg m b k = sg neg * (m * b ^ Z.max k 0)) by reflexivity.
    pose proof (round_best _ _ N0 D) as R. destruct (round_units _ _) as [u p]. pose proof (best_range _ _ D _ _ R) as BR.
    destruct (Z.ltb_spec 2045 p) as [L|L].
    + right. split; [reflexivity|]. rewrite Nu. apply too_large_sg; [exact N0|]. apply Z.nlt_ge. intros K. apply BR in K. clear - K L. lia.
    + left. eexists. split; [|].
      2:{ rewrite Nu. destruct (best_rounded _ _ u p neg _ N0 D R L eq_refl) as [X1 X2]. split; [exact X1|]. split; [exact X2|].
          intros K. pose proof (proj1 (too_large_sg neg _ (denom_of b k) N0) K) as K'. pose proof (proj1 BR L) as L'. revert L'. apply Zle_not_lt. exact K'. }
      destruct u; reflexivity.
Qed.
Lemma to_float_syntax b neg m k : to_float b neg m k <> inl ErrSyntax.
Proof.
  unfold to_float. destruct (m =? 0); [discriminate|]. destruct (round_units _ _) as [u p]. destruct (2045 <? p); [discriminate|]. destruct u; discriminate.
Qed.
(** Numbers beyond all floats and numbers next to zero, whatever the exponent. *)
Lemma huge_large b neg m k : 2 <= b -> 0 < m -> 2000 <= k -> too_large (numer_of neg m b k) (denom_of b k).
Proof.
  intros Hb Hm Hk. unfold too_large, numer_of, denom_of. replace (Z.max (- k) 0) with 0 by lia. replace (Z.max k 0) with k by lia.
  rewrite Z.pow_0_r, Z.mul_1_r.
  assert (K : 2 ^ 1024 <= m * b ^ k).
  { transitivity (2 ^ k); [apply Z.pow_le_mono_r; [reflexivity|clear - Hk; lia]|].
    transitivity (b ^ k); [apply Z.pow_le_mono_l; clear - Hb; lia|].
    rewrite <- (Z.mul_1_l (b ^ k)) at 1. apply Z.mul_le_mono_nonneg_r; [|clear - Hm; lia]. apply Z.pow_nonneg. clear - Hb; lia. }
  transitivity (2 ^ 1024); [apply Z.leb_le; vm_compute; reflexivity|]. etransitivity; [exact K|]. generalize dependent (m * b ^ k). intros v _. destruct neg; lia.
Qed.
Lemma tiny_zero b neg m k : 2 <= b -> 0 < m < 2 ^ 8000 -> k <= -10000 ->
  nearest neg (numer_of neg m b k) (denom_of b k) (inr (S754_zero neg)).
Proof.
  intros Hb Hm Hk. unfold numer_of, denom_of. replace (Z.max k 0) with 0 by (clear - Hk; lia). replace (Z.max (- k) 0) with (- k) by (clear - Hk; lia).
  rewrite Z.pow_0_r, Z.mul_1_r.
  assert (D : 2 ^ 10000 <= b ^ (- k)).
  { transitivity (2 ^ (- k)); [apply Z.pow_le_mono_r; [reflexivity|clear - Hk; lia]|apply Z.pow_le_mono_l; clear - Hb; lia]. }
  assert (W : 2 * (m * 2 ^ 1074) < b ^ (- k)).
  { eapply Z.lt_le_trans; [|exact D]. apply Z.lt_trans with (2 * (2 ^ 8000 * 2 ^ 1074)); [|reflexivity].
    apply Z.mul_lt_mono_pos_l; [reflexivity|]. apply Z.mul_lt_mono_pos_r; [reflexivity|apply Hm]. }
  assert (W0 : 0 < m * 2 ^ 1074) by (apply Z.mul_pos_pos; [apply Hm|reflexivity]).
  assert (A : Z.abs ((if neg then -1 else 1) * m * 2 ^ 1074) = m * 2 ^ 1074).
  { rewrite <- Z.mul_assoc. clear - W0. generalize dependent (m * 2 ^ 1074). intros. destruct neg; lia. }
  assert (Dy : forall y, distance ((if neg then -1 else 1) * m) (b ^ (- k)) y <= m * 2 ^ 1074 -> units y = 0).
  { intros y H. unfold distance in H. destruct (Z.eq_dec (units y) 0) as [E|E]; [exact E|exfalso].
    assert (B : b ^ (- k) <= Z.abs (units y * b ^ (- k))).
    { rewrite Z.abs_mul, (Z.abs_eq (b ^ (- k))) by (clear - W W0; lia). rewrite <- (Z.mul_1_l (b ^ (- k))) at 1. apply Z.mul_le_mono_nonneg_r; [clear - W W0; lia|clear - E; lia]. }
    clear - H B W A W0. generalize dependent (units y * b ^ (- k)). generalize dependent ((if neg then -1 else 1) * m * 2 ^ 1074).
    generalize dependent (m * 2 ^ 1074). intros. lia. }
  assert (Dz : distance ((if neg then -1 else 1) * m) (b ^ (- k)) (S754_zero neg) = m * 2 ^ 1074).
  { unfold distance. cbn [units]. rewrite Z.mul_0_l. clear - A. generalize dependent ((if neg then -1 else 1) * m * 2 ^ 1074). intros. lia. }
  left. exists (S754_zero neg). split; [reflexivity|]. split; [|split; [reflexivity|]].
  - split; [exact I|]. split; [exact I|]. split; [|intros; exact I].
    intros y Fy. rewrite Dz. destruct (Z.le_gt_cases (distance ((if neg then -1 else 1) * m) (b ^ (- k)) y) (m * 2 ^ 1074)) as [L|L]; [|apply Z.lt_le_incl, L].
    apply Dy in L. unfold distance. rewrite L, Z.mul_0_l. clear - A. generalize dependent ((if neg then -1 else 1) * m * 2 ^ 1074). intros. lia.
  - unfold too_large. intros K.
    assert (A' : Z.abs ((if neg then -1 else 1) * m) = m) by (clear - Hm; destruct neg; lia). rewrite A' in K.
    assert (L : 1 * b ^ (- k) <= (2 ^ 54 - 1) * 2 ^ 970 * b ^ (- k)) by (apply Z.mul_le_mono_nonneg_r; [clear - W W0; lia|discriminate]).
    assert (M : m * 1 <= m * 2 ^ 1074) by (apply Z.mul_le_mono_nonneg_l; [clear - Hm; lia|discriminate]).
    clear - K L M W W0. generalize dependent (m * 2 ^ 1074). generalize dependent ((2 ^ 54 - 1) * 2 ^ 970 * b ^ (- k)). intros. lia.
Qed.
Lemma nearest_unique neg n d r x : 0 < d -> nearest neg n d r -> nearest neg n d (inr x) -> r = inr x.
Proof.
  intros Hd [(y & -> & Ry & Sy & Ty)|[-> T]] [(z & Ez & Rz & Sz & Tz)|[Ez T']]; try discriminate; injection Ez as <-.
  - f_equal. eapply rounded_func; eauto.
  - contradiction.
Qed.
(** An exponent read inexactly, but on the same side. *)
Lemma to_float_far b neg m k k' : 2 <= b -> 0 <= m < 2 ^ 8000 ->
  (2000 <= k /\ 2000 <= k') \/ (k <= -10000 /\ k' <= -10000) ->
  nearest neg (numer_of neg m b k) (denom_of b k) (to_float b neg m k').
Proof.
  intros Hb Hm H. destruct (Z.eq_dec m 0) as [->|N0].
  { unfold to_float. cbn [Z.eqb]. unfold numer_of. rewrite Z.mul_0_l, Z.mul_0_r. apply zero_rounded, denom_pos, Hb. }
  assert (P : 0 < m) by (clear - Hm N0; lia).
  pose proof (to_float_rounds b neg m k' Hb ltac:(clear - P; lia)) as R. destruct H as [[L L']|[L L']].
  - pose proof (huge_large b neg m k' Hb P L') as T. pose proof (huge_large b neg m k Hb P L) as T0.
    destruct R as [(x & _ & _ & _ & C)|[E _]]; [contradiction|]. right. split; [exact E|exact T0].
  - assert (E : to_float b neg m k' = inr (S754_zero neg)).
    { eapply nearest_unique; [apply (denom_pos b k' Hb)|exact R|]. apply tiny_zero; auto. split; [exact P|apply Hm]. }
    rewrite E. apply tiny_zero; auto. split; [exact P|apply Hm].
Qed.

(** ** Reading the mantissa *)
Definition radix (hex : bool) : Z := if hex then 16 else 10.
Definition scan_digit (hex : bool) (b : Z) : bool := in_rng 48 57 b || (hex && in_rng 97 102 (lower b)).
Lemma digit_in hex b d : digit (radix hex) b d -> scan_digit hex b = true.
Proof. apply (digit_scan (radix hex) hex). destruct hex; cbn [radix]; [right|left]; split; auto; lia. Qed.
Lemma digit_out hex b : scan_digit hex b = true -> exists d, digit (radix hex) b d.
Proof.
  unfold scan_digit. intros H. destruct (in_rng 48 57 b) eqn:E.
  - unfold in_rng in E. exists (b - 48). replace b with (48 + (b - 48)) at 1 by lia. constructor; destruct hex; cbn [radix]; lia.
  - destruct hex; [|discriminate]. cbn [orb andb radix] in *. unfold lower in H. destruct (in_rng 65 90 b) eqn:U; unfold in_rng in *.
    + exists (b - 55). replace b with (65 + (b - 55 - 10)) at 1 by lia. constructor; lia.
    + exists (b - 87). replace b with (97 + (b - 87 - 10)) at 1 by lia. constructor; lia.
Qed.
Lemma digit_step hex b d r dot dig us m frac : digit (radix hex) b d ->
  read_mant hex (b :: r) dot dig us m frac = read_mant hex r dot true us (m * radix hex + d) (if dot then frac + 1 else frac).
Proof.
  intros H. cbn [read_mant].
  destruct H as [d A B|d A B|d A B].
  - replace (48 + d =? 95) with false by lia. replace (48 + d =? 46) with false by lia. replace (is_num (48 + d)) with true by (unfold is_num; lia).
    replace (48 + d - 48) with d by lia. destruct hex; reflexivity.
  - destruct hex; cbn [radix] in *; [|lia]. replace (97 + (d - 10) =? 95) with false by lia. replace (97 + (d - 10) =? 46) with false by lia.
    replace (is_num (97 + (d - 10))) with false by (unfold is_num; lia). unfold hex_letter, lower. replace (in_rng 65 90 (97 + (d - 10))) with false by (unfold in_rng; lia).
    replace (in_rng 97 102 (97 + (d - 10))) with true by (unfold in_rng; lia). cbn [andb]. f_equal; lia.
  - destruct hex; cbn [radix] in *; [|lia]. replace (65 + (d - 10) =? 95) with false by lia. replace (65 + (d - 10) =? 46) with false by lia.
    replace (is_num (65 + (d - 10))) with false by (unfold is_num; lia). unfold hex_letter, lower. replace (in_rng 65 90 (65 + (d - 10))) with true by (unfold in_rng; lia).
    replace (in_rng 97 102 (65 + (d - 10) + 32)) with true by (unfold in_rng; lia). cbn [andb]. f_equal; lia.
Qed.
(** What is neither a digit nor an underscore nor, in the first half, a point. *)
Definition halts (hex dot : bool) (r : bytes) : Prop :=
  match r with [] => True | c :: _ => scan_digit hex c = false /\ c <> 95 /\ (dot = true \/ c <> 46) end.
Lemma mant_halts hex r dot dig us m frac : halts hex dot r -> read_mant hex r dot dig us m frac = (m, frac, dig, us, r).
Proof.
  destruct r as [|c r]; [reflexivity|]. cbn [halts read_mant]. intros (A & B & C). unfold scan_digit, in_rng in A.
  replace (c =? 95) with false by lia. replace (is_num c) with false by (unfold is_num; lia).
  replace (hex && hex_letter c) with false by (unfold hex_letter, in_rng; lia).
  destruct (Z.eqb_spec c 46) as [ -> |]; [|reflexivity]. destruct dot; [reflexivity|]. destruct C; [discriminate|contradiction].
Qed.
Definition pos_from (base v : Z) (ds : list Z) : Z := v * base ^ Z.of_nat (length ds) + positional base ds.
Lemma pos_from_0 base ds : pos_from base 0 ds = positional base ds.
Proof. unfold pos_from. lia. Qed.
Lemma pos_from_cons base v d ds : pos_from base v (d :: ds) = pos_from base (v * base + d) ds.
Proof. unfold pos_from. cbn [length positional]. rewrite Nat2Z.inj_succ, Z.pow_succ_r by lia. ring. Qed.
Lemma pos_from_nil base v : pos_from base v [] = v.
Proof. unfold pos_from. cbn [length positional Z.of_nat]. rewrite Z.pow_0_r. lia. Qed.
Lemma pos_from_app base a b : forall v, pos_from base v (a ++ b) = pos_from base (pos_from base v a) b.
Proof.
  induction a as [|x a IH]; intros v; cbn [app]; [rewrite pos_from_nil; reflexivity|]. rewrite !pos_from_cons. apply IH.
Qed.
Lemma positional_bound base ds : 2 <= base -> Forall (fun d => 0 <= d < base) ds -> 0 <= positional base ds < base ^ Z.of_nat (length ds).
Proof.
  intros Hb. induction 1 as [|d ds D F IH]; cbn [positional length]; [cbn; lia|]. rewrite Nat2Z.inj_succ, Z.pow_succ_r by lia.
  assert (0 <= base ^ Z.of_nat (length ds)) by (apply Z.pow_nonneg; lia). nia.
Qed.
Definition nonempty {A} (l : list A) : bool := match l with [] => false | _ => true end.
(** Digits and underscores, in any order. *)
Definition raw (hex : bool) (t : bytes) (ds : list Z) : Prop := Forall2 (digit (radix hex)) (strip t) ds.
Lemma strip_cons c t : strip (c :: t) = if c =? 95 then strip t else c :: strip t.
Proof. unfold strip. cbn [filter]. destruct (c =? 95); reflexivity. Qed.
Lemma strip_app a b : strip (a ++ b) = strip a ++ strip b.
Proof. unfold strip. apply filter_app. Qed.
Lemma mant_raw hex t : forall ds rest dot dig us m frac, raw hex t ds ->
  exists us', (us = true \/ In 95 t <-> us' = true) /\
  read_mant hex (t ++ rest) dot dig us m frac =
  read_mant hex rest dot (dig || nonempty ds) us' (pos_from (radix hex) m ds) (if dot then frac + Z.of_nat (length ds) else frac).
Proof.
  unfold raw. induction t as [|c t IH]; intros ds rest dot dig us m frac H.
  - inversion H; subst. exists us. split; [cbn; tauto|]. cbn [app nonempty length]. rewrite orb_false_r. rewrite pos_from_nil.
    f_equal. destruct dot; cbn [Z.of_nat]; lia.
  - rewrite strip_cons in H. destruct (Z.eqb_spec c 95) as [ -> |N].
    + destruct (IH ds rest dot dig true m frac H) as (us' & U & E). exists us'. split; [|exact E].
      assert (us' = true) by (apply U; auto). subst. cbn. tauto.
    + inversion H as [|? d ? ds' D H']; subst. cbn [app]. rewrite (digit_step _ _ _ _ _ _ _ _ _ D).
      destruct (IH ds' rest dot true us (m * radix hex + d) (if dot then frac + 1 else frac) H') as (us' & U & E). exists us'. split.
      * rewrite <- U. cbn [In]. split; intros [K|K]; auto. destruct K; [congruence|auto].
      * rewrite E. rewrite pos_from_cons. cbn [nonempty orb]. rewrite orb_true_r. f_equal. cbn [length]. destruct dot; lia.
Qed.
Lemma raw_split hex t : exists i r ds, t = i ++ r /\ raw hex i ds /\ match r with [] => True | c :: _ => scan_digit hex c = false /\ c <> 95 end.
Proof.
  induction t as [|c t (i & r & ds & -> & R & S)].
  - exists [], [], []. split; [reflexivity|]. split; [constructor|exact I].
  - destruct (Z.eq_dec c 95) as [ -> |N].
    + exists (95 :: i), r, ds. split; [reflexivity|]. split; [exact R|exact S].
    + destruct (scan_digit hex c) eqn:E.
      * destruct (digit_out _ _ E) as (d & D). exists (c :: i), r, (d :: ds). split; [reflexivity|]. split; [|exact S].
        unfold raw. rewrite strip_cons. destruct (Z.eqb_spec c 95); [contradiction|]. constructor; auto.
      * exists [], (c :: i ++ r), []. split; [reflexivity|]. split; [constructor|]. auto.
Qed.
Lemma group_raw hex t ds : digit_group (radix hex) t ds -> raw hex t ds.
Proof. intros [[-> ->]|H]; [constructor|apply separated_strip, H]. Qed.

(** The whole mantissa, read from the text. *)
Lemma mant_read hex i p f x di df : raw hex i di -> point_part p f -> raw hex f df -> halts hex (nonempty p) x ->
  exists us, (In 95 (i ++ p ++ f) <-> us = true) /\
  read_mant hex (i ++ p ++ f ++ x) false false false 0 0 =
  (positional (radix hex) (di ++ df), Z.of_nat (length df), nonempty (di ++ df), us, x).
Proof.
  intros Ri Hp Rf Hx.
  destruct (mant_raw hex i di (p ++ f ++ x) false false false 0 0 Ri) as (us & U & E). rewrite E. clear E.
  destruct Hp as [ -> |[ -> -> ]]; cbn [app nonempty] in *.
  - cbn [read_mant]. change (46 =? 95) with false. change (46 =? 46) with true. cbv iota.
    destruct (mant_raw hex f df x true (false || nonempty di) us (pos_from (radix hex) 0 di) 0 Rf) as (us' & U' & E'). rewrite E'.
    rewrite mant_halts by exact Hx. exists us'. split.
    + rewrite <- U', <- U. rewrite in_app_iff. cbn [In]. split; [intros [K|[K|K]]; auto; discriminate|intros [[K|K]|K]; auto; discriminate].
    + rewrite <- pos_from_app, pos_from_0. f_equal. f_equal. destruct di, df; reflexivity.
  - unfold raw, strip in Rf. cbn in Rf. inversion Rf; subst. rewrite mant_halts by exact Hx. exists us. split.
    + rewrite <- U. rewrite app_nil_r. split; [auto|intros [K|K]; [discriminate|auto]].
    + rewrite !app_nil_r, pos_from_0. cbn [orb]. reflexivity.
Qed.
Lemma mant_shape hex t : exists i p f x di df, t = i ++ p ++ f ++ x /\ raw hex i di /\ point_part p f /\ raw hex f df /\ halts hex (nonempty p) x.
Proof.
  destruct (raw_split hex t) as (i & r & di & -> & Ri & Si). destruct r as [|c r].
  - exists i, [], [], [], di, []. split; [reflexivity|]. split; [exact Ri|]. split; [right; auto|]. split; [constructor|exact I].
  - destruct (Z.eq_dec c 46) as [ -> |N].
    + destruct (raw_split hex r) as (f & x & df & -> & Rf & Sf). exists i, [46], f, x, di, df.
      split; [reflexivity|]. split; [exact Ri|]. split; [left; auto|]. split; [exact Rf|]. destruct x; [exact I|]. cbn. tauto.
    + exists i, [], [], (c :: r), di, []. split; [reflexivity|]. split; [exact Ri|]. split; [right; auto|]. split; [constructor|]. cbn. tauto.
Qed.

(** ** Reading the exponent *)
Definition clear_of_digits (hex : bool) (r : bytes) : Prop := match r with [] => True | c :: _ => scan_digit hex c = false /\ c <> 95 end.
Lemma num_scan b : is_num b = scan_digit false b.
Proof. unfold scan_digit, is_num, in_rng. cbn [andb]. rewrite orb_false_r. reflexivity. Qed.
Lemma digit10 b d : digit 10 b d -> b = 48 + d /\ 0 <= d <= 9.
Proof. destruct 1; lia. Qed.
Lemma expd_raw t : forall ds rest e us, raw false t ds -> clear_of_digits false rest -> 0 <= e < 100000 ->
  exists e' us', read_exp_digits (t ++ rest) e us = (e', us', rest) /\ (us = true \/ In 95 t <-> us' = true) /\
    (pos_from 10 e ds < 100000 -> e' = pos_from 10 e ds) /\ (100000 <= pos_from 10 e ds -> 10000 <= e' < 100000).
Proof.
  induction t as [|c t IH]; intros ds rest e us R C He; unfold raw in *.
  - inversion R; subst. rewrite pos_from_nil. exists e, us. split; [|split; [cbn; tauto|lia]]. cbn [app]. destruct rest as [|c r]; [reflexivity|].
    destruct C as [C1 C2]. cbn [read_exp_digits]. rewrite num_scan, C1. destruct (Z.eqb_spec c 95); [contradiction|reflexivity].
  - cbn [app read_exp_digits]. rewrite strip_cons in R. destruct (Z.eqb_spec c 95) as [ -> |N].
    + destruct (IH ds rest e true R C He) as (e' & us' & E & U & V). exists e', us'. split; [exact E|]. split; [|exact V].
      assert (us' = true) by (apply U; auto). subst. cbn. tauto.
    + inversion R as [|? d ? ds' D R']; subst. cbn [radix] in D. destruct (digit10 _ _ D) as [-> Hd]. replace (is_num (48 + d)) with true by (unfold is_num; lia).
      replace (48 + d - 48) with d by lia. rewrite pos_from_cons.
      assert (F : Forall (fun d => 0 <= d < 10) ds'). { clear - R'. cbn [radix] in R'. induction R' as [|? ? ? ? D]; constructor; auto. destruct (digit10 _ _ D). lia. }
      pose proof (positional_bound 10 ds' ltac:(lia) F) as PB. assert (PP : 1 <= 10 ^ Z.of_nat (length ds')) by (clear - PB; lia).
      assert (In1 : forall us', (us = true \/ In 95 t <-> us' = true) -> (us = true \/ In 95 (48 + d :: t) <-> us' = true)).
      { intros us' U. rewrite <- U. cbn [In]. split; intros [K|K]; auto. destruct K; [exfalso; lia|auto]. }
      destruct (Z.ltb_spec e 10000) as [L|L].
      * destruct (IH ds' rest (e * 10 + d) us R' C ltac:(lia)) as (e' & us' & E & U & V). exists e', us'. auto.
      * destruct (IH ds' rest e us R' C He) as (e' & us' & E & U & V1 & V2). exists e', us'. split; [exact E|]. split; [auto|].
        assert (G : 100000 <= pos_from 10 (e * 10 + d) ds') by (unfold pos_from; nia). split; [lia|]. intros _.
        assert (G2 : 10000 <= pos_from 10 e ds') by (unfold pos_from; nia). lia.
Qed.
Definition letter (hex : bool) : Z := if hex then 112 else 101.
(** A letter, a sign, a digit, digits and underscores. *)
Definition raw_exponent (l : Z) (x : bytes) (neg : bool) (c : Z) (sg t : bytes) (ds : list Z) : Prop :=
  x = c :: sg ++ t /\ (c = l \/ c = l - 32) /\ signed sg neg /\ raw false t ds /\ match t with [] => False | d :: _ => is_num d = true end.
Definition signz (neg : bool) : Z := if neg then -1 else 1.
Lemma read_sign sg neg t : signed sg neg -> match t with c :: _ => c <> 43 /\ c <> 45 | [] => True end ->
  match sg ++ t with
  | c :: r => if c =? 43 then (false, r) else if c =? 45 then (true, r) else (false, sg ++ t)
  | [] => (false, [])
  end = (neg, t).
Proof.
  intros [[[ -> | -> ] -> ]|[ -> -> ]] H; try reflexivity. cbn [app]. destruct t as [|c t]; [reflexivity|].
  destruct H as [H1 H2]. replace (c =? 43) with false by lia. replace (c =? 45) with false by lia. reflexivity.
Qed.
Lemma read_sign_exp sg neg t : signed sg neg -> match t with c :: _ => c <> 43 /\ c <> 45 | [] => True end ->
  match sg ++ t with
  | c :: r => if c =? 43 then (1, r) else if c =? 45 then (-1, r) else (1, sg ++ t)
  | [] => (1, [])
  end = (signz neg, t).
Proof.
  intros [[[ -> | -> ] -> ]|[ -> -> ]] H; try reflexivity. cbn [app]. destruct t as [|c t]; [reflexivity|].
  destruct H as [H1 H2]. replace (c =? 43) with false by lia. replace (c =? 45) with false by lia. reflexivity.
Qed.
Lemma lower_letter c l : 97 <= l <= 122 -> (lower c = l <-> c = l \/ c = l - 32).
Proof. intros H. unfold lower, in_rng. destruct ((65 <=? c) && (c <=? 90)) eqn:E; lia. Qed.
Lemma letter_small hex : 97 <= letter hex <= 122.
Proof. destruct hex; cbn; lia. Qed.
(** How the exponent read compares with the exponent written. *)
Definition reads_as (ex e : Z) : Prop := (Z.abs ex < 100000 -> e = ex) /\ (100000 <= ex -> 10000 <= e) /\ (ex <= -100000 -> e <= -10000).
Lemma exp_read hex x us neg c sg t ds : raw_exponent (letter hex) x neg c sg t ds ->
  exists e us', read_exp hex x us = Some (e, us', []) /\ (us = true \/ In 95 x <-> us' = true) /\ reads_as (signz neg * positional 10 ds) e.
Proof.
  intros (-> & Hc & Hs & R & Ht). apply (lower_letter c _ (letter_small hex)) in Hc.
  destruct t as [|d t]; [contradiction|].
  assert (Nd : d <> 43 /\ d <> 45) by (unfold is_num in Ht; lia).
  cbn [read_exp]. fold (letter hex). rewrite Hc, Z.eqb_refl. rewrite (read_sign_exp sg neg (d :: t) Hs Nd). rewrite Ht.
  destruct (expd_raw (d :: t) ds [] 0 us R I ltac:(lia)) as (e & us' & E & U & V1 & V2). rewrite app_nil_r in E. rewrite E.
  rewrite pos_from_0 in *.
  exists (signz neg * e), us'. split; [reflexivity|]. split.
  - rewrite <- U. assert (Nc : c <> 95). { intros ->. cbn in Hc. pose proof (letter_small hex). lia. }
    assert (K : In 95 (c :: sg ++ d :: t) <-> In 95 (d :: t)).
    { cbn [In]. rewrite in_app_iff. cbn [In]. destruct Hs as [[[ -> | -> ] _]|[ -> _ ]]; cbn [In]; intuition congruence. }
    rewrite K. tauto.
  - assert (P : 0 <= positional 10 ds).
    { apply positional_bound; [lia|]. clear - R. unfold raw in R. cbn [radix] in R. induction R as [|? ? ? ? D]; constructor; auto. destruct (digit10 _ _ D). lia. }
    unfold reads_as. destruct neg; cbn [signz]; lia.
Qed.
Lemma exp_back hex x us e us' : read_exp hex x us = Some (e, us', []) ->
  (hex = false /\ x = [] /\ us' = us /\ e = 0) \/ exists neg c sg t ds, raw_exponent (letter hex) x neg c sg t ds.
Proof.
  destruct x as [|c r]; cbn [read_exp].
  - destruct hex; [discriminate|]. intros E. injection E as <- <-. auto.
  - fold (letter hex). destruct (Z.eqb_spec (lower c) (letter hex)) as [Lc|]; [|destruct hex; discriminate].
    apply (lower_letter c _ (letter_small hex)) in Lc.
    assert (K : exists sg neg t, r = sg ++ t /\ signed sg neg /\
      match r with x :: r' => if x =? 43 then (1, r') else if x =? 45 then (-1, r') else (1, r) | [] => (1, []) end = (signz neg, t)).
    { unfold signed. destruct r as [|y r]; [exists [], false, []; auto 8|]. destruct (Z.eqb_spec y 43) as [ -> |]; [exists [43], false, r; auto 8|].
      destruct (Z.eqb_spec y 45) as [ -> |]; [exists [45], true, r; auto 8|]. exists [], false, (y :: r). auto 8. }
    destruct K as (sg & neg & t & Er & Hs & ->). destruct t as [|d t]; [discriminate|]. destruct (is_num d) eqn:D; [|discriminate].
    destruct (raw_split false (d :: t)) as (i & rest & ds & Es & R & S). destruct (expd_raw i ds rest 0 us R S ltac:(lia)) as (e' & us1 & E & _).
    rewrite Es in *. rewrite E. intros X. injection X as _ _ Er2. rewrite Er2, app_nil_r in *. right. exists neg, c, sg, (d :: t), ds. rewrite <- Es in R.
    split; [rewrite Er; rewrite Es; reflexivity|]. auto.
Qed.

(** ** Underscores *)
Lemma scan_clear hex r saw : clear_of_digits hex r -> saw <> 95 -> underscore_scan hex r saw = underscore_scan hex r 48.
Proof.
  destruct r as [|c r]; cbn [clear_of_digits underscore_scan]; intros C N.
  - replace (saw =? 95) with false by lia. reflexivity.
  - destruct C as [C1 C2]. unfold scan_digit in C1. rewrite C1. replace (c =? 95) with false by lia. replace (saw =? 95) with false by lia. reflexivity.
Qed.
Lemma scan_clear_95 hex r : clear_of_digits hex r -> underscore_scan hex r 95 = false.
Proof.
  destruct r as [|c r]; cbn [clear_of_digits underscore_scan]; intros C; [reflexivity|].
  destruct C as [C1 C2]. unfold scan_digit in C1. rewrite C1. replace (c =? 95) with false by lia. reflexivity.
Qed.
Section ScanTail.
Variables (base : Z) (hex : bool).
Hypothesis Hb : (base <= 10 /\ hex = false) \/ (base <= 16 /\ hex = true).
Lemma sep_under t ds : ~ separated base (95 :: t) ds.
Proof. intros S. inversion S; subst; match goal with H : digit base 95 _ |- _ => destruct (digit_byte _ _ _ H) end; lia. Qed.
Lemma scan_raw t r : clear_of_digits hex r -> forall ds, Forall2 (digit base) (strip t) ds ->
  (underscore_scan hex (t ++ r) 95 = true <-> separated base t ds /\ underscore_scan hex r 48 = true) /\
  (underscore_scan hex (t ++ r) 48 = true <->
     ((t = [] /\ ds = []) \/ exists u t', one_underscore u /\ t = u ++ t' /\ separated base t' ds) /\ underscore_scan hex r 48 = true).
Proof.
  intros C. induction t as [|c t IH]; intros ds F.
  - inversion F; subst. cbn [app]. rewrite scan_clear_95 by exact C. split; split.
    + discriminate.
    + intros [S _]. inversion S.
    + intros H. auto.
    + intros [_ H]. exact H.
  - cbn [app]. destruct (Z.eq_dec c 95) as [->|N].
    + cbn [underscore_scan]. replace (in_rng 48 57 95 || (hex && in_rng 97 102 (lower 95))) with false by (destruct hex; reflexivity).
      change (95 =? 95) with true. change (95 =? 48) with false. change (48 =? 48) with true. cbv iota. split.
      * split; [discriminate|]. intros [S _]. elim (sep_under _ _ S).
      * destruct (IH ds F) as [A _]. rewrite A. split.
        -- intros [S H]. split; [|exact H]. right. exists [95], t. split; [right; reflexivity|]. auto.
        -- intros [[[Q0 _]|(u & t' & [->| ->] & E & S)] H]; [discriminate|cbn in E; subst t'; elim (sep_under _ _ S)|]. injection E as ->. auto.
    + destruct (strip_digit base c t ds F N) as (d & ds' & -> & Hd & F'). destruct (IH ds' F') as [_ B].
      assert (Sc : forall saw, underscore_scan hex (c :: t ++ r) saw = underscore_scan hex (t ++ r) 48) by (intros saw; cbn [underscore_scan]; rewrite (digit_scan base hex Hb _ _ Hd); reflexivity).
      assert (Y : underscore_scan hex (t ++ r) 48 = true <-> separated base (c :: t) (d :: ds') /\ underscore_scan hex r 48 = true).
      { rewrite B. split.
        - intros [[[-> ->]|(u & t' & [->| ->] & -> & S)] H]; (split; [|exact H]); [apply sp_last|apply sp_next|apply sp_under]; auto.
        - intros [S H]. split; [|exact H]. inversion S; subst; [left; auto|right; exists [], t; split; [left|]; auto|].
          match goal with S' : separated base ?z ds' |- _ => right; exists [95], z; split; [right|]; auto end. }
      rewrite !Sc. split; [exact Y|]. rewrite Y. split.
      * intros [S H]. split; [|exact H]. right. exists [], (c :: t). split; [left|]; auto.
      * intros [[[Q0 _]|(u & t' & [->| ->] & E & S)] H]; [discriminate|cbn in E; subst t'; auto|]. injection E as ->. congruence.
Qed.
Lemma scan_group t r saw : clear_of_digits hex r -> forall ds, Forall2 (digit base) (strip t) ds -> saw <> 48 -> saw <> 95 ->
  (underscore_scan hex (t ++ r) saw = true <-> digit_group base t ds /\ underscore_scan hex r 48 = true).
Proof.
  intros C ds F N1 N2. destruct t as [|c t].
  - inversion F; subst. cbn [app]. rewrite scan_clear by auto. unfold digit_group. tauto.
  - unfold digit_group. destruct (Z.eq_dec c 95) as [->|N].
    + cbn [app underscore_scan]. replace (in_rng 48 57 95 || (hex && in_rng 97 102 (lower 95))) with false by (destruct hex; reflexivity).
      change (95 =? 95) with true. cbv iota. replace (saw =? 48) with false by lia. split; [discriminate|].
      intros [[[Q0 _]|S] _]; [discriminate|elim (sep_under _ _ S)].
    + destruct (strip_digit base c t ds F N) as (d & ds' & -> & Hd & F').
      assert (Sc : forall saw, underscore_scan hex ((c :: t) ++ r) saw = underscore_scan hex (t ++ r) 48) by (intros s; cbn [app underscore_scan]; rewrite (digit_scan base hex Hb _ _ Hd); reflexivity).
      rewrite Sc. rewrite <- (Sc 95). rewrite (proj1 (scan_raw (c :: t) r C _ F)). split; [tauto|]. intros [[[Q0 _]|S] H]; [discriminate|auto].
Qed.
End ScanTail.
Lemma scan_skip hex c r : scan_digit hex c = false -> c <> 95 -> underscore_scan hex (c :: r) 48 = underscore_scan hex r 33.
Proof. intros A B. cbn [underscore_scan]. unfold scan_digit in A. rewrite A. replace (c =? 95) with false by lia. reflexivity. Qed.
Lemma scan_skip33 hex c r : scan_digit hex c = false -> c <> 95 -> underscore_scan hex (c :: r) 33 = underscore_scan hex r 33.
Proof. intros A B. cbn [underscore_scan]. unfold scan_digit in A. rewrite A. replace (c =? 95) with false by lia. reflexivity. Qed.
Lemma radix_scan hex : (radix hex <= 10 /\ hex = false) \/ (radix hex <= 16 /\ hex = true).
Proof. destruct hex; cbn [radix]; [right|left]; split; auto; lia. Qed.
Lemma ten_scan hex : (10 <= 10 /\ hex = false) \/ (10 <= 16 /\ hex = true).
Proof. destruct hex; [right|left]; split; auto; lia. Qed.
Lemma letter_clear hex c : c = letter hex \/ c = letter hex - 32 -> scan_digit hex c = false /\ c <> 95 /\ c <> 46.
Proof. unfold scan_digit, lower, in_rng, letter. destruct hex; cbn [andb]; intros [-> | ->]; cbn; lia. Qed.
Lemma sign_clear hex c : c = 43 \/ c = 45 -> scan_digit hex c = false /\ c <> 95.
Proof. unfold scan_digit. destruct hex; intros [-> | ->]; cbn; lia. Qed.
(** The exponent, in order. *)
Definition tail_raw (hex : bool) (x : bytes) (xs : list Z) : Prop :=
  (x = [] /\ hex = false /\ xs = []) \/ exists neg c sg t, raw_exponent (letter hex) x neg c sg t xs.
Definition tail_fine (hex : bool) (x : bytes) : Prop :=
  x = [] \/ exists neg c sg t ds, raw_exponent (letter hex) x neg c sg t ds /\ separated 10 t ds.
Lemma tail_clear hex x xs : tail_raw hex x xs -> clear_of_digits hex x /\ forall dot, halts hex dot x.
Proof.
  intros [[-> _]|(neg & c & sg & t & -> & Hc & _)]; [split; [exact I|intros; exact I]|]. apply letter_clear in Hc. cbn. split; [tauto|]. intros. tauto.
Qed.
Lemma raw_exponent_unique l x neg c sg t ds neg' c' sg' t' ds' :
  raw_exponent l x neg c sg t ds -> raw_exponent l x neg' c' sg' t' ds' -> neg = neg' /\ t = t' /\ sg = sg' /\ c = c'.
Proof.
  intros (-> & _ & Hs & _ & Ht) (E & _ & Hs' & _ & Ht'). injection E as -> E.
  destruct t as [|d t]; [contradiction|]. destruct t' as [|d' t']; [contradiction|]. unfold is_num in *.
  destruct Hs as [[[-> | ->] ->]|[-> ->]], Hs' as [[[-> | ->] ->]|[-> ->]]; cbn [app] in E; injection E; intros; subst; auto; lia.
Qed.
Lemma scan_exponent hex x xs : tail_raw hex x xs -> (underscore_scan hex x 48 = true <-> tail_fine hex x).
Proof.
  intros [[-> _]|(neg & c & sg & t & R)]; [split; [left; auto|reflexivity]|]. pose proof R as R0. destruct R as (-> & Hc & Hs & Rt & Ht).
  destruct (letter_clear _ _ Hc) as (C1 & C2 & _). rewrite (scan_skip hex c _ C1 C2).
  assert (K : underscore_scan hex (sg ++ t) 33 = underscore_scan hex (t ++ []) 33).
  { rewrite app_nil_r. destruct Hs as [[[-> | ->] _]|[-> _]]; [reflexivity| |]; cbn [app]; apply scan_skip33; apply sign_clear; auto. }
  rewrite K. unfold raw in Rt. cbn [radix] in Rt. rewrite (scan_group 10 hex (ten_scan hex) t [] 33 I xs Rt) by lia. split.
  - intros [[[-> _]|S] _]; [contradiction|]. right. exists neg, c, sg, t, xs. auto.
  - intros [?|(n' & c' & sg' & t' & ds' & R' & S)]; [discriminate|]. destruct (raw_exponent_unique _ _ _ _ _ _ _ _ _ _ _ _ R0 R') as (_ & <- & _).
    split; [|reflexivity]. right. apply separated_strip in S as F. replace xs with ds'; [exact S|].
    clear - F Rt. revert F Rt. generalize (strip t). intros l F. revert xs. induction F as [|b d l ds D F IH]; intros xs G; inversion G; subst; auto.
    f_equal; [|auto]. match goal with A : digit 10 b ?y |- d = ?y => destruct (digit10 _ _ A), (digit10 _ _ D); lia end.
Qed.
Lemma scan_fraction hex p f x df xs : point_part p f -> raw hex f df -> tail_raw hex x xs ->
  (underscore_scan hex (p ++ f ++ x) 48 = true <-> digit_group (radix hex) f df /\ tail_fine hex x).
Proof.
  intros Hp Rf Hx. destruct (tail_clear _ _ _ Hx) as [Cx _]. rewrite <- (scan_exponent _ _ _ Hx). destruct Hp as [-> |[-> ->]]; cbn [app].
  - rewrite scan_skip by (destruct hex; cbn; lia || reflexivity). apply (scan_group (radix hex) hex (radix_scan hex)); auto; lia.
  - unfold raw, strip in Rf. cbn in Rf. inversion Rf; subst. unfold digit_group. tauto.
Qed.
Lemma frac_clear hex p f x xs : point_part p f -> tail_raw hex x xs -> clear_of_digits hex (p ++ f ++ x).
Proof.
  intros [-> |[-> ->]] Hx; [|exact (proj1 (tail_clear _ _ _ Hx))]. cbn. destruct hex; cbn; split; (reflexivity || lia).
Qed.

(** ** The whole text *)
Definition no_prefix_letter (b : Z) : Prop := lower b <> 98 /\ lower b <> 111 /\ lower b <> 120.
Lemma raw_bytes hex t ds : raw hex t ds -> Forall (fun b => b = 95 \/ scan_digit hex b = true) t.
Proof.
  unfold raw. revert ds. induction t as [|c t IH]; intros ds F; [constructor|]. rewrite strip_cons in F. destruct (Z.eqb_spec c 95) as [->|N].
  - constructor; [auto|]. eapply IH; eauto.
  - inversion F; subst. constructor; [right; eapply digit_in; eauto|]. eapply IH; eauto.
Qed.
Lemma raw_plain t ds : raw false t ds -> Forall no_prefix_letter t.
Proof.
  intros H. apply raw_bytes in H. revert H. apply Forall_impl. intros b [-> |H]; [unfold no_prefix_letter, lower, in_rng; cbn; lia|].
  unfold scan_digit, in_rng in H. cbn [andb] in H. unfold no_prefix_letter, lower, in_rng. destruct ((65 <=? b) && (b <=? 90)); lia.
Qed.
Lemma tail_plain x xs : tail_raw false x xs -> Forall no_prefix_letter x.
Proof.
  intros [[-> _]|(neg & c & sg & t & -> & Hc & Hs & R & _)]; [constructor|].
  assert (K : forall b, b = 101 \/ b = 69 \/ b = 43 \/ b = 45 -> no_prefix_letter b) by (intros b [-> |[-> |[-> | ->]]]; unfold no_prefix_letter; cbn; lia).
  constructor; [apply K; cbn [letter] in Hc; lia|]. apply Forall_app. split; [|eapply raw_plain; eauto].
  destruct Hs as [[[-> | ->] _]|[-> _]]; repeat constructor; apply K; auto.
Qed.
Lemma scan_no_underscore hex s : forall saw, ~ In 95 s -> saw <> 95 -> underscore_scan hex s saw = true.
Proof.
  induction s as [|c s IH]; intros saw N Ns; cbn [underscore_scan].
  - replace (saw =? 95) with false by lia. reflexivity.
  - cbn [In] in N. destruct (_ || _); [apply IH; [tauto|lia]|]. destruct (Z.eqb_spec c 95); [tauto|]. replace (saw =? 95) with false by lia. apply IH; [tauto|lia].
Qed.
Lemma ok_no_underscore s : ~ In 95 s -> underscore_ok s = true.
Proof.
  intros N. unfold underscore_ok.
  assert (K : ~ In 95 (match s with c :: r => if (c =? 45) || (c =? 43) then r else s | [] => [] end)).
  { destruct s as [|c s]; [auto|]. destruct (_ || _); [cbn in N; tauto|auto]. }
  destruct (match s with c :: r => if (c =? 45) || (c =? 43) then r else s | [] => [] end) as [|z [|x r]].
  - reflexivity.
  - apply scan_no_underscore; [exact K|lia].
  - destruct (_ && _); apply scan_no_underscore; try lia; [|exact K]. cbn in *. tauto.
Qed.
Definition unsigned_start (t : bytes) : Prop := match t with c :: _ => c <> 43 /\ c <> 45 | [] => True end.
Lemma ok_strip_sign sg neg t : signed sg neg -> unsigned_start t ->
  match sg ++ t with c :: r => if (c =? 45) || (c =? 43) then r else sg ++ t | [] => [] end = t.
Proof.
  intros [[[-> | ->] _]|[-> _]] H; try reflexivity. cbn [app]. destruct t as [|c t]; [reflexivity|]. destruct H. replace ((c =? 45) || (c =? 43)) with false by lia. reflexivity.
Qed.
Lemma ok_decimal sg neg t : signed sg neg -> unsigned_start t -> Forall no_prefix_letter t -> underscore_ok (sg ++ t) = underscore_scan false t 94.
Proof.
  intros Hs Hu Hp. unfold underscore_ok. rewrite (ok_strip_sign sg neg t Hs Hu). destruct t as [|z [|x r]]; try reflexivity.
  inversion Hp as [|? ? _ Hp']; subst. inversion Hp' as [|? ? H _]; subst. destruct H as (A & B & C).
  replace (lower x =? 98) with false by lia. replace (lower x =? 111) with false by lia. replace (lower x =? 120) with false by lia. rewrite andb_false_r. reflexivity.
Qed.
Lemma ok_hex sg neg y t : signed sg neg -> y = 120 \/ y = 88 -> underscore_ok (sg ++ 48 :: y :: t) = underscore_scan true t 48.
Proof.
  intros Hs Hy. unfold underscore_ok. rewrite (ok_strip_sign sg neg (48 :: y :: t) Hs) by (cbn; lia). destruct Hy as [-> | ->]; reflexivity.
Qed.

Definition written (hex : bool) (x : bytes) (ex : Z) : Prop :=
  (x = [] /\ hex = false /\ ex = 0) \/ exists neg c sg t ds, raw_exponent (letter hex) x neg c sg t ds /\ ex = signz neg * positional 10 ds.
Lemma written_tail hex x ex : written hex x ex -> exists xs, tail_raw hex x xs.
Proof. intros [(-> & -> & _)|(neg & c & sg & t & ds & R & _)]; [exists []; left; auto|]. exists ds. right. eauto. Qed.
Definition prefix (hex : bool) (y : Z) : bytes := if hex then [48; y] else [].
Lemma body_start i p f x di df : raw false i di -> point_part p f -> raw false f df -> di ++ df <> [] -> unsigned_start (i ++ p ++ f ++ x).
Proof.
  intros Ri Hp Rf Ne. destruct i as [|b i].
  - cbn [app]. destruct Hp as [-> |[-> ->]]; [cbn; lia|]. unfold raw in *. inversion Ri; inversion Rf; subst. elim Ne. reflexivity.
  - apply raw_bytes in Ri. inversion Ri as [|? ? H _]; subst. cbn. unfold scan_digit, in_rng in H. cbn [andb] in H. lia.
Qed.
Lemma read_all_core s sg neg hex y i p f x di df ex : s = sg ++ prefix hex y ++ i ++ p ++ f ++ x -> signed sg neg -> (hex = true -> y = 120 \/ y = 88) ->
  raw hex i di -> point_part p f -> raw hex f df -> di ++ df <> [] -> written hex x ex ->
  exists e, reads_as ex e /\ read_float_all s =
    if underscore_ok s then Some (neg, hex, positional (radix hex) (di ++ df), (if hex then e - 4 * Z.of_nat (length df) else e - Z.of_nat (length df)), []) else None.
Proof.
  intros Es Hs Hy Ri Hp Rf Ne Hw. destruct (written_tail _ _ _ Hw) as (xs & Tx). destruct (tail_clear _ _ _ Tx) as [Cx Hx].
  set (body := i ++ p ++ f ++ x) in *.
  assert (Us : unsigned_start (prefix hex y ++ body)).
  { destruct hex; cbn [prefix app]; [cbn; lia|]. eapply body_start; eauto. }
  assert (Bn : body <> []).
  { unfold body. destruct hex.
    - destruct Hw as [(_ & ? & _)|(a & c & g & t & ds & R & _)]; [discriminate|]. destruct R as (-> & _). destruct i, p, f; discriminate.
    - destruct i; [|discriminate]. destruct p; [|discriminate]. destruct f; [|discriminate]. unfold raw in *. inversion Ri; inversion Rf; subst. elim Ne. reflexivity. }
  assert (Hh : match prefix hex y ++ body with
      | z :: x :: ((_ :: _) as t) => if (z =? 48) && (lower x =? 120) then (true, t) else (false, prefix hex y ++ body)
      | _ => (false, prefix hex y ++ body) end = (hex, body)).
  { destruct hex; cbn [prefix app].
    - destruct body as [|b body']; [congruence|]. destruct (Hy eq_refl) as [-> | ->]; reflexivity.
    - assert (Pl : Forall no_prefix_letter body).
      { unfold body. apply Forall_app. split; [eapply raw_plain; eauto|]. apply Forall_app. split.
        - destruct Hp as [-> |[-> _]]; repeat constructor; cbn; discriminate.
        - apply Forall_app. split; [eapply raw_plain; eauto|eapply tail_plain; eauto]. }
      destruct body as [|z [|b [|b' body']]]; try reflexivity. inversion Pl as [|? ? _ Pl']; subst. inversion Pl' as [|? ? (_ & _ & H) _]; subst.
      replace (lower b =? 120) with false by lia. rewrite andb_false_r. reflexivity. }
  destruct (mant_read hex i p f x di df Ri Hp Rf (Hx _)) as (us & U & M).
  assert (Nd : nonempty (di ++ df) = true) by (destruct (di ++ df); [congruence|reflexivity]).
  assert (Ex : exists e us', read_exp hex x us = Some (e, us', []) /\ (us = true \/ In 95 x <-> us' = true) /\ reads_as ex e).
  { destruct Hw as [(-> & -> & ->)|(a & c & g & t & ds & R & ->)].
    - exists 0, us. split; [reflexivity|]. split; [cbn; tauto|]. unfold reads_as. lia.
    - eapply exp_read; eauto. }
  destruct Ex as (e & us' & E & U' & Ra). exists e. split; [exact Ra|].
  pose proof (read_sign sg neg _ Hs Us) as RS. rewrite <- Es in RS. unfold read_float_all.
  match goal with |- context [match s with [] => (false, []) | c :: r => @?F c r end] => set (A := match s with [] => (false, []) | c :: r => F c r end) end.
  replace A with (neg, prefix hex y ++ body) by (symmetry; exact RS). clear A RS.
  match goal with |- context [match prefix hex y ++ body with [] => ?a | z :: l => @?F z l end] => set (A := match prefix hex y ++ body with [] => a | z :: l => F z l end) end.
  replace A with (hex, body) by (symmetry; exact Hh). clear A Hh.
  unfold body at 1. rewrite M, Nd, E.
  rewrite Nat.sub_0_r, firstn_all.
  destruct (underscore_ok s) eqn:Ok; [rewrite andb_false_r; reflexivity|].
  destruct us'; [reflexivity|]. exfalso.
  assert (N : ~ In 95 s).
  { rewrite Es. rewrite !in_app_iff. intros K.
    assert (K2 : In 95 (i ++ p ++ f) \/ In 95 x).
    { unfold body in K. rewrite !in_app_iff in *. destruct K as [K|[K|K]]; [|destruct hex; cbn [prefix In] in K; [destruct (Hy eq_refl); lia|tauto]|tauto].
      destruct Hs as [[[-> | ->] _]|[-> _]]; cbn in K; lia. }
    assert (false = true); [|discriminate]. apply U'. destruct K2 as [K2|K2]; [left; apply U; exact K2|auto]. }
  rewrite (ok_no_underscore s N) in Ok. discriminate.
Qed.
Lemma ok_groups s sg neg hex y i p f x di df ex : s = sg ++ prefix hex y ++ i ++ p ++ f ++ x -> signed sg neg -> (hex = true -> y = 120 \/ y = 88) ->
  raw hex i di -> point_part p f -> raw hex f df -> di ++ df <> [] -> written hex x ex ->
  (underscore_ok s = true <->
   (if hex then (i = [] /\ di = []) \/ (exists u i', one_underscore u /\ i = u ++ i' /\ separated 16 i' di) else digit_group 10 i di) /\
   digit_group (radix hex) f df /\ tail_fine hex x).
Proof.
  intros -> Hs Hy Ri Hp Rf Ne Hw. destruct (written_tail _ _ _ Hw) as (xs & Tx). pose proof (frac_clear hex p f x xs Hp Tx) as C.
  rewrite <- (scan_fraction hex p f x df xs Hp Rf Tx). destruct hex; cbn [prefix app].
  - rewrite (ok_hex sg neg y _ Hs (Hy eq_refl)). exact (proj2 (scan_raw 16 true (radix_scan true) i _ C di Ri)).
  - rewrite (ok_decimal sg neg _ Hs).
    + apply (scan_group 10 false (radix_scan false) i _ 94 C di Ri); lia.
    + eapply body_start; eauto.
    + apply Forall_app. split; [eapply raw_plain; eauto|]. apply Forall_app. split.
      * destruct Hp as [-> |[-> _]]; repeat constructor; cbn; discriminate.
      * apply Forall_app. split; [eapply raw_plain; eauto|eapply tail_plain; eauto].
Qed.
Lemma group_nil base t : digit_group base t [] -> t = [].
Proof. intros [[-> _]|S]; [reflexivity|inversion S]. Qed.
Lemma separated_head t ds : separated 10 t ds -> match t with [] => False | d :: _ => is_num d = true end.
Proof. intros S. inversion S as [? ? D|? ? ? ? D|? ? ? ? D]; subst; destruct (digit10 _ _ D) as [-> ?]; unfold is_num; lia. Qed.
Lemma part_written hex x ex : exponent_part (letter hex) x ex -> written hex x ex /\ tail_fine hex x.
Proof.
  intros (c & sg & neg & t & ds & -> & Hc & Hs & S & ->).
  assert (R : raw_exponent (letter hex) (c :: sg ++ t) neg c sg t ds).
  { split; [reflexivity|]. split; [exact Hc|]. split; [exact Hs|]. split; [apply (separated_strip 10), S|eapply separated_head; eauto]. }
  split; right; exists neg, c, sg, t, ds; auto.
Qed.
Lemma written_part hex x ex : written hex x ex -> tail_fine hex x -> (x = [] /\ hex = false) \/ exists ex', exponent_part (letter hex) x ex'.
Proof.
  intros [(-> & -> & _)|(neg & c & sg & t & ds & R & _)]; [auto|]. intros [-> |(neg' & c' & sg' & t' & ds' & R' & S)].
  - destruct R as (? & _). discriminate.
  - right. eexists. destruct R' as (-> & Hc & Hs & _). exists c', sg', neg', t', ds'. split; [reflexivity|]. auto.
Qed.
Lemma literal_read s neg m b k ex : float_literal s neg m b k ex ->
  exists (hex : bool) e, b = (if hex then 2 else 10) /\ reads_as ex e /\ read_float_all s = Some (neg, hex, m, k - ex + e, []).
Proof.
  intros [sg i p f x di df ex0 Es Hs Gi Hp Gf Ne -> Hx|sg y u i p f x di df ex0 Es Hs Hy Hu Hn Gi Hp Gf Ne -> Hx].
  - assert (W : written false x ex0 /\ tail_fine false x).
    { destruct Hx as [[-> ->]|Hx]; [|apply (part_written false), Hx]. split; left; auto. }
    destruct W as [W T]. exists false.
    destruct (read_all_core s sg neg false 0 i p f x di df ex0 Es Hs ltac:(discriminate) (group_raw false _ _ Gi) Hp (group_raw false _ _ Gf) Ne W) as (e & Ra & E).
    exists e. split; [reflexivity|]. split; [exact Ra|]. rewrite E.
    rewrite (proj2 (ok_groups s sg neg false 0 i p f x di df ex0 Es Hs ltac:(discriminate) (group_raw false _ _ Gi) Hp (group_raw false _ _ Gf) Ne W)); [|split; [exact Gi|split; [exact Gf|exact T]]].
    cbn [radix]. match goal with |- Some (_, _, _, ?a, _) = Some (_, _, _, ?b, _) => replace a with b by lia end. reflexivity.
  - destruct (part_written true _ _ Hx) as [W T]. exists true.
    assert (Ru : raw true (u ++ i) di) by (unfold raw; rewrite under_strip by exact Hu; apply (group_raw true), Gi).
    assert (Es' : s = sg ++ prefix true y ++ (u ++ i) ++ p ++ f ++ x) by (rewrite Es; reflexivity).
    destruct (read_all_core s sg neg true y (u ++ i) p f x di df ex0 Es' Hs (fun _ => Hy) Ru Hp (group_raw true _ _ Gf) Ne W) as (e & Ra & E).
    exists e. split; [reflexivity|]. split; [exact Ra|]. rewrite E.
    rewrite (proj2 (ok_groups s sg neg true y (u ++ i) p f x di df ex0 Es' Hs (fun _ => Hy) Ru Hp (group_raw true _ _ Gf) Ne W)).
    + cbn [radix]. match goal with |- Some (_, _, _, ?a, _) = Some (_, _, _, ?b, _) => replace a with b by lia end. reflexivity.
    + split; [|split; [exact Gf|exact T]]. destruct Gi as [[-> ->]|S].
      * destruct Hn as [-> |?]; [left; auto|congruence].
      * right. exists u, i. auto.
Qed.
Lemma sign_split (s : bytes) : exists (sg : bytes) (neg : bool) (t : bytes), s = sg ++ t /\ signed sg neg /\
  match s with c :: r => if c =? 43 then (false, r) else if c =? 45 then (true, r) else (false, s) | [] => (false, []) end = (neg, t).
Proof.
  unfold signed. destruct s as [|y r]; [exists [], false, []; auto 8|]. destruct (Z.eqb_spec y 43) as [ -> |]; [exists [43], false, r; auto 8|].
  destruct (Z.eqb_spec y 45) as [ -> |]; [exists [45], true, r; auto 8|]. exists [], false, (y :: r). auto 8.
Qed.
Lemma read_literal s neg hex m k : read_float_all s = Some (neg, hex, m, k, []) -> exists neg m b k ex, float_literal s neg m b k ex.
Proof.
  intros E0. pose proof E0 as E. unfold read_float_all in E.
  destruct (sign_split s) as (sg & neg0 & t & Es & Hs & RS).
  match type of E with context [match s with [] => (false, []) | c :: r => @?F c r end] => set (A := match s with [] => (false, []) | c :: r => F c r end) in E end.
  replace A with (neg0, t) in E by (symmetry; exact RS). clear A RS.
  assert (K : exists h y t2, t = prefix h y ++ t2 /\ (h = true -> y = 120 \/ y = 88) /\
    match t with z :: x :: ((_ :: _) as r) => if (z =? 48) && (lower x =? 120) then (true, r) else (false, t) | _ => (false, t) end = (h, t2)).
  { destruct t as [|z [|x [|b r]]]; try (exists false, 0; eexists; split; [|split]; [|discriminate|reflexivity]; reflexivity).
    destruct ((z =? 48) && (lower x =? 120)) eqn:H.
    - apply andb_true_iff in H. destruct H as [H1 H2]. exists true, x, (b :: r). split; [|split].
      + cbn. f_equal. lia.
      + intros _. apply Z.eqb_eq in H2. apply (lower_letter x 120) in H2; lia.
      + reflexivity.
    - exists false, 0, (z :: x :: b :: r). split; [reflexivity|]. split; [discriminate|reflexivity]. }
  destruct K as (h & y & t2 & Et & Hy & K).
  match type of E with context [match t with [] => ?a | z :: l => @?F z l end] => set (A := match t with [] => a | z :: l => F z l end) in E end.
  replace A with (h, t2) in E by (symmetry; exact K). clear A K.
  destruct (mant_shape h t2) as (i & p & f & x & di & df & E2 & Ri & Hp & Rf & Hx).
  destruct (mant_read h i p f x di df Ri Hp Rf Hx) as (us & U & M). rewrite E2, M in E. clear M.
  destruct (nonempty (di ++ df)) eqn:Nd; [|discriminate].
  assert (Ne : di ++ df <> []) by (intros Q; rewrite Q in Nd; discriminate).
  destruct (read_exp h x us) as [[[e us'] rest]|] eqn:R; [|discriminate].
  assert (Rest : rest = []). { destruct (us' && _); [discriminate|]. injection E. auto. }
  subst rest. clear E.
  assert (W : exists ex, written h x ex).
  { destruct (exp_back _ _ _ _ _ R) as [(-> & -> & _)|(n1 & c1 & s1 & t1 & d1 & R1)]; [exists 0; left; auto|].
    eexists. right. exists n1, c1, s1, t1, d1. split; [exact R1|reflexivity]. }
  destruct W as (ex & W).
  assert (Es' : s = sg ++ prefix h y ++ i ++ p ++ f ++ x) by (rewrite Es, Et, E2; reflexivity).
  destruct (read_all_core s sg neg0 h y i p f x di df ex Es' Hs Hy Ri Hp Rf Ne W) as (e1 & _ & E1). rewrite E1 in E0.
  destruct (underscore_ok s) eqn:Ok; [|discriminate]. clear E0 E1.
  apply (ok_groups s sg neg0 h y i p f x di df ex Es' Hs Hy Ri Hp Rf Ne W) in Ok. destruct Ok as (Gi & Gf & T).
  destruct (written_part _ _ _ W T) as [[-> ->]|(ex' & Px)].
  - exists neg0. do 4 eexists. eapply (fl_decimal s neg0 _ sg i p f [] di df 0 Es' Hs Gi Hp Gf Ne eq_refl). left. auto.
  - destruct h.
    + destruct Gi as [[-> ->]|(u & i' & Hu & -> & S)].
      * exists neg0. do 4 eexists. eapply (fl_hex s neg0 _ sg y [] [] p f x [] df ex' Es' Hs (Hy eq_refl)); auto; try (left; auto).
      * exists neg0. do 4 eexists. eapply (fl_hex s neg0 _ sg y u i' p f x di df ex' Es' Hs (Hy eq_refl) Hu); [right; intros ->; inversion S|right; exact S|exact Hp|exact Gf|exact Ne|reflexivity|exact Px].
    + exists neg0. do 4 eexists. eapply (fl_decimal s neg0 _ sg i p f x di df ex' Es' Hs Gi Hp Gf Ne eq_refl). right. exact Px.
Qed.

(** ** The words *)
Definition small (w : bytes) : Prop := Forall (fun l => 97 <= l <= 122) w.
Lemma prefix_le s pre : (prefix_len s pre <= length s)%nat /\ (prefix_len s pre <= length pre)%nat.
Proof.
  revert pre. induction s as [|c s IH]; intros [|p pre]; cbn; try lia. destruct (lower c =? p); [|lia]. destruct (IH pre). lia.
Qed.
Lemma prefix_spelled n : forall s pre, small pre -> (n <= prefix_len s pre)%nat -> spelled (firstn n pre) (firstn n s).
Proof.
  induction n as [|n IH]; intros s pre Sm H; [constructor|]. destruct s as [|c s], pre as [|p pre]; cbn in H; try lia.
  inversion Sm; subst. destruct (Z.eqb_spec (lower c) p) as [E|]; [|lia]. cbn [firstn]. constructor.
  - apply (lower_letter c p) in E; [tauto|auto].
  - apply IH; [auto|lia].
Qed.
Lemma spelled_prefix w : forall s pre, small w -> spelled w s -> prefix_len s (w ++ pre) = length w.
Proof.
  induction w as [|l w IH]; intros s pre Sm H; inversion H; subst; [destruct pre; reflexivity|]. inversion Sm; subst. cbn [app prefix_len].
  match goal with K : ?y = l \/ ?y = l - 32 |- _ => replace (lower y =? l) with true by (symmetry; apply Z.eqb_eq; apply (lower_letter y l); auto) end.
  cbn [length]. f_equal. auto.
Qed.
Lemma spelled_length w s : spelled w s -> length s = length w.
Proof. induction 1; cbn [length]; auto. Qed.
Lemma inf_small : small (bs "infinity") /\ small (bs "inf") /\ small (bs "nan").
Proof. repeat split; repeat constructor; cbn; lia. Qed.
Lemma special_inf_all neg k t x n : special_inf neg k t = Some (x, n) ->
  x = S754_infinity neg /\ (n = (k + length t)%nat -> spelled (bs "inf") t \/ spelled (bs "infinity") t).
Proof.
  unfold special_inf. destruct (prefix_le t (bs "infinity")) as [L1 L2]. change (length (bs "infinity")) with 8%nat in L2.
  set (n0 := prefix_len t (bs "infinity")) in *. intros E.
  destruct (Nat.ltb 3 n0 && Nat.ltb n0 8) eqn:B.
  - cbn in E. injection E as <- <-. split; [reflexivity|]. intros H. left. assert (length t = 3%nat) by lia.
    assert (n0 <= 3)%nat by lia. assert (3 < n0)%nat by lia. lia.
  - destruct (Nat.eqb n0 3 || Nat.eqb n0 8) eqn:C; [|discriminate]. injection E as <- <-. split; [reflexivity|]. intros H.
    assert (Lt : length t = n0) by lia. assert (C' : n0 = 3%nat \/ n0 = 8%nat) by lia.
    pose proof (prefix_spelled n0 t (bs "infinity") (proj1 inf_small) (le_n _)) as P. rewrite <- Lt in P at 2. rewrite firstn_all in P.
    destruct C' as [C'|C']; rewrite C' in P; [left|right]; exact P.
Qed.
Lemma special_inf_none neg k t : prefix_len t (bs "infinity") = 0%nat -> special_inf neg k t = None.
Proof. intros E. unfold special_inf. rewrite E. reflexivity. Qed.
Lemma special_inf_some neg k t : spelled (bs "inf") t \/ spelled (bs "infinity") t -> special_inf neg k t = Some (S754_infinity neg, (k + length t)%nat).
Proof.
  intros [H|H]; unfold special_inf; rewrite (spelled_length _ _ H).
  - change (bs "infinity") with (bs "inf" ++ bs "inity"). rewrite (spelled_prefix (bs "inf") t (bs "inity")); [reflexivity|apply inf_small|exact H].
  - pose proof (spelled_prefix (bs "infinity") t [] (proj1 inf_small) H) as P. rewrite app_nil_r in P. rewrite P. reflexivity.
Qed.
Lemma special_infinity s neg : infinity_text s neg -> special s = Some (S754_infinity neg, length s).
Proof.
  intros (sg & w & -> & Hs & Hw). pose proof (special_inf_some neg (length sg) w Hw) as E.
  destruct Hs as [[[-> | ->] ->]|[-> ->]]; cbn [app special length] in *; try exact E.
  assert (K : exists c w', w = c :: w' /\ (c = 105 \/ c = 73)).
  { destruct Hw as [H|H]; inversion H; subst; eexists; eexists; (split; [reflexivity|lia]). }
  destruct K as (c & w' & -> & Hc). destruct Hc as [-> | ->]; exact E.
Qed.
Lemma special_nan s : nan_text s -> special s = Some (S754_nan, length s).
Proof.
  intros H. unfold nan_text in H. pose proof (spelled_length _ _ H) as L. pose proof (spelled_prefix (bs "nan") s [] (proj2 (proj2 inf_small)) H) as P. rewrite app_nil_r in P.
  inversion H as [|? c ? r Hc]; subst. cbn [special]. unfold special. rewrite L, P. destruct Hc as [-> | ->]; reflexivity.
Qed.
Lemma special_back s x : special s = Some (x, length s) -> (exists neg, infinity_text s neg) \/ nan_text s.
Proof.
  unfold special. destruct s as [|c r]; [discriminate|]. destruct ((c =? 43) || (c =? 45)) eqn:Sg.
  - intros E. left. destruct (special_inf_all _ _ _ _ _ E) as [_ W]. exists (c =? 45). exists [c], r. split; [reflexivity|]. split; [|apply W; reflexivity].
    unfold signed. destruct (Z.eqb_spec c 45) as [-> |]; [right; auto|left]. split; [|reflexivity]. right. f_equal. lia.
  - destruct (Z.eqb_spec (lower c) 105).
    + intros E. left. destruct (special_inf_all _ _ _ _ _ E) as [_ W]. exists false, [], (c :: r). split; [reflexivity|]. split; [left; auto|apply W; reflexivity].
    + destruct (Z.eqb_spec (lower c) 110); [|discriminate]. destruct (Nat.eqb_spec (prefix_len (c :: r) (bs "nan")) 3) as [P|]; [|discriminate].
      intros E. right. injection E as _ E. unfold nan_text. destruct r as [|a [|b [|d r]]]; try discriminate.
      exact (prefix_spelled 3 [c; a; b] (bs "nan") (proj2 (proj2 inf_small)) ltac:(rewrite P; apply le_n)).
Qed.
Definition plain_start (t : bytes) : Prop := match t with c :: _ => 46 <= c <= 57 | [] => False end.
Lemma special_plain sg neg t : signed sg neg -> plain_start t -> special (sg ++ t) = None.
Proof.
  intros Hs Ht. destruct t as [|c t]; [contradiction|]. cbn in Ht.
  assert (L : lower c = c) by (unfold lower, in_rng; destruct ((65 <=? c) && (c <=? 90)) eqn:E; lia).
  assert (P : prefix_len (c :: t) (bs "infinity") = 0%nat).
  { change (bs "infinity") with (105 :: bs "nfinity"). cbn [prefix_len]. rewrite L. replace (c =? 105) with false by lia. reflexivity. }
  destruct Hs as [[[-> | ->] ->]|[-> ->]]; cbn [app special].
  - replace ((c =? 43) || (c =? 45)) with false by lia. rewrite L. replace (c =? 105) with false by lia. replace (c =? 110) with false by lia. reflexivity.
  - apply special_inf_none, P.
  - apply special_inf_none, P.
Qed.
Lemma group_start t ds r : digit_group 10 t ds -> t = [] \/ plain_start (t ++ r).
Proof.
  intros [[-> _]|S]; [auto|]. right. inversion S as [? ? D|? ? ? ? D|? ? ? ? D]; subst; destruct (digit10 _ _ D) as [-> ?]; cbn [app plain_start]; lia.
Qed.
Lemma literal_special s neg m b k ex : float_literal s neg m b k ex -> special s = None.
Proof.
  intros [sg i p f x di df ex0 Es Hs Gi Hp Gf Ne _ _|sg y u i p f x di df ex0 Es Hs Hy Hu Hn Gi Hp Gf Ne _ Hx]; rewrite Es; apply (special_plain _ neg); auto.
  - destruct (group_start i di (p ++ f ++ x) Gi) as [-> |H]; [|exact H]. cbn [app]. destruct Hp as [-> |[-> ->]]; [cbn; lia|].
    destruct Gi as [[_ ->]|S]; [|inversion S]. destruct Gf as [[_ ->]|S]; [|inversion S]. elim Ne. reflexivity.
  - cbn. lia.
Qed.

(** ** The answer *)
Lemma group_digits base t ds : 2 <= base -> digit_group base t ds -> Forall (fun d => 0 <= d < base) ds /\ (length ds <= length t)%nat.
Proof.
  intros Hb [[-> ->]|S]; [split; [constructor|auto]|].
  assert (D : forall b d, digit base b d -> 0 <= d < base) by (destruct 1; lia).
  induction S as [b d H|b d t ds H S [IH1 IH2]|b d t ds H S [IH1 IH2]]; cbn [length]; split; try lia; repeat constructor; eauto; try (eapply D; eauto).
Qed.
Lemma literal_size s neg m b k ex : float_literal s neg m b k ex -> 0 <= m /\
  (Z.of_nat (length s) <= 2000 -> m < 2 ^ 8000 /\ ex - 8000 <= k <= ex).
Proof.
  assert (K : forall base di df, (base = 10 \/ base = 16) -> Forall (fun d => 0 <= d < base) di -> Forall (fun d => 0 <= d < base) df ->
    0 <= positional base (di ++ df) /\ (Z.of_nat (length di + length df) <= 2000 -> positional base (di ++ df) < 2 ^ 8000)).
  { intros base di df Hb Fi Ff. assert (F : Forall (fun d => 0 <= d < base) (di ++ df)) by (apply Forall_app; auto).
    pose proof (positional_bound base (di ++ df) ltac:(lia) F) as P. split; [apply P|]. intros L. rewrite <- app_length in L.
    eapply Z.lt_le_trans; [apply P|]. transitivity (16 ^ Z.of_nat (length (di ++ df))); [apply Z.pow_le_mono_l; lia|].
    transitivity (16 ^ 2000); [apply Z.pow_le_mono_r; lia|]. change 16 with (2 ^ 4). rewrite <- Z.pow_mul_r by lia. apply Z.le_refl. }
  intros [sg i p f x di df ex0 Es Hs Gi Hp Gf Ne -> _|sg y u i p f x di df ex0 Es Hs Hy Hu Hn Gi Hp Gf Ne -> Hx];
    [destruct (group_digits 10 _ _ ltac:(lia) Gi) as [Fi Li]; destruct (group_digits 10 _ _ ltac:(lia) Gf) as [Ff Lf]|
     destruct (group_digits 16 _ _ ltac:(lia) Gi) as [Fi Li]; destruct (group_digits 16 _ _ ltac:(lia) Gf) as [Ff Lf]].
  - destruct (K 10 di df ltac:(lia) Fi Ff) as [K1 K2]. split; [exact K1|]. intros L. rewrite Es, !app_length in L. split; [apply K2|]; lia.
  - destruct (K 16 di df ltac:(lia) Fi Ff) as [K1 K2]. split; [exact K1|]. intros L. rewrite Es in L. rewrite app_length in L. cbn [length] in L. rewrite !app_length in L. split; [apply K2|]; lia.
Qed.
Lemma literal_base s neg m b k ex : float_literal s neg m b k ex -> 2 <= b.
Proof. destruct 1; lia. Qed.
Lemma literal_answer s neg m b k ex : float_literal s neg m b k ex ->
  exists e, reads_as ex e /\ strconv_ParseFloat64 s = to_float b neg m (k - ex + e).
Proof.
  intros H. destruct (literal_read _ _ _ _ _ _ H) as (hex & e & -> & Ra & E). exists e. split; [exact Ra|].
  unfold strconv_ParseFloat64. rewrite (literal_special _ _ _ _ _ _ H), E. destruct hex; [apply binary_is|apply decimal_is].
Qed.
Lemma ParseFloat64_answer s : float_answer s (strconv_ParseFloat64 s).
Proof.
  split; [|split; [|split; [|split]]].
  - intros neg H. unfold strconv_ParseFloat64. rewrite (special_infinity _ _ H), Nat.eqb_refl. reflexivity.
  - intros H. unfold strconv_ParseFloat64. rewrite (special_nan _ H), Nat.eqb_refl. reflexivity.
  - intros neg m b k ex H L. destruct (literal_answer _ _ _ _ _ _ H) as (e & Ra & ->). destruct (literal_size _ _ _ _ _ _ H) as [M0 Sz].
    pose proof (literal_base _ _ _ _ _ _ H) as Hb. destruct (Z.lt_ge_cases (Z.abs ex) 100000) as [A|A].
    + rewrite (proj1 Ra A). replace (k - ex + ex) with k by lia. apply to_float_rounds; auto.
    + destruct L as [L|L]; [lia|]. destruct (Sz L) as [M1 [K1 K2]]. apply to_float_far; [exact Hb|split; assumption|].
      destruct Ra as (_ & R1 & R2). clear - A K1 K2 R1 R2. lia.
  - intros neg m b k ex H. destruct (literal_answer _ _ _ _ _ _ H) as (e & _ & ->). apply to_float_syntax.
  - intros Ni Nn Nl. unfold strconv_ParseFloat64. destruct (special s) as [[x n]|] eqn:Sp.
    + destruct (Nat.eqb_spec n (length s)) as [-> |]; [|reflexivity]. destruct (special_back _ _ Sp) as [[neg H]|H]; [elim (Ni _ H)|contradiction].
    + destruct (read_float_all s) as [[[[[neg hex] m] e] [|c r]]|] eqn:R; try reflexivity.
      destruct (read_literal _ _ _ _ _ R) as (n' & m' & b' & k' & ex' & H). elim (Nl _ _ _ _ _ H).
Qed.
