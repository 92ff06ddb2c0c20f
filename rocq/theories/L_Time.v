(** Lemmas for C49-C51. *)
From Verif Require Import S_Time L_Extra.

(** ** The calendar *)
Lemma leap_iff y : isLeap y = true <-> leap y.
Proof.
  unfold isLeap, leap. rewrite andb_true_iff, orb_true_iff, negb_true_iff, !Z.eqb_eq, Z.eqb_neq.
  rewrite !Z.rem_divide by lia. unfold Z.divide. split.
  - intros [[k Hk] [H|[j Hj]]]; (split; [exists k; lia|]).
    + left. intros j E. apply H. exists j. lia.
    + right. exists j. lia.
  - intros [[k Hk] [H|[j Hj]]]; (split; [exists k; lia|]).
    + left. intros [j E]. apply (H j). lia.
    + right. exists j. lia.
Qed.
Lemma leap_false y : isLeap y = false <-> ~ leap y.
Proof. rewrite <- leap_iff. destruct (isLeap y); split; congruence. Qed.
Lemma leap_mod y : isLeap y = ((y mod 4 =? 0) && (negb (y mod 100 =? 0) || (y mod 400 =? 0)))%bool.
Proof.
  unfold isLeap. assert (E : forall n, 0 < n -> (Z.rem y n =? 0) = (y mod n =? 0)).
  { intros n Hn. apply Bool.eq_iff_eq_true. rewrite !Z.eqb_eq, Z.rem_divide by lia. rewrite Z.mod_divide by lia. tauto. }
  rewrite !E by lia. reflexivity.
Qed.

Lemma month_daysIn y m n : month_len y m n <-> (1 <= m <= 12 /\ n = daysIn m y).
Proof.
  split.
  - intros H. inversion H; subst.
    + simpl in H0. repeat (destruct H0 as [<-|H0]; [split; [lia|reflexivity]|]). contradiction.
    + simpl in H0. repeat (destruct H0 as [<-|H0]; [split; [lia|reflexivity]|]). contradiction.
    + split; [lia|]. unfold daysIn. apply leap_iff in H0. rewrite H0. reflexivity.
    + split; [lia|]. unfold daysIn. apply leap_false in H0. rewrite H0. reflexivity.
  - intros [Hm ->]. assert (D : m = 2 \/ In m [1;3;5;7;8;10;12] \/ In m [4;6;9;11]) by (simpl; lia).
    destruct D as [->|[D|D]].
    + unfold daysIn. destruct (isLeap y) eqn:E; simpl.
      * apply ml_29. apply leap_iff. auto.
      * apply ml_28. apply leap_false. auto.
    + replace (daysIn m y) with 31; [apply ml_31; auto|]. simpl in D.
      repeat (destruct D as [<-|D]; [reflexivity|]). contradiction.
    + replace (daysIn m y) with 30; [apply ml_30; auto|]. simpl in D.
      repeat (destruct D as [<-|D]; [reflexivity|]). contradiction.
Qed.
Lemma daysIn_pos m y : 1 <= m <= 12 -> 28 <= daysIn m y.
Proof.
  intros H. assert (E : month_len y m (daysIn m y)) by (apply month_daysIn; auto). inversion E; lia.
Qed.

(** The day number the code computes. *)
Definition dayz (a : date) : Z := let '(y, m, d) := a in
  daysSinceEpoch y + days_before (m - 1) + (if isLeap y && (3 <=? m) then 1 else 0) + (d - 1)
  + (absoluteZeroYear - 1) / 400 * 146097 - 719162.
Lemma dayz_epoch : dayz (1970, 1, 1) = 0.
Proof. reflexivity. Qed.

(** Inside one cycle of 400 years, by computation. *)
Definition cyc (r : Z) : Z := 36524 * (r / 100) + 1461 * ((r - 100 * (r / 100)) / 4)
  + 365 * (r - 100 * (r / 100) - 4 * ((r - 100 * (r / 100)) / 4)).
Definition cleap (r : Z) : bool := ((r mod 4 =? 0) && (negb (r mod 100 =? 0) || (r mod 400 =? 0)))%bool.
Definition cyc_test (r : Z) : bool :=
  ((if r =? 399 then 146097 else cyc (r + 1)) =? cyc r + 365 + (if cleap (r + 1) then 1 else 0)).
Lemma cyc_all : forallb cyc_test (map Z.of_nat (seq 0 400)) = true.
Proof. vm_compute. reflexivity. Qed.
Lemma cyc_step r : 0 <= r < 400 -> cyc_test r = true.
Proof.
  intros H. apply (proj1 (forallb_forall _ _) cyc_all). apply in_map_iff. exists (Z.to_nat r). split; [lia|apply in_seq; lia].
Qed.
Lemma epoch_cyc q r : 0 <= r < 400 -> daysSinceEpoch (400 * q + r + 1) = 146097 * (q + 730692556) + cyc r.
Proof.
  intros H. unfold daysSinceEpoch, absoluteZeroYear.
  replace (400 * q + r + 1 - -292277022399) with (400 * (q + 730692556) + r) by lia.
  assert (E : (400 * (q + 730692556) + r) / 400 = q + 730692556) by (symmetry; apply (Z.div_unique _ _ _ r); lia).
  rewrite E. replace (400 * (q + 730692556) + r - 400 * (q + 730692556)) with r by lia. unfold cyc. lia.
Qed.
Lemma cleap_cyc q r : cleap (400 * q + r) = cleap r.
Proof.
  unfold cleap. assert (E : forall n m, 0 < n -> 400 = m * n -> (400 * q + r) mod n = r mod n).
  { intros n m Hn Hm. rewrite Hm. replace (m * n * q + r) with (r + (m * q) * n) by lia. apply Z.mod_add. lia. }
  rewrite (E 4 100), (E 100 4), (E 400 1) by lia. reflexivity.
Qed.
Lemma year_days y : daysSinceEpoch (y + 1) = daysSinceEpoch y + 365 + (if isLeap y then 1 else 0).
Proof.
  rewrite leap_mod. change (((y mod 4 =? 0) && (negb (y mod 100 =? 0) || (y mod 400 =? 0)))%bool) with (cleap y).
  set (q := (y - 1) / 400). set (r := (y - 1) mod 400).
  assert (Hr : 0 <= r < 400) by (apply Z.mod_pos_bound; lia).
  assert (Ey : y = 400 * q + r + 1) by (pose proof (Z.div_mod (y - 1) 400); unfold q, r; lia).
  pose proof (cyc_step r Hr) as C. unfold cyc_test in C. apply Z.eqb_eq in C.
  rewrite Ey at 2 3. rewrite epoch_cyc by auto. replace (400 * q + r + 1) with (400 * q + (r + 1)) at 1 by lia. rewrite cleap_cyc.
  destruct (Z.eqb_spec r 399) as [E|E].
  - replace (y + 1) with (400 * (q + 1) + 0 + 1) by lia. rewrite epoch_cyc by lia. change (cyc 0) with 0. lia.
  - replace (y + 1) with (400 * q + (r + 1) + 1) by lia. rewrite epoch_cyc by lia. lia.
Qed.
Lemma dayz_tomorrow a b : tomorrow a b -> dayz b = dayz a + 1.
Proof.
  intros H. inversion H; subst.
  - unfold dayz. lia.
  - apply month_daysIn in H0. destruct H0 as [Hm ->]. unfold dayz, daysIn.
    assert (C : m = 1 \/ m = 2 \/ 3 <= m) by lia. destruct C as [->|[->|C]].
    + change (1 =? 2) with false. change (3 <=? 1 + 1) with false. change (3 <=? 1) with false.
      rewrite !andb_false_r, andb_false_l. change (days_before (1 + 1 - 1)) with 31. change (days_before (1 - 1)) with 0. change (days_before 1) with 31. lia.
    + change (2 =? 2) with true. change (3 <=? 2 + 1) with true. change (3 <=? 2) with false.
      rewrite andb_false_r, andb_true_r. change (days_before (2 + 1 - 1)) with 59. change (days_before (2 - 1)) with 31. change (days_before 2) with 59.
      destruct (isLeap y); simpl andb; cbv iota; lia.
    + destruct (Z.eqb_spec m 2); [lia|]. cbn [andb]. replace (m + 1 - 1) with m by lia.
      destruct (Z.leb_spec 3 m); [|lia]. destruct (Z.leb_spec 3 (m + 1)); [|lia]. lia.
  - unfold dayz. rewrite year_days. change (3 <=? 12) with true. change (3 <=? 1) with false. rewrite andb_false_r, andb_true_r.
    change (days_before (1 - 1)) with 0. change (days_before (12 - 1)) with 334.
    destruct (isLeap y); lia.
Qed.
Lemma day_no_dayz a k : day_no a k -> dayz a = k.
Proof.
  induction 1; [reflexivity| |]; apply dayz_tomorrow in H0; lia.
Qed.

(** Every valid date has a number: walk to the epoch and back. *)
Lemma yesterday b : valid_date b -> exists a, valid_date a /\ tomorrow a b.
Proof.
  destruct b as [[y m] d]. intros (n & Hn & Hd). destruct (Z.eq_dec d 1) as [->|Nd].
  - pose proof Hn as Hn'. apply month_daysIn in Hn'. destruct Hn' as [Hm _]. destruct (Z.eq_dec m 1) as [->|Nm].
    + exists (y - 1, 12, 31). split.
      * exists 31. split; [apply ml_31; simpl; auto 10|lia].
      * replace y with (y - 1 + 1) at 2 by lia. apply tm_year.
    + exists (y, m - 1, daysIn (m - 1) y). assert (L : month_len y (m - 1) (daysIn (m - 1) y)) by (apply month_daysIn; lia).
      split; [exists (daysIn (m - 1) y); split; auto; pose proof (daysIn_pos (m - 1) y); lia|].
      replace m with (m - 1 + 1) at 3 by lia. eapply tm_month; eauto. lia.
  - exists (y, m, d - 1). split; [exists n; split; auto; lia|]. replace d with (d - 1 + 1) at 2 by lia. eapply tm_day; eauto. lia.
Qed.
Lemma has_tomorrow a : valid_date a -> exists b, valid_date b /\ tomorrow a b.
Proof.
  destruct a as [[y m] d]. intros (n & Hn & Hd). destruct (Z.eq_dec d n) as [->|Nd].
  - pose proof Hn as Hn'. apply month_daysIn in Hn'. destruct Hn' as [Hm E]. destruct (Z.eq_dec m 12) as [->|Nm].
    + change (daysIn 12 y) with 31 in E. subst n. exists (y + 1, 1, 1). split; [|apply tm_year].
      exists 31. split; [apply ml_31; simpl; auto|lia].
    + exists (y, m + 1, 1). split; [|eapply tm_month; eauto; lia]. exists (daysIn (m + 1) y).
      split; [apply month_daysIn; lia|pose proof (daysIn_pos (m + 1) y); lia].
  - exists (y, m, d + 1). split; [exists n; split; auto; lia|]. eapply tm_day; eauto. lia.
Qed.
Lemma days_lt m y : 1 <= m <= 12 -> 0 <= days_before (m - 1) + (if isLeap y && (3 <=? m) then 1 else 0) /\
  days_before (m - 1) + (if isLeap y && (3 <=? m) then 1 else 0) + daysIn m y <= 365 + (if isLeap y then 1 else 0).
Proof.
  intros H. assert (D : In m [1;2;3;4;5;6;7;8;9;10;11;12]) by (simpl; lia). simpl in D. unfold daysIn.
  repeat (destruct D as [<-|D]; [destruct (isLeap y); vm_compute; split; discriminate|]). contradiction.
Qed.
Lemma years_grow n : forall y, daysSinceEpoch y + 365 * Z.of_nat n <= daysSinceEpoch (y + Z.of_nat n).
Proof.
  induction n as [|n IH]; intros y.
  - change (Z.of_nat 0) with 0. replace (y + 0) with y by lia. lia.
  - specialize (IH y). replace (y + Z.of_nat (S n)) with (y + Z.of_nat n + 1) by lia. rewrite year_days.
    destruct (isLeap (y + Z.of_nat n)); lia.
Qed.
Lemma years_mono y y' : y <= y' -> daysSinceEpoch y + 365 * (y' - y) <= daysSinceEpoch y'.
Proof. intros H. pose proof (years_grow (Z.to_nat (y' - y)) y) as G. rewrite Z2Nat.id in G by lia. replace (y + (y' - y)) with y' in G by lia. lia. Qed.
Lemma dayz_0 a : valid_date a -> dayz a = 0 -> a = (1970, 1, 1).
Proof.
  destruct a as [[y m] d]. intros (n & Hn & Hd) E. apply month_daysIn in Hn. destruct Hn as [Hm ->].
  pose proof (days_lt m y Hm) as [B1 B2]. pose proof dayz_epoch as E0. unfold dayz in E, E0.
  change (days_before (1 - 1)) with 0 in E0. change (3 <=? 1) with false in E0. rewrite andb_false_r in E0. cbv iota in E0.
  assert (Y : y = 1970).
  { destruct (Z.lt_trichotomy y 1970) as [L|[L|L]]; auto.
    - pose proof (years_mono (y + 1) 1970 ltac:(lia)) as M. rewrite year_days in M. destruct (isLeap y); lia.
    - pose proof (years_mono 1970 y ltac:(lia)) as M. lia. }
  subst y. change (isLeap 1970) with false in *. cbn [andb] in *.
  destruct (Z.eq_dec m 1) as [->|Nm].
  - change (days_before (1 - 1)) with 0 in *. f_equal. lia.
  - exfalso. assert (31 <= days_before (m - 1)); [|lia].
    assert (D : In m [2;3;4;5;6;7;8;9;10;11;12]) by (simpl; lia). simpl in D.
    repeat (destruct D as [<-|D]; [vm_compute; discriminate|]). contradiction.
Qed.
Lemma day_no_ex a : valid_date a -> day_no a (dayz a).
Proof.
  assert (G : forall n a, valid_date a -> Z.abs (dayz a) = Z.of_nat n -> day_no a (dayz a)).
  { induction n as [|n IH]; intros b V E.
    - assert (Z0 : dayz b = 0) by lia. rewrite (dayz_0 b V Z0). constructor.
    - destruct (Z.leb_spec 0 (dayz b)) as [P|P].
      + destruct (yesterday b V) as (c & Vc & T). pose proof (dayz_tomorrow _ _ T) as D. rewrite D. eapply dn_next; [|exact T]. apply IH; auto. lia.
      + destruct (has_tomorrow b V) as (c & Vc & T). pose proof (dayz_tomorrow _ _ T) as D. replace (dayz b) with (dayz c - 1) by lia.
        eapply dn_prev; [|exact T]. apply IH; auto. lia. }
  intros V. apply (G (Z.to_nat (Z.abs (dayz a)))); auto. rewrite Z2Nat.id; lia.
Qed.
Lemma tomorrow_valid a b : tomorrow a b -> valid_date a /\ valid_date b.
Proof.
  intros H. inversion H; subst.
  - split; exists n; split; auto; lia.
  - apply month_daysIn in H0 as Q. destruct Q as [Hm ->]. pose proof (daysIn_pos m y Hm). pose proof (daysIn_pos (m + 1) y). split.
    + exists (daysIn m y). split; auto; lia.
    + exists (daysIn (m + 1) y). split; [apply month_daysIn; lia|lia].
  - split; exists 31; (split; [apply ml_31; simpl; auto 10|lia]).
Qed.
Lemma day_no_valid a k : day_no a k -> valid_date a.
Proof.
  induction 1.
  - exists 31. split; [apply ml_31; simpl; auto|lia].
  - apply (tomorrow_valid _ _ H0).
  - apply (tomorrow_valid _ _ H0).
Qed.
Lemma day_no_iff a k : day_no a k <-> (valid_date a /\ k = dayz a).
Proof.
  split; [intros H; split; [eapply day_no_valid; eauto|symmetry; apply day_no_dayz; auto]|].
  intros [V ->]. apply day_no_ex; auto.
Qed.
Lemma dayz_unix y m d h mi se ns z : date_unix (mkF y m d h mi se ns z) = 86400 * dayz (y, m, d) + (3600 * h + 60 * mi + se).
Proof. unfold date_unix, dayz, absoluteToInternal, internalToUnix. change (1969 * 365 + 1969 / 4 - 1969 / 100 + 1969 / 400) with 719162. lia. Qed.

(** ** Digits *)
Lemma is_dig_spec b : is_dig b = true <-> dec_digit b.
Proof. unfold is_dig, dec_digit. rewrite andb_true_iff, !Z.leb_le. tauto. Qed.
Lemma getnum_2 s x r : getnum s true = Some (x, r) <-> exists S, s = S ++ r /\ dec 2 S x.
Proof.
  unfold getnum, dec. split.
  - destruct s as [|a [|b t]]; try discriminate.
    + destruct (is_dig a); discriminate.
    + destruct (is_dig a) eqn:A; [|discriminate]. destruct (is_dig b) eqn:B; [|discriminate]. intros E. injection E as <- <-.
      apply is_dig_spec in A, B. exists [a; b]. split; auto. split; auto. split; [auto|]. cbn [fold_left]. lia.
  - intros (S & -> & L & F & ->). destruct S as [|a [|b [|? ?]]]; try discriminate L. inversion F as [|? ? A F']; subst. inversion F' as [|? ? B _]; subst.
    cbn [app fold_left]. apply is_dig_spec in A, B. rewrite A, B. do 2 f_equal. lia.
Qed.
Lemma getnum_2f S r x : dec 2 S x -> getnum (S ++ r) false = Some (x, r).
Proof.
  intros (L & F & ->). destruct S as [|a [|b [|? ?]]]; try discriminate L. inversion F as [|? ? A F']; subst. inversion F' as [|? ? B _]; subst.
  cbn [app getnum fold_left]. apply is_dig_spec in A, B. rewrite A, B. do 2 f_equal. lia.
Qed.
Lemma all_digits_spec s : forall v x, all_digits v s = Some x <-> (Forall dec_digit s /\ x = fold_left (fun v b => 10 * v + (b - 48)) s v).
Proof.
  induction s as [|b s IH]; intros v x; simpl.
  - split; [intros E; injection E as <-; auto|intros [_ ->]; auto].
  - destruct (is_dig b) eqn:B.
    + rewrite IH. replace (v * 10 + (b - 48)) with (10 * v + (b - 48)) by lia. apply is_dig_spec in B. split.
      * intros [F ->]. auto.
      * intros [F ->]. inversion F; auto.
    + split; [discriminate|]. intros [F _]. inversion F as [|? ? D _]; subst. apply is_dig_spec in D. congruence.
Qed.
Lemma atoi_digits s x : s <> [] -> Forall dec_digit s -> (time_atoi s = Some x <-> x = fold_left (fun v b => 10 * v + (b - 48)) s 0).
Proof.
  intros N F. destruct s as [|b s]; [contradiction|]. inversion F as [|? ? D _]; subst. unfold time_atoi. unfold dec_digit in D.
  destruct (Z.eqb_spec b 45); [lia|]. destruct (Z.eqb_spec b 43); [lia|]. rewrite all_digits_spec. tauto.
Qed.
Lemma year4_spec s x r : year4 s = Some (x, r) <-> exists S, s = S ++ r /\ dec 4 S x.
Proof.
  unfold year4, dec. split.
  - destruct s as [|a [|b [|c [|d t]]]]; try discriminate. destruct (is_dig a) eqn:A; [|discriminate].
    destruct (time_atoi [a; b; c; d]) as [y|] eqn:E; [|discriminate]. intros Q. injection Q as -> ->.
    unfold time_atoi in E. apply is_dig_spec in A. unfold dec_digit in A.
    destruct (Z.eqb_spec a 45); [lia|]. destruct (Z.eqb_spec a 43); [lia|]. apply all_digits_spec in E. destruct E as [F ->].
    exists [a; b; c; d]. auto.
  - intros (S & -> & L & F & ->). destruct S as [|a [|b [|c [|d [|? ?]]]]]; try discriminate L. cbn [app].
    inversion F as [|? ? A _]; subst. apply is_dig_spec in A. rewrite A.
    rewrite (proj2 (atoi_digits [a; b; c; d] _ ltac:(discriminate) F) eq_refl). reflexivity.
Qed.

(** ** The loop *)
Lemma ranged_spec lo hi k x r : ranged lo hi k = Some (x, r) <-> (k = Some (x, r) /\ lo <= x <= hi).
Proof.
  destruct k as [[y t]|]; simpl; [|split; [discriminate|intros [H _]; discriminate]].
  destruct (Z.leb_spec lo y), (Z.leb_spec y hi); simpl; split; try discriminate; try (intros E; injection E as -> ->; split; auto; lia);
    intros [E ?]; injection E as -> ->; auto; lia.
Qed.
Lemma put_spec {A B} (k : option (A * bytes)) (f : A -> bytes -> option B) b :
  put k f = Some b <-> exists x r, k = Some (x, r) /\ f x r = Some b.
Proof.
  destruct k as [[x r]|]; simpl; split; eauto.
  - intros (x' & r' & E & H). injection E as <- <-. auto.
  - discriminate.
  - intros (x' & r' & E & _). discriminate.
Qed.
Lemma lit_spec strict b l s f f' : time_loop strict (LLit b :: l) s f = Some f' <-> exists r, s = b :: r /\ time_loop strict l r f = Some f'.
Proof.
  destruct f. simpl. destruct s as [|x r]; [split; [discriminate|intros (r & E & _); discriminate]|].
  destruct (Z.eqb_spec x b) as [->|N]; split.
  - eauto.
  - intros (r' & E & H). injection E as <-. auto.
  - discriminate.
  - intros (r' & E & H). injection E as -> ->. congruence.
Qed.
Lemma date_loop strict l s y0 m0 d0 h mi se ns z f' :
  time_loop strict (date_layout ++ l) s (mkF y0 m0 d0 h mi se ns z) = Some f' <->
  exists D r y m d, s = D ++ r /\ date_text D (y, m, d) /\ 1 <= m <= 12 /\ time_loop strict l r (mkF y m d h mi se ns z) = Some f'.
Proof.
  unfold date_layout. cbn [app]. cbn [time_loop]. rewrite put_spec. split.
  - intros (y & r1 & HY & E). apply year4_spec in HY. destruct HY as (Y & -> & DY).
    destruct r1 as [|x r1]; [discriminate|]. destruct (Z.eqb_spec x 45) as [->|]; [|discriminate].
    apply put_spec in E. destruct E as (m & r2 & HM & E). apply ranged_spec in HM. destruct HM as [HM Rm]. apply getnum_2 in HM. destruct HM as (M & -> & DM).
    destruct r2 as [|x r2]; [discriminate|]. destruct (Z.eqb_spec x 45) as [->|]; [|discriminate].
    apply put_spec in E. destruct E as (d & r3 & HD & E). apply getnum_2 in HD. destruct HD as (D & -> & DD).
    exists (Y ++ [45] ++ M ++ [45] ++ D), r3, y, m, d. split; [rewrite <- ?app_assoc; cbn [app]; rewrite <- ?app_assoc; reflexivity|].
    split; [exists Y, M, D; auto|]. auto.
  - intros (X & r & y & m & d & -> & (Y & M & D & -> & DY & DM & DD) & Rm & E).
    exists y, (45 :: M ++ 45 :: D ++ r). split; [apply year4_spec; exists Y; split; auto; rewrite <- ?app_assoc; cbn [app]; rewrite <- ?app_assoc; reflexivity|].
    rewrite Z.eqb_refl. apply put_spec. exists m, (45 :: D ++ r). split; [apply ranged_spec; split; auto; apply getnum_2; eauto|].
    rewrite Z.eqb_refl. apply put_spec. exists d, r. split; [apply getnum_2; eauto|]. exact E.
Qed.
Lemma day_check y m d : 1 <= m <= 12 -> ((d <? 1) || (daysIn m y <? d))%bool = false <-> valid_date (y, m, d).
Proof.
  intros Hm. rewrite orb_false_iff, !Z.ltb_ge. split.
  - intros [H1 H2]. exists (daysIn m y). split; [apply month_daysIn; auto|lia].
  - intros (n & Hn & Hd). apply month_daysIn in Hn. destruct Hn as [_ ->]. lia.
Qed.
Lemma valid_month y m d : valid_date (y, m, d) -> 1 <= m <= 12.
Proof. intros (n & Hn & _). apply month_daysIn in Hn. tauto. Qed.

Lemma some_inj {A} (a b : A) : Some a = Some b -> a = b.
Proof. congruence. Qed.
Lemma parse_date_spec strict s t : time_parse strict date_layout s = Some t <-> date_value s t.
Proof.
  unfold time_parse. rewrite <- (app_nil_r date_layout). unfold fields0. split.
  - destruct (time_loop _ _ _ _) as [f|] eqn:E; [|discriminate]. apply date_loop in E.
    destruct E as (D & r & y & m & d & -> & HD & Hm & E). simpl in E. destruct r; [|discriminate]. injection E as <-. cbn [f_day f_month f_year f_zone f_nsec]. rewrite dayz_unix.
    destruct ((d <? 1) || (daysIn m y <? d))%bool eqn:V; [discriminate|]. apply day_check in V; auto. pose proof (day_no_ex _ V) as K.
    intros Q. apply some_inj in Q. subst t.
    exists (y, m, d), (dayz (y, m, d)). rewrite app_nil_r. split; auto. split; auto. split; [exact K|]. f_equal. lia.
  - intros ([[y m] d] & k & HD & V & Hk & ->). pose proof (valid_month _ _ _ V) as Hm.
    rewrite (proj2 (date_loop strict [] s 0 1 1 0 0 0 0 0 (mkF y m d 0 0 0 0 0))).
    + cbn [f_day f_month f_year f_zone f_nsec]. rewrite (proj2 (day_check y m d Hm) V). rewrite dayz_unix. apply day_no_dayz in Hk. rewrite Hk. do 2 f_equal. lia.
    + exists s, [], y, m, d. rewrite app_nil_r. auto.
Qed.

Lemma dec_nonneg s : Forall dec_digit s -> forall v, 0 <= v -> 0 <= fold_left (fun v b => 10 * v + (b - 48)) s v.
Proof. induction 1 as [|b s D F IH]; intros v Hv; cbn [fold_left]; auto. apply IH. unfold dec_digit in D. lia. Qed.
Lemma frac9_ok N x r : dec 9 N x -> frac9 (46 :: N ++ r) = Some (x, r).
Proof.
  intros (L & F & E). unfold frac9. change ((46 =? 46) || (46 =? 44))%bool with true. rewrite app_length, L. change (Nat.leb 9 (9 + length r)) with true. cbv iota beta. cbn [andb].
  rewrite <- L, firstn_app, firstn_all, Nat.sub_diag, firstn_O, app_nil_r, skipn_app, skipn_all, Nat.sub_diag. cbn [app skipn].
  assert (NN : N <> []) by (intros ->; discriminate L). rewrite (proj2 (atoi_digits N x NN F) E).
  pose proof (dec_nonneg N F 0 ltac:(lia)). destruct (Z.ltb_spec x 0); [lia|reflexivity].
Qed.
Lemma zone_num_ok strict a b hi x : dec 2 [a; b] x -> zone_num strict a b hi = Some x \/ (strict = true /\ hi < x /\ zone_num strict a b hi = None).
Proof.
  intros D. pose proof D as (L & F & E). unfold zone_num. destruct strict.
  - assert (G : getnum [a; b] true = Some (x, [])) by (apply getnum_2; exists [a; b]; auto). rewrite G. unfold ranged.
    pose proof (dec_nonneg [a; b] F 0 ltac:(lia)). destruct (Z.leb_spec 0 x); [|lia]. destruct (Z.leb_spec x hi); simpl; auto.
  - left. apply atoi_digits; auto. discriminate.
Qed.
Lemma dec_max n s x : dec n s x -> 0 <= x < 10 ^ Z.of_nat n.
Proof.
  intros (L & F & ->). rewrite <- L. clear L. split; [apply dec_nonneg; auto; lia|].
  assert (G : forall v, 0 <= v -> fold_left (fun v b => 10 * v + (b - 48)) s v < (v + 1) * 10 ^ Z.of_nat (length s)); [|specialize (G 0 ltac:(lia)); lia].
  induction F as [|b s D F IH]; intros v Hv; [simpl; lia|]. cbn [fold_left length]. rewrite Nat2Z.inj_succ, Z.pow_succ_r by lia.
  unfold dec_digit in D. specialize (IH (10 * v + (b - 48)) ltac:(lia)). assert (0 < 10 ^ Z.of_nat (length s)) by (apply Z.pow_pos_nonneg; lia). nia.
Qed.

Definition clock_layout : list chunk := [LHour; LLit 58; LMinute; LLit 58; LSecond; LFrac9; LZone].
Lemma put_some {A B} x r (f : A -> bytes -> option B) : put (Some (x, r)) f = f x r.
Proof. reflexivity. Qed.
Lemma zone_ok strict s sg h m r : zone_text s sg h m -> h <= 24 /\ m <= 60 \/ strict = false ->
  zone strict (s ++ r) = Some (sg * ((h * 60 + m) * 60), r).
Proof.
  intros (b & H & M & -> & Hb & DH & DM) K. pose proof DH as (L1 & _). pose proof DM as (L2 & _).
  destruct H as [|h1 [|h2 [|? ?]]]; try discriminate L1. destruct M as [|m1 [|m2 [|? ?]]]; try discriminate L2.
  cbn [app]. unfold zone. change (58 =? 58) with true. cbv iota.
  destruct (zone_num_ok strict h1 h2 24 h DH) as [->|(-> & ? & _)]; [|lia].
  destruct (zone_num_ok strict m1 m2 60 m DM) as [->|(-> & ? & _)]; [|lia].
  destruct Hb as [[-> ->]|[-> ->]].
  - change (43 =? 43) with true. cbv iota zeta. do 2 f_equal. lia.
  - change (45 =? 43) with false. change (45 =? 45) with true. cbv iota zeta. do 2 f_equal; lia.
Qed.
Lemma zone_strict s sg h m r : zone_text s sg h m -> 24 < h -> zone true (s ++ r) = None.
Proof.
  intros (b & H & M & -> & Hb & DH & DM) K. pose proof DH as (L1 & _). pose proof DM as (L2 & _).
  destruct H as [|h1 [|h2 [|? ?]]]; try discriminate L1. destruct M as [|m1 [|m2 [|? ?]]]; try discriminate L2.
  cbn [app]. unfold zone. change (58 =? 58) with true. cbv iota.
  destruct DH as (_ & F & E). unfold zone_num.
  assert (G : getnum [h1; h2] true = Some (h, [])) by (apply getnum_2; exists [h1; h2]; repeat split; auto). rewrite G. unfold ranged.
  destruct (Z.leb_spec h 24); [lia|]. rewrite andb_false_r. reflexivity.
Qed.
Lemma clock_loop strict T Zn y mo d a1 a2 a3 a4 a5 h m se ns sg zh zm f :
  time_text T h m se ns -> zone_text Zn sg zh zm -> zm < 60 ->
  (time_loop strict clock_layout (T ++ Zn) (mkF y mo d a1 a2 a3 a4 a5) = Some f <->
   h < 24 /\ m < 60 /\ se < 60 /\ (strict = true -> zh <= 24) /\ f = mkF y mo d h m se ns (sg * ((zh * 60 + zm) * 60))).
Proof.
  intros (H & M & S & N & -> & DH & DM & DS & DN) HZ Hzm.
  assert (E : (H ++ [58] ++ M ++ [58] ++ S ++ [46] ++ N) ++ Zn = H ++ 58 :: M ++ 58 :: S ++ 46 :: N ++ Zn)
    by (rewrite <- ?app_assoc; cbn [app]; rewrite <- ?app_assoc; reflexivity).
  rewrite E. clear E. unfold clock_layout. cbn [time_loop].
  rewrite (getnum_2f H _ h DH).
  assert (EM : getnum (M ++ 58 :: S ++ 46 :: N ++ Zn) true = Some (m, 58 :: S ++ 46 :: N ++ Zn)) by (apply getnum_2; eauto).
  assert (ES : getnum (S ++ 46 :: N ++ Zn) true = Some (se, 46 :: N ++ Zn)) by (apply getnum_2; eauto).
  pose proof (dec_max _ _ _ DH) as BH. pose proof (dec_max _ _ _ DM) as BM. pose proof (dec_max _ _ _ DS) as BS.
  unfold ranged at 1. destruct (Z.leb_spec 0 h); [|lia]. destruct (Z.leb_spec h 23); cbn [andb]; [|split; [discriminate|lia]].
  rewrite put_some, Z.eqb_refl, EM.
  unfold ranged at 1. destruct (Z.leb_spec 0 m); [|lia]. destruct (Z.leb_spec m 59); cbn [andb]; [|split; [discriminate|lia]].
  rewrite put_some, Z.eqb_refl, ES.
  unfold ranged at 1. destruct (Z.leb_spec 0 se); [|lia]. destruct (Z.leb_spec se 59); cbn [andb]; [|split; [discriminate|lia]].
  rewrite put_some, (frac9_ok N ns _ DN), put_some. rewrite <- (app_nil_r Zn).
  assert (C : strict = true /\ 24 < zh \/ (zh <= 24 /\ zm <= 60 \/ strict = false)) by (destruct strict; [destruct (Z.leb_spec zh 24)|]; auto with zarith; right; left; lia).
  destruct C as [[-> C]|C].
  - rewrite (zone_strict _ _ _ _ [] HZ C). split; [discriminate|]. intros (_ & _ & _ & Q & _). specialize (Q eq_refl). lia.
  - rewrite (zone_ok strict _ _ _ _ [] HZ C), put_some. split.
    + intros Q. apply some_inj in Q. split; [lia|]. split; [lia|]. split; [lia|]. split; [|auto]. intros ->. destruct C as [?|?]; [lia|discriminate].
    + intros (_ & _ & _ & _ & ->). reflexivity.
Qed.

Lemma fixed_text s : fixed_time s -> exists h m se ns, time_text s h m se ns.
Proof.
  intros (w & s1 & s2 & f & (h1 & h2 & m1 & m2 & -> & H1 & H2 & H3 & H4) & -> & H5 & H6 & L & F). unfold dec_digit in *.
  exists (10 * (10 * 0 + (h1 - 48)) + (h2 - 48)), (10 * (10 * 0 + (m1 - 48)) + (m2 - 48)), (10 * (10 * 0 + (s1 - 48)) + (s2 - 48)).
  eexists. exists [h1; h2], [m1; m2], [s1; s2], f. split; [reflexivity|]. unfold dec, dec_digit.
  repeat split; auto; repeat constructor; lia.
Qed.
Lemma parse_time_spec strict s t : fixed_time s ->
  time_parse strict date_time_layout (bs "1970-01-01T" ++ s ++ bs "+00:00") = Some t <-> time_value s t.
Proof.
  intros Fx. destruct (fixed_text s Fx) as (h & m & se & ns & T).
  assert (Z0 : zone_text (bs "+00:00") 1 0 0).
  { exists 43, [48; 48], [48; 48]. split; [reflexivity|]. split; [auto|]. split; repeat split; repeat constructor; unfold dec_digit; lia. }
  unfold time_parse.
  assert (E : time_loop strict date_time_layout (bs "1970-01-01T" ++ s ++ bs "+00:00") fields0 =
              time_loop strict clock_layout (s ++ bs "+00:00") (mkF 1970 1 1 0 0 0 0 0)) by reflexivity.
  rewrite E. clear E. split.
  - destruct (time_loop _ _ _ _) as [f|] eqn:E; [|discriminate]. apply (clock_loop _ _ _ _ _ _ _ _ _ _ _ _ _ _ _ _ _ _ _ T Z0) in E; [|lia].
    destruct E as (H1 & H2 & H3 & _ & ->). cbn [f_day f_month f_year f_zone f_nsec]. rewrite dayz_unix, dayz_epoch.
    change ((1 <? 1) || (daysIn 1 1970 <? 1))%bool with false. cbv iota. intros Q. apply some_inj in Q. subst t.
    exists h, m, se, ns. repeat split; auto. f_equal. lia.
  - intros (h' & m' & se' & ns' & T' & H1 & H2 & H3 & ->).
    rewrite (proj2 (clock_loop strict s (bs "+00:00") 1970 1 1 0 0 0 0 0 h' m' se' ns' 1 0 0 (mkF 1970 1 1 h' m' se' ns' (1 * ((0 * 60 + 0) * 60))) T' Z0 ltac:(lia)));
      [|repeat split; auto; intros; lia].
    cbn [f_day f_month f_year f_zone f_nsec]. rewrite dayz_unix, dayz_epoch.
    change ((1 <? 1) || (daysIn 1 1970 <? 1))%bool with false. cbv iota. do 2 f_equal. lia.
Qed.

(** ** Date and time *)
Lemma cut_eq (x : Z) a b u v : ~ In x a -> ~ In x b -> a ++ x :: u = b ++ x :: v -> a = b /\ u = v.
Proof.
  revert b. induction a as [|y a IH]; intros [|z b] Na Nb E; simpl in *.
  - injection E as <-. auto.
  - injection E as <- _. exfalso. auto.
  - injection E as <- _. exfalso. auto.
  - injection E as <- E. destruct (IH b) as [-> ->]; auto.
Qed.
Lemma digits_no x s : Forall dec_digit s -> 57 < x -> ~ In x s.
Proof. intros F H I. rewrite Forall_forall in F. specialize (F _ I). unfold dec_digit in F. lia. Qed.
Lemma date_text_noT s a : date_text s a -> ~ In 84 s.
Proof.
  destruct a as [[y m] d]. intros (Y & M & D & -> & (_ & FY & _) & (_ & FM & _) & (_ & FD & _)) I.
  rewrite !in_app_iff in I. simpl in I. pose proof (digits_no 84 Y FY ltac:(lia)). pose proof (digits_no 84 M FM ltac:(lia)). pose proof (digits_no 84 D FD ltac:(lia)).
  intuition discriminate.
Qed.
Lemma date_word_noT s : date_word s -> ~ In 84 s.
Proof.
  intros (sg & y & m1 & m2 & d1 & d2 & -> & Hs & _ & F & H1 & H2 & H3 & H4) I. pose proof (digits_no 84 y F ltac:(lia)).
  unfold dec_digit in *. rewrite !in_app_iff in I. destruct Hs as [ -> | -> ]; simpl in I; intuition lia.
Qed.
Definition date_time_text (o : bytes) : Prop := exists w, date_timeL w o.
Lemma zone_out w z : zoneL w z -> exists sg h m, zone_text z sg h m /\ m < 60.
Proof.
  intros [[_ ->]|(s & h1 & h2 & m1 & m2 & Hs & H1 & H2 & H3 & H4 & -> & ->)].
  - exists 1, 0, 0. split; [|lia]. exists 43, [48; 48], [48; 48]. split; [reflexivity|]. split; [auto|]. split; repeat split; repeat constructor; unfold dec_digit; lia.
  - unfold dec_digit in *. exists (if s =? 43 then 1 else -1), (10 * (10 * 0 + (h1 - 48)) + (h2 - 48)), (10 * (10 * 0 + (m1 - 48)) + (m2 - 48)).
    split; [|lia]. exists s, [h1; h2], [m1; m2]. split; [reflexivity|]. split; [destruct Hs as [ -> | -> ]; auto|].
    unfold dec, dec_digit. repeat split; auto; repeat constructor; lia.
Qed.
Lemma dt_layout : date_time_layout = date_layout ++ LLit 84 :: clock_layout.
Proof. reflexivity. Qed.
Lemma parse_date_time_fwd strict o t : date_time_value strict o t -> time_parse strict date_time_layout o = Some t.
Proof.
  intros (D & T & Zn & td & tt & sg & zh & zm & -> & ([[y m] d] & k & HD & V & Hk & ->) & (h & mi & se & ns & HT & B1 & B2 & B3 & ->) & HZ & Bz & Sz & ->).
  pose proof (valid_month _ _ _ V) as Hm. unfold time_parse, fields0. rewrite dt_layout.
  rewrite (proj2 (date_loop strict (LLit 84 :: clock_layout) (D ++ [84] ++ T ++ Zn) 0 1 1 0 0 0 0 0 (mkF y m d h mi se ns (sg * ((zh * 60 + zm) * 60))))).
  - cbn [f_day f_month f_year f_zone f_nsec t_unix t_nsec]. rewrite (proj2 (day_check y m d Hm) V), dayz_unix. apply day_no_dayz in Hk. rewrite Hk. do 2 f_equal. lia.
  - exists D, ([84] ++ T ++ Zn), y, m, d. repeat split; auto; try lia. apply lit_spec. exists (T ++ Zn). split; auto.
    apply (clock_loop strict T Zn y m d _ _ _ _ _ h mi se ns sg zh zm); auto.
Qed.
Lemma parse_date_time_bwd strict o t : date_time_text o -> time_parse strict date_time_layout o = Some t -> date_time_value strict o t.
Proof.
  intros (w & dw & t0 & t1 & z0 & z1 & Hd & Ht & Hz & -> & ->) E. unfold time_parse, fields0 in E. rewrite dt_layout in E.
  destruct (time_loop _ _ _ _) as [f|] eqn:L; [|discriminate]. apply date_loop in L. destruct L as (D & r & y & m & d & Eo & HD & Hm & L).
  apply lit_spec in L. destruct L as (r1 & -> & L).
  destruct (cut_eq 84 dw D (t1 ++ z1) r1) as [-> <-]; [apply date_word_noT; auto|eapply date_text_noT; eauto|exact Eo|].
  destruct (fixed_text t1 (time_fixed _ _ Ht)) as (h & mi & se & ns & HT). destruct (zone_out _ _ Hz) as (sg & zh & zm & HZ & Bz).
  apply (clock_loop _ _ _ _ _ _ _ _ _ _ _ _ _ _ _ _ _ _ _ HT HZ Bz) in L. destruct L as (B1 & B2 & B3 & Sz & ->).
  cbn [f_day f_month f_year f_zone f_nsec] in E. destruct ((d <? 1) || (daysIn m y <? d))%bool eqn:V; [discriminate|]. apply day_check in V; auto.
  rewrite dayz_unix in E. apply some_inj in E. subst t.
  exists D, t1, z1. do 2 eexists. exists sg, zh, zm. split; [reflexivity|]. split; [exists (y, m, d), (dayz (y, m, d)); split; [exact HD|]; split; [exact V|]; split; [apply day_no_ex; auto|reflexivity]|].
  split; [exists h, mi, se, ns; repeat split; eauto|]. split; [exact HZ|]. split; [exact Bz|]. split; [exact Sz|]. cbn [t_unix t_nsec]. f_equal. lia.
Qed.

(** ** The transformers *)
Lemma last_text_app l a s : a_val a = VStr s -> last_text (l ++ [a]) = Ok s.
Proof.
  intros E. unfold last_text. destruct l as [|b l]; simpl.
  - rewrite E. reflexivity.
  - rewrite last_last, E. reflexivity.
Qed.
Lemma reads_of strict mk cls layout pre post (D : bytes -> Prop) V :
  (forall s x, D s -> time_parse strict layout (pre ++ s ++ post) = Some x <-> V s x) ->
  reads_time (time_trans strict mk cls layout pre post) mk cls D V.
Proof.
  intros H n c l a s Ea Ds. unfold time_trans. rewrite (last_text_app l a s Ea).
  destruct (time_parse strict layout (pre ++ s ++ post)) as [x|] eqn:E.
  - left. exists x. split; [apply H; auto|reflexivity].
  - right. split; [|eexists; reflexivity]. intros x Hx. apply H in Hx; auto. congruence.
Qed.
Lemma reads_date strict mk : reads_time (ParseDate strict mk) mk ":extra:Date" (fun _ => True) date_value.
Proof. apply reads_of. intros s x _. cbn [app]. rewrite app_nil_r. apply parse_date_spec. Qed.
Lemma reads_clock strict mk : reads_time (ParseTime strict mk) mk ":extra:Time" fixed_time time_value.
Proof. apply reads_of. intros s x Hs. apply parse_time_spec; auto. Qed.
Lemma reads_date_time strict mk : reads_time (ParseDateTime strict mk) mk ":extra:DateTime" date_time_text (date_time_value strict).
Proof.
  apply reads_of. intros s x Hs. cbn [app]. rewrite app_nil_r. split; [apply parse_date_time_bwd; auto|apply parse_date_time_fwd].
Qed.
Lemma time_trans_gram strict mk cls layout pre post : mono_trans (time_trans strict mk cls layout pre post) /\ trans_ok (time_trans strict mk cls layout pre post).
Proof. split; [intros n m c l _; unfold time_trans; intros; auto|intros n c c' l _ _ _ _; reflexivity]. Qed.

Lemma instant_token_of e cls0 R strict mk cls layout pre post (D : bytes -> Prop) V :
  token e cls0 R -> peg_gram e -> (forall w s, R w s -> D s) ->
  reads_time (time_trans strict mk cls layout pre post) mk cls D V ->
  instant_token (ETrans e [time_trans strict mk cls layout pre post]) mk cls R V.
Proof.
  set (t := time_trans strict mk cls layout pre post).
  intros T G HD Rd env c He Hb Hp Hs. destruct (T env c He Hb Hp Hs) as (n & o & E & H).
  set (w := mkW (c_str c) (c_slice c) (c_tag c) env).
  assert (Hw : in_world w c) by (repeat split).
  assert (Gt : peg_gram (ETrans e [t])). { split; [exact G|]. split; [apply time_trans_gram|exact I]. }
  destruct H as [(x & s & a & Lo & S1 & P1 & K1 & C1 & T1 & V1)|[N S1]].
  - assert (P : peg w e (c_sp c) (RSucc (c_sp o) [a])).
    { apply (peg_adequate w _ c He G Hw Hs). exists n, o, None. split; [exact E|]. repeat split; auto. }
    assert (Ds : D s) by (apply (HD x); apply Lo).
    destruct (Rd 0%nat (fresh w (c_sp c)) [] a s V1 Ds) as [(y & Hy & Et)|[Ny (er & Et)]]; cbn [app] in Et.
    + assert (P2 : peg w (ETrans e [t]) (c_sp c) (RSucc (c_sp o) [mkAst 0 cls TAny (mk y) sp0])).
      { eapply peg_trans_ok; [exact P|]. eapply (pl_ok _ 0%nat); [exact Et|constructor]. }
      destruct (proj1 (peg_adequate w _ c He Gt Hw Hs _) P2) as (n2 & o2 & err & E2 & Rr). simpl in Rr. destruct Rr as (-> & A1 & A2 & A3).
      exists n2, o2, None. split; auto. left. exists x, s, y. split; [exact Lo|]. split; [exact Hy|]. split; [auto|]. split; [auto|].
      split; [unfold c_pos in *; rewrite A2; auto|exact A3].
    + assert (P2 : peg w (ETrans e [t]) (c_sp c) (RErr (c_sp o) er)).
      { eapply peg_trans_bad; [exact P|]. eapply (pl_err _ 0%nat); exact Et. }
      destruct (proj1 (peg_adequate w _ c He Gt Hw Hs _) P2) as (n2 & o2 & err & E2 & Rr). simpl in Rr. destruct Rr as (-> & A1 & A2).
      exists n2, o2, (Some er). split; auto. right. left. exists x, s. repeat split; auto; try apply Lo. discriminate.
  - assert (P : peg w e (c_sp c) RFail).
    { apply (peg_adequate w _ c He G Hw Hs). exists n, o, None. split; [exact E|]. repeat split; auto. }
    assert (P2 : peg w (ETrans e [t]) (c_sp c) RFail) by (apply peg_trans_fail; auto).
    destruct (proj1 (peg_adequate w _ c He Gt Hw Hs _) P2) as (n2 & o2 & err & E2 & Rr). simpl in Rr. destruct Rr as (-> & A1).
    exists n2, o2, None. split; auto.
Qed.
Lemma instant_date strict mk : instant_token (ETrans DateStr [ParseDate strict mk]) mk ":extra:Date" (outL verbatim date_word) date_value.
Proof. eapply instant_token_of; [apply date_token|xgram|intros; exact I|apply reads_date]. Qed.
Lemma instant_time strict mk : instant_token (ETrans TimeStr [ParseTime strict mk]) mk ":extra:Time" timeL time_value.
Proof. eapply instant_token_of; [apply time_token|xgram|apply time_fixed|apply reads_clock]. Qed.
Lemma instant_date_time strict mk : instant_token (ETrans DateTimeStr [ParseDateTime strict mk]) mk ":extra:DateTime" date_timeL (date_time_value strict).
Proof. eapply (instant_token_of _ _ _ strict mk _ date_time_layout [] [] date_time_text); [apply date_time_token|xgram|intros w s H; exists w; exact H|apply reads_date_time]. Qed.

(** ** Which tokens have an instant *)
Lemma dec_func n s x x' : dec n s x -> dec n s x' -> x = x'.
Proof. intros (_ & _ & ->) (_ & _ & ->). reflexivity. Qed.
Lemma app_len_eq {A} (a b u v : list A) : length a = length b -> a ++ u = b ++ v -> a = b /\ u = v.
Proof.
  revert b. induction a as [|x a IH]; intros [|y b] L E; try discriminate L; auto.
  simpl in E. injection E as <- E. injection L as L. destruct (IH b L E) as [-> ->]. auto.
Qed.
Lemma time_text_func s h m se ns h' m' se' ns' : time_text s h m se ns -> time_text s h' m' se' ns' ->
  h = h' /\ m = m' /\ se = se' /\ ns = ns'.
Proof.
  intros (H & M & S & N & -> & DH & DM & DS & DN) (H' & M' & S' & N' & E & DH' & DM' & DS' & DN').
  apply app_len_eq in E; [|rewrite (proj1 DH), (proj1 DH'); reflexivity]. destruct E as [<- E]. injection E as E.
  apply app_len_eq in E; [|rewrite (proj1 DM), (proj1 DM'); reflexivity]. destruct E as [<- E]. injection E as E.
  apply app_len_eq in E; [|rewrite (proj1 DS), (proj1 DS'); reflexivity]. destruct E as [<- E]. injection E as <-.
  repeat split; eapply dec_func; eauto.
Qed.
Lemma times_with_value w o h m se ns : timeL w o -> time_text o h m se ns ->
  ((exists t, time_value o t) <-> h <= 23 /\ se <= 59).
Proof.
  intros HT H. split.
  - intros (t & h' & m' & se' & ns' & H' & B1 & B2 & B3 & _). destruct (time_text_func _ _ _ _ _ _ _ _ _ H H') as (-> & -> & -> & ->). lia.
  - intros [B1 B3]. exists (mkTime (3600 * h + 60 * m + se) ns). exists h, m, se, ns. split; [exact H|]. split; [lia|]. split; [|split; [lia|reflexivity]].
    destruct (time_fixed _ _ HT) as (x & s1 & s2 & f & (h1 & h2 & m1 & m2 & -> & K1 & K2 & K3 & K4) & -> & K5 & K6 & L & F). unfold dec_digit in *.
    destruct H as (H & M & S & N & E & DH & DM & DS & DN).
    change ([h1; h2; 58; m1; m2] ++ [58; s1; s2; 46] ++ f) with ([h1; h2] ++ [58] ++ [m1; m2] ++ [58; s1; s2; 46] ++ f) in E.
    apply app_len_eq in E; [|rewrite (proj1 DH); reflexivity]. destruct E as [<- E]. injection E as E.
    change (m1 :: m2 :: 58 :: s1 :: s2 :: 46 :: f) with ([m1; m2] ++ [58; s1; s2; 46] ++ f) in E.
    apply app_len_eq in E; [|rewrite (proj1 DM); reflexivity]. destruct E as [<- _]. destruct DM as (_ & _ & ->). cbn [fold_left]. lia.
Qed.
Lemma digs s : forallb is_dig s = true -> Forall dec_digit s.
Proof. intros H. apply Forall_forall. intros b I. apply is_dig_spec. exact (proj1 (forallb_forall _ _) H b I). Qed.
Lemma tokens_without_value strict mk n c :
  (exists w, date_word w /\ (exists y, w = y ++ bs "-01-01" /\ Forall dec_digit y) /\
     exists a e, a_val a = VStr w /\ ParseDate strict mk n c [a] = Ok (inl e)) /\
  (exists w y, date_word w /\ w = 45 :: y /\ (exists t, date_value y t) /\
     exists a e, a_val a = VStr w /\ ParseDate strict mk n c [a] = Ok (inl e)) /\
  (exists w o a e, timeL w o /\ w = bs "23:59:60" /\ a_val a = VStr o /\ ParseTime strict mk n c [a] = Ok (inl e)) /\
  (exists w o a e, timeL w o /\ w = bs "24:00" /\ a_val a = VStr o /\ ParseTime strict mk n c [a] = Ok (inl e)).
Proof.
  split; [|split; [|split]].
  - exists (bs "10000-01-01"). split; [|split].
    + exists [], (bs "10000"), 48, 49, 48, 49. split; [reflexivity|]. split; [auto|]. split; [simpl; lia|]. split; [apply digs; reflexivity|]. unfold dec_digit. lia.
    + exists (bs "10000"). split; [reflexivity|]. apply digs; reflexivity.
    + exists (mkAst 0 "" TString (VStr (bs "10000-01-01")) sp0). eexists. split; [reflexivity|]. vm_compute. reflexivity.
  - exists (bs "-0001-01-01"), (bs "0001-01-01"). split; [|split; [reflexivity|split]].
    + exists [45], (bs "0001"), 48, 49, 48, 49. split; [reflexivity|]. split; [auto|]. split; [simpl; lia|]. split; [apply digs; reflexivity|]. unfold dec_digit. lia.
    + exists (mkTime (-62135596800) 0). apply (parse_date_spec strict). vm_compute. reflexivity.
    + exists (mkAst 0 "" TString (VStr (bs "-0001-01-01")) sp0). eexists. split; [reflexivity|]. vm_compute. reflexivity.
  - exists (bs "23:59:60"), (bs "23:59:60.000000000"), (mkAst 0 "" TString (VStr (bs "23:59:60.000000000")) sp0). eexists. split; [|split; [reflexivity|split; [reflexivity|vm_compute; reflexivity]]].
    exists (bs "23:59"). split.
    + exists 50, 51, 53, 57. unfold dec_digit. repeat split; lia.
    + right. exists 54, 48. unfold dec_digit. split; [lia|]. split; [lia|]. left. split; reflexivity.
  - exists (bs "24:00"), (bs "24:00:00.000000000"), (mkAst 0 "" TString (VStr (bs "24:00:00.000000000")) sp0). eexists. split; [|split; [reflexivity|split; [reflexivity|vm_compute; reflexivity]]].
    exists (bs "24:00"). split.
    + exists 50, 52, 48, 48. unfold dec_digit. repeat split; lia.
    + left. split; reflexivity.
Qed.
