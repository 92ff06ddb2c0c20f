(** time.Parse on every text (C67). *)
From Verif Require Import S_Time L_Extra L_Time.

Lemma dec_1 a x : dec 1 [a] x <-> dec_digit a /\ x = a - 48.
Proof.
  split.
  - intros (_ & F & E). inversion F; subst. cbn [fold_left]. split; [assumption|lia].
  - intros (D & ->). split; [reflexivity|]. split; [auto|cbn [fold_left]; lia].
Qed.
Lemma dec_1_inv s x : dec 1 s x -> exists a, s = [a] /\ dec_digit a /\ x = a - 48.
Proof. intros D. pose proof D as (L & _). destruct s as [|a [|? ?]]; try discriminate L. exists a. split; [reflexivity|]. apply dec_1. exact D. Qed.
(** A number that may be one digit. *)
Lemma getnum_loose s x r : ~ dec_digit (hd 0 r) ->
  (getnum s false = Some (x, r) <-> exists S, s = S ++ r /\ (dec 1 S x \/ dec 2 S x)).
Proof.
  intros N. split.
  - unfold getnum. destruct s as [|a s]; [discriminate|]. destruct (is_dig a) eqn:Da; [|discriminate]. apply is_dig_spec in Da.
    destruct s as [|b s].
    + intros H. injection H as <- <-. exists [a]. split; [reflexivity|]. left. apply dec_1. auto.
    + destruct (is_dig b) eqn:Db.
      * intros H. injection H as <- <-. apply is_dig_spec in Db. exists [a; b]. split; [reflexivity|]. right.
        split; [reflexivity|]. split; [auto|cbn [fold_left]; lia].
      * intros H. injection H as <- <-. exists [a]. split; [reflexivity|]. left. apply dec_1. auto.
  - intros (S & -> & [D|D]).
    + apply dec_1_inv in D. destruct D as (a & -> & D & ->). cbn [app getnum]. rewrite (proj2 (is_dig_spec a) D).
      destruct r as [|b r]; [reflexivity|]. cbn [hd] in N. destruct (is_dig b) eqn:Db; [apply is_dig_spec in Db; contradiction|reflexivity].
    + apply getnum_2f. exact D.
Qed.
Lemma getnum_loose_fwd s x r : getnum s false = Some (x, r) -> exists S, s = S ++ r /\ (dec 1 S x \/ dec 2 S x).
Proof.
  unfold getnum. destruct s as [|a s]; [discriminate|]. destruct (is_dig a) eqn:Da; [|discriminate]. apply is_dig_spec in Da.
  destruct s as [|b s]; [|destruct (is_dig b) eqn:Db]; intros H; injection H as <- <-.
  - exists [a]. split; [reflexivity|]. left. apply dec_1. auto.
  - apply is_dig_spec in Db. exists [a; b]. split; [reflexivity|]. right. split; [reflexivity|]. split; [auto|cbn [fold_left]; lia].
  - exists [a]. split; [reflexivity|]. left. apply dec_1. auto.
Qed.

(** atoi on texts that are not empty. *)
Definition number (n : nat) (s : bytes) (x : Z) : Prop :=
  dec (S n) s x \/ (exists d, s = 43 :: d /\ dec n d x) \/ (exists d, s = 45 :: d /\ dec n d (- x)).
Lemma atoi_all n s x : length s = S n -> (time_atoi s = Some x <-> number n s x).
Proof.
  intros L. destruct s as [|b s]; [discriminate|]. cbn [length] in L. injection L as L.
  assert (U : forall x, all_digits 0 s = Some x <-> dec n s x) by (intros y; rewrite all_digits_spec; unfold dec; tauto).
  unfold time_atoi. destruct (Z.eqb_spec b 45) as [->|N1]; [|destruct (Z.eqb_spec b 43) as [->|N2]].
  - split.
    + destruct (all_digits 0 s) as [y|] eqn:E; [|discriminate]. cbn [option_map]. intros H. injection H as <-. right. right. exists s. split; [reflexivity|].
      rewrite Z.opp_involutive. apply U. reflexivity.
    + intros [D|[(d & H & _)|(d & H & D)]]; [|discriminate|].
      * destruct D as (_ & F & _). inversion F as [|? ? D _]; subst. unfold dec_digit in D. lia.
      * injection H as <-. apply U in D. rewrite D. cbn [option_map]. rewrite Z.opp_involutive. reflexivity.
  - rewrite U. split.
    + intros D. right. left. eauto.
    + intros [D|[(d & H & D)|(d & H & _)]]; [|injection H as <-; exact D|discriminate].
      destruct D as (_ & F & _). inversion F as [|? ? D _]; subst. unfold dec_digit in D. lia.
  - rewrite all_digits_spec. split.
    + intros (F & E). left. split; [cbn [length]; lia|]. auto.
    + intros [(_ & F & E)|[(d & H & _)|(d & H & _)]]; [auto|congruence|congruence].
Qed.
Lemma frac9_spec s x r : frac9 s = Some (x, r) <-> exists F, s = F ++ r /\ loose_frac F x.
Proof.
  unfold frac9. destruct s as [|p s]; [split; [discriminate|]; intros (F & E & (q & N & -> & _)); discriminate|].
  destruct ((p =? 46) || (p =? 44))%bool eqn:P.
  2: { split; [discriminate|]. intros (F & E & (q & N & -> & Hq & _)). injection E as <- _. apply orb_false_iff in P. destruct P as [P1 P2].
       apply Z.eqb_neq in P1, P2. destruct Hq; contradiction. }
  assert (Hp : p = 46 \/ p = 44) by (apply orb_true_iff in P; destruct P as [P|P]; apply Z.eqb_eq in P; auto). cbn [andb].
  destruct (Nat.leb_spec 9 (length s)) as [L|L].
  - assert (L9 : length (firstn 9 s) = 9%nat) by (apply firstn_length_le; exact L). split.
    + destruct (time_atoi (firstn 9 s)) as [y|] eqn:E; [|discriminate]. destruct (Z.ltb_spec y 0); [discriminate|]. intros H'. injection H' as <- <-.
      apply (atoi_all 8 _ _ L9) in E. exists (p :: firstn 9 s). split; [cbn [app]; rewrite firstn_skipn; reflexivity|].
      exists p, (firstn 9 s). split; [reflexivity|]. split; [exact Hp|]. destruct E as [D|[D|(d & E & D)]]; [left; exact D|right; left; exact D|].
      right. right. exists d. pose proof (dec_max _ _ _ D) as B. assert (y = 0) as -> by lia. auto.
    + intros (F & E & (q & N & -> & _ & H)). injection E as <- ->.
      assert (LN : length N = 9%nat) by (destruct H as [(H & _)|[(M & -> & H & _)|(M & -> & (H & _) & _)]]; cbn [length]; lia).
      rewrite <- LN, firstn_app, firstn_all, Nat.sub_diag, firstn_O, app_nil_r, skipn_app, skipn_all, Nat.sub_diag. cbn [app skipn].
      assert (G : time_atoi N = Some x /\ 0 <= x).
      { rewrite (atoi_all 8 N x LN). destruct H as [D|[(M & -> & D)|(M & -> & D & ->)]].
        - split; [left; exact D|]. apply (dec_max _ _ _ D).
        - split; [right; left; eauto|]. apply (dec_max _ _ _ D).
        - split; [right; right; exists M; auto|lia]. }
      destruct G as (-> & B). destruct (Z.ltb_spec x 0); [lia|reflexivity].
  - split; [discriminate|]. intros (F & E & (q & N & -> & _ & H)). injection E as <- ->. rewrite app_length in L.
    assert (LN : length N = 9%nat) by (destruct H as [(H & _)|[(M & -> & H & _)|(M & -> & (H & _) & _)]]; cbn [length]; lia). lia.
Qed.
Lemma zone_num_spec strict a b hi x : zone_num strict a b hi = Some x <-> offset_num strict hi [a; b] x.
Proof.
  unfold zone_num, offset_num. destruct strict.
  - split.
    + destruct (ranged 0 hi (getnum [a; b] true)) as [[y r]|] eqn:E; [|discriminate]. intros H. injection H as <-. apply ranged_spec in E. destruct E as (E & B).
      left. apply getnum_2 in E. destruct E as (S & E & D). pose proof D as (L & _). destruct S as [|s1 [|s2 [|? ?]]]; try discriminate L.
      injection E as <- <- _. split; [exact D|lia].
    + intros [(D & B)|(H & _)]; [|discriminate]. pose proof (dec_max _ _ _ D). rewrite (proj2 (ranged_spec 0 hi (getnum [a; b] true) x [])); [reflexivity|].
      split; [|specialize (B eq_refl); lia]. apply getnum_2. exists [a; b]. split; [reflexivity|exact D].
  - rewrite (atoi_all 1 [a; b] x eq_refl). unfold number. split.
    + intros [D|[(d & E & D)|(d & E & D)]]; [left; split; [exact D|discriminate]|right; split; [reflexivity|]; exists d; auto|right; split; [reflexivity|]; exists d; auto].
    + intros [(D & _)|(_ & d & [(E & D)|(E & D)])]; [left; exact D|right; left; eauto|right; right; eauto].
Qed.
Lemma offset_len strict hi s x : offset_num strict hi s x -> exists a b, s = [a; b].
Proof.
  intros [((L & _) & _)|(_ & d & [(-> & (L & _))|(-> & (L & _))])].
  - destruct s as [|a [|b [|? ?]]]; try discriminate L. eauto.
  - destruct d as [|a [|? ?]]; try discriminate L. eauto.
  - destruct d as [|a [|? ?]]; try discriminate L. eauto.
Qed.
Lemma zone_spec strict s x r : zone strict s = Some (x, r) <-> exists Zn, s = Zn ++ r /\ loose_zone strict Zn x.
Proof.
  split.
  - unfold zone. destruct s as [|sg [|h1 [|h2 [|c [|m1 [|m2 r']]]]]]; try discriminate. destruct (Z.eqb_spec c 58) as [->|]; [|discriminate].
    destruct (zone_num strict h1 h2 24) as [h|] eqn:Eh; [|discriminate]. destruct (zone_num strict m1 m2 60) as [m|] eqn:Em; [|discriminate].
    apply zone_num_spec in Eh, Em. cbv zeta. destruct (Z.eqb_spec sg 43) as [->|]; [|destruct (Z.eqb_spec sg 45) as [->|]; [|discriminate]]; intros H; injection H as <- <-.
    + exists [43; h1; h2; 58; m1; m2]. split; [reflexivity|]. exists 43, 1, [h1; h2], [m1; m2], h, m. repeat split; auto. lia.
    + exists [45; h1; h2; 58; m1; m2]. split; [reflexivity|]. exists 45, (-1), [h1; h2], [m1; m2], h, m. repeat split; auto. lia.
  - intros (Zn & -> & (b & sg & H & M & h & m & -> & Hb & Hh & Hm & ->)).
    destruct (offset_len _ _ _ _ Hh) as (h1 & h2 & ->). destruct (offset_len _ _ _ _ Hm) as (m1 & m2 & ->).
    apply zone_num_spec in Hh, Hm. cbn [app]. unfold zone. rewrite Z.eqb_refl, Hh, Hm. cbv zeta.
    destruct Hb as [[-> ->]|[-> ->]]; cbn [Z.eqb Pos.eqb]; do 2 f_equal; lia.
Qed.

Lemma clock_all strict s y mo d a1 a2 a3 a4 a5 f :
  time_loop strict clock_layout s (mkF y mo d a1 a2 a3 a4 a5) = Some f <->
  exists T Zn h m se ns off, s = T ++ Zn /\ loose_time T h m se ns /\ h < 24 /\ m < 60 /\ se < 60 /\ loose_zone strict Zn off /\
    f = mkF y mo d h m se ns off.
Proof.
  unfold clock_layout. cbn [time_loop]. rewrite put_spec. split.
  - intros (h & r1 & HH & E). apply ranged_spec in HH. destruct HH as [HH Rh]. apply getnum_loose_fwd in HH. destruct HH as (H & -> & DH).
    destruct r1 as [|x r1]; [discriminate|]. destruct (Z.eqb_spec x 58) as [->|]; [|discriminate].
    apply put_spec in E. destruct E as (m & r2 & HM & E). apply ranged_spec in HM. destruct HM as [HM Rm]. apply getnum_2 in HM. destruct HM as (M & -> & DM).
    destruct r2 as [|x r2]; [discriminate|]. destruct (Z.eqb_spec x 58) as [->|]; [|discriminate].
    apply put_spec in E. destruct E as (se & r3 & HS & E). apply ranged_spec in HS. destruct HS as [HS Rs]. apply getnum_2 in HS. destruct HS as (S & -> & DS).
    apply put_spec in E. destruct E as (ns & r4 & HF & E). apply frac9_spec in HF. destruct HF as (F & -> & DF).
    apply put_spec in E. destruct E as (off & r5 & HZ & E). apply zone_spec in HZ. destruct HZ as (Zn & -> & DZ).
    destruct r5; [|discriminate]. injection E as <-. rewrite app_nil_r.
    exists (H ++ [58] ++ M ++ [58] ++ S ++ F), Zn, h, m, se, ns, off. split; [rewrite <- ?app_assoc; cbn [app]; rewrite <- ?app_assoc; cbn [app]; rewrite <- ?app_assoc; reflexivity|].
    split; [exists H, M, S, F; auto|]. repeat split; auto; lia.
  - intros (T & Zn & h & m & se & ns & off & -> & (H & M & S & F & -> & DH & DM & DS & DF) & Rh & Rm & Rs & DZ & ->).
    assert (B : 0 <= h) by (destruct DH as [D|D]; apply (dec_max _ _ _ D)). pose proof (dec_max _ _ _ DM) as BM. pose proof (dec_max _ _ _ DS) as BS.
    exists h, (58 :: M ++ 58 :: S ++ F ++ Zn). split.
    { apply ranged_spec. split; [|lia]. apply getnum_loose; [cbn [hd]; unfold dec_digit; lia|]. exists H.
      split; [rewrite <- ?app_assoc; cbn [app]; rewrite <- ?app_assoc; cbn [app]; rewrite <- ?app_assoc; reflexivity|exact DH]. }
    rewrite Z.eqb_refl. apply put_spec. exists m, (58 :: S ++ F ++ Zn). split; [apply ranged_spec; split; [apply getnum_2; eauto|lia]|].
    rewrite Z.eqb_refl. apply put_spec. exists se, (F ++ Zn). split; [apply ranged_spec; split; [apply getnum_2; eauto|lia]|].
    apply put_spec. exists ns, Zn. split; [apply frac9_spec; eauto|].
    apply put_spec. exists off, []. split; [apply zone_spec; exists Zn; rewrite app_nil_r; auto|]. reflexivity.
Qed.
Lemma loose_zone_len strict Zn off : loose_zone strict Zn off -> length Zn = 6%nat.
Proof.
  intros (b & sg & H & M & h & m & -> & _ & Hh & Hm & _). destruct (offset_len _ _ _ _ Hh) as (h1 & h2 & ->). destruct (offset_len _ _ _ _ Hm) as (m1 & m2 & ->). reflexivity.
Qed.
Lemma utc strict : loose_zone strict (bs "+00:00") 0.
Proof.
  assert (D : dec 2 [48; 48] 0) by (repeat split; repeat constructor; unfold dec_digit; lia).
  exists 43, 1, [48; 48], [48; 48], 0, 0. split; [reflexivity|]. split; [auto|]. split; [left; split; [exact D|lia]|]. split; [left; split; [exact D|lia]|]. reflexivity.
Qed.
Lemma zone_func strict Zn off off' : loose_zone strict Zn off -> loose_zone strict Zn off' -> off = off'.
Proof.
  intros H H'. assert (A : zone strict (Zn ++ []) = Some (off, [])) by (apply zone_spec; eauto).
  assert (B : zone strict (Zn ++ []) = Some (off', [])) by (apply zone_spec; eauto). congruence.
Qed.
Lemma parse_time_all strict s t :
  time_parse strict date_time_layout (bs "1970-01-01T" ++ s ++ bs "+00:00") = Some t <-> loose_time_value s t.
Proof.
  unfold time_parse.
  assert (E : time_loop strict date_time_layout (bs "1970-01-01T" ++ s ++ bs "+00:00") fields0 =
              time_loop strict clock_layout (s ++ bs "+00:00") (mkF 1970 1 1 0 0 0 0 0)) by reflexivity.
  rewrite E. clear E. split.
  - destruct (time_loop _ _ _ _) as [f|] eqn:E; [|discriminate]. apply clock_all in E.
    destruct E as (T & Zn & h & m & se & ns & off & E & HT & H1 & H2 & H3 & HZ & ->).
    destruct (app_len_eq s T (bs "+00:00") Zn) as [-> <-]; [|exact E|].
    { pose proof (f_equal (@length Z) E) as L. rewrite !app_length, (loose_zone_len _ _ _ HZ) in L. change (length (bs "+00:00")) with 6%nat in L. lia. }
    pose proof (zone_func _ _ _ _ HZ (utc strict)) as ->. cbn [f_day f_month f_year f_zone f_nsec]. rewrite dayz_unix, dayz_epoch.
    change ((1 <? 1) || (daysIn 1 1970 <? 1))%bool with false. cbv iota. intros Q. apply some_inj in Q. subst t.
    exists h, m, se, ns. repeat split; auto. f_equal. lia.
  - intros (h & m & se & ns & HT & H1 & H2 & H3 & ->).
    rewrite (proj2 (clock_all strict (s ++ bs "+00:00") 1970 1 1 0 0 0 0 0 (mkF 1970 1 1 h m se ns 0))).
    + cbn [f_day f_month f_year f_zone f_nsec]. rewrite dayz_unix, dayz_epoch. change ((1 <? 1) || (daysIn 1 1970 <? 1))%bool with false. cbv iota. do 2 f_equal. lia.
    + exists s, (bs "+00:00"), h, m, se, ns, 0. repeat split; auto. apply utc.
Qed.
Lemma parse_date_time_all strict s t : time_parse strict date_time_layout s = Some t <-> loose_date_time_value strict s t.
Proof.
  unfold time_parse, fields0. rewrite dt_layout. split.
  - destruct (time_loop _ _ _ _) as [f|] eqn:L; [|discriminate]. apply date_loop in L. destruct L as (D & r & y & m & d & -> & HD & Hm & L).
    apply lit_spec in L. destruct L as (r1 & -> & L). apply clock_all in L. destruct L as (T & Zn & h & mi & se & ns & off & -> & HT & H1 & H2 & H3 & HZ & ->).
    cbn [f_day f_month f_year f_zone f_nsec]. destruct ((d <? 1) || (daysIn m y <? d))%bool eqn:V; [discriminate|]. apply day_check in V; auto.
    rewrite dayz_unix. intros E. apply some_inj in E. subst t.
    exists D, T, Zn. do 2 eexists. exists off. split; [reflexivity|]. split; [exists (y, m, d), (dayz (y, m, d)); split; [exact HD|]; split; [exact V|]; split; [apply day_no_ex; auto|reflexivity]|].
    split; [exists h, mi, se, ns; repeat split; eauto|]. split; [exact HZ|]. cbn [t_unix t_nsec]. f_equal; lia.
  - intros (D & T & Zn & td & tt & off & -> & ([[y m] d] & k & HD & V & Hk & ->) & (h & mi & se & ns & HT & B1 & B2 & B3 & ->) & HZ & ->).
    pose proof (valid_month _ _ _ V) as Hm.
    rewrite (proj2 (date_loop strict (LLit 84 :: clock_layout) (D ++ [84] ++ T ++ Zn) 0 1 1 0 0 0 0 0 (mkF y m d h mi se ns off))).
    + cbn [f_day f_month f_year f_zone f_nsec t_unix t_nsec]. rewrite (proj2 (day_check y m d Hm) V), dayz_unix. apply day_no_dayz in Hk. rewrite Hk. do 2 f_equal; lia.
    + exists D, ([84] ++ T ++ Zn), y, m, d. repeat split; auto; try lia. apply lit_spec. exists (T ++ Zn). split; auto.
      apply clock_all. exists T, Zn, h, mi, se, ns, off. repeat split; auto.
Qed.
Lemma all_times strict mk : reads_time (ParseTime strict mk) mk ":extra:Time" (fun _ => True) loose_time_value.
Proof. apply reads_of. intros s x _. apply parse_time_all. Qed.
Lemma all_date_times strict mk : reads_time (ParseDateTime strict mk) mk ":extra:DateTime" (fun _ => True) (loose_date_time_value strict).
Proof. apply reads_of. intros s x _. cbn [app]. rewrite app_nil_r. apply parse_date_time_all. Qed.
