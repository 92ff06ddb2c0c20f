(** Lemmas for C71: shortest decimals. *)
From Verif Require Export L_Float L_FloatAll L_FloatUse L_Marshal S_Format.

(** ** Intervals of numbers that round to m * 2^p (in units of 2^-1074) *)
Lemma pow_pos_ b k : 0 < b -> 0 < b ^ k \/ k < 0.
Proof. intros H. destruct (Z.lt_ge_cases k 0); [right; auto|left; apply Z.pow_pos_nonneg; lia]. Qed.
Lemma pow2 k : 0 <= k -> 0 < 2 ^ k. Proof. intros. apply Z.pow_pos_nonneg; lia. Qed.
Lemma pow10 k : 0 <= k -> 0 < 10 ^ k. Proof. intros. apply Z.pow_pos_nonneg; lia. Qed.
Definition normed (m p : Z) : Prop := 0 < m < 2 ^ 53 /\ 0 <= p /\ (2 ^ 52 <= m \/ p = 0).
Definition low (m p : Z) : Z := if (2 ^ 52 <? m) || (p =? 0) then 4 * m - 2 else 4 * m - 1.
Definition inr_ (m p n d : Z) : Prop :=
  low m p * 2 ^ p * d <= 4 * (n * 2 ^ 1074) <= (4 * m + 2) * 2 ^ p * d /\
  (Z.even m = true \/ (low m p * 2 ^ p * d <> 4 * (n * 2 ^ 1074) /\ 4 * (n * 2 ^ 1074) <> (4 * m + 2) * 2 ^ p * d)).

Lemma gap_above q p m' p' : 0 <= q < 2 ^ 53 -> 0 <= p -> (2 ^ 52 <= q \/ p = 0) -> 0 <= m' < 2 ^ 53 -> 0 <= p' ->
  m' * 2 ^ p' <= q * 2 ^ p \/ (q + 1) * 2 ^ p <= m' * 2 ^ p'.
Proof.
  intros [q0 q1] p0 qc Hm Hp. destruct (Z.le_gt_cases p p') as [L|L].
  - assert (E : 2 ^ p' = 2 ^ (p' - p) * 2 ^ p) by (rewrite <- Z.pow_add_r by lia; f_equal; lia).
    rewrite E, Z.mul_assoc. pose proof (pow2 p p0) as P0. generalize dependent (m' * 2 ^ (p' - p)). intros t.
    generalize dependent (2 ^ p). intros b _ P0. destruct (Z.le_gt_cases t q); [left|right]; nia.
  - destruct qc as [qc|qc]; [|lia]. left.
    assert (E : 2 ^ p = 2 ^ (p - p' - 1) * (2 * 2 ^ p')).
    { replace (2 * 2 ^ p') with (2 ^ (p' + 1)) by (rewrite Z.pow_add_r by lia; rewrite Z.mul_comm; reflexivity).
      rewrite <- Z.pow_add_r by lia. f_equal. lia. }
    rewrite E. assert (T : 1 <= 2 ^ (p - p' - 1)) by (pose proof (pow2 (p - p' - 1) ltac:(lia)); lia).
    pose proof (pow2 p' Hp) as P0. change (2 ^ 53) with (2 * 2 ^ 52) in Hm. clear - qc T P0 Hm q0.
    assert (2 ^ 52 * (2 * 2 ^ p') <= q * (2 ^ (p - p' - 1) * (2 * 2 ^ p'))).
    { replace (q * (2 ^ (p - p' - 1) * (2 * 2 ^ p'))) with ((q * 2 ^ (p - p' - 1)) * (2 * 2 ^ p')) by ring. apply Z.mul_le_mono_nonneg_r; [lia|]. nia. }
    assert (m' * 2 ^ p' <= (2 * 2 ^ 52) * 2 ^ p') by (apply Z.mul_le_mono_nonneg_r; lia). lia.
Qed.
(** The neighbour below, in quarters of 2^p. *)
Lemma gap_below m p m' p' : normed m p -> 0 <= m' < 2 ^ 53 -> 0 <= p' -> m' * 2 ^ p' < m * 2 ^ p ->
  2 * (m' * 2 ^ p') <= (low m p - 2 * m) * 2 ^ p.
Proof.
  intros ((M0 & M1) & P & C) Hm Hp L. unfold low. destruct (Z.ltb_spec (2 ^ 52) m) as [G|G]; cbn [orb].
  - destruct (gap_above (m - 1) p m' p') as [H|H]; try lia.
  - destruct (Z.eqb_spec p 0) as [->|N].
    + destruct (gap_above (m - 1) 0 m' p') as [H|H]; try lia.
    + assert (m = 2 ^ 52) by (destruct C; [lia|contradiction]). subst m.
      destruct (gap_above (2 ^ 53 - 1) (p - 1) m' p') as [H|H]; auto; try (split; [discriminate|reflexivity]); try lia; try (left; discriminate).
      * assert (E : 2 ^ p = 2 * 2 ^ (p - 1)). { replace p with (p - 1 + 1) at 1 by lia. rewrite Z.pow_add_r by lia. rewrite Z.mul_comm. reflexivity. }
        rewrite E. change (2 ^ 53) with (2 * 2 ^ 52) in *. lia.
      * replace (2 ^ 53 - 1 + 1) with (2 * 2 ^ 52) in H by reflexivity.
        assert (E : 2 ^ p = 2 * 2 ^ (p - 1)). { replace p with (p - 1 + 1) at 1 by lia. rewrite Z.pow_add_r by lia. rewrite Z.mul_comm. reflexivity. }
        rewrite E in L. lia.
Qed.
Lemma below_exists m p : normed m p -> exists m' p', 0 <= m' < 2 ^ 53 /\ 0 <= p' /\ 2 * (m' * 2 ^ p') = (low m p - 2 * m) * 2 ^ p /\ m' * 2 ^ p' < m * 2 ^ p.
Proof.
  intros ((M0 & M1) & P & C). pose proof (pow2 p P) as P2. unfold low. destruct (Z.ltb_spec (2 ^ 52) m) as [G|G]; cbn [orb].
  - exists (m - 1), p. repeat split; try lia; try nia.
  - destruct (Z.eqb_spec p 0) as [->|N].
    + exists (m - 1), 0. repeat split; try lia.
    + assert (m = 2 ^ 52) by (destruct C; [lia|contradiction]). subst m. exists (2 ^ 53 - 1), (p - 1).
      assert (E : 2 ^ p = 2 * 2 ^ (p - 1)). { replace p with (p - 1 + 1) at 1 by lia. rewrite Z.pow_add_r by lia. rewrite Z.mul_comm. reflexivity. }
      split; [split; [discriminate|reflexivity]|]. split; [lia|]. rewrite E. change (2 ^ 53) with (2 * 2 ^ 52). rewrite E in P2. split; [ring|].
      generalize dependent (2 ^ (p - 1)). intros. change (2 ^ 52) with 4503599627370496. lia.
Qed.
Lemma above_exists m p : normed m p -> exists m' p', 0 <= m' < 2 ^ 53 /\ 0 <= p' /\ m' * 2 ^ p' = (m + 1) * 2 ^ p.
Proof.
  intros ((M0 & M1) & P & C). destruct (Z.eq_dec m (2 ^ 53 - 1)) as [->|N].
  - exists (2 ^ 52), (p + 1). split; [split; [discriminate|reflexivity]|]. split; [lia|]. rewrite Z.pow_add_r by lia. replace (2 ^ 53 - 1 + 1) with (2 ^ 52 * 2) by reflexivity. change (2 ^ 1) with 2. ring.
  - exists (m + 1), p. repeat split; lia.
Qed.

Lemma inr_best m p n d : normed m p -> 0 < d -> inr_ m p n d -> best n d m p.
Proof.
  intros N D ((I1 & I2) & Ev). pose proof N as ((M0 & M1) & P & C). pose proof (pow2 p P) as P2.
  assert (K : forall m' p', 0 <= m' < 2 ^ 53 -> 0 <= p' -> m' * 2 ^ p' = m * 2 ^ p \/
    (2 * (m' * 2 ^ p' * d) <= (low m p - 2 * m) * 2 ^ p * d /\ m' * 2 ^ p' * d < m * 2 ^ p * d) \/ (m + 1) * 2 ^ p * d <= m' * 2 ^ p' * d).
  { intros m' p' H1 H2. destruct (Z.lt_trichotomy (m' * 2 ^ p') (m * 2 ^ p)) as [H|[H|H]]; [right; left|left; auto|right; right].
    - split; [rewrite Z.mul_assoc; apply Z.mul_le_mono_nonneg_r; [lia|apply gap_below; auto]|]. apply Z.mul_lt_mono_pos_r; auto.
    - destruct (gap_above m p m' p') as [G|G]; auto; [lia|lia|]. apply Z.mul_le_mono_nonneg_r; lia. }
  split; [lia|]. split; [exact P|]. split; [exact C|].
  assert (A : 0 < 2 ^ p * d) by (apply Z.mul_pos_pos; auto).
  split; intros m' p' H1 H2; unfold dist; destruct (K m' p' H1 H2) as [->|[[H3 H4]|H3]].
  - reflexivity.
  - generalize dependent (n * 2 ^ 1074). intros w. generalize dependent (m' * 2 ^ p' * d). intros v. lia.
  - generalize dependent (n * 2 ^ 1074). intros w. generalize dependent (m' * 2 ^ p' * d). intros v. lia.
  - intros _ H; contradiction.
  - intros E _. destruct Ev as [Ev|[E1 E2]]; auto. exfalso.
    generalize dependent (n * 2 ^ 1074). intros w. generalize dependent (m' * 2 ^ p' * d). intros v. lia.
  - intros E _. destruct Ev as [Ev|[E1 E2]]; auto. exfalso.
    generalize dependent (n * 2 ^ 1074). intros w. generalize dependent (m' * 2 ^ p' * d). intros v. lia.
Qed.
Lemma best_inr m p n d : normed m p -> 0 < d -> best n d m p -> inr_ m p n d.
Proof.
  intros N D (_ & _ & _ & Be & T). pose proof N as ((M0 & M1) & P & C). pose proof (pow2 p P) as P2.
  destruct (below_exists m p N) as (m1 & p1 & A1 & A2 & A3 & A4). destruct (above_exists m p N) as (m2 & p2 & B1 & B2 & B3).
  pose proof (Be m1 p1 A1 A2) as D1. pose proof (Be m2 p2 B1 B2) as D2. pose proof (T m1 p1 A1 A2) as T1. pose proof (T m2 p2 B1 B2) as T2. unfold dist in *.
  rewrite B3 in *. assert (A5 : 2 * (m1 * 2 ^ p1 * d) = (low m p - 2 * m) * 2 ^ p * d) by (rewrite <- A3; ring).
  assert (A6 : m1 * 2 ^ p1 * d < m * 2 ^ p * d) by (apply Z.mul_lt_mono_pos_r; auto).
  assert (A : 0 < 2 ^ p * d) by (apply Z.mul_pos_pos; auto). unfold inr_.
  destruct (Z.even m) eqn:Ev.
  - clear T1 T2 Be T. generalize dependent (n * 2 ^ 1074). intros w. generalize dependent (m1 * 2 ^ p1 * d). intros v. lia.
  - assert (T1' : Z.abs (m1 * 2 ^ p1 * d - n * 2 ^ 1074) <> Z.abs (m * 2 ^ p * d - n * 2 ^ 1074)) by (intros E; specialize (T1 E ltac:(lia)); discriminate).
    assert (T2' : Z.abs ((m + 1) * 2 ^ p * d - n * 2 ^ 1074) <> Z.abs (m * 2 ^ p * d - n * 2 ^ 1074)) by (intros E; specialize (T2 E ltac:(nia)); discriminate).
    clear T1 T2 Be T. generalize dependent (n * 2 ^ 1074). intros w. generalize dependent (m1 * 2 ^ p1 * d). intros v. intros. split; [lia|]. right. lia.
Qed.

(** ** Rounding to a given float64 *)
Definition finite64 (neg : bool) (m : positive) (e : Z) : Prop := finite_double (S754_finite neg m e) /\ normal_form (S754_finite neg m e).
Lemma finite_normed neg m e : finite64 neg m e -> normed (Z.pos m) (e + 1074).
Proof. intros ((A & B) & C). cbn in C. split; [lia|]. split; [lia|]. destruct C; [left; auto|right; lia]. Qed.
Lemma inr_nearest neg m e n d : finite64 neg m e -> 0 < n -> 0 < d ->
  (nearest neg (sg neg * n) d (inr (S754_finite neg m e)) <-> inr_ (Z.pos m) (e + 1074) n d).
Proof.
  intros F Hn Hd. pose proof (finite_normed _ _ _ F) as N. split.
  - intros [(x & E & R & S & T)|[E _]]; [|discriminate]. injection E as <-. apply best_inr; auto.
    pose proof (round_best n d Hn Hd) as B. destruct (round_units n d) as [m1 p1].
    assert (L : p1 <= 2045). { apply (best_range _ _ Hd _ _ B). apply Z.nle_gt. intros K. apply T. apply too_large_sg; auto. }
    destruct (best_rounded n d m1 p1 neg _ Hn Hd B L eq_refl) as [R1 S1].
    assert (E := rounded_func _ _ _ _ Hd R R1 ltac:(rewrite S1; reflexivity)).
    destruct m1 as [|u|u]; try discriminate. injection E as -> ->. replace (p1 - 1074 + 1074) with p1 by lia. exact B.
  - intros I. pose proof (inr_best _ _ _ _ N Hd I) as B. assert (L : e + 1074 <= 2045) by (destruct F as ((_ & F) & _); lia).
    destruct (best_rounded n d (Z.pos m) (e + 1074) neg (S754_finite neg m e) Hn Hd B L) as [R S]; [f_equal; lia|].
    left. exists (S754_finite neg m e). split; [reflexivity|]. split; [exact R|]. split; [exact S|]. intros K. apply (too_large_sg neg n d Hn) in K.
    pose proof (proj1 (best_range _ _ Hd _ _ B) L) as L'. revert L'. apply Zle_not_lt. exact K.
Qed.
(** Only the fraction counts. *)
Lemma inr_cross m p n d n' d' : 0 < d -> 0 < d' -> n * d' = n' * d -> inr_ m p n d -> inr_ m p n' d'.
Proof.
  intros D D' E ((I1 & I2) & I3). unfold inr_ in *.
  assert (S : forall a, (a * d <= 4 * (n * 2 ^ 1074) <-> a * d' <= 4 * (n' * 2 ^ 1074)) /\ (4 * (n * 2 ^ 1074) <= a * d <-> 4 * (n' * 2 ^ 1074) <= a * d')).
  { intros a. rewrite (Z.mul_le_mono_pos_r (a * d) (4 * (n * 2 ^ 1074)) d' D'), (Z.mul_le_mono_pos_r (a * d') (4 * (n' * 2 ^ 1074)) d D).
    rewrite (Z.mul_le_mono_pos_r (4 * (n * 2 ^ 1074)) (a * d) d' D'), (Z.mul_le_mono_pos_r (4 * (n' * 2 ^ 1074)) (a * d') d D).
    replace (4 * (n * 2 ^ 1074) * d') with (4 * (n * d') * 2 ^ 1074) by ring. replace (4 * (n' * 2 ^ 1074) * d) with (4 * (n' * d) * 2 ^ 1074) by ring. rewrite E.
    replace (a * d * d') with (a * d' * d) by ring. tauto. }
  split; [split; apply S; auto|]. destruct I3 as [I3|[I3 I4]]; [left; auto|right]. split; intros K.
  - apply I3. apply Z.le_antisymm; [exact I1|]. apply S. rewrite K. reflexivity.
  - apply I4. apply Z.le_antisymm; [exact I2|]. apply S. rewrite K. reflexivity.
Qed.
Lemma dec_scale k t s : 0 <= s -> 0 <= t + s -> k * 10 ^ Z.max t 0 * 10 ^ s = k * 10 ^ (t + s) * 10 ^ Z.max (- t) 0.
Proof. intros. rewrite <- !Z.mul_assoc, <- !Z.pow_add_r by lia. f_equal. f_equal. lia. Qed.
(** k * 10^t rounds to it. *)
Lemma rounds_iff neg m e k t s : finite64 neg m e -> 0 < k -> 0 <= s -> 0 <= t + s ->
  (rounds_to (S754_finite neg m e) k t <-> inr_ (Z.pos m) (e + 1074) (k * 10 ^ (t + s)) (10 ^ s)).
Proof.
  intros F K S T. unfold rounds_to. cbn [negative].
  assert (Nu : numer_of neg k 10 t = sg neg * (k * 10 ^ Z.max t 0)) by reflexivity. rewrite Nu. unfold denom_of.
  pose proof (pow10 (Z.max t 0) ltac:(lia)). pose proof (pow10 (Z.max (- t) 0) ltac:(lia)). pose proof (pow10 s S).
  rewrite inr_nearest; auto; [|apply Z.mul_pos_pos; auto].
  pose proof (dec_scale k t s S T) as E. split; apply inr_cross; auto.
Qed.
(** Between two that round to it. *)
Lemma inr_between m p a b c d : inr_ m p a d -> inr_ m p c d -> a <= b <= c -> inr_ m p b d.
Proof.
  intros ((A1 & A2) & A3) ((C1 & C2) & C3) [H1 H2]. unfold inr_.
  assert (a * 2 ^ 1074 <= b * 2 ^ 1074 <= c * 2 ^ 1074) by (split; apply Z.mul_le_mono_nonneg_r; auto; apply Z.pow_nonneg; lia).
  generalize dependent (a * 2 ^ 1074). generalize dependent (b * 2 ^ 1074). generalize dependent (c * 2 ^ 1074). intros. split; [lia|]. destruct A3 as [A3|A3]; [left; auto|]. destruct C3; [left; auto|]. right. lia.
Qed.

(** ** The loop of roundShortest *)
Section Loop.
Variables (incl : bool) (lo v up : Z).
Hypothesis Hlo : 0 < lo < v.
Hypothesis Hup : v < up.
Definition ok (c : Z) : Prop := lo <= c <= up /\ (incl = true \/ (lo <> c /\ c <> up)).
Lemma round_shortest_ok J k j : round_shortest incl lo v up J = (k, j) ->
  (j <= J)%nat /\ ok (k * 10 ^ Z.of_nat j) /\
  (forall j' k', (j < j' <= J)%nat -> ~ ok (k' * 10 ^ Z.of_nat j')) /\
  (forall k', ok (k' * 10 ^ Z.of_nat j) -> Z.abs (k * 10 ^ Z.of_nat j - v) <= Z.abs (k' * 10 ^ Z.of_nat j - v)).
Proof.
  revert k j. induction J as [|J IH]; intros k j; cbn [round_shortest]; cbv zeta.
  - change (10 ^ Z.of_nat 0) with 1. rewrite Z.div_1_r, !Z.mul_1_r. unfold should_round_up. change (10 ^ Z.of_nat 0) with 1. rewrite Z.mod_1_r.
    assert (E : (lo <? v) = true) by lia. rewrite E. cbn [orb andb]. change (2 * 0) with 0. change (1 <? 0) with false. change (0 =? 1) with false. cbn [orb andb].
    intros H. assert (H' : (v, 0%nat) = (k, j)) by (destruct ((v + 1 <? up) || (incl && (up =? v + 1)))%bool; exact H). injection H' as <- <-.
    change (10 ^ Z.of_nat 0) with 1. rewrite !Z.mul_1_r. split; [lia|]. split; [unfold ok; lia|]. split; [intros; lia|]. intros. lia.
  - assert (B : 0 < 10 ^ Z.of_nat (S J)) by (apply pow10; lia).
    assert (Q : v = 10 ^ Z.of_nat (S J) * (v / 10 ^ Z.of_nat (S J)) + v mod 10 ^ Z.of_nat (S J)) by (apply Z.div_mod; lia).
    pose proof (Z.mod_pos_bound v _ B) as R. unfold should_round_up.
    set (b := 10 ^ Z.of_nat (S J)) in *. set (q := v / b) in *. set (r := v mod b) in *. clearbody q r.
    assert (OD : ((lo <? q * b) || (incl && (lo =? q * b)))%bool = true <-> ok (q * b)).
    { unfold ok. rewrite orb_true_iff, andb_true_iff, Z.ltb_lt, Z.eqb_eq. destruct incl; intuition (try lia; try discriminate). }
    assert (OU : (((q + 1) * b <? up) || (incl && (up =? (q + 1) * b)))%bool = true <-> ok ((q + 1) * b)).
    { unfold ok. rewrite orb_true_iff, andb_true_iff, Z.ltb_lt, Z.eqb_eq. destruct incl; intuition (try lia; try discriminate). }
    assert (KD : forall k', k' <= q -> ok (k' * b) -> ok (q * b)).
    { intros k' L [O1 O2]. assert (k' * b <= q * b) by nia. unfold ok. split; [lia|]. destruct O2; [left; auto|right; lia]. }
    assert (KU : forall k', q + 1 <= k' -> ok (k' * b) -> ok ((q + 1) * b)).
    { intros k' L [O1 O2]. assert ((q + 1) * b <= k' * b) by nia. unfold ok. split; [lia|]. destruct O2; [left; auto|right; lia]. }
    assert (DD : forall k', k' <= q -> Z.abs (q * b - v) <= Z.abs (k' * b - v)) by (intros k' L; assert (k' * b <= q * b) by nia; lia).
    assert (DU : forall k', q + 1 <= k' -> Z.abs ((q + 1) * b - v) <= Z.abs (k' * b - v)) by (intros k' L; assert ((q + 1) * b <= k' * b) by nia; lia).
    destruct ((lo <? q * b) || (incl && (lo =? q * b)))%bool eqn:E1, (((q + 1) * b <? up) || (incl && (up =? (q + 1) * b)))%bool eqn:E2; cbn [andb].
    + intros H. assert (O1 := proj1 OD eq_refl). assert (O2 := proj1 OU eq_refl). destruct ((b <? 2 * r) || ((2 * r =? b) && Z.odd q))%bool eqn:E3; injection H as <- <-; fold b.
      * split; [lia|]. split; [exact O2|]. split; [intros; lia|]. intros k' O. destruct (Z.le_gt_cases k' q) as [L|L]; [|apply DU; lia].
        etransitivity; [|apply DD; exact L]. rewrite orb_true_iff, andb_true_iff in E3. destruct E3 as [E3|[E3 _]]; lia.
      * split; [lia|]. split; [exact O1|]. split; [intros; lia|]. intros k' O. destruct (Z.le_gt_cases k' q) as [L|L]; [apply DD; exact L|].
        etransitivity; [|apply DU; lia]. rewrite orb_false_iff in E3. destruct E3 as [E3 _]. lia.
    + intros H. injection H as <- <-. fold b. assert (O1 := proj1 OD eq_refl). split; [lia|]. split; [exact O1|]. split; [intros; lia|]. intros k' O.
      destruct (Z.le_gt_cases k' q) as [L|L]; [apply DD; exact L|]. exfalso. assert (false = true) by (apply OU, (KU k'); auto; lia). discriminate.
    + intros H. injection H as <- <-. fold b. assert (O1 := proj1 OU eq_refl). split; [lia|]. split; [exact O1|]. split; [intros; lia|]. intros k' O.
      destruct (Z.le_gt_cases k' q) as [L|L]; [|apply DU; lia]. exfalso. assert (false = true) by (apply OD, (KD k'); auto). discriminate.
    + intros H. destruct (IH _ _ H) as (A1 & A2 & A3 & A4). split; [lia|]. split; [exact A2|]. split; [|exact A4].
      intros j' k' L. destruct (Nat.eq_dec j' (S J)) as [->|]; [|apply A3; lia]. fold b. intros O.
      assert (false = true); [|discriminate]. destruct (Z.le_gt_cases k' q) as [L'|L']; [apply OD, (KD k'); auto|apply OU, (KU k'); auto; lia].
Qed.
End Loop.

(** ** Decimals *)
Lemma dval_bounds s v : Forall dec_digit s -> 0 <= v -> v * 10 ^ Z.of_nat (length s) <= dval v s < (v + 1) * 10 ^ Z.of_nat (length s).
Proof.
  intros H. revert v. induction H as [|b s D F IH]; intros v V; [cbn; lia|]. unfold dval in *. cbn [fold_left length]. unfold dec_digit in D.
  specialize (IH (v * 10 + (b - 48)) ltac:(lia)). rewrite Nat2Z.inj_succ, Z.pow_succ_r by lia. pose proof (pow10 (Z.of_nat (length s)) ltac:(lia)). nia.
Qed.
Lemma canonical_size ds k : canonical ds k -> 0 < k -> ds <> [] /\ Forall dec_digit ds /\ k = dval 0 ds /\ 10 ^ (Z.of_nat (length ds) - 1) <= k < 10 ^ Z.of_nat (length ds).
Proof.
  intros [N C] K. apply numeral_digits in N as (Ne & F & E). split; [exact Ne|]. split; [exact F|]. split; [exact E|].
  pose proof (dval_bounds ds 0 F ltac:(lia)) as B. split; [|lia].
  destruct C as [->|(d & r & -> & Nd)]; [cbn in E; lia|]. inversion F as [|? ? D F']; subst. unfold dec_digit in D.
  replace (Z.of_nat (length (d :: r)) - 1) with (Z.of_nat (length r)) by (cbn [length]; lia).
  unfold dval. cbn [fold_left]. pose proof (dval_bounds r (0 * 10 + (d - 48)) F' ltac:(lia)) as B'. unfold dval in B'. pose proof (pow10 (Z.of_nat (length r)) ltac:(lia)). nia.
Qed.
Lemma decimal_ok z : 0 < z -> canonical (decimal z) z.
Proof.
  intros H. unfold decimal. apply dec_ok; [|lia]. split; [lia|]. pose proof (Z.log2_nonneg z). rewrite Nat2Z.inj_succ, Z2Nat.id by lia.
  eapply Z.lt_le_trans; [apply Z.log2_spec; exact H|]. apply Z.pow_le_mono_l. lia.
Qed.
Lemma trim_id l c : c <> 48 -> trim (l ++ [c]) = l ++ [c].
Proof.
  intros H. induction l as [|b l IH]; cbn [app trim].
  - destruct (Z.eqb_spec c 48); [contradiction|reflexivity].
  - rewrite IH. destruct (l ++ [c]) eqn:E; [destruct l; discriminate|reflexivity].
Qed.
Lemma last_digit ds k : canonical ds k -> 0 < k -> k mod 10 <> 0 -> trim ds = ds.
Proof.
  intros C K M. destruct (canonical_size _ _ C K) as (Ne & F & E & _). destruct (exists_last Ne) as (l & c & ->). apply trim_id. intros ->. apply M.
  rewrite E, dval_app. unfold dval at 1. cbn [fold_left]. replace (dval 0 l * 10 + (48 - 48)) with (dval 0 l * 10) by lia. apply Z.mod_mul. lia.
Qed.

(** ** The shortest decimal *)
Section Shortest.
Variables (neg : bool) (m : positive) (e : Z).
Hypothesis F : finite64 neg m e.
Let M := Z.pos m.
Let p := e + 1074.
Let K := Z.max 0 (2 - e).
Let lo := quarters e (low M p).
Let v := quarters e (4 * M).
Let up := quarters e (4 * M + 2).
Lemma quarters_units w : quarters e w * 2 ^ 1076 = w * 2 ^ p * 10 ^ K.
Proof.
  assert (B : -1074 <= e <= 971) by (destruct F as ((_ & B) & _); exact B). unfold quarters, K, p. destruct (Z.leb_spec 2 e).
  - replace (Z.max 0 (2 - e)) with 0 by lia. change (10 ^ 0) with 1. rewrite Z.mul_1_r, <- Z.mul_assoc, <- Z.pow_add_r by lia. do 2 f_equal. lia.
  - replace (Z.max 0 (2 - e)) with (2 - e) by lia. change 10 with (2 * 5). rewrite Z.pow_mul_l. rewrite <- !Z.mul_assoc, (Z.mul_comm (5 ^ (2 - e))). f_equal.
    rewrite Z.mul_assoc, <- Z.pow_add_r by lia. f_equal. f_equal. lia.
Qed.
Lemma four_units c : 4 * (c * 2 ^ 1074) = c * 2 ^ 1076.
Proof. change (2 ^ 1076) with (4 * 2 ^ 1074). ring. Qed.
Lemma ok_inr c : ok (Z.even M) lo up c <-> inr_ M p c (10 ^ K).
Proof.
  unfold ok, inr_. rewrite four_units. unfold lo, up. rewrite <- !quarters_units.
  assert (P : 0 < 2 ^ 1076) by reflexivity. rewrite <- !Z.mul_le_mono_pos_r by exact P.
  assert (N : forall a b, a * 2 ^ 1076 <> b * 2 ^ 1076 <-> a <> b).
  { intros a b. split; intros H E; apply H; [rewrite E; reflexivity|]. apply Z.mul_reg_r in E; [exact E|discriminate]. }
  rewrite !N. reflexivity.
Qed.
Lemma order : 0 < lo < v /\ v < up.
Proof.
  assert (P : 0 < 2 ^ 1076) by reflexivity. pose proof (finite_normed _ _ _ F) as ((A1 & A2) & A3 & _). fold M p in A1, A2, A3.
  assert (Q : 0 < 2 ^ p * 10 ^ K) by (apply Z.mul_pos_pos; [apply pow2; auto|apply pow10; unfold K; lia]).
  assert (L : 2 <= low M p < 4 * M) by (unfold low; destruct (_ || _)%bool; lia).
  assert (X : forall a b, a < b -> quarters e a < quarters e b).
  { intros a b H. apply (Z.mul_lt_mono_pos_r _ _ _ P). rewrite !quarters_units, <- !Z.mul_assoc. apply Z.mul_lt_mono_pos_r; auto. }
  assert (Z0 : quarters e 0 = 0) by (unfold quarters; destruct (2 <=? e); reflexivity).
  unfold lo, v, up. split; [split|]; [rewrite <- Z0|..]; apply X; lia.
Qed.
Definition found : Z * nat := round_shortest (Z.even M) lo v up (length (decimal up) - 1).
Let k := fst found.
Let j := snd found.
Lemma found_eq : shortest_digits M e = (trim (decimal k), Z.of_nat (length (decimal k) + j) - K).
Proof.
  unfold shortest_digits. cbv zeta. fold v up. assert (E : (if ((2 ^ 52 <? M) || (e =? -1074))%bool then 4 * M - 2 else 4 * M - 1) = low M p).
  { unfold low. replace (p =? 0) with (e =? -1074) by (unfold p; lia). reflexivity. }
  rewrite E. fold lo. unfold k, j. change (round_shortest (Z.even M) lo v up (length (decimal up) - 1)) with found. destruct found as [k0 j0]. reflexivity.
Qed.
Lemma found_ok : ok (Z.even M) lo up (k * 10 ^ Z.of_nat j) /\ 0 < k /\
  (forall j' k', (j < j')%nat -> ~ ok (Z.even M) lo up (k' * 10 ^ Z.of_nat j')) /\
  (forall k', ok (Z.even M) lo up (k' * 10 ^ Z.of_nat j) -> Z.abs (k * 10 ^ Z.of_nat j - v) <= Z.abs (k' * 10 ^ Z.of_nat j - v)).
Proof.
  destruct order as [O1 O2]. assert (E : found = (k, j)) by (unfold k, j; destruct found; reflexivity).
  destruct (round_shortest_ok _ _ _ _ O1 O2 _ _ _ E) as (J & A & B & C).
  assert (P : forall i c, ok (Z.even M) lo up (c * 10 ^ Z.of_nat i) -> 0 < c).
  { intros i c [H _]. pose proof (pow10 (Z.of_nat i) ltac:(lia)). apply Z.nle_gt. intros N. assert (c * 10 ^ Z.of_nat i <= 0) by nia. lia. }
  split; [exact A|]. split; [exact (P _ _ A)|]. split; [|exact C].
  intros j' k' L O. destruct (Nat.le_gt_cases j' (length (decimal up) - 1)) as [H|H]; [apply (B j' k'); auto|].
  pose proof (P _ _ O) as P0. destruct O as [[_ O] _].
  destruct (canonical_size _ _ (decimal_ok up ltac:(lia)) ltac:(lia)) as (Ne & _ & _ & _ & S).
  assert (10 ^ Z.of_nat (length (decimal up)) <= 10 ^ Z.of_nat j') by (apply Z.pow_le_mono_r; lia). nia.
Qed.
Lemma not_ten : k mod 10 <> 0.
Proof.
  destruct found_ok as (A & _ & B & _). intros H. apply (B (S j) (k / 10) ltac:(lia)). rewrite Nat2Z.inj_succ, Z.pow_succ_r by lia.
  rewrite Z.mul_assoc, (Z.mul_comm (k / 10)). pose proof (Z.div_mod k 10 ltac:(lia)) as D. rewrite H, Z.add_0_r in D. rewrite <- D. exact A.
Qed.
Lemma found_digits : canonical (decimal k) k /\ trim (decimal k) = decimal k.
Proof. destruct found_ok as (_ & P & _). split; [apply decimal_ok; exact P|]. apply (last_digit _ k); [apply decimal_ok; exact P|exact P|exact not_ten]. Qed.
Let t := Z.of_nat j - K.
Lemma K_nonneg : 0 <= K. Proof. unfold K. lia. Qed.
Lemma found_rounds : rounds_to (S754_finite neg m e) k t.
Proof.
  destruct found_ok as (A & P & _). pose proof K_nonneg. apply (rounds_iff neg m e k t K F); auto; [unfold t; lia|]. unfold t. replace (Z.of_nat j - K + K) with (Z.of_nat j) by lia. apply ok_inr, A.
Qed.
Lemma found_highest k' t' : 0 < k' -> rounds_to (S754_finite neg m e) k' t' -> t' <= t.
Proof.
  intros P R. destruct (Z.le_gt_cases t' t) as [L|L]; [exact L|exfalso]. pose proof K_nonneg.
  apply (rounds_iff neg m e k' t' K F) in R; auto; [|unfold t in L; lia]. apply ok_inr in R. destruct found_ok as (_ & _ & B & _).
  apply (B (Z.to_nat (t' + K)) k'); [unfold t in L; lia|]. rewrite Z2Nat.id by (unfold t in L; lia). exact R.
Qed.
Lemma found_shortest k' t' : 0 < k' -> rounds_to (S754_finite neg m e) k' t' -> 10 ^ (Z.of_nat (length (decimal k)) - 1) <= k'.
Proof.
  intros P R. destruct found_digits as [C _]. pose proof found_ok as (_ & Pk & _). destruct (canonical_size _ _ C Pk) as (Ne & _ & _ & S & _).
  set (n := Z.of_nat (length (decimal k))) in *. assert (1 <= n) by (unfold n; destruct (decimal k); [contradiction|cbn; lia]).
  apply Z.nlt_ge. intros L. destruct (Z.eq_dec n 1) as [E|N]; [rewrite E in L; change (10 ^ (1 - 1)) with 1 in L; lia|].
  pose proof (found_highest _ _ P R) as T. pose proof found_rounds as R0. pose proof K_nonneg as K0.
  set (s := Z.max K (- t')). assert (0 <= s) by lia.
  apply (rounds_iff neg m e k' t' s F) in R; auto; [|lia]. apply (rounds_iff neg m e k t s F) in R0; auto; [|lia].
  assert (Q : inr_ (Z.pos m) (e + 1074) (10 ^ (n - 1) * 10 ^ (t + s)) (10 ^ s)).
  { eapply inr_between; [exact R|exact R0|]. assert (0 < 10 ^ (t' + s)) by (apply pow10; lia). assert (10 ^ (t' + s) <= 10 ^ (t + s)) by (apply Z.pow_le_mono_r; lia). split; [nia|]. apply Z.mul_le_mono_nonneg_r; lia. }
  assert (R1 : rounds_to (S754_finite neg m e) 1 (n - 1 + t)).
  { apply (rounds_iff neg m e 1 (n - 1 + t) s F); auto; [lia|lia|]. rewrite Z.mul_1_l. replace (n - 1 + t + s) with ((n - 1) + (t + s)) by lia. rewrite Z.pow_add_r by lia. exact Q. }
  pose proof (found_highest 1 _ eq_refl R1). lia.
Qed.
Lemma found_off c : off (S754_finite neg m e) c t * 10 ^ K = 10 ^ Z.max (- t) 0 * 2 ^ 1074 * Z.abs (c * 10 ^ Z.of_nat j - v).
Proof.
  pose proof K_nonneg as K0. unfold off, distance. cbn [negative units].
  assert (D : 0 < 10 ^ Z.max (- t) 0) by (apply pow10; lia). assert (T : 0 < 10 ^ K) by (apply pow10; lia).
  assert (Nu : numer_of neg c 10 t = sg neg * (c * 10 ^ Z.max t 0)) by reflexivity. rewrite Nu. unfold denom_of. fold (sg neg). fold M. fold p.
  assert (V : v * 2 ^ 1074 = M * 2 ^ p * 10 ^ K).
  { pose proof (quarters_units (4 * M)) as Q. fold v in Q. rewrite <- four_units in Q. apply (Z.mul_reg_l _ _ 4); [discriminate|]. rewrite Q. ring. }
  pose proof (dec_scale c t K K0 ltac:(unfold t; lia)) as E. replace (t + K) with (Z.of_nat j) in E by (unfold t; lia).
  assert (Ab : forall a b, 0 <= b -> Z.abs a * b = Z.abs (a * b)) by (intros a b H; rewrite Z.abs_mul, (Z.abs_eq b) by exact H; reflexivity).
  rewrite Ab by lia. rewrite (Z.mul_comm _ (Z.abs _)), Ab by (apply Z.mul_nonneg_nonneg; [lia|discriminate]).
  assert (X : (sg neg * (M * 2 ^ p) * 10 ^ Z.max (- t) 0 - sg neg * (c * 10 ^ Z.max t 0) * 2 ^ 1074) * 10 ^ K =
    - sg neg * ((c * 10 ^ Z.of_nat j - v) * (10 ^ Z.max (- t) 0 * 2 ^ 1074))).
  { replace ((sg neg * (M * 2 ^ p) * 10 ^ Z.max (- t) 0 - sg neg * (c * 10 ^ Z.max t 0) * 2 ^ 1074) * 10 ^ K)
      with (sg neg * (10 ^ Z.max (- t) 0 * (M * 2 ^ p * 10 ^ K)) - sg neg * (c * 10 ^ Z.max t 0 * 10 ^ K) * 2 ^ 1074) by ring. rewrite E, <- V. ring. }
  rewrite X, Z.abs_mul. replace (Z.abs (- sg neg)) with 1 by (destruct neg; reflexivity). lia.
Qed.
Lemma found_nearest k' : 0 < k' -> rounds_to (S754_finite neg m e) k' t -> off (S754_finite neg m e) k t <= off (S754_finite neg m e) k' t.
Proof.
  intros P R. pose proof K_nonneg as K0. assert (T : 0 < 10 ^ K) by (apply pow10; lia). apply (Z.mul_le_mono_pos_r _ _ _ T). rewrite !found_off.
  apply Z.mul_le_mono_nonneg_l; [apply Z.mul_nonneg_nonneg; [apply Z.pow_nonneg; lia|discriminate]|].
  apply found_ok. apply (rounds_iff neg m e k' t K F) in R; auto; [|unfold t; lia]. apply ok_inr. replace (Z.of_nat j) with (t + K) by (unfold t; lia). exact R.
Qed.
Lemma shortest_ok : exists ds t0 k0, shortest_digits M e = (ds, t0 + Z.of_nat (length ds)) /\ shortest (S754_finite neg m e) ds t0 /\
  canonical ds k0 /\ 0 < k0 /\ rounds_to (S754_finite neg m e) k0 t0 /\ -999 < t0 + Z.of_nat (length ds) < 1000.
Proof.
  destruct found_digits as [C T]. pose proof found_ok as (A & P & _). pose proof K_nonneg as K0. exists (decimal k), t, k.
  split; [rewrite found_eq, T; f_equal; unfold t; lia|]. split.
  { exists k. split; [exact C|]. split; [exact found_rounds|]. split; [|exact found_nearest].
    intros k' t' P' R. split; [apply (found_shortest k' t'); auto|apply (found_highest k' t'); auto]. }
  split; [exact C|]. split; [exact P|]. split; [exact found_rounds|].
  destruct (canonical_size _ _ C P) as (Ne & _ & _ & S1 & S2). set (n := Z.of_nat (length (decimal k))) in *.
  assert (1 <= n) by (unfold n; destruct (decimal k); [contradiction|cbn; lia]).
  destruct A as [[A1 A2] _]. pose proof (finite_normed _ _ _ F) as ((M0 & M1) & M2 & _). fold M p in M0, M1, M2.
  assert (Pj : 0 < 10 ^ Z.of_nat j) by (apply pow10; lia). assert (PK : 0 < 10 ^ K) by (apply pow10; lia).
  assert (EB : -1074 <= e <= 971) by (destruct F as ((_ & B) & _); exact B).
  split.
  - (* not too small *)
    apply Z.nle_gt. intros L.
    assert (X : 10 ^ K <= 10 ^ (n + Z.of_nat j) * 2 ^ 1076).
    { apply (Z.le_trans _ (lo * 2 ^ 1076)).
      - unfold lo. rewrite quarters_units. assert (1 <= low M p * 2 ^ p); [|nia]. assert (2 <= low M p) by (unfold low; destruct (_ || _)%bool; lia). pose proof (pow2 p M2). nia.
      - apply Z.mul_le_mono_nonneg_r; [discriminate|]. rewrite Z.pow_add_r by lia. nia. }
    assert (Y : K = (n + Z.of_nat j) + (K - n - Z.of_nat j)) by lia. rewrite Y in X at 1. rewrite Z.pow_add_r in X by (unfold t in L; lia).
    apply Z.mul_le_mono_pos_l in X; [|apply pow10; lia].
    assert (10 ^ 999 <= 10 ^ (K - n - Z.of_nat j)) by (apply Z.pow_le_mono_r; unfold t in L; lia).
    assert (10 ^ 999 <= 2 ^ 1076) by lia. assert (Q : (10 ^ 999 <=? 2 ^ 1076) = true) by (apply Z.leb_le; assumption). vm_compute in Q. discriminate.
  - apply Z.nle_gt. intros L.
    assert (X : 10 ^ (n - 1 + Z.of_nat j) * 2 ^ 1076 <= 2 ^ 2101 * 10 ^ K).
    { apply (Z.le_trans _ (up * 2 ^ 1076)).
      - apply Z.mul_le_mono_nonneg_r; [discriminate|]. rewrite Z.pow_add_r by lia. nia.
      - unfold up. rewrite quarters_units. apply Z.mul_le_mono_nonneg_r; [lia|]. change (2 ^ 2101) with (2 ^ 56 * 2 ^ 2045). apply Z.mul_le_mono_nonneg; [lia| |apply Z.pow_nonneg; lia|apply Z.pow_le_mono_r; unfold p; lia].
        change (2 ^ 56) with (8 * 2 ^ 53). change (2 ^ 53) with 9007199254740992 in *. lia. }
    assert (Y : n - 1 + Z.of_nat j = K + (n - 1 + Z.of_nat j - K)) by lia. rewrite Y in X. rewrite Z.pow_add_r in X by (unfold t in L; lia).
    replace (10 ^ K * 10 ^ (n - 1 + Z.of_nat j - K) * 2 ^ 1076) with (10 ^ (n - 1 + Z.of_nat j - K) * 2 ^ 1076 * 10 ^ K) in X by ring.
    apply Z.mul_le_mono_pos_r in X; [|exact PK].
    assert (10 ^ 999 * 2 ^ 1076 <= 10 ^ (n - 1 + Z.of_nat j - K) * 2 ^ 1076) by (apply Z.mul_le_mono_nonneg_r; [discriminate|]; apply Z.pow_le_mono_r; unfold t in L; lia).
    assert (10 ^ 999 * 2 ^ 1076 <= 2 ^ 2101) by lia. assert (Q : (10 ^ 999 * 2 ^ 1076 <=? 2 ^ 2101) = true) by (apply Z.leb_le; assumption). vm_compute in Q. discriminate.
Qed.
End Shortest.
