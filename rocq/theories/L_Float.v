(** Lemmas for C54. *)
From Verif Require Import S_Float L_Trans L_Extra.

(** ** Arithmetic *)
Lemma near_low x y w : x < y -> Z.abs (x - w) <= Z.abs (y - w) -> 2 * w <= x + y.
Proof. lia. Qed.
Lemma near_high x y w : y < x -> Z.abs (x - w) <= Z.abs (y - w) -> x + y <= 2 * w.
Proof. lia. Qed.
Lemma near_tie x y w : 2 * w = x + y -> Z.abs (y - w) = Z.abs (x - w).
Proof. lia. Qed.
Lemma range_low a b m v :
  0 < b -> 0 <= m < a -> 0 < v -> (v = b \/ 2 * v <= b) ->
  m * v <= (a - 1) * b /\ (m * v = (a - 1) * b -> m = a - 1).
Proof.
  intros Hb Hm Hv [ -> | H].
  - split; [apply Z.mul_le_mono_nonneg_r; lia|]. intros E. apply Z.mul_reg_r in E; lia.
  - assert (K : 2 * (m * v) <= m * b) by nia. assert (K2 : m * b <= (a - 1) * b) by (apply Z.mul_le_mono_nonneg_r; lia).
    split; [nia|]. intros E. assert (m * b = 0 \/ 0 < m * b) by nia. assert (m = 0 \/ 0 < m) by lia. nia.
Qed.
(** The number below the middle between [x] and the next power of two. *)
Lemma low_arith x a b d w :
  0 < d -> 0 < b -> x <= (a - 1) * b -> Z.abs (x * d - w) <= Z.abs (a * b * d - w) ->
  (x = (a - 1) * b -> Z.abs (a * b * d - w) = Z.abs (x * d - w) -> a * b <> x -> False) ->
  2 * w < (2 * a - 1) * b * d.
Proof.
  intros Hd Hb Hx Hn Ht.
  assert (K0 : x < a * b) by lia.
  assert (K : x * d < a * b * d) by (apply Z.mul_lt_mono_pos_r; lia). pose proof (near_low _ _ _ K Hn) as K2.
  assert (K3 : x * d <= (a - 1) * b * d) by (apply Z.mul_le_mono_nonneg_r; lia).
  assert (E : (2 * a - 1) * b * d = (a - 1) * b * d + a * b * d) by ring. rewrite E.
  destruct (Z.eq_dec (2 * w) ((a - 1) * b * d + a * b * d)) as [Eq|Ne]; [exfalso|lia].
  assert (K4 : x * d = (a - 1) * b * d) by lia. apply Ht; [|apply near_tie; lia|lia].
  apply Z.mul_reg_r in K4; lia.
Qed.
Lemma high_arith x a b d w :
  0 < d -> 0 < b -> a * b <= x -> Z.abs (x * d - w) <= Z.abs ((a - 1) * b * d - w) -> (2 * a - 1) * b * d <= 2 * w.
Proof.
  intros Hd Hb Hx Hn.
  assert (K0 : (a - 1) * b < x) by lia.
  assert (K : (a - 1) * b * d < x * d) by (apply Z.mul_lt_mono_pos_r; lia). pose proof (near_high _ _ _ K Hn) as K2.
  assert (K3 : a * b * d <= x * d) by (apply Z.mul_le_mono_nonneg_r; lia).
  assert (E : (2 * a - 1) * b * d = (a - 1) * b * d + a * b * d) by ring. lia.
Qed.

(** ** Rounding *)
Section Round.
Variables n d : Z.
Hypothesis Hn : 0 < n.
Hypothesis Hd : 0 < d.
Let W := n * 2 ^ 1074.
Let X := W / d.
Let p := Z.max (Z.log2 X - 52) 0.
Let B := d * 2 ^ p.
Let q := W / B.
Let r := W mod B.

Lemma W_pos : 0 < W.
Proof. unfold W. apply Z.mul_pos_pos; [exact Hn|]. apply Z.pow_pos_nonneg; lia. Qed.
Lemma p_pos : 0 <= p. Proof. unfold p. lia. Qed.
Lemma two_p k : 0 <= k -> 0 < 2 ^ k. Proof. intros H. apply Z.pow_pos_nonneg; lia. Qed.
Lemma B_pos : 0 < B. Proof. unfold B. apply Z.mul_pos_pos; [exact Hd|apply two_p, p_pos]. Qed.
Lemma X_nonneg : 0 <= X. Proof. apply Z.div_pos; [pose proof W_pos; lia|exact Hd]. Qed.
Lemma q_X : q = X / 2 ^ p.
Proof. unfold q, X, B. rewrite Z.div_div; [reflexivity|lia|apply two_p, p_pos]. Qed.
Lemma q_range : 0 <= q < 2 ^ 53 /\ (2 ^ 52 <= q \/ p = 0).
Proof.
  rewrite q_X. pose proof X_nonneg as X0. pose proof (two_p p p_pos) as P0. split; [split|].
  - apply Z.div_pos; lia.
  - apply Z.div_lt_upper_bound; [lia|]. rewrite <- Z.pow_add_r by (pose proof p_pos; lia).
    destruct (Z.eq_dec X 0) as [E|E].
    + rewrite E. apply two_p. pose proof p_pos. lia.
    + apply Z.log2_lt_pow2; [lia|]. unfold p. lia.
  - destruct (Z.eq_dec p 0) as [E|E]; [auto|left]. apply Z.div_le_lower_bound; [lia|]. rewrite <- Z.pow_add_r by (pose proof p_pos; lia).
    assert (L : Z.log2 X = p + 52) by (unfold p in *; lia). rewrite <- L. apply Z.log2_spec.
    destruct (Z.eq_dec X 0) as [E0|]; [|lia]. rewrite E0 in L. simpl in L. pose proof p_pos. lia.
Qed.
Lemma W_eq : W = B * q + r.
Proof. apply Z.div_mod. pose proof B_pos. lia. Qed.
Lemma r_range : 0 <= r < B.
Proof. apply Z.mod_pos_bound, B_pos. Qed.

(** There is no number with 53 bits between q and q + 1. *)
Lemma gap m' p' : 0 <= m' < 2 ^ 53 -> 0 <= p' -> m' * 2 ^ p' <= q * 2 ^ p \/ (q + 1) * 2 ^ p <= m' * 2 ^ p'.
Proof.
  intros Hm Hp. destruct q_range as [[q0 q1] qc]. pose proof p_pos as p0. destruct (Z.le_gt_cases p p') as [L|L].
  - assert (E : 2 ^ p' = 2 ^ (p' - p) * 2 ^ p) by (rewrite <- Z.pow_add_r by lia; f_equal; lia).
    rewrite E, Z.mul_assoc. pose proof (two_p p p0) as P0. generalize dependent (m' * 2 ^ (p' - p)). intros t.
    destruct (Z.le_gt_cases t q); [left|right]; apply Z.mul_le_mono_nonneg_r; lia.
  - left. destruct qc as [qc|]; [|lia].
    assert (E : 2 ^ 52 * 2 ^ p = 2 ^ 53 * 2 ^ (p - 1)) by (rewrite <- !Z.pow_add_r by lia; f_equal; lia).
    assert (M : 2 ^ p' <= 2 ^ (p - 1)) by (apply Z.pow_le_mono_r; lia).
    pose proof (two_p p p0). pose proof (two_p p' Hp). pose proof (two_p (p - 1) ltac:(lia)).
    generalize dependent (2 ^ p). generalize dependent (2 ^ p'). generalize dependent (2 ^ (p - 1)).
    generalize dependent (2 ^ 52). generalize dependent (2 ^ 53). intros. nia.
Qed.

Definition dist (v : Z) : Z := Z.abs (v * d - W).
Definition best (m p1 : Z) : Prop :=
  0 <= m < 2 ^ 53 /\ 0 <= p1 /\ (2 ^ 52 <= m \/ p1 = 0) /\
  (forall m' p', 0 <= m' < 2 ^ 53 -> 0 <= p' -> dist (m * 2 ^ p1) <= dist (m' * 2 ^ p')) /\
  (forall m' p', 0 <= m' < 2 ^ 53 -> 0 <= p' -> dist (m' * 2 ^ p') = dist (m * 2 ^ p1) -> m' * 2 ^ p' <> m * 2 ^ p1 -> Z.even m = true).

Lemma q_dist : dist (q * 2 ^ p) = r.
Proof. unfold dist. pose proof W_eq. pose proof r_range. replace (q * 2 ^ p * d) with (B * q) by (unfold B; ring). lia. Qed.
Lemma q1_dist : dist ((q + 1) * 2 ^ p) = B - r.
Proof. unfold dist. pose proof W_eq. pose proof r_range. replace ((q + 1) * 2 ^ p * d) with (B * q + B) by (unfold B; ring). lia. Qed.
Lemma other_dist v : v <= q * 2 ^ p -> r <= dist v /\ (dist v = r -> v = q * 2 ^ p).
Proof.
  intros H. unfold dist. pose proof W_eq. pose proof r_range. assert (E : v * d <= B * q) by (unfold B; nia). split; [lia|].
  intros D. assert (v * d = B * q) by lia. assert (v * d = (q * 2 ^ p) * d) by (unfold B in *; lia). apply Z.mul_reg_r in H3; lia.
Qed.
Lemma other_dist1 v : (q + 1) * 2 ^ p <= v -> B - r <= dist v /\ (dist v = B - r -> v = (q + 1) * 2 ^ p).
Proof.
  intros H. unfold dist. pose proof W_eq. pose proof r_range. assert (E : B * q + B <= v * d) by (unfold B; nia). split; [lia|].
  intros D. assert (v * d = B * q + B) by lia. assert (v * d = ((q + 1) * 2 ^ p) * d) by (unfold B in *; lia). apply Z.mul_reg_r in H3; lia.
Qed.
Lemma round_best : let '(m, p1) := round_units n d in best m p1.
Proof.
  unfold round_units. fold W. fold X. fold p. fold B. fold q. fold r. cbv zeta.
  destruct q_range as [[q0 q1] qc]. pose proof p_pos as p0. pose proof r_range as rr.
  destruct ((B <? 2 * r) || ((2 * r =? B) && Z.odd q))%bool eqn:U.
  - (* up *)
    assert (U' : B < 2 * r \/ (2 * r = B /\ Z.odd q = true)).
    { apply orb_true_iff in U. destruct U as [U|U]; [left; lia|]. apply andb_true_iff in U. destruct U as [U1 U2]. right. split; [lia|auto]. }
    assert (N : forall m' p', 0 <= m' < 2 ^ 53 -> 0 <= p' -> dist ((q + 1) * 2 ^ p) <= dist (m' * 2 ^ p')).
    { intros m' p' Hm Hp. rewrite q1_dist. destruct (gap m' p' Hm Hp) as [G|G].
      - destruct (other_dist _ G) as [A _]. lia.
      - destruct (other_dist1 _ G) as [A _]. lia. }
    assert (T : forall m' p', 0 <= m' < 2 ^ 53 -> 0 <= p' -> dist (m' * 2 ^ p') = dist ((q + 1) * 2 ^ p) -> m' * 2 ^ p' <> (q + 1) * 2 ^ p -> Z.even (q + 1) = true).
    { intros m' p' Hm Hp D Ne. rewrite q1_dist in D. destruct (gap m' p' Hm Hp) as [G|G].
      - destruct (other_dist _ G) as [A _]. destruct U' as [U'|[_ U']]; [lia|]. rewrite Z.even_add, <- Z.negb_odd, U'. reflexivity.
      - destruct (other_dist1 _ G) as [_ A]. exfalso. apply Ne. apply A. exact D. }
    destruct (Z.eqb_spec (q + 1) (2 ^ 53)) as [E|E].
    + assert (V : 2 ^ 52 * 2 ^ (p + 1) = (q + 1) * 2 ^ p) by (rewrite E, <- !Z.pow_add_r by lia; f_equal; lia).
      split; [split; [lia|apply Z.pow_lt_mono_r; lia]|]. split; [lia|]. split; [left; lia|]. rewrite V. split; [exact N|]. intros. reflexivity.
    + split; [lia|]. split; [lia|]. split; [destruct qc; [left; lia|auto]|]. split; [exact N|exact T].
  - (* down *)
    assert (U' : 2 * r < B \/ (2 * r = B /\ Z.odd q = false)).
    { apply orb_false_iff in U. destruct U as [U1 U2]. apply andb_false_iff in U2. destruct (Z.eqb_spec (2 * r) B); [right|left; lia]. split; auto. destruct U2; [congruence|auto]. }
    destruct (Z.eqb_spec q (2 ^ 53)) as [E|E]; [lia|].
    split; [lia|]. split; [lia|]. split; [auto|]. split.
    + intros m' p' Hm Hp. rewrite q_dist. destruct (gap m' p' Hm Hp) as [G|G].
      * destruct (other_dist _ G) as [A _]. lia.
      * destruct (other_dist1 _ G) as [A _]. lia.
    + intros m' p' Hm Hp D Ne. rewrite q_dist in D. destruct (gap m' p' Hm Hp) as [G|G].
      * destruct (other_dist _ G) as [_ A]. exfalso. apply Ne. apply A. exact D.
      * destruct (other_dist1 _ G) as [A _]. destruct U' as [U'|[_ U']]; [lia|]. rewrite <- Z.negb_odd, U'. reflexivity.
Qed.

(** The exponent of the result fits iff the number is not too large. *)
Lemma best_range m p1 : best m p1 -> (p1 <= 2045 <-> 2 * W < (2 ^ 54 - 1) * 2 ^ 2045 * d).
Proof.
  intros (M & P & C & N & T).
  change (2 ^ 54) with (2 * 2 ^ 53).
  assert (C1 : 0 <= 2 ^ 52 < 2 ^ 53) by (split; [discriminate|reflexivity]).
  assert (C2 : 0 <= 2 ^ 53 - 1 < 2 ^ 53) by (split; [discriminate|reflexivity]).
  assert (E46 : 2 ^ 52 * 2 ^ 2046 = 2 ^ 53 * 2 ^ 2045) by (rewrite <- !Z.pow_add_r by discriminate; reflexivity).
  assert (F45 : 0 < 2 ^ 2045) by (apply two_p; discriminate).
  assert (O : Z.even (2 ^ 53 - 1) = false) by reflexivity.
  pose proof (N (2 ^ 52) 2046 C1 ltac:(discriminate)) as N1. pose proof (T (2 ^ 52) 2046 C1 ltac:(discriminate)) as T1.
  pose proof (N (2 ^ 53 - 1) 2045 C2 ltac:(discriminate)) as N2. clear N T.
  unfold dist in *. rewrite E46 in *. pose proof (two_p p1 P) as P0. split.
  - intros H.
    assert (V : 2 ^ p1 = 2 ^ 2045 \/ 2 * 2 ^ p1 <= 2 ^ 2045).
    { destruct (Z.eq_dec p1 2045) as [E|Np]; [left; rewrite E; reflexivity|right].
      rewrite <- Z.pow_succ_r by exact P. apply Z.pow_le_mono_r; [reflexivity|]. clear - H Np. lia. }
    destruct (range_low (2 ^ 53) (2 ^ 2045) m (2 ^ p1) F45 M P0 V) as [L Q].
    apply (low_arith (m * 2 ^ p1)); [exact Hd|exact F45|exact L|exact N1|].
    intros A B' Ne. specialize (T1 B' Ne). rewrite (Q A) in T1. rewrite O in T1. discriminate.
  - intros H. destruct (Z.le_gt_cases p1 2045) as [L|L]; [exact L|exfalso]. destruct C as [C|C]; [|clear - C L; lia].
    assert (V : 2 ^ 2046 <= 2 ^ p1) by (apply Z.pow_le_mono_r; [reflexivity|clear - L; lia]).
    assert (K : 2 ^ 53 * 2 ^ 2045 <= m * 2 ^ p1).
    { rewrite <- E46. apply Z.mul_le_mono_nonneg; [discriminate|exact C|apply Z.lt_le_incl, two_p; discriminate|exact V]. }
    apply (Z.lt_irrefl (2 * W)). eapply Z.lt_le_trans; [exact H|]. eapply high_arith; [exact Hd|exact F45|exact K|exact N2].
Qed.
End Round.

Definition sg (neg : bool) : Z := if neg then -1 else 1.
Lemma finite_shape y : finite_double y -> exists s m p, 0 <= m < 2 ^ 53 /\ 0 <= p /\ units y = sg s * (m * 2 ^ p).
Proof.
  destruct y as [s|s| |s m e]; cbn [finite_double units]; try contradiction.
  - intros _. exists s, 0, 0. split; [split; [lia|reflexivity]|]. split; [lia|]. destruct s; reflexivity.
  - intros [M E]. exists s, (Z.pos m), (e + 1074). split; [split; [lia|exact M]|]. split; [lia|reflexivity].
Qed.
Lemma sg_dist neg s v n d : sg neg * n * 2 ^ 1074 = sg neg * (n * 2 ^ 1074) -> 0 < n * 2 ^ 1074 -> 0 <= v * d ->
  (s = neg /\ Z.abs (sg s * v * d - sg neg * n * 2 ^ 1074) = Z.abs (v * d - n * 2 ^ 1074)) \/
  (s = negb neg /\ Z.abs (sg s * v * d - sg neg * n * 2 ^ 1074) = v * d + n * 2 ^ 1074).
Proof.
  intros E H V. rewrite E. rewrite <- Z.mul_assoc. generalize dependent (n * 2 ^ 1074). intros w _ Hw.
  generalize dependent (v * d). intros u Hu. destruct s, neg; cbn [sg negb]; [left|right|right|left]; (split; [reflexivity|lia]).
Qed.
Lemma best_rounded n d m p neg x : 0 < n -> 0 < d -> best n d m p -> p <= 2045 ->
  x = match m with Z.pos u => S754_finite neg u (p - 1074) | _ => S754_zero neg end ->
  rounded (sg neg * n) d x /\ negative x = neg.
Proof.
  intros Hn Hd B L ->. destruct B as (M & P & C & N & T).
  assert (U : units (match m with Z.pos u => S754_finite neg u (p - 1074) | _ => S754_zero neg end) = sg neg * (m * 2 ^ p)).
  { destruct m as [|u|u]; [destruct neg; reflexivity| |exfalso; clear - M; lia]. cbn [units]. replace (p - 1074 + 1074) with p by lia. destruct neg; reflexivity. }
  assert (W0 : 0 < n * 2 ^ 1074) by (apply Z.mul_pos_pos; [exact Hn|reflexivity]).
  assert (A : forall v, sg neg * v * 2 ^ 1074 = sg neg * (v * 2 ^ 1074)) by (intros; rewrite Z.mul_assoc; reflexivity).
  assert (DX : distance (sg neg * n) d (match m with Z.pos u => S754_finite neg u (p - 1074) | _ => S754_zero neg end) = dist n d (m * 2 ^ p)).
  { unfold distance, dist. rewrite U, A. rewrite <- Z.mul_assoc. generalize (m * 2 ^ p * d) (n * 2 ^ 1074). intros u w. destruct neg; cbn [sg]; lia. }
  assert (DZ : dist n d (m * 2 ^ p) <= n * 2 ^ 1074).
  { etransitivity; [apply (N 0 0); [split; [lia|reflexivity]|lia]|]. unfold dist. rewrite ?Z.mul_0_l. clear - W0. generalize dependent (n * 2 ^ 1074). intros. lia. }
  split; [|destruct m; [reflexivity|reflexivity|exfalso; clear - M; lia]].
  split; [|split; [|split]].
  - destruct m as [|u|u]; cbn [finite_double]; auto. split; [apply M|clear - P L; lia].
  - destruct m as [|u|u]; cbn [normal_form]; auto. destruct C as [C|C]; [left; exact C|right; clear - C; lia].
  - intros y Hy. rewrite DX. destruct (finite_shape y Hy) as (s & m' & p' & M' & P' & Uy).
    assert (V0 : 0 <= m' * 2 ^ p' * d). { apply Z.mul_nonneg_nonneg; [apply Z.mul_nonneg_nonneg; [apply M'|apply Z.pow_nonneg; lia]|clear - Hd; lia]. }
    unfold distance. rewrite Uy. destruct (sg_dist neg s (m' * 2 ^ p') n d (A n) W0 V0) as [[_ E]|[_ E]]; rewrite E.
    + apply (N m' p' M' P').
    + etransitivity; [exact DZ|]. clear - V0. lia.
  - intros y Hy D Ne. rewrite DX in D. rewrite U in Ne. destruct (finite_shape y Hy) as (s & m' & p' & M' & P' & Uy).
    assert (V1 : 0 <= m' * 2 ^ p'). { apply Z.mul_nonneg_nonneg; [apply M'|apply Z.pow_nonneg; lia]. }
    assert (V0 : 0 <= m' * 2 ^ p' * d). { apply Z.mul_nonneg_nonneg; [exact V1|clear - Hd; lia]. }
    assert (Ev : Z.even m = true).
    { unfold distance in D. rewrite Uy in D. destruct (sg_dist neg s (m' * 2 ^ p') n d (A n) W0 V0) as [[Es E]|[Es E]]; rewrite E in D.
      - apply (T m' p' M' P' D). intros Q. apply Ne. rewrite Uy, Q, Es. reflexivity.
      - assert (K : m' * 2 ^ p' * d = 0) by (clear - D DZ V0 W0; lia).
        assert (K2 : m' * 2 ^ p' = 0) by (apply Z.mul_eq_0_l in K; [exact K|clear - Hd; lia]).
        rewrite Uy, K2 in Ne. apply (T m' p' M' P').
        + rewrite K2. unfold dist at 1. rewrite Z.mul_0_l. clear - D K DZ W0. rewrite K in D. generalize dependent (n * 2 ^ 1074). intros. lia.
        + rewrite K2. intros Q. apply Ne. rewrite <- Q. destruct s, neg; reflexivity. }
    destruct m as [|u|u]; cbn [even_mantissa]; auto.
Qed.
Lemma too_large_sg neg n d : 0 < n -> (too_large (sg neg * n) d <-> (2 ^ 54 - 1) * 2 ^ 2045 * d <= 2 * (n * 2 ^ 1074)).
Proof.
  intros Hn. unfold too_large. assert (E : Z.abs (sg neg * n) = n) by (destruct neg; cbn [sg]; lia). rewrite E.
  replace (2 * (n * 2 ^ 1074)) with (n * 2 ^ 1075) by (change (2 ^ 1075) with (2 * 2 ^ 1074); ring).
  replace (2 ^ 2045) with (2 ^ 970 * 2 ^ 1075) by (rewrite <- Z.pow_add_r by discriminate; reflexivity).
  replace ((2 ^ 54 - 1) * (2 ^ 970 * 2 ^ 1075) * d) with ((2 ^ 54 - 1) * 2 ^ 970 * d * 2 ^ 1075) by ring.
  apply Z.mul_le_mono_pos_r. reflexivity.
Qed.

Lemma decimal_rounds neg m ex frac : 0 <= m -> float_of neg m ex frac (decimal_to_float neg m (ex - frac)).
Proof.
  intros H. unfold decimal_to_float. replace (- (ex - frac)) with (frac - ex) by lia. fold (denom ex frac).
  assert (D : 0 < denom ex frac) by (unfold denom; apply Z.pow_pos_nonneg; lia).
  assert (Nu : numer neg m ex frac = sg neg * (m * 10 ^ Z.max (ex - frac) 0)) by reflexivity.
  destruct (Z.eqb_spec m 0) as [ -> |Hm].
  - left. exists (S754_zero neg). unfold numer. rewrite Z.mul_0_l, Z.mul_0_r. split; [reflexivity|]. split; [|split; [reflexivity|]].
    + unfold rounded, distance. cbn [units finite_double normal_form even_mantissa]. split; [auto|]. split; [auto|]. split; [|auto].
      intros y _. rewrite Z.mul_0_l. change (Z.abs (0 - 0 * 2 ^ 1074)) with 0. apply Z.abs_nonneg.
    + unfold too_large. change (Z.abs 0) with 0. intros K. apply (Z.lt_irrefl 0). eapply Z.lt_le_trans; [|exact K].
      apply Z.mul_pos_pos; [reflexivity|exact D].
  - assert (N0 : 0 < m * 10 ^ Z.max (ex - frac) 0) by (apply Z.mul_pos_pos; [lia|apply Z.pow_pos_nonneg; lia]).
    pose proof (round_best _ _ N0 D) as R. destruct (round_units _ _) as [u p]. pose proof (best_range _ _ D _ _ R) as BR.
    destruct (Z.ltb_spec 2045 p) as [L|L].
    + right. split; [reflexivity|]. rewrite Nu. apply too_large_sg; [exact N0|]. apply Z.nlt_ge. intros K. apply BR in K. clear - K L. lia.
    + left. eexists. split; [|].
      2:{ rewrite Nu. destruct (best_rounded _ _ u p neg _ N0 D R L eq_refl) as [X1 X2]. split; [exact X1|]. split; [exact X2|].
          intros K. pose proof (proj1 (too_large_sg neg _ (denom ex frac) N0) K) as K'. pose proof (proj1 BR L) as L'. revert L'. apply Zle_not_lt. exact K'. }
      destruct u; reflexivity.
Qed.

(** ** Reading the text *)
Definition dval (v : Z) (s : bytes) : Z := fold_left (fun v b => v * 10 + (b - 48)) s v.
Lemma is_num_spec b : is_num b = true <-> dec_digit b.
Proof. unfold is_num, dec_digit. rewrite andb_true_iff, !Z.leb_le. tauto. Qed.
Lemma dval_app v a b : dval v (a ++ b) = dval (dval v a) b.
Proof. apply fold_left_app. Qed.
Lemma numeral_digits s z : numeral 10 s z <-> s <> [] /\ Forall dec_digit s /\ z = dval 0 s.
Proof.
  assert (A : forall s ds, Forall2 (digit 10) s ds -> Forall dec_digit s /\ forall v, dval v s = v * 10 ^ Z.of_nat (length ds) + positional 10 ds).
  { intros s0 ds H. induction H as [|b d s0 ds D F [IH1 IH2]].
    - split; [constructor|]. intros v. cbn. lia.
    - assert (B : dec_digit b /\ b = 48 + d). { destruct D as [d D1 D2|d D1 D2|d D1 D2]; unfold dec_digit; lia. }
      destruct B as [B1 ->]. split; [constructor; auto|]. intros v. unfold dval in *. cbn [fold_left length positional]. rewrite IH2.
      rewrite Nat2Z.inj_succ, Z.pow_succ_r by lia. ring. }
  assert (B : forall s, Forall dec_digit s -> exists ds, Forall2 (digit 10) s ds).
  { intros s0 H. induction H as [|b s0 D F (ds & IH)]; [exists []; constructor|]. exists (b - 48 :: ds). constructor; auto.
    replace b with (48 + (b - 48)) at 1 by lia. unfold dec_digit in D. constructor; lia. }
  unfold numeral. split.
  - intros (N & ds & F & ->). destruct (A _ _ F) as [A1 A2]. split; auto. split; auto. rewrite A2. lia.
  - intros (N & F & ->). split; auto. destruct (B _ F) as (ds & G). exists ds. split; auto. destruct (A _ _ G) as [_ A2]. rewrite A2. lia.
Qed.
Lemma dval_nonneg s v : Forall dec_digit s -> 0 <= v -> v <= dval v s.
Proof.
  intros H. revert v. induction H as [|b s D F IH]; intros v Hv; [cbn; lia|]. unfold dec_digit in D.
  unfold dval in *. cbn [fold_left]. specialize (IH (v * 10 + (b - 48)) ltac:(lia)). lia.
Qed.

(** Longest prefix of digits. *)
Definition stops (r : bytes) : Prop := match r with [] => True | c :: _ => ~ dec_digit c end.
Lemma span s : exists i r, s = i ++ r /\ Forall dec_digit i /\ stops r.
Proof.
  induction s as [|b s (i & r & -> & D & S)].
  - exists [], []. repeat split; constructor.
  - destruct (is_num b) eqn:E.
    + apply is_num_spec in E. exists (b :: i), r. repeat split; auto.
    + exists [], (b :: i ++ r). repeat split; [constructor|]. cbn. intros X. apply is_num_spec in X. congruence.
Qed.
Lemma mantissa_run i : Forall dec_digit i -> forall rest dot dig m frac,
  read_mantissa (i ++ rest) dot dig m frac =
  read_mantissa rest dot (dig || negb (match i with [] => true | _ => false end)) (dval m i) (if dot then frac + Z.of_nat (length i) else frac).
Proof.
  induction 1 as [|b i D F IH]; intros rest dot dig m frac.
  - cbn [app length]. rewrite orb_false_r. destruct dot; [|reflexivity]. f_equal. cbn. lia.
  - cbn [app read_mantissa]. replace (b =? 46) with false by (unfold dec_digit in D; lia). rewrite (proj2 (is_num_spec b) D). rewrite IH.
    rewrite orb_true_r. unfold dval at 2. cbn [fold_left]. fold (dval (m * 10 + (b - 48)) i). destruct dot; [|reflexivity].
    f_equal. cbn [length]. lia.
Qed.
Lemma mantissa_stop x dot dig m frac : stops x -> (dot = true \/ match x with 46 :: _ => False | _ => True end) ->
  read_mantissa x dot dig m frac = (m, frac, dig, x).
Proof.
  destruct x as [|c x]; [reflexivity|]. cbn [stops read_mantissa]. intros S H.
  assert (N : is_num c = false). { destruct (is_num c) eqn:E; auto. apply is_num_spec in E. contradiction. }
  rewrite N. destruct (Z.eqb_spec c 46) as [ -> |]; [|reflexivity]. destruct dot; [reflexivity|]. destruct H; [discriminate|contradiction].
Qed.
Definition some_digit (s : bytes) : bool := match s with [] => false | _ => true end.
Lemma mantissa_read i p f x : Forall dec_digit i -> (p = [46] \/ (p = [] /\ f = [])) -> Forall dec_digit f -> stops x ->
  (p = [46] \/ match x with 46 :: _ => False | _ => True end) ->
  read_mantissa (i ++ p ++ f ++ x) false false 0 0 = (dval 0 (i ++ f), Z.of_nat (length f), some_digit (i ++ f), x).
Proof.
  intros Hi Hp Hf S N. rewrite mantissa_run by exact Hi. destruct Hp as [ -> |[ -> -> ]].
  - cbn [app read_mantissa]. change (46 =? 46) with true. cbv iota. rewrite mantissa_run by exact Hf. rewrite mantissa_stop; [|exact S|auto].
    rewrite dval_app. repeat f_equal. destruct i, f; reflexivity.
  - cbn [app]. rewrite mantissa_stop; [|exact S|]. 2:{ destruct N; [discriminate|auto]. }
    rewrite app_nil_r. repeat f_equal. destruct i; reflexivity.
Qed.
Lemma digits_read ds : Forall dec_digit ds -> forall e rest, stops rest -> 0 <= e -> exists e', read_digits (ds ++ rest) e = (e', rest) /\ (dval e ds < 100000 -> e' = dval e ds).
Proof.
  induction 1 as [|b ds D F IH]; intros e rest S He.
  - exists e. split; [|reflexivity]. destruct rest as [|c r]; [reflexivity|]. cbn [app read_digits]. cbn in S.
    destruct (is_num c) eqn:E; [apply is_num_spec in E; contradiction|reflexivity].
  - cbn [app read_digits]. rewrite (proj2 (is_num_spec b) D). unfold dec_digit in D.
    destruct (Z.ltb_spec e 10000) as [L|L].
    + apply IH; [exact S|lia].
    + destruct (IH e rest S He) as (e' & E & _). exists e'. split; [exact E|]. unfold dval. cbn [fold_left]. fold (dval (e * 10 + (b - 48)) ds).
      pose proof (dval_nonneg ds (e * 10 + (b - 48)) F ltac:(lia)). lia.
Qed.
Definition esign (s : bytes) : Prop := s = [] \/ s = [43] \/ s = [45].
Lemma exponent_read x ex : exponent_value x ex -> exists e, read_exponent x = Some (e, []) /\ (Z.abs ex < 100000 -> e = ex).
Proof.
  intros [[ -> -> ]|(c & s & ds & k & -> & Hc & N & F & Hs)].
  - exists 0. split; reflexivity.
  - apply numeral_digits in N. destruct N as (Ne & _ & ->). destruct ds as [|d ds]; [contradiction|]. inversion F as [|? ? D _]; subst.
    destruct (digits_read (d :: ds) F 0 [] I ltac:(lia)) as (e & E & V). rewrite app_nil_r in E.
    pose proof (dval_nonneg (d :: ds) 0 F ltac:(lia)) as P0.
    assert (C : is_exp c = true) by (unfold is_exp; destruct Hc as [ -> | -> ]; reflexivity).
    unfold dec_digit in D. assert (D' : is_num d = true) by (apply is_num_spec; exact D).
    destruct Hs as [[[ -> | -> ] ->]|[ -> -> ]]; cbn [app read_exponent]; rewrite C.
    + replace (d =? 43) with false by lia. replace (d =? 45) with false by lia. rewrite D', E. eexists. split; [reflexivity|].
      intros A. rewrite V by (rewrite Z.abs_eq in A by lia; exact A). lia.
    + change (43 =? 43) with true. cbv iota. rewrite D', E. eexists. split; [reflexivity|].
      intros A. rewrite V by (rewrite Z.abs_eq in A by lia; exact A). lia.
    + change (45 =? 43) with false. change (45 =? 45) with true. cbv iota. rewrite D', E. eexists. split; [reflexivity|].
      intros A. rewrite V; [lia|]. rewrite Z.abs_opp, Z.abs_eq in A by lia. exact A.
Qed.
Lemma exponent_back x e : read_exponent x = Some (e, []) -> exists ex, exponent_value x ex.
Proof.
  unfold read_exponent. destruct x as [|c r]; [intros _; exists 0; left; auto|].
  destruct (is_exp c) eqn:C; [|discriminate].
  assert (Hc : c = 69 \/ c = 101) by (unfold is_exp in C; lia).
  assert (K : exists sg r1, r = sg ++ r1 /\ (sg = [] \/ sg = [43] \/ sg = [45]) /\
    snd (match r with x :: r' => if x =? 43 then (1, r') else if x =? 45 then (-1, r') else (1, r) | [] => (1, []) end) = r1).
  { destruct r as [|y r]; [exists [], []; auto|]. destruct (Z.eqb_spec y 43) as [ -> |]; [exists [43], r; auto|].
    destruct (Z.eqb_spec y 45) as [ -> |]; [exists [45], r; auto|]. exists [], (y :: r). auto. }
  destruct K as (s & r1 & Er & Hs & K). destruct (match r with [] => _ | _ => _ end) as [z r1']. cbn [snd] in K. subst r1'.
  destruct r1 as [|d r2]; [discriminate|]. destruct (is_num d) eqn:D; [|discriminate].
  destruct (span (d :: r2)) as (ds & rest & Es & F & S). destruct (digits_read ds F 0 rest S ltac:(lia)) as (e' & E & _).
  rewrite Es in *. rewrite E. intros X. injection X as _ ->. rewrite app_nil_r in *.
  assert (Ne : ds <> []) by (intros ->; discriminate).
  exists ((match s with [45] => -1 | _ => 1 end) * dval 0 ds). right. exists c, s, ds, (dval 0 ds).
  split; [rewrite Er; reflexivity|]. split; [exact Hc|]. split; [apply numeral_digits; auto|]. split; [exact F|].
  destruct Hs as [ -> |[ -> | -> ]]; [left|left|right]; split; auto; lia.
Qed.
Lemma exponent_stops x ex : exponent_value x ex -> stops x /\ match x with 46 :: _ => False | _ => True end.
Proof.
  intros [[ -> _ ]|(c & s & ds & k & -> & Hc & _)]; [split; exact I|]. unfold stops, dec_digit. destruct Hc as [ -> | -> ]; split; auto; lia.
Qed.

Definition read_rest (neg : bool) (s1 : bytes) : option (bool * Z * Z) :=
  let '(m, frac, dig, r) := read_mantissa s1 false false 0 0 in
  if dig then match read_exponent r with Some (e, []) => Some (neg, m, e - frac) | _ => None end else None.
Lemma read_unsigned t : match t with c :: _ => c <> 43 /\ c <> 45 | [] => True end -> read_float t = read_rest false t.
Proof.
  destruct t as [|c t]; [reflexivity|]. intros [H1 H2]. unfold read_float. destruct (Z.eqb_spec c 43); [contradiction|]. destruct (Z.eqb_spec c 45); [contradiction|]. reflexivity.
Qed.
Lemma value_read s neg m ex frac : decimal_value s neg m ex frac ->
  exists e, read_float s = Some (neg, m, e - frac) /\ (Z.abs ex < 100000 -> e = ex).
Proof.
  intros (g & i & p & f & x & -> & Hg & Hi & Hp & Hf & N & X & ->).
  destruct (exponent_stops _ _ X) as [S1 S2]. destruct (exponent_read _ _ X) as (e & E & V).
  apply numeral_digits in N. destruct N as (Ne & _ & ->).
  assert (M : read_mantissa (i ++ p ++ f ++ x) false false 0 0 = (dval 0 (i ++ f), Z.of_nat (length f), some_digit (i ++ f), x)) by (apply mantissa_read; auto).
  assert (SD : some_digit (i ++ f) = true) by (destruct (i ++ f); [contradiction|reflexivity]).
  exists e. split; [|exact V].
  destruct Hg as [[[ -> | -> ] ->]|[ -> -> ]]; cbn [app].
  - rewrite read_unsigned; [unfold read_rest; rewrite M, SD, E; reflexivity|].
    destruct i as [|b i].
    + destruct Hp as [ -> |[ -> -> ]]; [cbn; lia|contradiction].
    + inversion Hi as [|? ? D _]; subst. unfold dec_digit in D. cbn. lia.
  - change (read_rest false (i ++ p ++ f ++ x) = Some (false, dval 0 (i ++ f), e - Z.of_nat (length f))). unfold read_rest. rewrite M, SD, E. reflexivity.
  - change (read_rest true (i ++ p ++ f ++ x) = Some (true, dval 0 (i ++ f), e - Z.of_nat (length f))). unfold read_rest. rewrite M, SD, E. reflexivity.
Qed.
Lemma read_value s neg m e : read_float s = Some (neg, m, e) -> exists ex frac, decimal_value s neg m ex frac.
Proof.
  unfold read_float.
  assert (K : exists g t, s = g ++ t /\ exists ng, (((g = [] \/ g = [43]) /\ ng = false) \/ (g = [45] /\ ng = true)) /\
    match s with c :: r => if c =? 43 then (false, r) else if c =? 45 then (true, r) else (false, s) | [] => (false, []) end = (ng, t)).
  { destruct s as [|y r]; [exists [], []; split; auto; exists false; auto|]. destruct (Z.eqb_spec y 43) as [ -> |]; [exists [43], r; split; auto; exists false; auto|].
    destruct (Z.eqb_spec y 45) as [ -> |]; [exists [45], r; split; auto; exists true; auto|]. exists [], (y :: r). split; auto. exists false. auto. }
  destruct K as (g & t & -> & ng & Hg & ->).
  destruct (span t) as (i & r & -> & Hi & Si).
  assert (P : exists p f x, r = p ++ f ++ x /\ (p = [46] \/ (p = [] /\ f = [])) /\ Forall dec_digit f /\ stops x /\ (p = [46] \/ match x with 46 :: _ => False | _ => True end)).
  { destruct r as [|c r].
    - exists [], [], []. split; [reflexivity|]. split; [auto|]. split; [constructor|]. split; [exact I|auto].
    - destruct (Z.eqb_spec c 46) as [ -> |Nc].
      + destruct (span r) as (f & x & -> & Hf & Sf). exists [46], f, x. split; [reflexivity|]. auto.
      + exists [], [], (c :: r). split; [reflexivity|]. split; [auto|]. split; [constructor|]. split; [exact Si|]. right.
        destruct c as [|u|u]; auto. do 6 (destruct u as [u|u|]; auto); apply Nc; reflexivity. }
  destruct P as (p & f & x & -> & Hp & Hf & Sx & Nx). rewrite (mantissa_read i p f x Hi Hp Hf Sx Nx).
  destruct (some_digit (i ++ f)) eqn:SD; [|discriminate]. destruct (read_exponent x) as [[e' [|y l]]|] eqn:E; try discriminate.
  intros Q. injection Q as <- <- <-. destruct (exponent_back _ _ E) as (ex & X). exists ex, (Z.of_nat (length f)).
  exists g, i, p, f, x. split; [reflexivity|]. split; [exact Hg|]. split; [exact Hi|]. split; [exact Hp|]. split; [exact Hf|].
  split; [|split; [exact X|reflexivity]]. apply numeral_digits. split; [intros Z0; rewrite Z0 in SD; discriminate|]. split; [apply Forall_app; auto|reflexivity].
Qed.

(** ** ParseFloat *)
Lemma alphabet_spec s : decimal_alphabet s <-> forallb decimal_byte s = true.
Proof.
  unfold decimal_alphabet. rewrite Forall_forall, forallb_forall.
  assert (A : forall b, decimal_byte b = true <-> (dec_digit b \/ b = 43 \/ b = 45 \/ b = 46 \/ b = 69 \/ b = 101)).
  { intros b. unfold decimal_byte, is_exp. rewrite !orb_true_iff, !Z.eqb_eq, is_num_spec. tauto. }
  split; intros H b I; apply A, H, I.
Qed.
Lemma numeral10_nonneg s m : numeral 10 s m -> 0 <= m.
Proof. apply numeral_nonneg. lia. Qed.
Lemma value_nonneg s neg m ex frac : decimal_value s neg m ex frac -> 0 <= m.
Proof. intros (g & i & p & f & x & _ & _ & _ & _ & _ & N & _). eapply numeral10_nonneg; eauto. Qed.
Lemma strconv_answer other s : decimal_alphabet s ->
  match strconv_ParseFloat other s with
  | inr x => denotes s x
  | inl e => if is_range e then overflows s else ~ is_number s
  end.
Proof.
  intros H. unfold strconv_ParseFloat. rewrite (proj1 (alphabet_spec s) H).
  destruct (read_float s) as [[[neg m] e]|] eqn:R.
  - assert (Nu : is_number s) by (destruct (read_value _ _ _ _ R) as (ex & frac & V); exists neg, m, ex, frac; exact V).
    assert (A : forall neg' m' ex frac, decimal_value s neg' m' ex frac -> Z.abs ex < 100000 -> float_of neg' m' ex frac (decimal_to_float neg m e)).
    { intros neg' m' ex frac V L. destruct (value_read _ _ _ _ _ V) as (e' & R' & E'). rewrite (E' L) in R'. rewrite R in R'. injection R' as -> -> ->.
      apply decimal_rounds. eapply value_nonneg; eauto. }
    destruct (decimal_to_float neg m e) as [er|x] eqn:D; [|split; [exact Nu|exact A]].
    assert (Er : er = ErrRange).
    { unfold decimal_to_float in D. destruct (m =? 0); [discriminate|]. destruct (round_units _ _) as [u p]. destruct (2045 <? p); [congruence|]. destruct u; discriminate. }
    subst er. split; [exact Nu|exact A].
  - intros (neg & m & ex & frac & V). destruct (value_read _ _ _ _ _ V) as (e' & R' & _). congruence.
Qed.
Lemma ParseFloat_ok other n c l ss : Forall2 string_ast l ss -> decimal_alphabet (concat ss) ->
  (exists x, denotes (concat ss) x /\
     ParseFloat (strconv_ParseFloat other) n c l = Ok (inr [mkAst 0 (head_cls l) TFloat (VFloat x) (head_sp l)])) \/
  (overflows (concat ss) /\ ParseFloat (strconv_ParseFloat other) n c l = Ok (inl (ENum "ParseFloat" (concat ss) true))) \/
  (~ is_number (concat ss) /\ ParseFloat (strconv_ParseFloat other) n c l = Ok (inl (ENum "ParseFloat" (concat ss) false))).
Proof.
  intros H A. unfold ParseFloat. rewrite (with_concat_ok _ _ _ H). pose proof (strconv_answer other _ A) as S.
  destruct (strconv_ParseFloat other (concat ss)) as [e|x].
  - right. destruct (is_range e) eqn:Er; [left|right]; (split; [exact S|unfold terr; rewrite ?Er; reflexivity]).
  - left. exists x. split; [exact S|reflexivity].
Qed.

(** ** The parsers *)
Lemma parse_float_gram pf : mono_trans (ParseFloat pf) /\ trans_ok (ParseFloat pf).
Proof. split; [intros n m c l _; unfold ParseFloat; intros; auto|intros n c c' l _ _ _ _; reflexivity]. Qed.
Lemma float64_token_of e cls R other : token e cls R -> peg_gram e -> (forall w s, R w s -> decimal_alphabet s) ->
  float64_token (ETrans e [ParseFloat (strconv_ParseFloat other)]) cls R.
Proof.
  set (t := ParseFloat (strconv_ParseFloat other)).
  intros T G HD env c He Hb Hp Hs. destruct (T env c He Hb Hp Hs) as (n & o & E & H).
  set (w := mkW (c_str c) (c_slice c) (c_tag c) env).
  assert (Hw : in_world w c) by (repeat split).
  assert (Gt : peg_gram (ETrans e [t])). { split; [exact G|]. split; [apply parse_float_gram|exact I]. }
  destruct H as [(x & s & a & Lo & S1 & P1 & K1 & C1 & T1 & V1)|[N S1]].
  - assert (P : peg w e (c_sp c) (RSucc (c_sp o) [a])).
    { apply (peg_adequate w _ c He G Hw Hs). exists n, o, None. split; [exact E|]. repeat split; auto. }
    assert (Ds : decimal_alphabet s) by (apply (HD x); apply Lo).
    assert (Sa : Forall2 string_ast [a] [s]) by (constructor; [split; auto|constructor]).
    assert (Fe : forall er, t 0%nat (fresh w (c_sp c)) [a] = Ok (inl er) -> exists n2 o2, run env n2 (ETrans e [t]) c = Ok (o2, Some er) /\ c_st o2 = Errored).
    { intros er Et. assert (P2 : peg w (ETrans e [t]) (c_sp c) (RErr (c_sp o) er)).
      { eapply peg_trans_bad; [exact P|]. eapply (pl_err _ 0%nat); exact Et. }
      destruct (proj1 (peg_adequate w _ c He Gt Hw Hs _) P2) as (n2 & o2 & err & E2 & Rr). simpl in Rr. destruct Rr as (-> & A1 & A2). exists n2, o2. auto. }
    assert (Es : concat [s] = s) by (cbn; apply app_nil_r).
    destruct (ParseFloat_ok other 0%nat (fresh w (c_sp c)) [a] [s] Sa) as [(y & Hy & Et)|[[Ov Et]|[Ny Et]]]; rewrite Es in *.
    + exact Ds.
    + assert (P2 : peg w (ETrans e [t]) (c_sp c) (RSucc (c_sp o) [mkAst 0 (a_cls a) TFloat (VFloat y) (a_sp a)])).
      { eapply peg_trans_ok; [exact P|]. eapply (pl_ok _ 0%nat); [exact Et|constructor]. }
      destruct (proj1 (peg_adequate w _ c He Gt Hw Hs _) P2) as (n2 & o2 & err & E2 & Rr). simpl in Rr. destruct Rr as (-> & A1 & A2 & A3).
      exists n2, o2, None. split; auto. left. exists x, s, y. eexists. split; [exact Lo|]. split; [exact Hy|]. split; [auto|]. split; [auto|].
      split; [unfold c_pos in *; rewrite A2; auto|]. split; [exact A3|]. auto.
    + destruct (Fe _ Et) as (n2 & o2 & E2 & A1). exists n2, o2. eexists. split; [exact E2|]. right. left. exists x, s. split; [exact Lo|]. split; [left; exact Ov|]. split; [discriminate|exact A1].
    + destruct (Fe _ Et) as (n2 & o2 & E2 & A1). exists n2, o2. eexists. split; [exact E2|]. right. left. exists x, s. split; [exact Lo|]. split; [right; exact Ny|]. split; [discriminate|exact A1].
  - assert (P : peg w e (c_sp c) RFail).
    { apply (peg_adequate w _ c He G Hw Hs). exists n, o, None. split; [exact E|]. repeat split; auto. }
    assert (P2 : peg w (ETrans e [t]) (c_sp c) RFail) by (apply peg_trans_fail; auto).
    destruct (proj1 (peg_adequate w _ c He Gt Hw Hs _) P2) as (n2 & o2 & err & E2 & Rr). simpl in Rr. destruct Rr as (-> & A1).
    exists n2, o2, None. split; auto.
Qed.
(** The words are written in the alphabet, apart from underscores. *)
Definition loose (s : bytes) : Prop := Forall (fun b => b = 95 \/ dec_digit b \/ b = 43 \/ b = 45 \/ b = 46 \/ b = 69 \/ b = 101) s.
Lemma loose_strip s : loose s -> decimal_alphabet (strip s).
Proof.
  intros H. unfold decimal_alphabet, strip. rewrite Forall_forall. intros b I. apply filter_In in I. destruct I as [I B].
  pose proof (proj1 (Forall_forall _ _) H b I). cbn in H0. destruct (Z.eqb_spec b 95); [discriminate|]. tauto.
Qed.
Lemma loose_app a b : loose a -> loose b -> loose (a ++ b).
Proof. intros H K. apply Forall_app. auto. Qed.
Lemma loose_sign s : sign s -> loose s.
Proof. intros [ -> |[ -> | -> ]]; unfold loose; repeat constructor; tauto. Qed.
Lemma loose_digits s : digits_ s -> loose s.
Proof. unfold digits_, loose. apply Forall_impl. tauto. Qed.
Lemma loose_int s : int_shape s -> loose s.
Proof.
  unfold loose. intros [(r & -> & H)|(d & r & -> & D & H)]; constructor; try (right; left; unfold dec_digit; lia).
  - revert H. apply Forall_impl. tauto.
  - revert H. apply Forall_impl. tauto.
Qed.
Lemma loose_exp s : exponent_word s -> loose s.
Proof.
  intros (e & g & b & -> & He & Hg & (d & r & -> & D & H)). unfold loose. constructor; [tauto|]. apply Forall_app. split; [apply loose_sign, Hg|].
  constructor; [tauto|]. revert H. apply Forall_impl. tauto.
Qed.
Lemma loose_point s : point_mantissa s -> loose s.
Proof.
  intros [(i & f & -> & Hi & Hf)|(f & -> & _ & Hf)].
  - apply Forall_app. split; [apply loose_int, Hi|]. constructor; [tauto|apply loose_digits, Hf].
  - constructor; [tauto|apply loose_digits, Hf].
Qed.
Lemma loose_float w : float_word w \/ numeric_word w -> loose w.
Proof.
  assert (X : forall x, opt_exponent x -> loose x) by (intros x [ -> |H]; [constructor|apply loose_exp, H]).
  intros [(g & m & x & -> & Hg & [[M Ex]|[M Ex]])|(g & m & x & -> & Hg & [M|M] & Ex)];
    apply loose_app; auto using loose_sign; apply loose_app; auto using loose_point, loose_int, loose_exp.
Qed.
Lemma float_number_token other : float64_token (ETrans FloatNumberStr [ParseFloat (strconv_ParseFloat other)]) ":extra:FloatNumberStr" (outL strip float_word).
Proof. apply float64_token_of; [apply float_token|xgram|]. intros w s [H ->]. apply loose_strip, loose_float. auto. Qed.
Lemma numeric_number_token other : float64_token (ETrans NumericStr [ParseFloat (strconv_ParseFloat other)]) ":extra:NumericStr" (outL strip numeric_word).
Proof. apply float64_token_of; [apply numeric_token|xgram|]. intros w s [H ->]. apply loose_strip, loose_float. auto. Qed.

(** ** Numbers *)
Lemma number_decimal s : is_number s <-> decimal_float s.
Proof.
  split.
  - intros (neg & m & ex & frac & g & i & p & f & x & -> & Hg & Hi & Hp & Hf & (N & _) & X & _).
    exists g, i, p, f, x. split; [reflexivity|]. split; [unfold sign; tauto|]. split; [exact Hi|]. split; [exact Hp|]. split; [exact Hf|]. split; [exact N|].
    destruct X as [[ -> _]|(c & s' & ds & k & -> & Hc & (N' & _) & F & Hs)]; [left; reflexivity|right].
    exists c, s', ds. split; [reflexivity|]. split; [exact Hc|]. split; [unfold sign; tauto|]. auto.
  - intros (g & i & p & f & x & -> & Hg & Hi & Hp & Hf & N & X).
    assert (Ex : exists ex, exponent_value x ex).
    { destruct X as [ -> |(c & s' & ds & -> & Hc & Hs & N' & F)]; [exists 0; left; auto|].
      exists ((match s' with [45] => -1 | _ => 1 end) * dval 0 ds). right. exists c, s', ds, (dval 0 ds).
      split; [reflexivity|]. split; [exact Hc|]. split; [apply numeral_digits; auto|]. split; [exact F|].
      destruct Hs as [ -> |[ -> | -> ]]; [left|left|right]; split; auto; lia. }
    destruct Ex as (ex & Ex). exists (match g with [45] => true | _ => false end), (dval 0 (i ++ f)), ex, (Z.of_nat (length f)).
    exists g, i, p, f, x. split; [reflexivity|]. split; [destruct Hg as [ -> |[ -> | -> ]]; auto|]. split; [exact Hi|]. split; [exact Hp|]. split; [exact Hf|].
    split; [|auto]. apply numeral_digits. split; [exact N|]. split; [apply Forall_app; auto|reflexivity].
Qed.
Lemma value_unique s neg m ex frac neg' m' ex' frac' :
  decimal_value s neg m ex frac -> decimal_value s neg' m' ex' frac' -> Z.abs ex < 100000 -> Z.abs ex' < 100000 ->
  neg = neg' /\ m = m' /\ ex - frac = ex' - frac'.
Proof.
  intros V V' L L'. destruct (value_read _ _ _ _ _ V) as (e & R & E). destruct (value_read _ _ _ _ _ V') as (e' & R' & E').
  rewrite (E L) in R. rewrite (E' L') in R'. rewrite R in R'. injection R' as -> -> ->. auto.
Qed.

(** ** The rounded number is unique *)
Lemma pow2_pos k : 0 <= k -> 0 < 2 ^ k.
Proof. intros H. apply Z.pow_pos_nonneg; lia. Qed.
Lemma between m p m' p' : 0 <= m < 2 ^ 53 -> 0 <= p -> (2 ^ 52 <= m \/ p = 0) -> Z.even m = true ->
  0 <= m' < 2 ^ 53 -> 0 <= p' -> Z.even m' = true -> m * 2 ^ p < m' * 2 ^ p' ->
  m + 1 < 2 ^ 53 /\ m * 2 ^ p < (m + 1) * 2 ^ p /\ (m + 1) * 2 ^ p < m' * 2 ^ p'.
Proof.
  intros M P C Ev M' P' Ev' L. pose proof (pow2_pos p P) as B. pose proof (pow2_pos p' P') as B'.
  assert (O : Z.even (m + 1) = false) by (rewrite Z.even_add, Ev; reflexivity).
  assert (K1 : m + 1 < 2 ^ 53). { assert (m + 1 <> 2 ^ 53) by (intros E; rewrite E in O; discriminate). clear - M H. generalize dependent (2 ^ 53). intros. lia. }
  split; [exact K1|]. split; [apply Z.mul_lt_mono_pos_r; [exact B|lia]|].
  destruct (Z.le_gt_cases p p') as [H|H].
  - assert (E : 2 ^ p' = 2 ^ (p' - p) * 2 ^ p) by (rewrite <- Z.pow_add_r by lia; f_equal; lia). rewrite E, Z.mul_assoc in *.
    apply Z.mul_lt_mono_pos_r; [exact B|]. apply Z.mul_lt_mono_pos_r in L; [|exact B].
    assert (Ne : m + 1 <> m' * 2 ^ (p' - p)) by (intros Q; rewrite Q, Z.even_mul, Ev' in O; discriminate). lia.
  - exfalso. destruct C as [C|C]; [|lia].
    assert (E : 2 ^ 52 * 2 ^ p = 2 ^ 53 * 2 ^ (p - 1)) by (rewrite <- !Z.pow_add_r by lia; f_equal; lia).
    assert (Mo : 2 ^ p' <= 2 ^ (p - 1)) by (apply Z.pow_le_mono_r; lia). clear - M M' L C E Mo B B'.
    generalize dependent (2 ^ p). generalize dependent (2 ^ p'). generalize dependent (2 ^ (p - 1)).
    generalize dependent (2 ^ 52). generalize dependent (2 ^ 53). intros. nia.
Qed.
Lemma finite_canon y : finite_double y -> normal_form y -> even_mantissa y ->
  exists s m p, 0 <= m < 2 ^ 53 /\ 0 <= p <= 2045 /\ (2 ^ 52 <= m \/ p = 0) /\ Z.even m = true /\ units y = sg s * (m * 2 ^ p).
Proof.
  destruct y as [s|s| |s m e]; cbn [finite_double units normal_form even_mantissa]; try contradiction.
  - intros _ _ _. exists s, 0, 0. split; [split; [lia|reflexivity]|]. split; [lia|]. split; [auto|]. split; [auto|]. destruct s; reflexivity.
  - intros [M E] N Ev. exists s, (Z.pos m), (e + 1074). split; [split; [lia|exact M]|]. split; [lia|]. split; [destruct N; [auto|right; lia]|]. split; [exact Ev|reflexivity].
Qed.
Lemma make_double s m p : 0 <= m < 2 ^ 53 -> 0 <= p <= 2045 -> exists z, finite_double z /\ units z = sg s * (m * 2 ^ p).
Proof.
  intros M P. destruct m as [|u|u]; [exists (S754_zero s)| |exfalso; clear - M; lia].
  - split; [exact I|destruct s; reflexivity].
  - exists (S754_finite s u (p - 1074)). cbn [finite_double units]. split; [split; [apply M|lia]|]. replace (p - 1074 + 1074) with p by lia. destruct s; reflexivity.
Qed.
(** Between two different numbers with even mantissas lies a third. *)
Lemma third x y : finite_double x -> normal_form x -> even_mantissa x -> finite_double y -> normal_form y -> even_mantissa y ->
  units x < units y -> exists z, finite_double z /\ units x < units z < units y.
Proof.
  intros F1 N1 E1 F2 N2 E2 L.
  destruct (finite_canon x F1 N1 E1) as (s & m & p & M & P & C & Ev & U). destruct (finite_canon y F2 N2 E2) as (s' & m' & p' & M' & P' & C' & Ev' & U').
  rewrite U, U' in *.
  assert (V : 0 <= m * 2 ^ p) by (apply Z.mul_nonneg_nonneg; [apply M|apply Z.pow_nonneg; lia]).
  assert (V' : 0 <= m' * 2 ^ p') by (apply Z.mul_nonneg_nonneg; [apply M'|apply Z.pow_nonneg; lia]).
  destruct s, s'; cbn [sg] in *.
  - (* both negative *)
    destruct (between m' p' m p M' (proj1 P') C' Ev' M (proj1 P) Ev ltac:(clear - L; lia)) as (A1 & A2 & A3).
    destruct (make_double true (m' + 1) p' ltac:(clear - M' A1; lia) P') as (z & Fz & Uz). exists z. split; [exact Fz|]. rewrite Uz. cbn [sg]. clear - A2 A3. lia.
  - destruct (Z.eq_dec (m * 2 ^ p) 0) as [Z0|Z0].
    + destruct (between m p m' p' M (proj1 P) C Ev M' (proj1 P') Ev' ltac:(clear - L V V' Z0; lia)) as (A1 & A2 & A3).
      destruct (make_double false (m + 1) p ltac:(clear - M A1; lia) P) as (z & Fz & Uz). exists z. split; [exact Fz|]. rewrite Uz. cbn [sg]. clear - A2 A3 V. lia.
    + destruct (Z.eq_dec (m' * 2 ^ p') 0) as [Z1|Z1].
      * destruct (between m' p' m p M' (proj1 P') C' Ev' M (proj1 P) Ev ltac:(clear - L V V' Z0 Z1; lia)) as (A1 & A2 & A3).
        destruct (make_double true (m' + 1) p' ltac:(clear - M' A1; lia) P') as (z & Fz & Uz). exists z. split; [exact Fz|]. rewrite Uz. cbn [sg]. clear - A2 A3 V'. lia.
      * exists (S754_zero false). split; [exact I|]. cbn [units]. clear - V V' Z0 Z1. lia.
  - exfalso. clear - L V V'. lia.
  - destruct (between m p m' p' M (proj1 P) C Ev M' (proj1 P') Ev' ltac:(clear - L; lia)) as (A1 & A2 & A3).
    destruct (make_double false (m + 1) p ltac:(clear - M A1; lia) P) as (z & Fz & Uz). exists z. split; [exact Fz|]. rewrite Uz. cbn [sg]. clear - A2 A3. lia.
Qed.
Lemma mid_closer a b z d w : 0 < d -> a < z < b -> Z.abs (a * d - w) = Z.abs (b * d - w) -> Z.abs (z * d - w) < Z.abs (a * d - w).
Proof.
  intros Hd H E. assert (a * d < z * d) by (apply Z.mul_lt_mono_pos_r; lia). assert (z * d < b * d) by (apply Z.mul_lt_mono_pos_r; lia).
  generalize dependent (a * d). generalize dependent (b * d). generalize dependent (z * d). intros. lia.
Qed.
Lemma rounded_units n d x y : 0 < d -> rounded n d x -> rounded n d y -> units x = units y.
Proof.
  assert (W : forall x y, 0 < d -> rounded n d x -> rounded n d y -> units x < units y -> False).
  { intros x0 y0 Hd (F1 & N1 & B1 & T1) (F2 & N2 & B2 & T2) L.
    assert (Eq : distance n d x0 = distance n d y0) by (apply Z.le_antisymm; auto).
    assert (E1 : even_mantissa x0) by (apply (T1 y0 F2); [auto|clear - L; lia]).
    assert (E2 : even_mantissa y0) by (apply (T2 x0 F1); [auto|clear - L; lia]).
    destruct (third x0 y0 F1 N1 E1 F2 N2 E2 L) as (z & Fz & Lz). pose proof (mid_closer _ _ _ d _ Hd Lz Eq) as Q.
    specialize (B1 z Fz). unfold distance in B1. clear - Q B1. lia. }
  intros Hd R1 R2. destruct (Z.lt_trichotomy (units x) (units y)) as [L|[L|L]]; [exfalso; exact (W x y Hd R1 R2 L)|exact L|exfalso; exact (W y x Hd R2 R1 L)].
Qed.
Lemma canon_inj m p m' p' : 0 < m < 2 ^ 53 -> 0 <= p -> (2 ^ 52 <= m \/ p = 0) -> 0 < m' < 2 ^ 53 -> 0 <= p' -> (2 ^ 52 <= m' \/ p' = 0) ->
  m * 2 ^ p = m' * 2 ^ p' -> m = m' /\ p = p'.
Proof.
  assert (W : forall m p m' p', 0 < m < 2 ^ 53 -> 0 <= p -> 0 < m' < 2 ^ 53 -> (2 ^ 52 <= m' \/ p' = 0) -> p < p' -> m * 2 ^ p = m' * 2 ^ p' -> False).
  { intros m0 p0 m1 p1 M P M' C L E. destruct C as [C|C]; [|lia].
    assert (Q : 2 ^ p1 = 2 ^ (p1 - p0) * 2 ^ p0) by (rewrite <- Z.pow_add_r by lia; f_equal; lia). rewrite Q, Z.mul_assoc in E.
    apply Z.mul_reg_r in E; [|apply Z.pow_nonzero; lia]. assert (2 ^ 1 <= 2 ^ (p1 - p0)) by (apply Z.pow_le_mono_r; lia). change (2 ^ 1) with 2 in H.
    change (2 ^ 53) with (2 * 2 ^ 52) in *. clear - M M' C E H. generalize dependent (2 ^ 52). generalize dependent (2 ^ (p1 - p0)). intros. nia. }
  intros M P C M' P' C' E. destruct (Z.lt_trichotomy p p') as [L|[ -> |L]]; [exfalso; eapply (W m p m' p'); eauto| |exfalso; eapply (W m' p' m p); eauto].
  split; [|reflexivity]. apply Z.mul_reg_r in E; [exact E|apply Z.pow_nonzero; lia].
Qed.
Lemma rounded_func n d x y : 0 < d -> rounded n d x -> rounded n d y -> negative x = negative y -> x = y.
Proof.
  intros Hd R1 R2 S. pose proof (rounded_units n d x y Hd R1 R2) as U. destruct R1 as (F1 & N1 & _). destruct R2 as (F2 & N2 & _).
  assert (P : forall m e, -1074 <= e -> 0 < Z.pos m * 2 ^ (e + 1074)) by (intros; apply Z.mul_pos_pos; [lia|apply Z.pow_pos_nonneg; lia]).
  destruct x as [s|s| |s m e]; try contradiction F1; destruct y as [s'|s'| |s' m' e']; try contradiction F2;
    cbn [units negative finite_double normal_form] in *; subst.
  - reflexivity.
  - exfalso. pose proof (P m' e' ltac:(clear - F2; lia)) as Q. clear - U Q. destruct s'; lia.
  - exfalso. pose proof (P m e ltac:(clear - F1; lia)) as Q. clear - U Q. destruct s'; lia.
  - assert (Q : Z.pos m * 2 ^ (e + 1074) = Z.pos m' * 2 ^ (e' + 1074)) by (clear - U; destruct s'; lia).
    destruct F1 as [F1 G1]. destruct F2 as [F2 G2].
    assert (C1 : 2 ^ 52 <= Z.pos m \/ e + 1074 = 0) by (destruct N1; [auto|right; lia]).
    assert (C2 : 2 ^ 52 <= Z.pos m' \/ e' + 1074 = 0) by (destruct N2; [auto|right; lia]).
    destruct (canon_inj (Z.pos m) (e + 1074) (Z.pos m') (e' + 1074) (conj eq_refl F1) ltac:(clear - G1; lia) C1 (conj eq_refl F2) ltac:(clear - G2; lia) C2 Q) as [A B].
    injection A as ->. f_equal. lia.
Qed.
