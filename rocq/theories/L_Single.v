(** Lemmas: rounding a float64 to float32 (M_Format.to_float32, S_Format.single_of). *)
From Verif Require Export L_Format.
(** ** float32 *)
Lemma gap_single q s m' s' : 0 <= q < 2 ^ 24 -> 925 <= s -> (2 ^ 23 <= q \/ s = 925) -> 0 <= m' < 2 ^ 24 -> 925 <= s' ->
  m' * 2 ^ s' <= q * 2 ^ s \/ (q + 1) * 2 ^ s <= m' * 2 ^ s'.
Proof.
  intros [q0 q1] s0 qc Hm Hp. destruct (Z.le_gt_cases s s') as [L|L].
  - assert (E : 2 ^ s' = 2 ^ (s' - s) * 2 ^ s) by (rewrite <- Z.pow_add_r by lia; f_equal; lia).
    rewrite E, Z.mul_assoc. pose proof (pow2 s ltac:(lia)) as P0. generalize dependent (m' * 2 ^ (s' - s)). intros t.
    destruct (Z.le_gt_cases t q); [left|right]; apply Z.mul_le_mono_nonneg_r; lia.
  - left. destruct qc as [qc|]; [|lia].
    assert (E : 2 ^ 23 * 2 ^ s = 2 ^ 24 * 2 ^ (s - 1)) by (rewrite <- !Z.pow_add_r by lia; f_equal; lia).
    assert (M : 2 ^ s' <= 2 ^ (s - 1)) by (apply Z.pow_le_mono_r; lia).
    pose proof (pow2 s ltac:(lia)). pose proof (pow2 s' ltac:(lia)). pose proof (pow2 (s - 1) ltac:(lia)).
    generalize dependent (2 ^ s). generalize dependent (2 ^ s'). generalize dependent (2 ^ (s - 1)).
    generalize dependent (2 ^ 23). generalize dependent (2 ^ 24). intros. nia.
Qed.
Lemma widen_ok neg u e : Z.log2 (Z.pos u) <= 24 -> -1074 <= e -> Z.pos u * 2 ^ (e + 1074) < 2 ^ 1202 ->
  exists m e', widen neg u e = S754_finite neg m e' /\ finite64 neg m e' /\ Z.pos m * 2 ^ (e' + 1074) = Z.pos u * 2 ^ (e + 1074).
Proof.
  intros L E B. unfold widen. set (s := Z.min (52 - Z.log2 (Z.pos u)) (e + 1074)). pose proof (Z.log2_nonneg (Z.pos u)) as L0. assert (S0 : 0 <= s) by lia.
  pose proof (pow2 s S0) as P. assert (M0 : 0 < Z.pos u * 2 ^ s) by (apply Z.mul_pos_pos; lia).
  assert (LM : Z.log2 (Z.pos u * 2 ^ s) = Z.log2 (Z.pos u) + s) by (rewrite Z.log2_mul_pow2 by lia; lia).
  assert (V : Z.pos u * 2 ^ s * 2 ^ (e - s + 1074) = Z.pos u * 2 ^ (e + 1074)) by (rewrite <- Z.mul_assoc, <- Z.pow_add_r by lia; do 2 f_equal; lia).
  pose proof (Z.log2_spec _ M0) as [S1 S2]. rewrite LM in S1, S2.
  assert (EB : e - s <= 971).
  { destruct (Z.le_gt_cases (e - s) 971) as [H|H]; [exact H|exfalso]. assert (s = 52 - Z.log2 (Z.pos u)) by lia. rewrite <- V in B.
    assert (2 ^ 1202 <= Z.pos u * 2 ^ s * 2 ^ (e - s + 1074)); [|lia]. apply (Z.le_trans _ (1 * 2 ^ (e - s + 1074))); [|apply Z.mul_le_mono_nonneg_r; [apply Z.pow_nonneg; lia|lia]].
    rewrite Z.mul_1_l. apply Z.pow_le_mono_r; lia. }
  assert (N : 2 ^ 52 <= Z.pos u * 2 ^ s \/ e - s = -1074).
  { destruct (Z.le_ge_cases (52 - Z.log2 (Z.pos u)) (e + 1074)) as [H|H]; [left|right; lia]. eapply Z.le_trans; [|exact S1]. apply Z.pow_le_mono_r; lia. }
  assert (U : Z.pos u * 2 ^ s < 2 ^ 53) by (eapply Z.lt_le_trans; [exact S2|]; apply Z.pow_le_mono_r; lia).
  destruct (Z.pos u * 2 ^ s) as [|m|m] eqn:Em; try lia. exists m, (e - s). split; [reflexivity|]. split; [|exact V].
  split; cbn [finite_double normal_form]; [split; [exact U|lia]|exact N].
Qed.
Lemma log2_le_24 u : Z.pos u <= 2 ^ 24 -> Z.log2 (Z.pos u) <= 24.
Proof. intros H. apply Z.log2_le_mono in H. rewrite Z.log2_pow2 in H by lia. exact H. Qed.

Section Single.
Variables (w : Z).
Hypothesis Hw : 0 < w.
Let s := Z.max (Z.log2 w - 23) 925.
Let b := 2 ^ s.
Let q := w / b.
Let r := w mod b.
Let u := if (b <? 2 * r) || ((2 * r =? b) && Z.odd q) then q + 1 else q.
Lemma s_low : 925 <= s. Proof. unfold s. lia. Qed.
Lemma b_pos : 0 < b. Proof. apply pow2. pose proof s_low. lia. Qed.
Lemma w_eq : w = q * b + r /\ 0 <= r < b.
Proof. pose proof b_pos. split; [|apply Z.mod_pos_bound; auto]. rewrite Z.mul_comm. apply Z.div_mod. lia. Qed.
Lemma q_single : 0 <= q < 2 ^ 24 /\ (2 ^ 23 <= q \/ s = 925).
Proof.
  pose proof b_pos as B. pose proof s_low as S. pose proof (Z.log2_spec w Hw) as [L1 L2]. split; [split|].
  - apply Z.div_pos; lia.
  - apply Z.div_lt_upper_bound; [lia|]. unfold b. rewrite <- Z.pow_add_r by lia. eapply Z.lt_le_trans; [exact L2|]. apply Z.pow_le_mono_r; unfold s; lia.
  - destruct (Z.eq_dec s 925); [right; auto|left]. apply Z.div_le_lower_bound; [lia|]. unfold b. rewrite <- Z.pow_add_r by lia. replace (s + 23) with (Z.log2 w) by (unfold s in *; lia). exact L1.
Qed.
Lemma single_best m' s' : 0 <= m' < 2 ^ 24 -> 925 <= s' ->
  Z.abs (u * b - w) <= Z.abs (m' * 2 ^ s' - w) /\ (Z.abs (u * b - w) = Z.abs (m' * 2 ^ s' - w) -> m' * 2 ^ s' <> u * b -> Z.even u = true).
Proof.
  intros M S. destruct q_single as [Q1 Q2]. destruct w_eq as [W R]. pose proof b_pos as B. pose proof (gap_single q s m' s' Q1 s_low Q2 M S) as G. fold b in G.
  assert (U : (u = q + 1 /\ (b < 2 * r \/ (2 * r = b /\ Z.odd q = true))) \/ (u = q /\ (2 * r < b \/ (2 * r = b /\ Z.odd q = false)))).
  { unfold u. destruct ((b <? 2 * r) || ((2 * r =? b) && Z.odd q))%bool eqn:E; [left|right]; (split; [reflexivity|]).
    - rewrite orb_true_iff, andb_true_iff in E. destruct E as [E|[E1 E2]]; [left|right]; [lia|split; [lia|auto]].
    - rewrite orb_false_iff, andb_false_iff in E. destruct E as [E1 [E2|E2]]; [left; lia|]. destruct (Z.lt_ge_cases (2 * r) b); [left; auto|right; split; [lia|auto]]. }
  generalize dependent (m' * 2 ^ s'). intros v G. clearbody q r b u. destruct U as [[-> U]|[-> U]].
  - split; [lia|]. intros E Ne. destruct U as [U|[U O]]; [lia|]. rewrite Z.even_add, <- Z.negb_odd, O. reflexivity.
  - split; [lia|]. intros E Ne. destruct U as [U|[U O]]; [lia|]. rewrite <- Z.negb_odd, O. reflexivity.
Qed.
Lemma u_range : 0 <= u <= 2 ^ 24 /\ (2 ^ 23 <= u \/ s = 925).
Proof. destruct q_single as [Q1 Q2]. unfold u. destruct (_ || _)%bool; split; try lia; destruct Q2; auto; left; lia. Qed.
Lemma single_range : 2 ^ 1202 <= u * b <-> (2 ^ 25 - 1) * 2 ^ 1177 <= w.
Proof.
  destruct q_single as [Q1 Q2]. destruct w_eq as [W R]. pose proof s_low as S. destruct u_range as [U1 U2].
  assert (A : 0 < 2 ^ 1177) by reflexivity. replace (2 ^ 1202) with (2 ^ 25 * 2 ^ 1177) by (rewrite <- Z.pow_add_r by discriminate; reflexivity).
  destruct (Z.lt_trichotomy s 1178) as [L|[L|L]].
  - assert (2 * b <= 2 * 2 ^ 1177) by (apply Z.mul_le_mono_nonneg_l; [discriminate|]; apply Z.pow_le_mono_r; lia). pose proof b_pos as B. generalize dependent (2 ^ 1177). intros a A HA.
    change (2 ^ 25) with 33554432. change (2 ^ 24) with 16777216 in *. split; intros; nia.
  - assert (E : b = 2 * 2 ^ 1177) by (unfold b; rewrite L; rewrite <- Z.pow_succ_r by discriminate; reflexivity). unfold u. rewrite E in *. generalize dependent (2 ^ 1177). intros a A E E'.
    change (2 ^ 25) with 33554432. change (2 ^ 24) with 16777216 in *. clearbody q r. split; intros H.
    + destruct ((2 * a <? 2 * r) || ((2 * r =? 2 * a) && Z.odd q))%bool eqn:X; [|nia]. rewrite orb_true_iff, andb_true_iff in X. assert (q = 16777215) by nia. subst q. destruct X as [X|[X _]]; lia.
    + assert (q = 16777215) by nia. subst q. assert (X : ((2 * a <? 2 * r) || ((2 * r =? 2 * a) && Z.odd 16777215))%bool = true) by (rewrite orb_true_iff, andb_true_iff; cbn [Z.odd]; destruct (Z.eq_dec (2 * r) (2 * a)); [right; split; [lia|reflexivity]|left; lia]). rewrite X. lia.
  - destruct U2 as [U2|U2]; [|lia]. destruct Q2 as [Q2|Q2]; [|lia]. assert (4 * 2 ^ 1177 <= b). { unfold b. change (4 * 2 ^ 1177) with (2 ^ 1179). apply Z.pow_le_mono_r; lia. }
    generalize dependent (2 ^ 1177). intros a A HA. change (2 ^ 25) with 33554432. change (2 ^ 23) with 8388608 in *. split; intros; nia.
Qed.
End Single.

Lemma units_single x k j : units x = 0 \/ (Z.abs (units x) = k * 2 ^ (j + 1074) /\ 0 <= k < 2 ^ 24 /\ -149 <= j <= 104) -> single_units (units x).
Proof. intros [->|H]; [exists 0, 0; cbn; repeat split; lia|exists k, j; exact H]. Qed.
Lemma nearest_sign neg V w z : 0 <= V -> 0 < w -> Z.abs (V - w) <= w -> Z.abs (V - w) <= Z.abs (Z.abs z - w) ->
  Z.abs (sg neg * V - sg neg * w) <= Z.abs (z - sg neg * w) /\
  (Z.abs (z - sg neg * w) = Z.abs (sg neg * V - sg neg * w) -> z <> sg neg * V -> Z.abs z <> V /\ Z.abs (V - w) = Z.abs (Z.abs z - w)).
Proof. intros. destruct neg; cbn [sg]; lia. Qed.
Lemma to_float32_ok x : a_double x -> single_of x (to_float32 x).
Proof.
  destruct x as [neg|neg| |neg m e]; try reflexivity. intros A. unfold a_double in A. pose proof (finite_normed _ _ _ A) as (M & P & _).
  cbn [single_of]. set (w := Z.pos m * 2 ^ (e + 1074)). assert (Hw : 0 < w) by (apply Z.mul_pos_pos; [lia|apply pow2; auto]).
  assert (UX : units (S754_finite neg m e) = sg neg * w) by reflexivity. rewrite UX. assert (UA : Z.abs (sg neg * w) = w) by (destruct neg; cbn [sg]; lia). rewrite UA.
  unfold to_float32. fold w. cbv zeta.
  pose proof (single_best w Hw) as Be. pose proof (single_range w Hw) as Ra. destruct (u_range w Hw) as [U1 U2]. cbv zeta in *.
  pose proof (s_low w) as Sl. pose proof (b_pos w) as Bp. set (s := Z.max (Z.log2 w - 23) 925) in *.
  set (u := if ((2 ^ s <? 2 * (w mod 2 ^ s)) || ((2 * (w mod 2 ^ s) =? 2 ^ s) && Z.odd (w / 2 ^ s)))%bool then w / 2 ^ s + 1 else w / 2 ^ s) in *.
  destruct (Z.leb_spec (2 ^ 1202) (u * 2 ^ s)) as [L|L].
  - left. split; [reflexivity|]. apply Ra. exact L.
  - right. split; [apply Z.nle_gt; intros K; apply Ra in K; lia|].
    set (y := match u with Z.pos u' => widen neg u' (s - 1074) | _ => S754_zero neg end).
    assert (Y : negative y = neg /\ finite_double y /\ a_double y /\ units y = sg neg * (u * 2 ^ s)).
    { unfold y. destruct u as [|u'|u'] eqn:Eu; [| |lia].
      - cbn. repeat split; auto. destruct neg; reflexivity.
      - destruct (widen_ok neg u' (s - 1074)) as (m1 & e1 & -> & F & V); [apply log2_le_24; lia|lia|replace (s - 1074 + 1074) with s by lia; exact L|].
        split; [reflexivity|]. split; [apply F|]. split; [exact F|]. cbn [units]. fold (sg neg). rewrite V. replace (s - 1074 + 1074) with s by lia. reflexivity. }
    clear Ra. destruct Y as (Y1 & Y2 & Y3 & Y4). split; [exact Y1|]. split; [exact Y2|].
    assert (YA : Z.abs (units y) = u * 2 ^ s) by (rewrite Y4; assert (0 <= u * 2 ^ s) by (apply Z.mul_nonneg_nonneg; lia); destruct neg; cbn [sg]; lia).
    assert (Y5 : single_units (units y)).
    { destruct (Z.eq_dec u (2 ^ 24)) as [E|E].
      - exists (2 ^ 23), (s - 1074 + 1). rewrite YA. split; [|split; [split; [discriminate|reflexivity]|]].
        + rewrite E. replace (s - 1074 + 1 + 1074) with (s + 1) by lia. rewrite Z.pow_add_r by lia. change (2 ^ 24) with (2 ^ 23 * 2). change (2 ^ 1) with 2. ring.
        + split; [lia|]. destruct (Z.le_gt_cases (s - 1074 + 1) 104) as [H|H]; [exact H|exfalso]. assert (2 ^ 1202 <= u * 2 ^ s); [|lia]. rewrite E. rewrite <- Z.pow_add_r by lia. apply Z.pow_le_mono_r; lia.
      - exists u, (s - 1074). rewrite YA. split; [f_equal; f_equal; lia|]. split; [lia|]. split; [lia|].
        destruct (Z.le_gt_cases (s - 1074) 104) as [H|H]; [exact H|exfalso]. destruct U2 as [U2|U2]; [|lia]. assert (2 ^ 1202 <= u * 2 ^ s); [|lia].
        apply (Z.le_trans _ (2 ^ 23 * 2 ^ s)); [rewrite <- Z.pow_add_r by lia; apply Z.pow_le_mono_r; lia|apply Z.mul_le_mono_nonneg_r; lia]. }
    split; [split; auto|]. intros z (k & j & Z1 & Z2 & Z3). destruct (Be k (j + 1074) Z2 ltac:(lia)) as [B1 B2]. rewrite Y4.
    assert (V0 : 0 <= u * 2 ^ s) by (apply Z.mul_nonneg_nonneg; lia). rewrite <- Z1 in B1, B2.
    assert (B0 : Z.abs (u * 2 ^ s - w) <= w) by (destruct (Be 0 925 (conj (Z.le_refl 0) eq_refl) (Z.le_refl 925)) as [B0 _]; rewrite Z.mul_0_l in B0; clear - B0 Hw; lia).
    destruct (nearest_sign neg (u * 2 ^ s) w z V0 Hw B0 B1) as [N1 N2].
    split; [exact N1|]. intros E Ne. destruct (N2 (eq_sym E) Ne) as [N3 N4]. pose proof (B2 N4 N3) as Ev.
    exists (u / 2), (s - 1074). assert (H2 : 2 * (u / 2) = u). { apply Z.even_spec in Ev as [h ->]. rewrite (Z.mul_comm 2 h), Z.div_mul by lia. lia. }
    rewrite H2. rewrite <- Y4, YA. split; [f_equal; f_equal; lia|]. split; [lia|]. split; [lia|]. destruct U2; [left; auto|right; lia].
Qed.
Lemma single_kept x : a_single x -> to_float32 x = x.
Proof.
  intros [A S]. pose proof (to_float32_ok x A) as T. destruct x as [neg|neg| |neg m e]; try exact T. cbn [single_of] in T. unfold a_double in A.
  destruct T as [[_ T]|(_ & T1 & T2 & [T3 _] & T4)].
  - exfalso. destruct S as (k & j & S1 & S2 & S3). rewrite S1 in T. assert (k * 2 ^ (j + 1074) <= (2 ^ 24 - 1) * 2 ^ 1178) by (apply Z.mul_le_mono_nonneg; [lia|lia|apply Z.pow_nonneg; lia|apply Z.pow_le_mono_r; lia]).
    assert (Q : ((2 ^ 25 - 1) * 2 ^ 1177 <=? (2 ^ 24 - 1) * 2 ^ 1178) = true) by (apply Z.leb_le; lia). vm_compute in Q. discriminate.
  - destruct (T4 _ S) as [T5 _]. rewrite Z.sub_diag in T5. assert (E : units (to_float32 (S754_finite neg m e)) = units (S754_finite neg m e)) by (clear - T5; lia).
    assert (R : forall z, finite_double z -> normal_form z -> units z = units (S754_finite neg m e) -> rounded (units (S754_finite neg m e)) (2 ^ 1074) z).
    { intros z F N U. assert (D : distance (units (S754_finite neg m e)) (2 ^ 1074) z = 0) by (unfold distance; rewrite U, Z.sub_diag; reflexivity).
      split; [exact F|]. split; [exact N|]. split; [intros y _; rewrite D; apply Z.abs_nonneg|]. intros y _ Dy Ne. exfalso. apply Ne. rewrite D in Dy. unfold distance in Dy. repeat apply (proj1 (Z.abs_0_iff _)) in Dy.
      rewrite <- Z.mul_sub_distr_r in Dy. apply Z.mul_eq_0_l in Dy; [|discriminate]. rewrite U. clear - Dy. lia. }
    apply (rounded_func (units (S754_finite neg m e)) (2 ^ 1074)); [reflexivity| | |exact T1].
    + apply R; auto. destruct (to_float32 (S754_finite neg m e)); cbn in T3 |- *; auto. apply T3.
    + apply R; auto; apply A.
Qed.
