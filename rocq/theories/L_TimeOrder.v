(** Fixed-format dates and times are ordered as their texts (C95). *)
From Verif Require Export S_Time L_Extra L_Time.

(** [before s t]: [s < t] for Go strings. *)
Inductive before : bytes -> bytes -> Prop :=
| bf_end : forall b t, before [] (b :: t)
| bf_less : forall a b s t, a < b -> before (a :: s) (b :: t)
| bf_same : forall a s t, before s t -> before (a :: s) (a :: t).
(** [x] is an earlier instant than [y]. *)
Definition earlier (x y : gtime) : Prop := t_unix x < t_unix y \/ (t_unix x = t_unix y /\ t_nsec x < t_nsec y).

Lemma before_irrefl s : ~ before s s.
Proof. induction s as [|a s IH]; intros H; inversion H; subst; [lia|auto]. Qed.
Lemma before_asym s t : before s t -> ~ before t s.
Proof. induction 1; intros G; inversion G; subst; try lia; auto; eapply before_irrefl; eauto. Qed.
Lemma before_app s t : before s t -> length s = length t -> forall u v, before (s ++ u) (t ++ v).
Proof. induction 1; intros L u v; try discriminate L; cbn [app]; [apply bf_less; auto|apply bf_same; auto]. Qed.
Lemma before_skip p s t : before s t -> before (p ++ s) (p ++ t).
Proof. intros H. induction p; cbn [app]; [exact H|apply bf_same; auto]. Qed.

(** ** Digits *)
Definition worth (s : bytes) : Z := fold_left (fun v b => 10 * v + (b - 48)) s 0.
Lemma worth_from s : forall v, fold_left (fun v b => 10 * v + (b - 48)) s v = v * 10 ^ Z.of_nat (length s) + worth s.
Proof.
  unfold worth. induction s as [|b s IH]; intros v; cbn [fold_left length]; [lia|].
  rewrite (IH (10 * v + (b - 48))), (IH (10 * 0 + (b - 48))). rewrite Nat2Z.inj_succ, Z.pow_succ_r by lia. ring.
Qed.
Lemma worth_cons b s : worth (b :: s) = (b - 48) * 10 ^ Z.of_nat (length s) + worth s.
Proof. unfold worth at 1. cbn [fold_left]. rewrite worth_from. ring. Qed.
Lemma worth_bound s : Forall dec_digit s -> 0 <= worth s < 10 ^ Z.of_nat (length s).
Proof.
  induction 1 as [|b s D F IH]; [cbn; lia|]. rewrite worth_cons. cbn [length]. rewrite Nat2Z.inj_succ, Z.pow_succ_r by lia. unfold dec_digit in D. nia.
Qed.
Lemma worth_order s : Forall dec_digit s -> forall t, Forall dec_digit t -> length s = length t ->
  (worth s < worth t -> before s t) /\ (worth s = worth t -> s = t).
Proof.
  induction 1 as [|a s D F IH]; intros t G L; destruct G as [|b t E G]; try discriminate L; [cbn; split; [lia|auto]|].
  injection L as L. destruct (IH t G L) as (I & J). rewrite !worth_cons, L. pose proof (worth_bound s F) as B. pose proof (worth_bound t G) as C. rewrite L in B.
  assert (Q : a < b \/ a = b \/ b < a) by lia. destruct Q as [Q|[Q|Q]].
  - split; intros H; [apply bf_less; exact Q|nia].
  - subst b. split; intros H; [apply bf_same; apply I; lia|f_equal; apply J; lia].
  - split; intros H; exfalso; nia.
Qed.
Lemma dec_before n s t x y : dec n s x -> dec n t y -> x < y -> forall u v, before (s ++ u) (t ++ v).
Proof. intros (L & F & ->) (L' & F' & ->) H. apply before_app; [apply (worth_order s F t F'); [congruence|exact H]|congruence]. Qed.
Lemma dec_same n s t x : dec n s x -> dec n t x -> s = t.
Proof. intros (L & F & E) (L' & F' & E'). apply (worth_order s F t F'); [congruence|]. unfold worth. congruence. Qed.

(** ** The calendar *)
Definition ahead (a b : date) : Prop := let '(y, m, d) := a in let '(y', m', d') := b in y < y' \/ (y = y' /\ (m < m' \/ (m = m' /\ d < d'))).
Lemma ahead_cases a b : ahead a b \/ a = b \/ ahead b a.
Proof.
  destruct a as [[y m] d], b as [[y' m'] d']. cbn.
  assert (Q : y < y' \/ y = y' \/ y' < y) by lia. destruct Q as [Q|[<-|Q]]; [tauto| |tauto].
  assert (Q : m < m' \/ m = m' \/ m' < m) by lia. destruct Q as [Q|[<-|Q]]; [tauto| |tauto].
  assert (Q : d < d' \/ d = d' \/ d' < d) by lia. destruct Q as [Q|[<-|Q]]; tauto.
Qed.
Definition into (y m : Z) : Z := days_before (m - 1) + (if isLeap y && (3 <=? m) then 1 else 0).
Lemma month_next y m : 1 <= m < 12 -> into y m + daysIn m y = into y (m + 1).
Proof.
  intros H. unfold into, daysIn. assert (Q : In m [1;2;3;4;5;6;7;8;9;10;11]) by (cbn; lia). cbn in Q.
  destruct (isLeap y); repeat (destruct Q as [<-|Q]; [reflexivity|]); contradiction.
Qed.
Lemma month_later y m k : 1 <= m -> m + 1 + Z.of_nat k <= 12 -> into y m + daysIn m y <= into y (m + 1 + Z.of_nat k).
Proof.
  intros A. induction k as [|k IH]; intros B.
  - rewrite month_next by lia. rewrite Z.add_0_r. lia.
  - rewrite Nat2Z.inj_succ in *. pose proof (month_next y (m + 1 + Z.of_nat k)) as N. pose proof (daysIn_pos (m + 1 + Z.of_nat k) y).
    replace (m + 1 + Z.succ (Z.of_nat k)) with (m + 1 + Z.of_nat k + 1) by lia. lia.
Qed.
Lemma dayz_ahead a b : valid_date a -> valid_date b -> ahead a b -> dayz a < dayz b.
Proof.
  destruct a as [[y m] d], b as [[y' m'] d']. intros (n & N & D) (n' & N' & D') H. apply month_daysIn in N, N'. destruct N as (M & ->), N' as (M' & ->).
  assert (X : daysSinceEpoch y + into y m + d < daysSinceEpoch y' + into y' m' + d'); [|unfold dayz, into in *; lia].
  destruct H as [H|(<- & [H|(<- & H)])]; [|  |lia].
  - pose proof (days_lt m y M) as A. pose proof (days_lt m' y' M') as B. fold (into y m) in A. fold (into y' m') in B.
    pose proof (years_mono (y + 1) y') as C. pose proof (year_days y). lia.
  - pose proof (month_later y m (Z.to_nat (m' - m - 1)) ltac:(lia)) as Q. rewrite Z2Nat.id in Q by lia. replace (m + 1 + (m' - m - 1)) with m' in Q by lia. lia.
Qed.

(** ** Texts *)
Lemma date_text_before s t a b : date_text s a -> date_text t b -> ahead a b -> before s t /\ length s = length t.
Proof.
  destruct a as [[y m] d], b as [[y' m'] d']. intros (Y & M & D & -> & HY & HM & HD) (Y' & M' & D' & -> & HY' & HM' & HD') H.
  split; [|destruct HY as (? & _), HM as (? & _), HD as (? & _), HY' as (? & _), HM' as (? & _), HD' as (? & _); rewrite !app_length; cbn; lia].
  destruct H as [H|(<- & [H|(<- & H)])].
  - eapply dec_before; eauto.
  - rewrite (dec_same _ _ _ _ HY HY'). do 2 apply before_skip. eapply dec_before; eauto.
  - rewrite (dec_same _ _ _ _ HY HY'), (dec_same _ _ _ _ HM HM'). do 4 apply before_skip.
    rewrite <- (app_nil_r D), <- (app_nil_r D'). eapply dec_before; eauto.
Qed.
Lemma date_text_same s t a : date_text s a -> date_text t a -> s = t.
Proof.
  destruct a as [[y m] d]. intros (Y & M & D & -> & HY & HM & HD) (Y' & M' & D' & -> & HY' & HM' & HD').
  rewrite (dec_same _ _ _ _ HY HY'), (dec_same _ _ _ _ HM HM'), (dec_same _ _ _ _ HD HD'). reflexivity.
Qed.
Lemma date_value_cases s t x y : date_value s x -> date_value t y ->
  (t_unix x + 86400 <= t_unix y /\ before s t /\ length s = length t) \/ (x = y /\ s = t) \/ (t_unix y + 86400 <= t_unix x /\ before t s /\ length s = length t).
Proof.
  intros (a & k & T & V & N & ->) (b & j & T' & V' & N' & ->). apply day_no_dayz in N, N'. subst k j. cbn [t_unix].
  destruct (ahead_cases a b) as [H|[<-|H]].
  - left. destruct (date_text_before s t a b T T' H) as (B & L). pose proof (dayz_ahead a b V V' H). repeat split; auto. lia.
  - right. left. split; auto. eapply date_text_same; eauto.
  - right. right. destruct (date_text_before t s b a T' T H) as (B & L). pose proof (dayz_ahead b a V' V H). repeat split; auto. lia.
Qed.
Lemma dec_range n s x : dec n s x -> 0 <= x < 10 ^ Z.of_nat n.
Proof. intros (L & F & ->). rewrite <- L. apply worth_bound. exact F. Qed.
Lemma time_value_cases s t x y : time_value s x -> time_value t y ->
  (earlier x y /\ before s t /\ length s = length t) \/ (x = y /\ s = t) \/ (earlier y x /\ before t s /\ length s = length t).
Proof.
  intros (h & m & e & n & (H & M & E & N & -> & Hh & Hm & He & Hn) & A1 & A2 & A3 & ->) (h' & m' & e' & n' & (H' & M' & E' & N' & -> & Hh' & Hm' & He' & Hn') & B1 & B2 & B3 & ->).
  pose proof (dec_range _ _ _ Hm). pose proof (dec_range _ _ _ He). pose proof (dec_range _ _ _ Hm'). pose proof (dec_range _ _ _ He').
  assert (L : length (H ++ [58] ++ M ++ [58] ++ E ++ [46] ++ N) = length (H' ++ [58] ++ M' ++ [58] ++ E' ++ [46] ++ N')).
  { rewrite !app_length. destruct Hh as (-> & _), Hm as (-> & _), He as (-> & _), Hn as (-> & _), Hh' as (-> & _), Hm' as (-> & _), He' as (-> & _), Hn' as (-> & _). reflexivity. }
  unfold earlier. cbn [t_unix t_nsec].
  assert (Q : h < h' \/ h = h' \/ h' < h) by lia. destruct Q as [Q|[Q|Q]]; [left|subst h'|right; right].
  { split; [lia|]. split; [|exact L]. eapply dec_before; eauto. }
  2: { split; [lia|]. split; [|exact L]. eapply dec_before; eauto. }
  rewrite (dec_same _ _ _ _ Hh Hh') in *.
  assert (Q : m < m' \/ m = m' \/ m' < m) by lia. destruct Q as [Q|[Q|Q]]; [left|subst m'|right; right].
  { split; [lia|]. split; [|exact L]. do 2 apply before_skip. eapply dec_before; eauto. }
  2: { split; [lia|]. split; [|exact L]. do 2 apply before_skip. eapply dec_before; eauto. }
  rewrite (dec_same _ _ _ _ Hm Hm') in *.
  assert (Q : e < e' \/ e = e' \/ e' < e) by lia. destruct Q as [Q|[Q|Q]]; [left|subst e'|right; right].
  { split; [lia|]. split; [|exact L]. do 4 apply before_skip. eapply dec_before; eauto. }
  2: { split; [lia|]. split; [|exact L]. do 4 apply before_skip. eapply dec_before; eauto. }
  rewrite (dec_same _ _ _ _ He He') in *.
  assert (Q : n < n' \/ n = n' \/ n' < n) by lia. destruct Q as [Q|[Q|Q]]; [left|subst n'; right; left|right; right].
  - split; [lia|]. split; [|exact L]. do 6 apply before_skip. rewrite <- (app_nil_r N), <- (app_nil_r N'). eapply dec_before; eauto.
  - split; [reflexivity|]. rewrite (dec_same _ _ _ _ Hn Hn'). reflexivity.
  - split; [lia|]. split; [|exact L]. do 6 apply before_skip. rewrite <- (app_nil_r N), <- (app_nil_r N'). eapply dec_before; eauto.
Qed.
Lemma time_value_day s x : time_value s x -> 0 <= t_unix x < 86400.
Proof.
  intros (h & m & e & n & (H & M & E & N & -> & Hh & Hm & He & Hn) & A1 & A2 & A3 & ->). cbn [t_unix].
  pose proof (dec_range _ _ _ Hh). pose proof (dec_range _ _ _ Hm). pose proof (dec_range _ _ _ He). lia.
Qed.
(** A three-way comparison that agrees with [before] decides it. *)
Lemma by_cases (P : gtime -> gtime -> Prop) s t x y : (forall x, ~ P x x) -> (forall x y, P x y -> ~ P y x) ->
  (P x y /\ before s t) \/ (x = y /\ s = t) \/ (P y x /\ before t s) -> (before s t <-> P x y) /\ (s = t <-> x = y).
Proof.
  intros I A [(H & B)|[(-> & ->)|(H & B)]].
  - split; split; auto; intros ->; [destruct (before_irrefl t B)|destruct (I y H)].
  - split; split; auto; intros H; [destruct (before_irrefl t H)|destruct (I y H)].
  - split; split; try (intros ->); [intros G; destruct (before_asym _ _ B G)|intros G; destruct (A _ _ H G)|destruct (before_irrefl t B)|destruct (I y H)].
Qed.
Lemma earlier_irrefl x : ~ earlier x x.
Proof. unfold earlier. lia. Qed.
Lemma earlier_asym x y : earlier x y -> ~ earlier y x.
Proof. unfold earlier. lia. Qed.
Lemma zone_size z sg h m : zone_text z sg h m -> length z = 6%nat.
Proof. intros (b & H & M & -> & _ & (Lh & _) & (Lm & _)). cbn [length]. rewrite !app_length, Lh, Lm. reflexivity. Qed.
Lemma same_end {A} (u v y z : list A) : u ++ y = v ++ z -> length y = length z -> u = v /\ y = z.
Proof.
  intros E L. assert (K : length u = length v) by (apply (f_equal (@length A)) in E; rewrite !app_length in E; lia).
  revert v E K. induction u as [|a u IH]; intros [|b v] E K; try discriminate K; [auto|]. injection E as -> E. injection K as K. destruct (IH v E K) as (-> & ->). auto.
Qed.
Lemma zone_func z sg h m sg' h' m' : zone_text z sg h m -> zone_text z sg' h' m' -> sg = sg' /\ h = h' /\ m = m'.
Proof.
  intros (b & H & M & -> & B & (Lh & _ & ->) & (Lm & _ & ->)) (b' & H' & M' & E & B' & (Lh' & _ & ->) & (Lm' & _ & ->)). injection E as <- E.
  change (58 :: M) with ([58] ++ M) in E. change (58 :: M') with ([58] ++ M') in E.
  destruct (same_end H H' ([58] ++ M) ([58] ++ M') E) as (-> & E'); [cbn; lia|]. injection E' as ->. repeat split. lia.
Qed.
Lemma date_time_cases strict u v z x y : length z = 6%nat -> date_time_value strict (u ++ z) x -> date_time_value strict (v ++ z) y ->
  (earlier x y /\ before (u ++ z) (v ++ z)) \/ (x = y /\ u ++ z = v ++ z) \/ (earlier y x /\ before (v ++ z) (u ++ z)).
Proof.
  intros Lz (D & T & Zn & td & tt & sg & zh & zm & E & HD & HT & HZ & _ & _ & ->) (D' & T' & Zn' & td' & tt' & sg' & zh' & zm' & E' & HD' & HT' & HZ' & _ & _ & ->).
  pose proof (zone_size _ _ _ _ HZ) as L. pose proof (zone_size _ _ _ _ HZ') as L'.
  rewrite !app_assoc in E, E'. apply same_end in E; [|congruence]. apply same_end in E'; [|congruence]. destruct E as (-> & ->), E' as (-> & <-). rewrite <- !app_assoc.
  destruct (zone_func _ _ _ _ _ _ _ HZ HZ') as (<- & <- & <-). pose proof (time_value_day _ _ HT). pose proof (time_value_day _ _ HT').
  destruct (date_value_cases D D' td td' HD HD') as [(Q & B & K)|[(-> & ->)|(Q & B & K)]].
  - left. split; [left; cbn [t_unix]; lia|]. apply before_app; auto.
  - destruct (time_value_cases T T' tt tt' HT HT') as [(Q & B & K)|[(-> & ->)|(Q & B & K)]].
    + left. split; [unfold earlier in *; cbn [t_unix t_nsec] in *; lia|]. do 2 apply before_skip. apply before_app; auto.
    + right. left. auto.
    + right. right. split; [unfold earlier in *; cbn [t_unix t_nsec] in *; lia|]. do 2 apply before_skip. apply before_app; auto.
  - right. right. split; [left; cbn [t_unix]; lia|]. apply before_app; auto.
Qed.
(** What a transformer answers is what the text denotes. *)
Lemma answer_value t mk cls D V n c l a s x : (forall x y : gtime, mk x = mk y -> x = y) -> reads_time t mk cls D V -> a_val a = VStr s -> D s ->
  t n c (l ++ [a]) = Ok (inr [mkAst 0 cls TAny (mk x) (mkSP 0 0)]) -> V s x.
Proof.
  intros I R A H E. destruct (R n c l a s A H) as [(x' & X & E')|(_ & e & E')]; rewrite E in E'; [|discriminate]. injection E' as E'. rewrite (I _ _ E'). exact X.
Qed.
