(** The numbers and operators of a formula in its text and in its postfix form (C94). *)
From Verif Require Export L_Torpn.

(** ** Text *)
(** Digits and underscores. *)
Definition digit_byte (c : Z) : Prop := 48 <= c <= 57 \/ c = 95.
(** [runs s ws]: [ws] are the longest sequences of digits and underscores in [s], in order. *)
Inductive runs : bytes -> list bytes -> Prop :=
| ru_nil : runs [] []
| ru_other : forall c s l, ~ digit_byte c -> runs s l -> runs (c :: s) l
| ru_run : forall w s l, w <> [] -> Forall digit_byte w -> (forall c r, s = c :: r -> ~ digit_byte c) -> runs s l ->
    runs (w ++ s) (w :: l).
(** How often [c] is in [s]. *)
Definition times (c : Z) (s : bytes) : nat := count_occ Z.eq_dec s c.

(** ** Answer *)
(** The numbers of a postfix form in order. *)
Fixpoint ints (l : list value) : list Z :=
  match l with
  | [] => []
  | VInt z :: r => z :: ints r
  | _ :: r => ints r
  end.
(** How many of its items are the operator [c]. *)
Fixpoint uses (c : Z) (l : list value) : nat :=
  match l with
  | [] => 0
  | VStr [b] :: r => if Z.eq_dec b c then Datatypes.S (uses c r) else uses c r
  | _ :: r => uses c r
  end.
(** Its items are numbers and operators. *)
Definition item (v : value) : Prop := (exists z, v = VInt z) \/ exists o, v = VStr [op_byte o].

(** ** Trees *)
Fixpoint lits (f : arith) : list Z := match f with FLit z => [z] | FNeg g => lits g | FBin _ g h => lits g ++ lits h end.
Definition op_eq (o p : fop) : nat := match o, p with OAdd, OAdd | OSub, OSub | OMul, OMul | ODiv, ODiv => 1 | _, _ => 0 end.
Fixpoint bins (o : fop) (f : arith) : nat := match f with FLit _ => 0 | FNeg g => bins o g | FBin p g h => bins o g + op_eq p o + bins o h end.
Fixpoint negs (f : arith) : nat := match f with FLit _ => 0 | FNeg g => Datatypes.S (negs g) | FBin _ g h => negs g + negs h end.
Definition written (w : bytes) (z : Z) : Prop := numeral 10 (strip w) z.

Lemma runs_func s : forall l, runs s l -> forall m, runs s m -> l = m.
Proof.
  intros l H. induction H as [|c s l N R IH|w s l E D N R IH]; intros m M.
  - inversion M as [| |w s l E D N R Q]; auto. destruct w; [congruence|discriminate].
  - inversion M as [|c' s' m' N' R'|w' s' m' E' D' N' R']; subst; auto.
    destruct w' as [|x w']; [congruence|]. cbn [app] in *. match goal with Q : _ = _ :: _ |- _ => injection Q as <- <- | Q : _ :: _ = _ |- _ => injection Q as <- <- end. inversion D'; subst; tauto.
  - generalize (eq_refl (w ++ s)). revert M. generalize (w ++ s) at 1 2. intros t M T. destruct M as [|c' s' m' N' R'|w' s' m' E' D' N' R'].
    + destruct w; [congruence|discriminate].
    + destruct w as [|x w]; [congruence|]. injection T as T _. inversion D; subst; tauto.
    + assert (W : w' = w /\ s' = s).
      { clear IH R R' E E'. revert w' D' T. induction D as [|x w Dx D IHw]; intros w' D' T.
        - destruct D' as [|y w' Dy D']; [auto|]. cbn in T. exfalso. eapply N; eauto.
        - destruct D' as [|y w' Dy D']; cbn in T; [exfalso; eapply N'; eauto|]. injection T as <- T. destruct (IHw _ D' T) as (-> & ->). auto. }
      destruct W as (-> & ->). f_equal. auto.
Qed.
Lemma runs_total s : exists l, runs s l.
Proof.
  assert (H : exists w t l, s = w ++ t /\ Forall digit_byte w /\ (forall c r, t = c :: r -> ~ digit_byte c) /\ runs t l).
  { induction s as [|c s (w & t & l & -> & D & N & R)].
    - exists [], [], []. repeat split; auto; [discriminate|constructor].
    - assert (Q : digit_byte c \/ ~ digit_byte c) by (unfold digit_byte; lia). destruct Q as [Q|Q].
      + exists (c :: w), t, l. repeat split; auto.
      + destruct w as [|x w].
        * exists [], (c :: t), l. repeat split; auto; [intros ? ? [= <- <-]; auto|apply ru_other; auto].
        * exists [], (c :: (x :: w) ++ t), ((x :: w) :: l). repeat split; auto; [intros ? ? [= <- <-]; auto|].
          apply ru_other; auto. apply ru_run; auto. discriminate. }
  destruct H as (w & t & l & -> & D & N & R). destruct w as [|x w]; [exists l; exact R|].
  exists ((x :: w) :: l). apply ru_run; auto. discriminate.
Qed.

Definition apart (s : bytes) : Prop := forall c r, s = c :: r -> ~ digit_byte c.
Lemma runs_app s l : runs s l -> forall t m, apart t -> runs t m -> runs (s ++ t) (l ++ m).
Proof.
  induction 1 as [|c s l N R IH|w s l E D N R IH]; intros t m A T; cbn [app]; auto.
  - apply ru_other; auto.
  - rewrite <- app_assoc. apply ru_run; auto. intros c r Q. destruct s as [|x s]; cbn in Q; [eapply A; eauto|]. injection Q as <- <-. eapply N; eauto.
Qed.
Definition quiet (c : Z) : Prop := ~ digit_byte c /\ forall o, op_byte o <> c.
Lemma gap_quiet b : gap b -> Forall quiet b.
Proof.
  induction 1 as [|x t S G IH]; [constructor|]. apply Forall_app; split; auto.
  cbn in S. repeat (destruct S as [<-|S]; [repeat constructor; try (unfold digit_byte; lia); intros []; discriminate|]). contradiction.
Qed.
Lemma runs_quiet b t m : Forall quiet b -> runs t m -> runs (b ++ t) m.
Proof. induction 1 as [|c b (Q & _) F IH]; intros R; cbn [app]; auto. apply ru_other; auto. Qed.
Lemma apart_quiet b t : Forall quiet b -> apart t -> apart (b ++ t).
Proof. intros F A. destruct F as [|c b (Q & _) F]; auto. intros x r [= <- <-]. exact Q. Qed.
Lemma times_app c s t : times c (s ++ t) = (times c s + times c t)%nat.
Proof. apply count_occ_app. Qed.
Lemma times_quiet o b : Forall quiet b -> times (op_byte o) b = 0%nat.
Proof. intros F. apply count_occ_not_In. intros I. rewrite Forall_forall in F. destruct (F _ I) as (_ & Q). exact (Q o eq_refl). Qed.
Lemma digits_times o d : Forall digit_byte d -> times (op_byte o) d = 0%nat.
Proof. intros F. apply count_occ_not_In. intros I. rewrite Forall_forall in F. pose proof (F _ I) as Q. destruct o; cbn in Q; unfold digit_byte in Q; lia. Qed.
Lemma int_shape_digits d : int_shape d -> d <> [] /\ Forall digit_byte d.
Proof.
  intros [(r & -> & F)|(x & r & -> & X & F)]; (split; [discriminate|]); constructor; try (unfold digit_byte; lia);
    (eapply Forall_impl; [|exact F]); unfold digit_byte, dec_digit; cbn; lia.
Qed.

(** What a text shows of its formula. *)
Definition shows (t : bytes) (f : arith) : Prop :=
  (exists ws, runs t ws /\ Forall2 written ws (lits f)) /\
  times 42 t = bins OMul f /\ times 47 t = bins ODiv f /\ times 45 t = (bins OSub f + negs f)%nat /\ (bins OAdd f <= times 43 t)%nat.

Lemma shows_lit w b z : literal w z -> gap b -> shows (w ++ b) (FLit z).
Proof.
  intros (d & W & S & Nm) G. apply gap_quiet in G. destruct (int_shape_digits d S) as (E & D).
  assert (R : runs (d ++ b) [d]).
  { apply ru_run; auto; [|rewrite <- (app_nil_r b); apply runs_quiet; auto; constructor].
    rewrite <- (app_nil_r b). apply apart_quiet; auto. discriminate. }
  split; [exists [d]; split; [|repeat constructor; apply Nm]|].
  - destruct W as [-> | ->]; auto. cbn [app]. apply ru_other; auto. unfold digit_byte; lia.
  - pose proof (fun o => times_quiet o b G) as B. pose proof (fun o => digits_times o d D) as C.
    pose proof (B OMul) as B1. pose proof (B ODiv) as B2. pose proof (B OSub) as B3. pose proof (C OMul) as C1. pose proof (C ODiv) as C2. pose proof (C OSub) as C3. cbn [op_byte] in *.
    destruct W as [-> | ->].
    + rewrite !times_app, B1, B2, B3, C1, C2, C3. cbn. repeat split; lia.
    + change (43 :: d) with ([43] ++ d). rewrite !times_app, B1, B2, B3, C1, C2, C3. cbn. repeat split; lia.
Qed.
Lemma op_apart o t : apart (op_byte o :: t).
Proof. intros c r [= <- <-]. destruct o; unfold digit_byte; cbn; lia. Qed.
Lemma shows_paren b t f b' : gap b -> shows t f -> gap b' -> shows ([40] ++ b ++ t ++ [41] ++ b') f.
Proof.
  intros G ((ws & R & F) & T1 & T2 & T3 & T4) G'. apply gap_quiet in G, G'. split.
  - exists ws. split; auto. apply ru_other; [unfold digit_byte; lia|]. apply runs_quiet; auto. rewrite <- (app_nil_r ws). apply runs_app; auto.
    + intros c r [= <- <-]. unfold digit_byte; lia.
    + apply ru_other; [unfold digit_byte; lia|]. rewrite <- (app_nil_r b'). apply runs_quiet; auto. constructor.
  - rewrite !times_app. pose proof (fun o => times_quiet o b G) as B. pose proof (fun o => times_quiet o b' G') as B'.
    pose proof (B OMul); pose proof (B ODiv); pose proof (B OSub); pose proof (B' OMul); pose proof (B' ODiv); pose proof (B' OSub). cbn [op_byte] in *.
    assert (Z1 : forall c x, c <> x -> times c [x] = 0%nat) by (intros c x N; unfold times; cbn; destruct (Z.eq_dec x c); congruence).
    rewrite !Z1 by lia. repeat split; lia.
Qed.
Lemma shows_neg b t f : gap b -> shows t f -> shows ([45] ++ b ++ t) (FNeg f).
Proof.
  intros G ((ws & R & F) & T1 & T2 & T3 & T4). apply gap_quiet in G. split.
  - exists ws. split; auto. apply ru_other; [unfold digit_byte; lia|]. apply runs_quiet; auto.
  - rewrite !times_app. pose proof (fun o => times_quiet o b G) as B. pose proof (B OMul); pose proof (B ODiv); pose proof (B OSub). cbn [op_byte] in *.
    change (times 42 [45]) with 0%nat. change (times 47 [45]) with 0%nat. change (times 45 [45]) with 1%nat. cbn [bins negs]. repeat split; lia.
Qed.
Lemma shows_bin t f o b u g : shows t f -> gap b -> shows u g -> shows (t ++ [op_byte o] ++ b ++ u) (FBin o f g).
Proof.
  intros ((ws & R & F) & T1 & T2 & T3 & T4) G ((us & R' & F') & U1 & U2 & U3 & U4). apply gap_quiet in G. split.
  - exists (ws ++ us). split; [|apply Forall2_app; auto]. apply runs_app; auto; [apply op_apart|]. apply ru_other; [|apply runs_quiet; auto].
    exact (op_apart o [] _ [] eq_refl).
  - rewrite !times_app. pose proof (fun o => times_quiet o b G) as B. pose proof (B OMul); pose proof (B ODiv); pose proof (B OSub). cbn [op_byte] in *.
    cbn [bins negs]. destruct o; cbn [op_byte op_eq]; unfold times in *; cbn [count_occ] in *;
      repeat match goal with |- context [Z.eq_dec ?a ?b] => destruct (Z.eq_dec a b); try discriminate; try congruence end; repeat split; lia.
Qed.

Scheme atomT_sh := Minimality for atomT Sort Prop
with factorT_sh := Minimality for factorT Sort Prop
with termT_sh := Minimality for termT Sort Prop
with exprT_sh := Minimality for exprT Sort Prop.
Lemma expr_shows t f : exprT t f -> shows t f.
Proof.
  revert t f. apply (exprT_sh shows shows shows shows); auto.
  - apply shows_lit.
  - intros; apply shows_paren; auto.
  - intros; apply shows_neg; auto.
  - intros; apply shows_bin; auto.
  - intros; apply shows_bin; auto.
Qed.
Lemma formula_shows s f : formula s f -> shows s f.
Proof.
  intros (b & t & -> & G & E). apply expr_shows in E. destruct E as ((ws & R & F) & T1 & T2 & T3 & T4). apply gap_quiet in G. split.
  - exists ws. split; auto. apply runs_quiet; auto.
  - rewrite !times_app. pose proof (fun o => times_quiet o b G) as B. pose proof (B OMul); pose proof (B ODiv); pose proof (B OSub). cbn [op_byte] in *. repeat split; lia.
Qed.

(** ** Postfix forms *)
Lemma ints_app l m : ints (l ++ m) = ints l ++ ints m.
Proof. induction l as [|v l IH]; auto. destruct v; cbn; rewrite ?IH; auto. Qed.
Lemma uses_app c l m : uses c (l ++ m) = (uses c l + uses c m)%nat.
Proof.
  induction l as [|v l IH]; auto. destruct v; cbn [uses app]; auto. destruct s as [|a [|]]; auto. destruct (Z.eq_dec a c); cbn; auto.
Qed.
Lemma signed_lit f z : signed f z -> literals (fun z => 0 <= z <= 2 ^ 63) f ->
  lits f = [Z.abs z] /\ (forall o, bins o f = 0%nat) /\ Z.abs z <= 2 ^ 63.
Proof.
  induction 1 as [z|f x r S IH (I & k & W)]; intros L; cbn [literals lits bins] in *.
  - rewrite Z.abs_eq by lia. repeat split; auto; lia.
  - destruct (IH L) as (E & B & M). unfold int64 in I.
    assert (A : Z.abs x = Z.abs r).
    { change (2 ^ 64) with (2 * 2 ^ 63) in W. assert (Q : 0 < 2 ^ 63) by lia. revert I M W Q. generalize (2 ^ 63). clear. intros m I M W Q.
      assert (k = 0 \/ k = 1) as [-> | ->] by nia; lia. }
    rewrite E, A in *. repeat split; auto.
Qed.
Lemma postfix_ints f l : postfix f l -> literals (fun z => 0 <= z <= 2 ^ 63) f -> map Z.abs (ints l) = lits f.
Proof.
  induction 1 as [f z S|f l C P IH|o f g l m P IH Q IH']; intros L.
  - destruct (signed_lit f z S L) as (E & _). rewrite E. reflexivity.
  - rewrite ints_app. cbn [ints lits]. rewrite app_nil_r. auto.
  - destruct L as (L & L'). rewrite !ints_app, !map_app, IH, IH' by auto. cbn. rewrite app_nil_r. reflexivity.
Qed.
Lemma postfix_uses f l : postfix f l -> literals (fun z => 0 <= z <= 2 ^ 63) f ->
  (forall o, o <> OSub -> uses (op_byte o) l = bins o f) /\ (bins OSub f <= uses 45 l <= bins OSub f + negs f)%nat.
Proof.
  induction 1 as [f z S|f l C P IH|o f g l m P IH Q IH']; intros L.
  - destruct (signed_lit f z S L) as (_ & B & _). split; [intros; rewrite B; reflexivity|]. rewrite B. cbn. lia.
  - destruct (IH L) as (A & B). split.
    + intros o N. rewrite uses_app, A by auto. cbn [bins]. destruct o; cbn; try lia; congruence.
    + rewrite uses_app. cbn. lia.
  - destruct L as (L & L'). destruct (IH L) as (A & B), (IH' L') as (A' & B'). split.
    + intros p N. rewrite !uses_app, A, A' by auto. cbn [bins]. destruct o, p; cbn; try lia; congruence.
    + rewrite !uses_app. cbn [bins negs]. destruct o; cbn; lia.
Qed.
Lemma postfix_items f l : postfix f l -> Forall item l.
Proof.
  induction 1 as [f z S|f l C P IH|o f g l m P IH Q IH'].
  - constructor; [left; eauto|constructor].
  - apply Forall_app; split; auto. constructor; [|constructor]. right. exists OSub. reflexivity.
  - repeat (apply Forall_app; split; auto). constructor; [right; eauto|constructor].
Qed.
Lemma literals_both f b : literals (fun z => z <= b) f -> Forall (fun z => 0 <= z) (lits f) -> literals (fun z => 0 <= z <= b) f.
Proof.
  induction f as [z|f IH|o f IH g IH']; cbn; intros L F; auto.
  - inversion F; subst; lia.
  - apply Forall_app in F. destruct L, F; auto.
Qed.
Lemma written_nonneg ws zs : Forall2 written ws zs -> Forall (fun z => 0 <= z) zs.
Proof. induction 1 as [|w z ws zs W F IH]; constructor; auto. eapply (numeral_nonneg 10); [lia|exact W]. Qed.

(** What torpn answers with comes from a formula whose literals are not negative. *)
Lemma torpn_shows s l : Forall is_byte s -> torpn_answers s (inr (inr l)) ->
  exists f, shows s f /\ postfix f l /\ literals (fun z => 0 <= z <= 2 ^ 63) f.
Proof.
  intros Hb (n & A). destruct (torpn_only s _ n Hb (A n (le_n n))) as (f & l' & E & F & L & P). injection E as <-.
  pose proof (formula_shows s f F) as S. exists f. split; [exact S|]. split; [exact P|]. destruct S as ((ws & _ & W) & _).
  apply literals_both; [exact L|]. eapply written_nonneg; eauto.
Qed.
Lemma items_size l : Forall item l -> length l = (length (ints l) + uses 42 l + uses 43 l + uses 45 l + uses 47 l)%nat.
Proof.
  induction 1 as [|v l [(z & ->)|(o & ->)] F IH]; auto; [cbn [length ints uses]; lia|].
  destruct o; cbn [length ints uses op_byte]; repeat match goal with |- context [Z.eq_dec ?a ?b] => destruct (Z.eq_dec a b); try discriminate; try congruence end; lia.
Qed.
Lemma runs_size s ws : runs s ws -> (length ws + times 42 s + times 43 s + times 45 s + times 47 s <= length s)%nat.
Proof.
  induction 1 as [|c s l N R IH|w s l E D N R IH].
  - cbn. lia.
  - unfold times in *. cbn [count_occ length]. repeat match goal with |- context [Z.eq_dec ?a ?b] => destruct (Z.eq_dec a b); subst; try lia end.
  - rewrite !times_app, app_length. pose proof (digits_times OMul w D). pose proof (digits_times OAdd w D). pose proof (digits_times OSub w D). pose proof (digits_times ODiv w D).
    cbn [op_byte length] in *. destruct w; [congruence|]. cbn [length]. lia.
Qed.
