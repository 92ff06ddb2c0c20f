(** The number of parser calls of the formula grammar is at most quadratic in the length of the text. *)
From Verif Require Export L_CountFormula.
From Verif Require Import P_Rec.

(** ** Parts that make no use of the production rules *)
Definition unruled (p : trans) : gspec := mkGS (fun _ _ => True) (fun t => t <> p) anyZ anyR (fun _ => False) noBase.
Lemma unruled_all p w w' : w_str w = w_str w' -> w_slice w = w_slice w' -> w_tag w = w_tag w' ->
  let ok tr (c : ctx) (l : list ast) x := x = 0%nat \/ (tr = [p] /\ (x <= rules_max l)%nat) in
  (forall e cur r d, L_CountW.pegk ok w e cur r d -> gram (unruled p) e -> pegk w' e cur r d) /\
  (forall es cur r d, L_CountW.pegks ok w es cur r d -> Forall (gram (unruled p)) es -> pegks w' es cur r d) /\
  (forall es cur r d, L_CountW.pegkc ok w es cur r d -> Forall (gram (unruled p)) es -> pegkc w' es cur r d) /\
  (forall t es k cur q d, L_CountW.pegkr ok w t es k cur q d -> Forall (gram (unruled p)) es -> pegkr w' t es k cur q d) /\
  (forall es ps r d, L_CountW.pegkb ok w es ps r d -> Forall (gram (unruled p)) es -> pegkb w' es ps r d).
Proof.
  intros E1 E2 E3 ok. assert (F : forall cur, fresh w cur = fresh w' cur) by (intros cur; unfold fresh; rewrite E1, E2, E3; reflexivity).
  apply (@L_CountW.pegk_mutind ok w (fun e cur r d _ => gram (unruled p) e -> pegk w' e cur r d)
    (fun es cur r d _ => Forall (gram (unruled p)) es -> pegks w' es cur r d) (fun es cur r d _ => Forall (gram (unruled p)) es -> pegkc w' es cur r d)
    (fun t es k cur q d _ => Forall (gram (unruled p)) es -> pegkr w' t es k cur q d)
    (fun es ps r d _ => Forall (gram (unruled p)) es -> pegkb w' es ps r d)).
  - intros cls fn n cur o err R _. rewrite F in R. econstructor. exact R.
  - intros es cur r d _ IH G. simpl in G. rewrite fold_and_Forall in G. constructor. auto.
  - intros es cur r d _ IH G. simpl in G. rewrite fold_and_Forall in G. constructor. auto.
  - intros. constructor.
  - intros e es cur r d _ IH G. simpl in G. rewrite fold_and_Forall in G. constructor. apply IH. constructor; tauto.
  - intros es cur r d _ IH G. simpl in G. rewrite fold_and_Forall in G. constructor. auto.
  - intros es cur r d _ IH G. simpl in G. rewrite fold_and_Forall in G. constructor. auto.
  - intros neg mn mx es cur r d _ IH G. simpl in G. rewrite fold_and_Forall in G. constructor. apply IH. tauto.
  - intros t es cur q d _ IH G. simpl in G. rewrite fold_and_Forall in G. constructor. apply IH. tauto.
  - intros e tr cur r r' d x _ IH T X G. simpl in G. destruct G as [G1 G2]. rewrite F in T. econstructor; [auto|exact T|].
    destruct r; cbn in *; auto. destruct X as [->|[-> _]]; [reflexivity|]. cbn in G2. tauto.
  - intros k cur r d _ _ [].
  - constructor.
  - intros e es cur cur1 l d r d2 _ I1 _ I2 G. inversion G; subst. econstructor; auto.
  - intros e es cur d _ I1 G. inversion G; subst. econstructor; auto.
  - intros e es cur cur1 x d _ I1 G. inversion G; subst. econstructor; auto.
  - constructor.
  - intros e es cur cur1 l d _ I1 G. inversion G; subst. econstructor; auto.
  - intros e es cur cur1 x d _ I1 G. inversion G; subst. econstructor; auto.
  - intros e es cur r d d2 _ I1 _ I2 G. inversion G; subst. eapply ck_next; auto.
  - intros. constructor. assumption.
  - intros t es k cur d Hk _ IH G. apply rk_stop; auto.
  - intros t es k cur cur1 x d Hk _ IH G. apply rk_err; auto.
  - intros t es k cur cur1 l q d d2 Hk _ I1 _ I2 G. apply rk_more with cur1; auto.
  - constructor.
  - intros. eapply bk_ok; auto.
  - intros. eapply bk_err; auto.
  - intros. eapply bk_next; auto.
Qed.

(** ** Claims: calls in units, results, and what follows where *)
Section Units.
Variables (Q N : nat).
(** [good c v]: after a success over [c] bytes with calls and results worth [v]; [bad m u], [err m u]: after a failure or an
    error, [m] bytes before the end. *)
Definition claim (good bad err : nat -> nat -> Prop) (cur : srcpos) (r : result) (d : nat) : Prop :=
  match r with
  | RSucc cur1 l => (sp_pos cur <= sp_pos cur1 <= N)%nat /\ (length l <= sp_pos cur1 - sp_pos cur)%nat /\
      exists u, (d <= Q * u)%nat /\ good (sp_pos cur1 - sp_pos cur)%nat (u + length l)%nat
  | RFail => exists u, (d <= Q * u)%nat /\ bad (N - sp_pos cur)%nat u
  | RErr _ _ => exists u, (d <= Q * u)%nat /\ err (N - sp_pos cur)%nat u
  end.
Variable wts : list trans -> ctx -> list ast -> nat -> Prop.
Variable w : world.
Variable lim : nat.
Notation kg := (L_CountW.pegk wts w).
Notation kgs := (L_CountW.pegks wts w).
Notation kgc := (L_CountW.pegkc wts w).
Notation kgr := (L_CountW.pegkr wts w).
Definition one (e : pexp) (good bad err : nat -> nat -> Prop) : Prop :=
  forall cur r d, kg e cur r d -> (d < lim)%nat -> (sp_pos cur <= N)%nat -> claim good bad err cur r d.
Definition row (es : list pexp) (good bad err : nat -> nat -> Prop) : Prop :=
  forall cur r d, kgs es cur r d -> (d < lim)%nat -> (sp_pos cur <= N)%nat -> claim good bad err cur r d.
Definition alts (es : list pexp) (good bad err : nat -> nat -> Prop) : Prop :=
  forall cur r d, kgc es cur r d -> (d < lim)%nat -> (sp_pos cur <= N)%nat -> claim good bad err cur r d.
Hypothesis Qpos : (1 <= Q)%nat.
Lemma w_add d1 u1 d2 u2 : (d1 <= Q * u1)%nat -> (d2 <= Q * u2)%nat -> (d1 + d2 <= Q * (u1 + u2))%nat.
Proof. intros. rewrite Nat.mul_add_distr_l. lia. Qed.
Lemma w_le d u u' : (d <= Q * u)%nat -> (u <= u')%nat -> (d <= Q * u')%nat.
Proof. intros H L. etransitivity; [exact H|]. apply Nat.mul_le_mono_l. exact L. Qed.
Lemma w_S d u : (d <= Q * u)%nat -> (S d <= Q * (u + 1))%nat.
Proof. intros H. replace (S d) with (d + 1)%nat by lia. apply w_add; [exact H|]. lia. Qed.
Lemma row_nil (good bad err : nat -> nat -> Prop) : good 0%nat 0%nat -> row [] good bad err.
Proof. intros G cur r d H _ L. inversion H; subst. cbn. split; [lia|]. split; [lia|]. exists 0%nat. rewrite Nat.sub_diag. split; [lia|exact G]. Qed.
Lemma row_cons e es (g1 b1 x1 g2 b2 x2 g b x : nat -> nat -> Prop) : one e g1 b1 x1 -> row es g2 b2 x2 ->
  (forall c1 v1 c2 v2, g1 c1 v1 -> g2 c2 v2 -> g (c1 + c2)%nat (v1 + v2)%nat) ->
  (forall m u, b1 m u -> b m u) -> (forall c v m u, g1 c v -> b2 m u -> b (c + m)%nat (v + u)%nat) ->
  (forall m u, x1 m u -> x m u) -> (forall c v m u, g1 c v -> x2 m u -> x (c + m)%nat (v + u)%nat) -> row (e :: es) g b x.
Proof.
  intros H1 H2 Hg Hb Hb2 Hx Hx2 cur r d H Hd L. inversion H as [|? ? ? cur1 l d1 r2 d2 K1 K2|? ? ? ? K1|? ? ? ? ? ? K1]; subst; clear H.
  - pose proof (H1 _ _ _ K1 ltac:(lia) L) as (B1 & B2 & u & W & G). pose proof (H2 _ _ _ K2 ltac:(lia) ltac:(lia)) as C2.
    destruct r2 as [cur2 l2| |cur2 y]; cbn [claim] in *.
    + destruct C2 as (B3 & B4 & u2 & W2 & G2). split; [lia|]. rewrite app_length. split; [lia|]. exists (u + u2)%nat. split; [apply w_add; assumption|].
      replace (sp_pos cur2 - sp_pos cur)%nat with (sp_pos cur1 - sp_pos cur + (sp_pos cur2 - sp_pos cur1))%nat by lia.
      replace (u + u2 + (length l + length l2))%nat with (u + length l + (u2 + length l2))%nat by lia. auto.
    + destruct C2 as (u2 & W2 & G2). exists (u + length l + u2)%nat. split; [apply w_add; [apply w_le with u; [exact W|lia]|exact W2]|].
      replace (N - sp_pos cur)%nat with (sp_pos cur1 - sp_pos cur + (N - sp_pos cur1))%nat by lia. auto.
    + destruct C2 as (u2 & W2 & G2). exists (u + length l + u2)%nat. split; [apply w_add; [apply w_le with u; [exact W|lia]|exact W2]|].
      replace (N - sp_pos cur)%nat with (sp_pos cur1 - sp_pos cur + (N - sp_pos cur1))%nat by lia. auto.
  - destruct (H1 _ _ _ K1 Hd L) as (u & W & G). exists u. auto.
  - destruct (H1 _ _ _ K1 Hd L) as (u & W & G). exists u. auto.
Qed.
Lemma alts_nil (g b x : nat -> nat -> Prop) : (forall m, b m 0%nat) -> alts [] g b x.
Proof. intros B cur r d H _ L. inversion H; subst. exists 0%nat. split; [lia|apply B]. Qed.
Lemma alts_cons e es (g1 b1 x1 g2 b2 x2 g b x : nat -> nat -> Prop) : one e g1 b1 x1 -> alts es g2 b2 x2 ->
  (forall c v, g1 c v -> g c v) -> (forall m u c v, (c <= m)%nat -> b1 m u -> g2 c v -> g c (u + v)%nat) ->
  (forall m u u2, b1 m u -> b2 m u2 -> b m (u + u2)%nat) ->
  (forall m u, x1 m u -> x m u) -> (forall m u u2, b1 m u -> x2 m u2 -> x m (u + u2)%nat) -> alts (e :: es) g b x.
Proof.
  intros H1 H2 Hg Hg2 Hb Hx Hx2 cur r d H Hd L. inversion H as [|? ? ? cur1 l d1 K1|? ? ? ? ? ? K1|? ? ? ? d1 d2 K1 K2]; subst; clear H.
  - destruct (H1 _ _ _ K1 Hd L) as (B1 & B2 & u & W & G). split; [exact B1|]. split; [exact B2|]. exists u. auto.
  - destruct (H1 _ _ _ K1 Hd L) as (u & W & G). exists u. auto.
  - destruct (H1 _ _ _ K1 ltac:(lia) L) as (u & W & G). pose proof (H2 _ _ _ K2 ltac:(lia) L) as C2. destruct r as [cur2 l2| |cur2 y]; cbn [claim] in *.
    + destruct C2 as (B3 & B4 & u2 & W2 & G2). split; [exact B3|]. split; [exact B4|]. exists (u + u2)%nat. split; [apply w_add; assumption|].
      rewrite <- Nat.add_assoc. apply Hg2 with (N - sp_pos cur)%nat; auto. lia.
    + destruct C2 as (u2 & W2 & G2). exists (u + u2)%nat. split; [apply w_add; assumption|auto].
    + destruct C2 as (u2 & W2 & G2). exists (u + u2)%nat. split; [apply w_add; assumption|auto].
Qed.
Lemma claim_S (g1 b1 x1 g b x : nat -> nat -> Prop) cur r d : claim g1 b1 x1 cur r d -> (forall c v, g1 c v -> g c (v + 1)%nat) ->
  (forall m u, b1 m u -> b m (u + 1)%nat) -> (forall m u, x1 m u -> x m (u + 1)%nat) -> claim g b x cur r (S d).
Proof.
  intros C Hg Hb Hx. destruct r as [cur1 l| |cur1 y]; cbn [claim] in *.
  - destruct C as (B1 & B2 & u & W & G). split; [exact B1|]. split; [exact B2|]. exists (u + 1)%nat. split; [apply w_S; exact W|].
    replace (u + 1 + length l)%nat with (u + length l + 1)%nat by lia. auto.
  - destruct C as (u & W & G). exists (u + 1)%nat. split; [apply w_S; exact W|auto].
  - destruct C as (u & W & G). exists (u + 1)%nat. split; [apply w_S; exact W|auto].
Qed.
Lemma one_flat es (g1 b1 x1 g b x : nat -> nat -> Prop) : row es g1 b1 x1 -> (forall c v, g1 c v -> g c (v + 1)%nat) ->
  (forall m u, b1 m u -> b m (u + 1)%nat) -> (forall m u, x1 m u -> x m (u + 1)%nat) -> one (EFlatGroup es) g b x.
Proof. intros H Hg Hb Hx cur r d K Hd L. inversion K; subst. eapply claim_S; eauto. eapply H; eauto. lia. Qed.
Lemma one_first es (g1 b1 x1 g b x : nat -> nat -> Prop) : es <> [] -> alts es g1 b1 x1 -> (forall c v, g1 c v -> g c (v + 1)%nat) ->
  (forall m u, b1 m u -> b m (u + 1)%nat) -> (forall m u, x1 m u -> x m (u + 1)%nat) -> one (EFirst es) g b x.
Proof. intros He H Hg Hb Hx cur r d K Hd L. inversion K; subst; [congruence|]. eapply claim_S; eauto. eapply H; eauto. lia. Qed.
Lemma one_ref k (g1 b1 x1 g b x : nat -> nat -> Prop) : one (w_env w k) g1 b1 x1 -> (forall c v, g1 c v -> g c (v + 1)%nat) ->
  (forall m u, b1 m u -> b m (u + 1)%nat) -> (forall m u, x1 m u -> x m (u + 1)%nat) -> one (EIndirect k) g b x.
Proof. intros H Hg Hb Hx cur r d K Hd L. inversion K; subst. eapply claim_S; eauto. eapply H; eauto. lia. Qed.
Lemma one_weak e (g1 b1 x1 g b x : nat -> nat -> Prop) : one e g1 b1 x1 -> (forall c v, g1 c v -> g c v) ->
  (forall m u, b1 m u -> b m u) -> (forall m u, x1 m u -> x m u) -> one e g b x.
Proof.
  intros H Hg Hb Hx cur r d K Hd L. specialize (H _ _ _ K Hd L). destruct r; cbn [claim] in *.
  - destruct H as (B1 & B2 & u & W & G). split; [exact B1|]. split; [exact B2|]. eauto.
  - destruct H as (u & W & G). eauto.
  - destruct H as (u & W & G). eauto.
Qed.
(** Repetitions without limits: [a] units for each byte, [f] for the round that fails, [y] for an error. *)
Definition up (a f : nat) (c v : nat) : Prop := (v <= a * c + f)%nat.
Definition never (c v : nat) : Prop := False.
Lemma one_rep es a f y : row es (up a 0) (up 0 f) (up a y) -> one (EZeroOrMore es) (up a (f + 1)) never (up a (y + 1)).
Proof.
  intros H.
  assert (K : forall t es0 k cur q d, kgr t es0 k cur q d -> es0 = es -> t_max t = -1 -> (d < lim)%nat -> (sp_pos cur <= N)%nat ->
    match q with
    | inl _ => exists u, (d <= Q * u)%nat /\ up a y (N - sp_pos cur)%nat u
    | inr (cur1, l, _) => (sp_pos cur <= sp_pos cur1 <= N)%nat /\ (length l <= sp_pos cur1 - sp_pos cur)%nat /\
        exists u, (d <= Q * u)%nat /\ up a f (sp_pos cur1 - sp_pos cur)%nat (u + length l)%nat
    end).
  { intros t es0 k cur q d R. induction R as [t es0 k cur Hk|t es0 k cur d Hk R|t es0 k cur cur1 x d Hk R|t es0 k cur cur1 l q d d2 Hk R R2 IH]; intros -> Ht Hd L.
    - lia.
    - destruct (H _ _ _ R Hd L) as (u & W & G). split; [lia|]. split; [cbn; lia|]. exists u. split; [exact W|]. unfold up in *. cbn [length]. lia.
    - destruct (H _ _ _ R Hd L) as (u & W & G). exists u. auto.
    - destruct (H _ _ _ R ltac:(lia) L) as (B1 & B2 & u & W & G). specialize (IH eq_refl Ht ltac:(lia) ltac:(lia)). unfold up in *. destruct q as [[cur2 x]|[[cur2 l2] k2]].
      + destruct IH as (u2 & W2 & G2). exists (u + u2)%nat. split; [apply w_add; assumption|].
        replace (N - sp_pos cur)%nat with (sp_pos cur1 - sp_pos cur + (N - sp_pos cur1))%nat by lia. rewrite Nat.mul_add_distr_l. lia.
      + destruct IH as (B3 & B4 & u2 & W2 & G2). split; [lia|]. rewrite app_length. split; [lia|]. exists (u + u2)%nat. split; [apply w_add; assumption|].
        replace (sp_pos cur2 - sp_pos cur)%nat with (sp_pos cur1 - sp_pos cur + (sp_pos cur2 - sp_pos cur1))%nat by lia. rewrite Nat.mul_add_distr_l. lia. }
  intros cur r d P Hd L. inversion P as [| | | | | | | |t es0 cur0 q d0 R| |]; subst. specialize (K _ _ _ _ _ _ R eq_refl eq_refl ltac:(lia) L). destruct q as [[cur1 x]|[[cur1 l] k]]; cbn [repeated claim].
  - destruct K as (u & W & G). exists (u + 1)%nat. split; [apply w_S; exact W|]. unfold up in *. lia.
  - change (t_min qtyZeroOrMoreTimes) with 0. destruct (Z.ltb_spec (Z.of_nat k) 0); [lia|]. destruct K as (B1 & B2 & u & W & G). split; [exact B1|]. split; [exact B2|].
    exists (u + 1)%nat. split; [apply w_S; exact W|]. unfold up in *. lia.
Qed.
End Units.

(** ** The formula grammar *)
Section FormulaUnits.
Variables (negT mulT addT : trans).
Hypothesis neg_good : good_trans negT.
Hypothesis mul_good : good_trans mulT.
Hypothesis add_good : good_trans addT.
Hypothesis neg_one : to_one negT.
Hypothesis mul_one : to_one mulT.
Hypothesis add_one : to_one addT.
Variable s : bytes.
Notation prod := (formulaProductionRules negT mulT addT).
Notation fwt := (wt negT mulT addT).
Notation fw := (f_world prod s).
Notation N := (length s).
Notation Q := (12 * length s + 32)%nat.
Let w0 : world := mkW s None VNil no_rules.
Ltac unruled_tac := formula_unfold; cbn [gram map fold_right allP unruled g_leaf g_trans g_behind g_repeat g_indirect g_base]; unfold anyZ, anyR;
  repeat split; apply (not_prod negT mulT addT); vm_compute; discriminate.
Definition token (e : pexp) : Prop :=
  peg_gram e /\ gram (frugal str_size (fun _ => False) (fun _ => False)) e /\ gram (unruled prod) e /\ (most (fun _ => 0%nat) N e <= Q)%nat.
Lemma w0_gram : peg_env w0.
Proof. intros k. exact (nr_gram k). Qed.
Lemma w0_frugal k : gram (frugal str_size (fun _ => False) (fun _ => False)) (w_env w0 k).
Proof. apply frugal_of; [apply (string_pos anyT); cbn [w_env w0]; unfold no_rules, EUnmatched; lib_tac|exact I]. Qed.
Lemma token_calls e cur r d : token e -> L_CountW.pegk fwt fw e cur r d -> (sp_pos cur <= N)%nat -> (d <= Q)%nat /\ peg w0 e cur r /\
  (forall cur1 l, r = RSucc cur1 l -> (sp_pos cur <= sp_pos cur1 <= N)%nat /\ (eats str_size (fun _ => False) e -> (sp_pos cur < sp_pos cur1)%nat)).
Proof.
  intros (G1 & G2 & G3 & M) P L. pose proof (proj1 (unruled_all prod fw w0 eq_refl eq_refl eq_refl) e cur r d P G3) as P0.
  split; [|split].
  - etransitivity; [|exact M]. refine (proj1 (pegk_most_all w0 str_size (fun _ => False) (fun _ => False) (fun _ => 0%nat) w0_gram w0_frugal _ _) e cur r d P0 G1 G2 L);
    intros k [].
  - exact (pegk_peg w0 e cur r d P0).
  - intros cur1 l ->. apply (peg_in w0 str_size (fun _ => False) (fun _ => False) w0_gram w0_frugal ltac:(intros k []) e cur cur1 l G1 (frugal_pos _ _ _ _ G2) L (pegk_peg w0 e _ _ d P0)).
Qed.
Ltac token_tac := split; [formula_unfold; gram_tac|split; [apply frugal_of; [apply (string_pos anyT); formula_unfold; lib_tac|]|split; [unruled_tac|cbn; lia]]].
Lemma sp_rep : gram (rep_spec str_size (fun _ => False) (fun _ => False)) sp_0.
Proof. cbn. repeat split. intros _. exists SWhitespace. split; [auto|eats_tac]. Qed.
Lemma number_token : token number.
Proof.
  token_tac. cbn. repeat split; try (intros H; exfalso; lia); intros _; eexists; (split; [left; reflexivity|eats_tac]).
Qed.
Lemma unary_token : token unaryOperator.
Proof. token_tac. cbn. repeat split; try (intros H; exfalso; lia); intros _; eexists; (split; [left; reflexivity|eats_tac]). Qed.
Lemma binary_token : token binaryOperator.
Proof. token_tac. cbn. repeat split; try (intros H; exfalso; lia); intros _; eexists; (split; [left; reflexivity|eats_tac]). Qed.
Lemma space_token : token (erase sp_0).
Proof. token_tac. cbn. repeat split; try (intros H; exfalso; lia); intros _; eexists; (split; [left; reflexivity|eats_tac]). Qed.
Lemma paren_token p : token (erase (SCharClass [p])).
Proof. token_tac. exact (conj I (conj I I)). Qed.
Lemma error_token m : token (EError m).
Proof. token_tac. exact I. Qed.
Lemma start_token : token EStart.
Proof. token_tac. exact I. Qed.
Lemma end_token : token SEnd.
Proof. token_tac. exact I. Qed.

(** What the parts return. *)
Lemma flat_inv es cur r : peg w0 (EFlatGroup es) cur r -> pegs w0 es cur r.
Proof. intros H. inversion H. assumption. Qed.
Lemma row_inv e es cur cur2 l : pegs w0 (e :: es) cur (RSucc cur2 l) ->
  exists cur1 l1 l2, peg w0 e cur (RSucc cur1 l1) /\ pegs w0 es cur1 (RSucc cur2 l2) /\ l = l1 ++ l2.
Proof. intros H. inversion H; subst. eauto 8. Qed.
Lemma trans_inv e t cur cur1 l1 : peg w0 (ETrans e [t]) cur (RSucc cur1 l1) ->
  exists n l, peg w0 e cur (RSucc cur1 l) /\ t n (fresh w0 cur) l = Ok (inr l1).
Proof.
  intros H. inversion H; subst. match goal with P : pipeline _ _ _ _ |- _ => inversion P; subst end.
  match goal with P : pipeline _ [] _ _ |- _ => inversion P; subst end. eauto.
Qed.
Lemma erase_len e cur cur1 l : peg w0 (erase e) cur (RSucc cur1 l) -> l = [].
Proof. intros H. apply trans_inv in H. destruct H as (n & l0 & _ & E). cbv in E. congruence. Qed.
Lemma rename_len cls cur cc cur1 l : peg w0 (ETrans (EFlatGroup [SCharClass cc; erase sp_0]) [ChangeClassName cls]) cur (RSucc cur1 l) -> (length l <= 1)%nat.
Proof.
  intros H. apply trans_inv in H. destruct H as (n & l0 & P & E). apply flat_inv in P. apply row_inv in P. destruct P as (c1 & l1 & l2 & P1 & P2 & ->).
  apply row_inv in P2. destruct P2 as (c2 & l3 & l4 & P3 & P4 & ->). apply erase_len in P3. subst l3. inversion P4; subst. rewrite !app_nil_r in E.
  unfold ChangeClassName, tok in E. injection E as <-. assert (length l1 <= 1)%nat; [|destruct l1; cbn in *; lia].
  inversion P1; subst. match goal with R : lift _ _ _ = _ |- _ => unfold lift, char_class_fn, ret in R; injection R as <- <- end. cbn [leaf_result] in *.
  assert (K : forall cc c, c_stack c = [] -> (length (c_stack (char_class_loop cc c)) <= 1)%nat).
  { clear. induction cc as [|x cc IH]; intros c E; cbn [char_class_loop]; [rewrite E; cbn; lia|]. destruct (has_prefix_at _ _ _); [|auto]. cbn. rewrite E. cbn. lia. }
  specialize (K cc (set_st (fresh w0 cur) Unmatched) eq_refl).
  match goal with E : match c_st ?x with _ => _ end = _ |- _ => destruct (c_st x) in E; try discriminate E; injection E as _ <- end. exact K.
Qed.
Lemma number_len cur cur1 l : peg w0 number cur (RSucc cur1 l) -> length l = 1%nat.
Proof.
  intros H. apply trans_inv in H. destruct H as (n & l0 & _ & E). unfold parseNumber in E.
  destruct l0; [discriminate|]. destruct (a_val a); try discriminate. destruct (parse_int _ _); [discriminate|]. unfold tok in E. injection E as <-. reflexivity.
Qed.
Lemma leaf_len cls fn cur cur1 l : (forall c o, fn c = Ok (o, None) -> c_stack o = c_stack c) -> peg w0 (ELight cls (lift fn)) cur (RSucc cur1 l) -> l = [].
Proof.
  intros K H. inversion H; subst. match goal with R : lift _ _ _ = _ |- _ => unfold lift in R end. destruct err; [discriminate|]. cbn [leaf_result] in *.
  match goal with E : match c_st ?x with _ => _ end = _ |- _ => destruct (c_st x) in E; try discriminate E; injection E as _ <- end.
  match goal with R : fn _ = Ok _ |- _ => exact (K _ _ R) end.
Qed.

(** The claims. *)
Section Lim.
Variable lim : nat.
Notation one := (one Q N fwt fw lim).
Notation row := (row Q N fwt fw lim).
Notation alts := (alts Q N fwt fw lim).
Definition solid_token (c v : nat) : Prop := (1 <= c /\ v <= 2)%nat.
Definition cheap (k : nat) (c v : nat) : Prop := (v <= k)%nat.
Lemma one_token e : token e -> eats str_size (fun _ => False) e -> (forall cur cur1 l, peg w0 e cur (RSucc cur1 l) -> (length l <= 1)%nat) -> one e solid_token (cheap 1) (cheap 1).
Proof.
  intros T E Hl cur r d P _ L. destruct (token_calls e cur r d T P L) as (D & P0 & S0). destruct r as [cur1 l| |cur1 x]; cbn [claim].
  - destruct (S0 _ _ eq_refl) as [B1 B2]. specialize (B2 E). specialize (Hl _ _ _ P0). split; [exact B1|]. split; [lia|]. exists 1%nat. unfold solid_token. split; lia.
  - exists 1%nat. unfold cheap. split; lia.
  - exists 1%nat. unfold cheap. split; lia.
Qed.
Lemma one_blank e : token e -> (forall cur cur1 l, peg w0 e cur (RSucc cur1 l) -> l = []) -> one e (cheap 1) (cheap 1) (cheap 1).
Proof.
  intros T Hl cur r d P _ L. destruct (token_calls e cur r d T P L) as (D & P0 & S0). destruct r as [cur1 l| |cur1 x]; cbn [claim].
  - destruct (S0 _ _ eq_refl) as [B1 B2]. specialize (Hl _ _ _ P0). subst l. split; [exact B1|]. split; [cbn; lia|]. exists 1%nat. unfold cheap. cbn [length]. split; lia.
  - exists 1%nat. unfold cheap. split; lia.
  - exists 1%nat. unfold cheap. split; lia.
Qed.
Lemma one_error m : one (EError m) never never (cheap 1).
Proof.
  intros cur r d P _ L. destruct (token_calls _ cur r d (error_token m) P L) as (D & P0 & S0). inversion P0; subst. unfold lift, error_fn in *.
  match goal with E : Ok _ = Ok _ |- _ => injection E as <- <- end. cbn. exists 1%nat. unfold cheap. split; lia.
Qed.
Lemma q_pos : (1 <= Q)%nat. Proof. lia. Qed.
Ltac arith := unfold up, never, solid_token, cheap in *; intros; try lia.
Lemma one_number : one number solid_token (cheap 1) (cheap 1).
Proof. apply one_token; [exact number_token|eats_tac|]. intros cur cur1 l P. rewrite (number_len _ _ _ P). lia. Qed.
Lemma one_unary : one unaryOperator solid_token (cheap 1) (cheap 1).
Proof. apply one_token; [exact unary_token|eats_tac|]. intros cur cur1 l P. exact (rename_len _ _ _ _ _ P). Qed.
Lemma one_binary : one binaryOperator solid_token (cheap 1) (cheap 1).
Proof. apply one_token; [exact binary_token|eats_tac|]. intros cur cur1 l P. exact (rename_len _ _ _ _ _ P). Qed.
Lemma one_space : one (erase sp_0) (cheap 1) (cheap 1) (cheap 1).
Proof. apply one_blank; [exact space_token|]. intros cur cur1 l P. exact (erase_len _ _ _ _ P). Qed.
Lemma one_paren p : p <> [] -> one (erase (SCharClass [p])) (fun c v => 1 <= c /\ v <= 1)%nat (cheap 1) (cheap 1).
Proof.
  intros Hp cur r d P _ L. destruct (token_calls _ cur r d (paren_token p) P L) as (D & P0 & S0).
  assert (E : eats str_size (fun _ => False) (erase (SCharClass [p]))) by (apply eat_trans, eat_leaf, hungry_eats, h_class; repeat constructor; exact Hp).
  destruct r as [cur1 l| |cur1 x]; cbn [claim].
  - destruct (S0 _ _ eq_refl) as [B1 B2]. specialize (B2 E). apply erase_len in P0. subst l. split; [exact B1|]. split; [cbn; lia|]. exists 1%nat. cbn [length]. split; lia.
  - exists 1%nat. unfold cheap. split; lia.
  - exists 1%nat. unfold cheap. split; lia.
Qed.
Lemma row_last e g b x : one e g b x -> row [e] g b x.
Proof.
  intros H. apply (row_cons Q N fwt fw lim q_pos e [] g b x (fun c v => c = 0 /\ v = 0)%nat never never); auto.
  - apply row_nil; try exact q_pos; auto.
  - intros c1 v1 c2 v2 G [-> ->]. rewrite !Nat.add_0_r. exact G.
  - intros c v m u _ [].
  - intros c v m u _ [].
Qed.
Lemma one_signs : one (EZeroOrMore [unaryOperator]) (up 2 2) never (up 2 2).
Proof.
  apply (one_rep Q N fwt fw lim q_pos [unaryOperator] 2 1 1). apply row_last. apply (one_weak Q N fwt fw lim unaryOperator solid_token (cheap 1) (cheap 1)); [exact one_unary| | |]; arith.
Qed.
Lemma one_simple : one simpleExpression (fun c v => 1 <= c /\ v <= 4 * c + 7)%nat (cheap 2) (up 4 7).
Proof.
  assert (R : row [binaryOperator; number] (up 4 0) (up 0 3) (up 4 3)).
  { apply (row_cons Q N fwt fw lim q_pos binaryOperator [number] solid_token (cheap 1) (cheap 1) solid_token (cheap 1) (cheap 1));
      [exact one_binary|apply row_last; exact one_number| | | | |]; arith. }
  apply (one_rep Q N fwt fw lim q_pos) in R.
  unfold simpleExpression. apply (one_flat Q N fwt fw lim q_pos _ (fun c v => 1 <= c /\ v <= 4 * c + 6)%nat (cheap 1) (up 4 6)); [|arith|arith|arith].
  apply (row_cons Q N fwt fw lim q_pos number _ solid_token (cheap 1) (cheap 1) (up 4 4) never (up 4 4)); [exact one_number|apply row_last; exact R| | | | |]; arith.
Qed.
Section Nested.
Hypothesis nested_expression : one (expression prod) (fun c v => 1 <= c /\ v <= 20 * c + 20)%nat (up 20 20) (up 20 20).
Lemma one_grouped : one (groupedExpresion prod) (fun c v => 1 <= c /\ v + 13 <= 20 * c)%nat (cheap 2) (up 20 8).
Proof.
  assert (A : row [erase sp_0; expression prod; erase (SCharClass [bs ")"]); erase sp_0] (up 20 3) (up 20 23) (up 20 23)).
  { apply (row_cons Q N fwt fw lim q_pos (erase sp_0) _ (cheap 1) (cheap 1) (cheap 1) (up 20 2) (up 20 22) (up 20 22)); [exact one_space| | | | | |]; [|arith..].
    apply (row_cons Q N fwt fw lim q_pos (expression prod) _ (fun c v => 1 <= c /\ v <= 20 * c + 20)%nat (up 20 20) (up 20 20) (fun c v => 1 <= c /\ v <= 2)%nat (cheap 2) (cheap 2)); [exact nested_expression| |arith..].
    apply (row_cons Q N fwt fw lim q_pos _ _ (fun c v => 1 <= c /\ v <= 1)%nat (cheap 1) (cheap 1) (cheap 1) (cheap 1) (cheap 1)); [apply one_paren; discriminate|apply row_last; exact one_space|arith..]. }
  apply (one_flat Q N fwt fw lim q_pos _ _ _ _ (up 20 4) (up 20 24) (up 20 24)) in A; [|arith..].
  assert (B : one (EFirst [EFlatGroup [erase sp_0; expression prod; erase (SCharClass [bs ")"]); erase sp_0]; EError "Error in grouped expression"]) (up 20 5) never (up 20 26)).
  { apply (one_first Q N fwt fw lim q_pos _ (up 20 4) never (up 20 25)); [discriminate| |arith..].
    apply (alts_cons Q N fwt fw lim q_pos _ _ (up 20 4) (up 20 24) (up 20 24) never never (cheap 1)); [exact A| |arith..].
    apply (alts_cons Q N fwt fw lim q_pos _ _ never never (cheap 1) never (cheap 0) never); [apply one_error|apply alts_nil; try exact q_pos; arith|arith..]. }
  unfold groupedExpresion. apply (one_flat Q N fwt fw lim q_pos _ (fun c v => 1 <= c /\ v + 14 <= 20 * c)%nat (cheap 1) (up 20 7)); [|arith..].
  apply (row_cons Q N fwt fw lim q_pos _ _ (fun c v => 1 <= c /\ v <= 1)%nat (cheap 1) (cheap 1) (up 20 5) never (up 20 26)); [apply one_paren; discriminate|apply row_last; exact B|arith..].
Qed.
Lemma one_inner : one expressionInner (fun c v => 1 <= c /\ v <= 20 * c + 13)%nat never (up 20 18).
Proof.
  pose proof (one_ref Q N fwt fw lim q_pos 0 _ _ _ (fun c v => 1 <= c /\ v + 12 <= 20 * c)%nat (cheap 3) (up 20 9) one_grouped ltac:(arith) ltac:(arith) ltac:(arith)) as I.
  assert (P : one (EFirst [simpleExpression; EIndirect 0; EError "Value required"]) (fun c v => 1 <= c /\ v <= 20 * c + 8)%nat never (up 20 12)).
  { apply (one_first Q N fwt fw lim q_pos _ (fun c v => 1 <= c /\ v <= 20 * c + 7)%nat never (up 20 11)); [discriminate| |arith..].
    apply (alts_cons Q N fwt fw lim q_pos _ _ (fun c v => 1 <= c /\ v <= 4 * c + 7)%nat (cheap 2) (up 4 7) (fun c v => 1 <= c /\ v + 12 <= 20 * c)%nat never (up 20 9)); [exact one_simple| |arith..].
    apply (alts_cons Q N fwt fw lim q_pos _ _ (fun c v => 1 <= c /\ v + 12 <= 20 * c)%nat (cheap 3) (up 20 9) never never (cheap 1)); [exact I| |arith..].
    apply (alts_cons Q N fwt fw lim q_pos _ _ never never (cheap 1) never (cheap 0) never); [apply one_error|apply alts_nil; try exact q_pos; arith|arith..]. }
  assert (R : one (EFirst [simpleExpression; EIndirect 0]) (up 20 8) (cheap 6) (up 20 12)).
  { apply (one_first Q N fwt fw lim q_pos _ (up 20 7) (cheap 5) (up 20 11)); [discriminate| |arith..].
    apply (alts_cons Q N fwt fw lim q_pos _ _ (fun c v => 1 <= c /\ v <= 4 * c + 7)%nat (cheap 2) (up 4 7) (fun c v => 1 <= c /\ v + 12 <= 20 * c)%nat (cheap 3) (up 20 9)); [exact one_simple| |arith..].
    apply (alts_cons Q N fwt fw lim q_pos _ _ (fun c v => 1 <= c /\ v + 12 <= 20 * c)%nat (cheap 3) (up 20 9) never (cheap 0) never); [exact I|apply alts_nil; try exact q_pos; arith|arith..]. }
  assert (F : one (EFlatGroup [EZeroOrMore [unaryOperator]; EFirst [simpleExpression; EIndirect 0]]) (up 20 11) (up 20 9) (up 20 15)).
  { apply (one_flat Q N fwt fw lim q_pos _ (up 20 10) (up 20 8) (up 20 14)); [|arith..].
    apply (row_cons Q N fwt fw lim q_pos _ _ (up 2 2) never (up 2 2) (up 20 8) (cheap 6) (up 20 12)); [exact one_signs|apply row_last; exact R|arith..]. }
  assert (G : one (EFirst [EFlatGroup [EZeroOrMore [unaryOperator]; EFirst [simpleExpression; EIndirect 0]]; EError "Error in the expression after the binary operator"]) (up 20 12) never (up 20 16)).
  { apply (one_first Q N fwt fw lim q_pos _ (up 20 11) never (up 20 15)); [discriminate| |arith..].
    apply (alts_cons Q N fwt fw lim q_pos _ _ (up 20 11) (up 20 9) (up 20 15) never never (cheap 1)); [exact F| |arith..].
    apply (alts_cons Q N fwt fw lim q_pos _ _ never never (cheap 1) never (cheap 0) never); [apply one_error|apply alts_nil; try exact q_pos; arith|arith..]. }
  assert (T : row [binaryOperator; EFirst [EFlatGroup [EZeroOrMore [unaryOperator]; EFirst [simpleExpression; EIndirect 0]]; EError "Error in the expression after the binary operator"]] (up 20 0) (up 0 1) (up 20 1)).
  { apply (row_cons Q N fwt fw lim q_pos _ _ solid_token (cheap 1) (cheap 1) (up 20 12) never (up 20 16)); [exact one_binary|apply row_last; exact G|arith..]. }
  apply (one_rep Q N fwt fw lim q_pos) in T.
  unfold expressionInner. apply (one_flat Q N fwt fw lim q_pos _ (fun c v => 1 <= c /\ v <= 20 * c + 12)%nat never (up 20 17)); [|arith..].
  apply (row_cons Q N fwt fw lim q_pos _ _ (up 2 2) never (up 2 2) (fun c v => 1 <= c /\ v <= 20 * c + 10)%nat never (up 20 12)); [exact one_signs| |arith..].
  apply (row_cons Q N fwt fw lim q_pos _ _ (fun c v => 1 <= c /\ v <= 20 * c + 8)%nat never (up 20 12) (up 20 2) never (up 20 2)); [exact P|apply row_last; exact T|arith..].
Qed.
End Nested.
End Lim.
Lemma rules_fit l c : (length l <= c)%nat -> (c <= N)%nat -> (rules_max l <= Q * (length l + 1))%nat.
Proof. intros. unfold rules_max. rewrite Nat.mul_comm. apply Nat.mul_le_mono_r. lia. Qed.
Lemma all_expression lim : one Q N fwt fw lim (expression prod) (fun c v => 1 <= c /\ v <= 20 * c + 20)%nat (up 20 20) (up 20 20).
Proof.
  induction lim as [|lim IH]; intros cur r d P Hd L; [lia|]. unfold expression in P. inversion P as [| | | | | | | | |e tr cur0 r0 r' d0 x P0 T X|]; subst; clear P.
  pose proof (one_inner lim IH cur r0 d0 P0 ltac:(lia) L) as C. destruct r0 as [cur1 l| |cur1 y]; cbn [claim] in C.
  - destruct C as (B1 & B2 & u & W & G1 & G2). assert (Hx : (x <= Q * (length l + 1))%nat).
    { cbn in X. destruct X as [->|[_ X]]; [lia|]. etransitivity; [exact X|]. apply rules_fit with (sp_pos cur1 - sp_pos cur)%nat; lia. }
    assert (Wd : (S (d0 + x) <= Q * (u + length l + 2))%nat).
    { replace (u + length l + 2)%nat with (u + (length l + 1) + 1)%nat by lia. apply w_S; [lia|]. apply w_add; first [assumption|exact q_pos]. }
    inversion T; subst.
    + match goal with K : pipeline _ _ _ _ |- _ => apply prod_one in K; rename K into L1 end.
      cbn [claim]. split; [exact B1|]. split; [lia|]. exists (u + length l + 2)%nat. split; [exact Wd|]. lia.
    + cbn [claim]. exists (u + length l + 2)%nat. split; [exact Wd|]. unfold up. lia.
  - destruct C as (u & _ & []).
  - cbn in X. subst x. destruct C as (u & W & G). inversion T; subst. cbn [claim]. exists (u + 1)%nat. rewrite Nat.add_0_r. split; [apply w_S; [lia|exact W]|]. unfold up in *. lia.
Qed.
Lemma program_max cur r d : L_CountW.pegk fwt fw (program prod) cur r d -> (sp_pos cur <= N)%nat -> (d <= Q * (20 * N + 24))%nat.
Proof.
  intros P L. pose (lim := S d). pose proof (all_expression lim) as E.
  assert (R : one Q N fwt fw lim (program prod) (up 20 24) (up 20 24) (up 20 24)).
  { unfold program. apply (one_flat Q N fwt fw lim q_pos _ (up 20 23) (up 20 23) (up 20 23)); [|unfold up in *; intros; lia..].
    apply (row_cons Q N fwt fw lim q_pos _ _ (cheap 1) (cheap 1) (cheap 1) (up 20 22) (up 20 22) (up 20 22)); [|  |unfold up, cheap in *; intros; lia..].
    - apply one_blank; [exact start_token|]. intros cu cu1 l. apply leaf_len. unfold start_fn, ret. intros c o K. destruct (Nat.eqb _ _) in K; injection K as <-; reflexivity.
    - apply (row_cons Q N fwt fw lim q_pos _ _ (cheap 1) (cheap 1) (cheap 1) (up 20 21) (up 20 21) (up 20 21)); [apply one_space| |unfold up, cheap in *; intros; lia..].
      apply (row_cons Q N fwt fw lim q_pos _ _ (fun c v => 1 <= c /\ v <= 20 * c + 20)%nat (up 20 20) (up 20 20) (cheap 1) (cheap 1) (cheap 1)); [exact E| |unfold up, cheap in *; intros; lia..].
      apply row_last. apply one_blank; [exact end_token|]. intros cu cu1 l. apply leaf_len. unfold end_fn, ret. intros c o K. destruct (Nat.eqb _ _) in K; injection K as <-; reflexivity. }
  specialize (R cur r d P ltac:(unfold lim; lia) L). destruct r as [cur1 l| |cur1 y]; cbn [claim] in R.
  - destruct R as (B1 & B2 & u & W & G). apply w_le with u; [exact W|]. unfold up in G. lia.
  - destruct R as (u & W & G). apply w_le with u; [exact W|]. unfold up in G. lia.
  - destruct R as (u & W & G). apply w_le with u; [exact W|]. unfold up in G. lia.
Qed.
Lemma formula_max n o err : snd (kw_run (fun _ => k_grouped (k_rules negT mulT addT)) n (k_program (k_rules negT mulT addT)) 0%nat (new_string_ctx s)) = Ok (o, err) ->
  (formula_calls negT mulT addT n s <= Q * (20 * N + 24))%nat.
Proof.
  intros E. destruct (formula_counts negT mulT addT neg_good mul_good add_good neg_one mul_one add_one s n o err E) as (r & P).
  apply (program_max sp0 r _ P). cbn. lia.
Qed.
End FormulaUnits.
