(** Lemmas for C61. *)
From Verif Require Import S_Refl.

(** ** Names of types *)
Lemma nat_text_decimal k n : 0 <= n < Z.of_nat k -> decimal (nat_text k n) n.
Proof.
  revert n. induction k as [|k IH]; intros n H; [lia|]. cbn [nat_text]. destruct (Z.ltb_spec n 10).
  - apply dc_one. lia.
  - pose proof (Z.div_mod n 10). pose proof (Z.mod_pos_bound n 10). rewrite (Z.div_mod n 10) at 3 by lia. apply dc_more; try lia. apply IH. lia.
Qed.
Lemma decimal_nonneg s n : decimal s n -> 0 <= n.
Proof. induction 1; lia. Qed.
Lemma decimal_text s n : decimal s n -> forall k, n < Z.of_nat k -> nat_text k n = s.
Proof.
  induction 1 as [d H|s n d H IH P B]; intros [|k] Hk; try lia; cbn [nat_text].
  - destruct (Z.ltb_spec d 10); [reflexivity|lia].
  - destruct (Z.ltb_spec (10 * n + d) 10); [lia|]. rewrite <- (Z.div_unique_pos (10 * n + d) 10 n d), <- (Z.mod_unique_pos (10 * n + d) 10 n d) by lia.
    rewrite IH by lia. reflexivity.
Qed.
Lemma width_decimal w : is_width w -> decimal (width_text w) w.
Proof. intros [->|[->|[->| ->]]]; [apply (nat_text_decimal 9 8)|apply (nat_text_decimal 17 16)|apply (nat_text_decimal 33 32)|apply (nat_text_decimal 65 64)]; lia. Qed.
Lemma decimal_func s s' n : decimal s n -> decimal s' n -> s = s'.
Proof. intros H H'. pose proof (decimal_nonneg _ _ H). rewrite <- (decimal_text _ _ H (S (Z.to_nat n))), <- (decimal_text _ _ H' (S (Z.to_nat n))) by lia. reflexivity. Qed.
Lemma gty_name t : sane t -> type_name t (gty_text t).
Proof.
  induction t as [|w|w| | | |t IH|n t IH|k t IH| | |nm]; cbn [sane gty_text]; intros H; try (constructor; auto using width_decimal; fail).
  - constructor; [apply nat_text_decimal; lia|auto].
  - destruct k; [exact (tn_map true t _ (IH H))|exact (tn_map false t _ (IH H))].
Qed.
Lemma name_func t s s' : type_name t s -> type_name t s' -> s = s'.
Proof.
  intros H. revert s'. induction H; intros s' H'; inversion H'; subst; try reflexivity.
  - f_equal. eapply decimal_func; eauto.
  - f_equal. eapply decimal_func; eauto.
  - f_equal. auto.
  - f_equal. f_equal; [eapply decimal_func; eauto|]. f_equal. auto.
  - f_equal. auto.
Qed.
Lemma nth_split_at {A : Type} (l : list A) i x : nth_error l i = Some x -> exists before after, l = before ++ x :: after /\ length before = i.
Proof. intros H. destruct (nth_error_split l i H) as (b & a & E & L). eauto. Qed.
Lemma upd_split {A : Type} (before after : list A) x y : upd_nth (before ++ x :: after) (length before) y = before ++ y :: after.
Proof.
  unfold upd_nth. f_equal; [rewrite firstn_app, firstn_all, Nat.sub_diag; cbn; apply app_nil_r|].
  f_equal. change (S (length before)) with (1 + length before)%nat. rewrite skipn_app.
  rewrite skipn_all2 by lia. replace (1 + length before - length before)%nat with 1%nat by lia. reflexivity.
Qed.
Lemma nth_split_eq {A : Type} (before after : list A) x : nth_error (before ++ x :: after) (length before) = Some x.
Proof. rewrite nth_error_app2 by lia. rewrite Nat.sub_diag. reflexivity. Qed.
Lemma nth_split_other {A : Type} (before after : list A) x y j : j <> length before -> nth_error (before ++ y :: after) j = nth_error (before ++ x :: after) j.
Proof.
  intros N. destruct (Nat.lt_ge_cases j (length before)) as [L|L]; [rewrite !nth_error_app1 by lia; reflexivity|].
  rewrite !nth_error_app2 by lia. destruct (j - length before)%nat eqn:E; [lia|reflexivity].
Qed.

(** ** Paths *)
Lemma part_get v path x : part v path x <-> get_path v path = Some x.
Proof.
  split.
  - induction 1 as [v|l i v path x E _ IH]; cbn; [reflexivity|]. rewrite E. exact IH.
  - revert v. induction path as [|i path IH]; intros v H; cbn in H; [injection H as <-; constructor|].
    destruct v; try discriminate. destruct (nth_error l i) eqn:E; [|discriminate]. econstructor; eauto.
Qed.
Lemma part_func v path x y : part v path x -> part v path y -> x = y.
Proof. rewrite !part_get. congruence. Qed.
Lemma part_app v p q x : part v (p ++ q) x <-> exists y, part v p y /\ part y q x.
Proof.
  revert v. induction p as [|i p IH]; intros v; cbn [app].
  - split; [intros H; exists v; split; [constructor|exact H]|intros (y & H & K); inversion H; subst; exact K].
  - split.
    + intros H. inversion H as [|l ? u ? ? E K]; subst. apply IH in K. destruct K as (y & K1 & K2). exists y. split; [econstructor; eauto|exact K2].
    + intros (y & H & K). inversion H as [|l ? u ? ? E K1]; subst. econstructor; [exact E|]. apply IH. eauto.
Qed.
Lemma replaced_set v path x : (exists y, part v path y) -> replaced v path x (set_path v path x).
Proof.
  intros [y H]. induction H as [v|l i v path y E H IH]; cbn; [constructor|]. rewrite E. destruct (nth_split_at _ _ _ E) as (before & after & -> & <-).
  rewrite upd_split. constructor. exact IH.
Qed.
Lemma replaced_part v path x v' : replaced v path x v' -> part v' path x.
Proof. induction 1; econstructor; [apply nth_split_eq|assumption]. Qed.
Lemma replaced_inner v path x v' r y : replaced v path x v' -> (part v' (path ++ r) y <-> part x r y).
Proof.
  intros H. rewrite part_app. apply replaced_part in H. split; [intros (z & A & B)|eauto]. rewrite (part_func _ _ _ _ A H) in B. exact B.
Qed.
Lemma replaced_outer v p q x v' u : replaced v (p ++ q) x v' -> part v p u -> exists u', replaced u q x u' /\ part v' p u'.
Proof.
  intros H K. revert v' H. induction K as [v|l i v p u E K IH]; intros v' H; cbn [app] in H; [exists v'; split; [exact H|constructor]|].
  inversion H as [|before v0 after ? ? v1 R]; subst. rewrite nth_split_eq in E. injection E as ->. destruct (IH _ R) as (u' & A & B).
  exists u'. split; [exact A|]. econstructor; [apply nth_split_eq|exact B].
Qed.
Lemma replaced_apart v path x v' q y : replaced v path x v' -> (forall r, q <> path ++ r) -> (forall r, path <> q ++ r) -> (part v' q y <-> part v q y).
Proof.
  intros H. revert q. induction H as [v x|before v after path x v' H IH]; intros q N1 N2; [elim (N1 q); reflexivity|].
  destruct q as [|j q]; [elim (N2 (length before :: path)); reflexivity|].
  destruct (Nat.eq_dec j (length before)) as [->|N].
  - assert (X : part v' q y <-> part v q y). { apply IH; intros r E; [apply (N1 r)|apply (N2 r)]; cbn; congruence. }
    split; intros K; inversion K as [|l ? u ? ? E P]; subst; rewrite nth_split_eq in E; injection E as <-; econstructor; try apply nth_split_eq; apply X; exact P.
  - split; intros K; inversion K as [|l ? u ? ? E P]; subst; econstructor; try exact P.
    + rewrite <- E. apply nth_split_other. exact N.
    + rewrite <- E. symmetry. apply nth_split_other. exact N.
Qed.

(** ** Changes *)
Lemma content_fetch m p v : content m p v <-> fetch m p = Ok v.
Proof.
  split.
  - destruct 1 as [v|a i path v x E P]; cbn; [reflexivity|]. rewrite E. apply part_get in P. rewrite P. reflexivity.
  - destruct p as [u|a i path]; cbn; [intros H; injection H as <-; constructor|]. destruct (nth_error (arrays m a) i) eqn:E; [|discriminate].
    destruct (get_path g path) eqn:G; [|discriminate]. intros H. injection H as <-. econstructor; [exact E|]. apply part_get. exact G.
Qed.
Lemma content_func m p u v : content m p u -> content m p v -> u = v.
Proof. rewrite !content_fetch. congruence. Qed.
Lemma changed_same m a i path x m' : changed m a i path x m' -> content m' (PRef a i path) x.
Proof.
  intros (_ & _ & before & v & after & v' & E & <- & R & E'). econstructor; [rewrite E'; apply nth_split_eq|]. eapply replaced_part; eauto.
Qed.
Lemma changed_inner m a i path x m' r y : changed m a i path x m' -> (content m' (PRef a i (path ++ r)) y <-> part x r y).
Proof.
  intros (_ & _ & before & v & after & v' & E & <- & R & E'). rewrite <- (replaced_inner _ _ _ _ r y R). split.
  - intros H. inversion H as [|? ? ? u ? N P]; subst. rewrite E', nth_split_eq in N. injection N as <-. exact P.
  - intros H. econstructor; [rewrite E'; apply nth_split_eq|exact H].
Qed.
Lemma changed_outer m a i p q x m' u : changed m a i (p ++ q) x m' -> content m (PRef a i p) u ->
  exists u', replaced u q x u' /\ content m' (PRef a i p) u'.
Proof.
  intros (_ & _ & before & v & after & v' & E & <- & R & E') H. inversion H as [|? ? ? w ? N P]; subst. rewrite E, nth_split_eq in N. injection N as <-.
  destruct (replaced_outer _ _ _ _ _ _ R P) as (u' & A & B). exists u'. split; [exact A|]. econstructor; [rewrite E'; apply nth_split_eq|exact B].
Qed.
Lemma changed_apart m a i path x m' b j q y : changed m a i path x m' -> apart a i path b j q ->
  (content m' (PRef b j q) y <-> content m (PRef b j q) y).
Proof.
  intros (_ & O & before & v & after & v' & E & <- & R & E') D.
  assert (X : forall n, a <> b \/ length before <> j -> nth_error (arrays m' b) n = nth_error (arrays m b) n \/ n <> j).
  { intros n [N|N]; [left; rewrite O by congruence; reflexivity|]. destruct (Nat.eq_dec b a) as [->|Nb]; [|left; rewrite O by exact Nb; reflexivity].
    destruct (Nat.eq_dec n j) as [->|]; [|right; assumption]. left. rewrite E, E'. apply nth_split_other. congruence. }
  assert (Y : a <> b \/ length before <> j -> (content m' (PRef b j q) y <-> content m (PRef b j q) y)).
  { intros N. destruct (X j N) as [Q|Q]; [|congruence]. split; intros H; inversion H as [|? ? ? u ? K P]; subst; (econstructor; [|exact P]); congruence. }
  destruct D as [N|[N|[N1 N2]]]; [apply Y; auto|apply Y; auto|].
  destruct (Nat.eq_dec a b) as [->|Na]; [|apply Y; auto]. destruct (Nat.eq_dec (length before) j) as [<-|Nj]; [|apply Y; auto].
  pose proof (replaced_apart _ _ _ _ q y R N1 N2) as Z. split; intros H; inversion H as [|? ? ? u ? K P]; subst.
  - rewrite E', nth_split_eq in K. injection K as <-. econstructor; [rewrite E; apply nth_split_eq|]. apply Z. exact P.
  - rewrite E, nth_split_eq in K. injection K as <-. econstructor; [rewrite E'; apply nth_split_eq|]. apply Z. exact P.
Qed.

(** ** Types *)
Lemma name_eqb (a : bytes) : forall b, bytes_eqb a b = true <-> a = b.
Proof.
  induction a as [|x a IH]; intros [|y b]; cbn; try (split; congruence). rewrite andb_true_iff, Z.eqb_eq, IH.
  split; [intros [-> ->]; reflexivity|intros E; injection E; auto].
Qed.
Lemma gty_eqb_spec a : forall b, gty_eqb a b = true <-> a = b.
Proof.
  induction a; destruct b; cbn; try (split; congruence).
  - rewrite Z.eqb_eq. split; congruence.
  - rewrite Z.eqb_eq. split; congruence.
  - rewrite IHa. split; congruence.
  - rewrite andb_true_iff, Nat.eqb_eq, IHa. split; [intros [-> ->]; reflexivity|intros E; injection E; auto].
  - rewrite andb_true_iff, Bool.eqb_true_iff, IHa. split; [intros [-> ->]; reflexivity|intros E; injection E; auto].
  - rewrite name_eqb. split; congruence.
Qed.
Section Typed.
Variables (A : nat -> gty) (M : nat -> bool * gty) (size : nat -> nat).
Notation typed := (typed A M size). Notation all_typed := (all_typed A M size).
Lemma all_typed_spec t l : all_typed t l <-> Forall (typed t) l.
Proof. split; [induction 1|induction 1]; constructor; auto. Qed.
Lemma typed_part u path t : inside u path t -> forall v, typed u v -> exists x, part v path x /\ typed t x.
Proof.
  induction 1 as [t|n t i path u Hi _ IH]; intros v T; [exists v; split; [constructor|exact T]|].
  inversion T as [| | | | | | | |n' t' l L F| | | | |]; subst. apply all_typed_spec in F.
  destruct (nth_error l i) as [x|] eqn:E; [|apply nth_error_None in E; lia].
  destruct (IH x) as (y & P & Ty); [eapply Forall_forall; [exact F|eapply nth_error_In; eauto]|]. exists y. split; [econstructor; eauto|exact Ty].
Qed.
Lemma typed_replaced v path x v' : replaced v path x v' -> forall u t, inside u path t -> typed u v -> typed t x -> typed u v'.
Proof.
  induction 1 as [v x|before v after path x v' R IH]; intros u t I T Tx; [inversion I; subst; exact Tx|].
  inversion I as [|n s ? ? ? Hi I']; subst. inversion T as [| | | | | | | |n' t' l L F| | | | |]; subst. apply all_typed_spec in F. apply Forall_app in F. destruct F as [F1 F2]. inversion F2; subst.
  apply ty_array; [rewrite !app_length; reflexivity|]. apply all_typed_spec. apply Forall_app. split; [exact F1|]. constructor; [eapply IH; eauto|assumption].
Qed.
Lemma box_content m t p : memory_ok A M size m -> box_ok A M size (Some (t, p)) -> exists v, content m p v /\ typed t v.
Proof.
  intros [Ha _] B. destruct p as [v|a i path]; [exists v; split; [constructor|exact B]|]. destruct B as [Hi I]. destruct (Ha a) as [L F].
  destruct (nth_error (arrays m a) i) as [v|] eqn:E; [|apply nth_error_None in E; lia]. apply all_typed_spec in F.
  destruct (typed_part _ _ _ I v) as (x & P & T); [eapply Forall_forall; [exact F|eapply nth_error_In; eauto]|]. exists x. split; [econstructor; eauto|exact T].
Qed.
Lemma write_changed m t a i path x : memory_ok A M size m -> box_ok A M size (Some (t, PRef a i path)) -> typed t x ->
  exists m', write m (PRef a i path) x = Ok m' /\ changed m a i path x m' /\ memory_ok A M size m'.
Proof.
  intros Hm [Hi I] Tx. destruct Hm as [Ha Hmap]. destruct (Ha a) as [L F]. apply all_typed_spec in F.
  destruct (nth_error (arrays m a) i) as [v|] eqn:E; [|apply nth_error_None in E; lia].
  assert (Tv : typed (A a) v) by (eapply Forall_forall; [exact F|eapply nth_error_In; eauto]).
  destruct (typed_part _ _ _ I v Tv) as (y & P & _). pose proof (replaced_set v path x (ex_intro _ y P)) as R.
  cbn [write]. rewrite E. eexists. split; [reflexivity|]. destruct (nth_split_at _ _ _ E) as (before & after & Ea & <-).
  assert (Eu : upd_nth (arrays m a) (length before) (set_path v path x) = before ++ set_path v path x :: after) by (rewrite Ea; apply upd_split).
  split.
  - split; [reflexivity|]. split; [intros b N; cbn; apply Nat.eqb_neq in N; rewrite N; reflexivity|].
    exists before, v, after, (set_path v path x). split; [exact Ea|]. split; [reflexivity|]. split; [exact R|]. cbn. rewrite Nat.eqb_refl. exact Eu.
  - split; [|exact Hmap]. intros b. cbn. destruct (Nat.eqb_spec b a) as [->|N]; [|apply Ha]. rewrite Eu. rewrite Ea in L, F. rewrite app_length in *. split; [exact L|].
    apply all_typed_spec. apply Forall_app in F. destruct F as [F1 F2]. inversion F2; subst. apply Forall_app. split; [exact F1|]. constructor; [|assumption].
    eapply typed_replaced; eauto.
Qed.
End Typed.
Lemma wrap_s_ok w z : is_width w -> as_int w z (wrap_s w z).
Proof.
  intros W. unfold as_int, in_width, wrap_s. assert (Hw : 0 < w) by (unfold is_width in W; lia).
  assert (E : 2 ^ w = 2 * 2 ^ (w - 1)) by (replace w with (1 + (w - 1)) at 1 by lia; rewrite Z.pow_add_r by lia; reflexivity).
  pose proof (Z.pow_pos_nonneg 2 (w - 1) ltac:(lia) ltac:(lia)) as P. pose proof (Z.mod_pos_bound (z + 2 ^ (w - 1)) (2 ^ w) ltac:(lia)) as B. split; [lia|].
  pose proof (Z.div_mod (z + 2 ^ (w - 1)) (2 ^ w) ltac:(lia)) as D.
  replace (z - ((z + 2 ^ (w - 1)) mod 2 ^ w - 2 ^ (w - 1))) with (((z + 2 ^ (w - 1)) / 2 ^ w) * 2 ^ w) by lia. apply Z.mod_mul. lia.
Qed.
Lemma wrap_u_ok w z : is_width w -> as_uint w z (wrap_u w z).
Proof.
  intros W. unfold as_uint, in_uwidth, wrap_u. assert (Hw : 0 < w) by (unfold is_width in W; lia).
  pose proof (Z.pow_pos_nonneg 2 w ltac:(lia) ltac:(lia)) as P. split; [apply Z.mod_pos_bound; lia|].
  pose proof (Z.div_mod z (2 ^ w) ltac:(lia)) as D. replace (z - z mod 2 ^ w) with ((z / 2 ^ w) * 2 ^ w) by lia. apply Z.mod_mul. lia.
Qed.
