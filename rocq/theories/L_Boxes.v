(** Lemmas for C68. *)
From Verif Require Import S_Boxes L_Refl.

Lemma check_key_fits any e f k : check_key (mkMap any e f) k = None <-> key_fits any k.
Proof. destruct k, any; cbn; split; try congruence; try contradiction; auto. Qed.
Lemma check_key_some any e f k : ~ key_fits any k -> exists w, check_key (mkMap any e f) k = Some w.
Proof. intros N. destruct (check_key (mkMap any e f) k) eqn:E; eauto. apply check_key_fits in E. contradiction. Qed.
Lemma key_eqb_fits any k j : key_fits any k -> (key_eqb j k = true <-> j = k).
Proof.
  intros F. destruct j, k; cbn in *; try contradiction; try (split; congruence).
  - rewrite String.eqb_eq. split; congruence.
  - rewrite Z.eqb_eq. split; congruence.
Qed.
Lemma key_fits_dec any k : key_fits any k \/ ~ key_fits any k.
Proof. destruct k, any; cbn; auto. Qed.
Lemma container_func m c any t x any' t' x' : container_is m c any t x -> container_is m c any' t' x' -> any' = any /\ t' = t /\ x' = x.
Proof. intros H K. destruct H as [any t p x C]. inversion K as [any2 t2 p2 x2 C2]; subst. repeat split. eapply content_func; eauto. Qed.

Section Typed.
Variables (A : nat -> gty) (M : nat -> bool * gty) (size : nat -> nat).
Notation memory_ok := (memory_ok A M size). Notation box_ok := (box_ok A M size). Notation typed := (typed A M size).
(** A container is a map, or the box is broken. *)
Lemma container_total m c : memory_ok m -> box_ok c ->
  (forall any t x, ~ container_is m c any t x) \/
  exists any t x, container_is m c any t x /\ (x = GNilMap \/ exists y, x = GMap y /\ M y = (any, t)).
Proof.
  intros Hm Hc. destruct c as [[t p]|]; [|left; intros any t x H; inversion H].
  destruct t; try (left; intros any t' x H; inversion H; fail).
  right. destruct (box_content _ _ _ _ _ _ Hm Hc) as (v & C & T). exists anykey, t, v. split; [constructor; exact C|]. inversion T; subst; eauto.
Qed.
Lemma map_index_of m c any t x k : container_is m c any t (GMap x) -> key_fits any k ->
  r_MapIndex m c k = Ok (match maps m x k with Some e => Some (t, PVal e) | None => None end).
Proof.
  intros H F. inversion H as [any2 t2 p x2 C]; subst. apply content_fetch in C. cbn [r_MapIndex]. rewrite C. cbn [bind].
  rewrite (proj2 (check_key_fits any KAny (fun _ => None) k) F). reflexivity.
Qed.
Lemma map_index_nil m c any t k : container_is m c any t GNilMap -> key_fits any k -> r_MapIndex m c k = Ok None.
Proof.
  intros H F. inversion H as [any2 t2 p x2 C]; subst. apply content_fetch in C. cbn [r_MapIndex]. rewrite C. cbn [bind].
  rewrite (proj2 (check_key_fits any KAny (fun _ => None) k) F). reflexivity.
Qed.
Lemma holds_elem_get s c k t v (X : Type) (f : memory -> rbox -> res X) : holds s (BxElem c k) t v ->
  b_get f s (BxElem c k) = f (st_mem s) (Some (t, PVal v)).
Proof.
  intros H. inversion H as [|c2 any t2 x k2 v2 Hc F E|]; subst. cbn [b_get]. rewrite (map_index_of _ _ _ _ _ _ Hc F), E. reflexivity.
Qed.
Lemma holds_get s b t v (X : Type) (f : memory -> rbox -> res X) : holds s b t v -> (forall p, b <> BxRefl (Some (t, p))) ->
  b_get f s b = f (st_mem s) (Some (t, PVal v)).
Proof.
  intros H N. destruct H as [t p v C|c any t x k v Hc F E|i c k t v I H]; [elim (N p); reflexivity|apply holds_elem_get; econstructor; eauto|].
  cbn [b_get]. rewrite I. exact (holds_elem_get s c k t v X f H).
Qed.
Lemma holds_typed s b t v : memory_ok (st_mem s) -> box_fine A M size b -> holds s b t v -> typed t v.
Proof.
  intros Hm Hb H. induction H as [t p v C|c any t x k v Hc F E|i c k t v I H IH]; [| |apply IH; exact Hb].
  - destruct (box_content _ _ _ _ _ _ Hm Hb) as (v' & C' & T). rewrite (content_func _ _ _ _ C C'). exact T.
  - destruct (container_total _ _ Hm Hb) as [N|(any' & t' & x' & Hc' & D)]; [elim (N _ _ _ Hc)|].
    destruct (container_func _ _ _ _ _ _ _ _ Hc Hc') as (-> & -> & ->). destruct D as [D|(y & D & My)]; [discriminate|]. injection D as <-.
    pose proof (proj2 Hm x k v E) as T. rewrite My in T. exact T.
Qed.
Lemma holds_func s b t v t' v' : holds s b t v -> holds s b t' v' -> t' = t /\ v' = v.
Proof.
  intros H. revert t' v'. induction H as [t p v C|c any t x k v Hc F E|i c k t v I H IH]; intros t' v' K.
  - inversion K as [t2 p2 v2 C2| |]; subst. split; [reflexivity|]. eapply content_func; eauto.
  - inversion K as [|c2 any2 t2 x2 k2 v2 Hc2 F2 E2|]; subst. destruct (container_func _ _ _ _ _ _ _ _ Hc Hc2) as (-> & -> & X). injection X as ->.
    split; congruence.
  - inversion K; subst. eauto.
Qed.
Lemma elem_cases s c k : memory_ok (st_mem s) -> box_ok c -> (exists t v, holds s (BxElem c k) t v) \/ empty s (BxElem c k) \/ broken s (BxElem c k).
Proof.
  intros Hm Hc. destruct (container_total _ _ Hm Hc) as [N|(any & t & x & H & D)]; [right; right; constructor; exact N|].
  destruct (key_fits_dec any k) as [F|F]; [|right; right; eapply br_key; eauto].
  destruct D as [->|(y & -> & My)]; [right; left; eapply em_elem; eauto; congruence|].
  destruct (maps (st_mem s) y k) as [v|] eqn:E; [left; exists t, v; econstructor; eauto|].
  right. left. eapply em_elem; eauto. intros z Z. injection Z as <-. exact E.
Qed.
Lemma box_cases s b : memory_ok (st_mem s) -> box_fine A M size b -> (exists t v, holds s b t v) \/ empty s b \/ broken s b.
Proof.
  intros Hm Hb. destruct b as [[[t p]|]|c k|i c k]; [| right; left; constructor|exact (elem_cases s c k Hm Hb)|].
  - left. destruct (box_content _ _ _ _ _ _ Hm Hb) as (v & C & _). exists t, v. constructor. exact C.
  - destruct (st_init s i) eqn:I; [|right; right; constructor; exact I].
    destruct (elem_cases s c k Hm Hb) as [(t & v & H)|[H|H]]; [left; exists t, v; constructor; auto|right; left; constructor; auto|right; right; apply br_later; exact H].
Qed.
Lemma empty_get s b (X : Type) (f : memory -> rbox -> res X) : memory_ok (st_mem s) -> box_fine A M size b -> empty s b -> b_get f s b = f (st_mem s) None.
Proof.
  intros Hm Hb H.
  assert (G : forall c k, box_ok c -> empty s (BxElem c k) -> b_get f s (BxElem c k) = f (st_mem s) None).
  { intros c k Hc E. inversion E as [|c2 any t x k2 Hx F N|]; subst. cbn [b_get].
    destruct (container_total _ _ Hm Hc) as [N2|(any' & t' & x' & H' & D)]; [elim (N2 _ _ _ Hx)|].
    destruct (container_func _ _ _ _ _ _ _ _ Hx H') as (-> & -> & ->). destruct D as [->|(y & -> & _)].
    - rewrite (map_index_nil _ _ _ _ _ Hx F). reflexivity.
    - rewrite (map_index_of _ _ _ _ _ _ Hx F), (N y eq_refl). reflexivity. }
  destruct H as [|c any t x k Hx F N|i c k I H]; [reflexivity|apply G; [exact Hb|econstructor; eauto]|].
  cbn [b_get]. rewrite I. exact (G c k Hb H).
Qed.
Lemma broken_get s b (X : Type) (f : memory -> rbox -> res X) : memory_ok (st_mem s) -> box_fine A M size b -> broken s b -> exists w, b_get f s b = Panic w.
Proof.
  intros Hm Hb H.
  assert (G : forall c k, box_ok c -> broken s (BxElem c k) -> exists w, b_get f s (BxElem c k) = Panic w).
  { intros c k Hc B. inversion B as [c2 k2 N|c2 any t x k2 Hx F| |]; subst; cbn [b_get].
    - destruct c as [[t p]|]; [|eexists; reflexivity]. destruct t; try (eexists; reflexivity).
      exfalso. destruct (box_content _ _ _ _ _ _ Hm Hc) as (v & C & _). eapply N. constructor. exact C.
    - inversion Hx as [any2 t2 p x2 C]; subst. destruct (check_key_some any KAny (fun _ => None) k F) as [w E].
      destruct (box_content _ _ _ _ _ _ Hm Hc) as (v & C' & T). rewrite (content_func _ _ _ _ C C') in *. apply content_fetch in C'.
      cbn [r_MapIndex]. rewrite C'. cbn [bind]. inversion T; subst; rewrite E; eexists; reflexivity. }
  destruct H as [c k N|c any t x k Hx F|i c k I|i c k H]; [apply G; [exact Hb|constructor; exact N]|apply G; [exact Hb|eapply br_key; eauto]| |].
  - cbn [b_get]. rewrite I. eauto.
  - cbn [b_get]. destruct (st_init s i); [exact (G c k Hb H)|eauto].
Qed.

(** ** Setting *)
Lemma put_map_put any m x k e : key_fits any k -> put m x k e (put_map m x k e).
Proof.
  intros F. split; [reflexivity|]. split; cbn.
  - rewrite Nat.eqb_refl. rewrite (proj2 (key_eqb_fits any k k F) eq_refl). reflexivity.
  - intros y j N. destruct (Nat.eqb_spec y x) as [->|]; [|reflexivity]. destruct (key_eqb j k) eqn:E; [|reflexivity].
    apply (key_eqb_fits any k j F) in E. destruct N; congruence.
Qed.
Lemma put_ok m x k e m' : memory_ok m -> put m x k e m' -> (forall v, e = Some v -> typed (snd (M x)) v) -> memory_ok m'.
Proof.
  intros [Ha Hm] (Ea & Ek & Eo) T. split; [intros a; rewrite Ea; apply Ha|]. intros y j v H.
  destruct (Nat.eq_dec y x) as [->|N]; [|rewrite Eo in H by (left; exact N); eauto].
  assert (D : j = k \/ j <> k). { destruct j, k; try (right; discriminate); try (left; reflexivity). destruct (string_dec s s0); [left|right]; congruence. destruct (Z.eq_dec z z0); [left|right]; congruence. }
  destruct D as [->|N]; [apply T; congruence|]. rewrite Eo in H by (right; exact N). eauto.
Qed.
Lemma set_map_dyn m c any t x k s e e' : container_is m c any t (GMap x) -> key_fits any k -> accepts t s e e' ->
  r_SetMapIndex m c k (GDyn s e) = Ok (put_map m x k (Some e')).
Proof.
  intros H F Ac. inversion H as [any2 t2 p x2 C]; subst. apply content_fetch in C. cbn [r_SetMapIndex]. rewrite C. cbn [bind].
  rewrite (proj2 (check_key_fits any KAny (fun _ => None) k) F). destruct Ac as [t v N|s v].
  - assert (E : gty_eqb t YIface = false) by (destruct (gty_eqb t YIface) eqn:E; [apply gty_eqb_spec in E; contradiction|reflexivity]).
    rewrite E. rewrite (proj2 (gty_eqb_spec t t) eq_refl). reflexivity.
  - reflexivity.
Qed.
Lemma set_map_bad m c any t x k s e : container_is m c any t x -> ~ key_fits any k \/ (forall e', ~ accepts t s e e') \/ x = GNilMap ->
  exists w, r_SetMapIndex m c k (GDyn s e) = Panic w.
Proof.
  intros H D. inversion H as [any2 t2 p x2 C]; subst. apply content_fetch in C. cbn [r_SetMapIndex]. rewrite C. cbn [bind].
  destruct (check_key (mkMap any KAny (fun _ => None)) k) eqn:Ek; [eauto|]. apply check_key_fits in Ek.
  destruct D as [D|[D| ->]]; [contradiction| |destruct (gty_eqb t YIface || gty_eqb t s); eauto].
  destruct (gty_eqb t YIface) eqn:E1; [apply gty_eqb_spec in E1; subst; elim (D (GDyn s e)); constructor|].
  destruct (gty_eqb t s) eqn:E2; [apply gty_eqb_spec in E2; subst|cbn; eauto].
  elim (D e). constructor. intros ->. discriminate.
Qed.
Lemma set_map_kind m c k x : memory_ok m -> box_ok c -> (forall any t y, ~ container_is m c any t y) -> exists w, r_SetMapIndex m c k x = Panic w.
Proof.
  intros Hm Hc N. destruct c as [[t p]|]; [|eexists; reflexivity]. destruct t; try (eexists; reflexivity).
  exfalso. destruct (box_content _ _ _ _ _ _ Hm Hc) as (v & C & _). eapply N. constructor. exact C.
Qed.
Lemma setting_elem f t v : setting A M size f t v -> typed YIface (GDyn t v) /\ exists g, f = b_set g (GDyn t v).
Proof.
  assert (W : is_width 64) by (right; right; right; reflexivity).
  destruct 1; (split; [|eexists; reflexivity]); try assumption; constructor; try congruence; try assumption; constructor; assumption.
Qed.
Lemma accepts_typed t s e e' : typed YIface (GDyn s e) -> accepts t s e e' -> typed t e'.
Proof. intros T H. destruct H; [|exact T]. inversion T; subst; assumption. Qed.

(** ** What others see *)
Lemma content_arrays m m' p v : arrays m' = arrays m -> content m p v -> content m' p v.
Proof. intros E H. destruct H; [constructor|]. econstructor; [rewrite E|]; eassumption. Qed.
Lemma container_arrays m m' c any t x : arrays m' = arrays m -> container_is m c any t x -> container_is m' c any t x.
Proof. intros E H. destruct H. constructor. eapply content_arrays; eauto. Qed.
Lemma points_dec s m x k b : st_mem s = m -> memory_ok m -> box_fine A M size b -> points m x k b \/ ~ points m x k b.
Proof.
  intros <- Hm Hb.
  assert (G : forall c j, box_ok c -> points (st_mem s) x k (BxElem c j) \/ ~ points (st_mem s) x k (BxElem c j)).
  { intros c j Hc. destruct (container_total _ _ Hm Hc) as [N|(any & t & y & H & D)]; [right; intros P; inversion P; subst; eapply N; eauto|].
    assert (K : j = k \/ j <> k). { destruct j, k; try (right; discriminate); try (left; reflexivity). destruct (string_dec s0 s1); [left|right]; congruence. destruct (Z.eq_dec z z0); [left|right]; congruence. }
    destruct K as [->|K]; [|right; intros P; inversion P; subst; congruence].
    destruct D as [->|(z & -> & _)]; [right; intros P; inversion P as [c2 any2 t2 H2|]; subst; destruct (container_func _ _ _ _ _ _ _ _ H H2) as (_ & _ & X); discriminate|].
    destruct (Nat.eq_dec z x) as [->|N]; [left; econstructor; eauto|]. right. intros P. inversion P as [c2 any2 t2 H2|]; subst. destruct (container_func _ _ _ _ _ _ _ _ H H2) as (_ & _ & X). congruence. }
  destruct b as [r|c j|i c j]; [right; intros P; inversion P|exact (G c j Hb)|].
  destruct (G c j Hb) as [P|P]; [left|right; intros Q; apply P; inversion Q; subst; assumption]. inversion P; subst. constructor. exact P.
Qed.
End Typed.
