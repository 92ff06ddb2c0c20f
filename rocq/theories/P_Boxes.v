(** C68: the three kinds of Box on one memory, base/box.go:8-397. *)
From Verif Require Import S_Boxes L_Refl L_Boxes P_Refl.

(** ** Reading *)
(** A box holds one value, is empty, or cannot be read. *)
Theorem C68_kinds : forall A M size s b, memory_ok A M size (st_mem s) -> box_fine A M size b ->
  ((exists t v, holds s b t v) \/ empty s b \/ broken s b) /\
  (forall t v t' v', holds s b t v -> holds s b t' v' -> t' = t /\ v' = v) /\
  (forall t v, holds s b t v -> typed A M size t v).
Proof.
  intros A M size s b Hm Hb. split; [eapply box_cases; eauto|]. split; [intros t v t' v'; apply holds_func|intros t v; eapply holds_typed; eauto].
Qed.
Print Assumptions C68_kinds.
(** The getter of the value's type returns it, GetString describes values of other types, and the
    other getters panic; whatever kind of box it is. *)
Theorem C68_get : forall A M size s b t v, memory_ok A M size (st_mem s) -> box_fine A M size b -> holds s b t v ->
  b_GetAny s b = Ok (match t with YIface => v | _ => GDyn t v end) /\
  (match v with GInt z => b_GetInt s b = Ok z | _ => panics (b_GetInt s b) end) /\
  (match v with GUint z => b_GetUint s b = Ok z | _ => panics (b_GetUint s b) end) /\
  (match v with GFloat z => b_GetFloat s b = Ok z | _ => panics (b_GetFloat s b) end) /\
  (match v with GBool z => b_GetBool s b = Ok z | _ => panics (b_GetBool s b) end) /\
  (match v with GStr x => b_GetString s b = Ok x | _ => forall x, sane t -> type_name t x -> b_GetString s b = Ok (bs "<" ++ x ++ bs " Value>") end) /\
  ((t = YSlice (YUint 8) -> b_GetBytes s b = Ok v) /\ (t <> YSlice (YUint 8) -> panics (b_GetBytes s b))).
Proof.
  intros A M size s b t v Hm Hb H.
  assert (G : exists p, box_ok A M size (Some (t, p)) /\ content (st_mem s) p v /\ forall X (f : memory -> rbox -> res X), b_get f s b = f (st_mem s) (Some (t, p))).
  { pose proof (holds_typed _ _ _ _ _ _ _ Hm Hb H) as T. destruct H as [t p v C|c any t x k v Hc F E|i c k t v I H].
    - exists p. split; [exact Hb|]. split; [exact C|reflexivity].
    - exists (PVal v). split; [exact T|]. split; [constructor|]. intros X f. apply holds_get; [econstructor; eauto|congruence].
    - exists (PVal v). split; [exact T|]. split; [constructor|]. intros X f. apply holds_get; [constructor; auto|congruence]. }
  destruct G as (p & Hp & C & G). unfold b_GetAny, b_GetInt, b_GetUint, b_GetFloat, b_GetBool, b_GetString, b_GetBytes. rewrite !G.
  destruct (C61_get A M size (st_mem s) t p Hm Hp) as (v' & C' & _ & _ & R). rewrite (content_func _ _ _ _ C C'). exact R.
Qed.
Print Assumptions C68_get.
(** From an empty box GetString returns a text about it; everything else panics. *)
Theorem C68_get_none : forall A M size s b, memory_ok A M size (st_mem s) -> box_fine A M size b -> empty s b \/ broken s b ->
  panics (b_GetAny s b) /\ panics (b_GetInt s b) /\ panics (b_GetUint s b) /\ panics (b_GetFloat s b) /\ panics (b_GetBool s b) /\ panics (b_GetBytes s b) /\
  (empty s b -> b_GetString s b = Ok (bs "<invalid Value>")) /\ (broken s b -> panics (b_GetString s b)).
Proof.
  intros A M size s b Hm Hb H.
  assert (P : forall X (f : memory -> rbox -> res X), panics (f (st_mem s) None) -> panics (b_get f s b)).
  { intros X f Hf. destruct H as [H|H]; [rewrite (empty_get A M size) by assumption; exact Hf|eapply broken_get; eauto]. }
  repeat (split; [apply P; pan|]). split; [intros E; unfold b_GetString; rewrite (empty_get A M size) by assumption; reflexivity|].
  intros B. eapply broken_get; eauto.
Qed.
Print Assumptions C68_get_none.
(** Before its first Set a NotInitializedMapContainerReflectionBox panics with its message, also
    when it is indexed; afterwards it is a MapContainerReflectionBox. *)
Theorem C68_not_initialised : forall s i c k,
  let b := BxLater i c k in
  (st_init s i = false ->
    b_GetAny s b = Panic msg_not_init /\ b_GetInt s b = Panic msg_not_init /\ b_GetUint s b = Panic msg_not_init /\ b_GetFloat s b = Panic msg_not_init /\
    b_GetBool s b = Panic msg_not_init /\ b_GetString s b = Panic msg_not_init /\ b_GetBytes s b = Panic msg_not_init /\
    (forall n, b_Index s b n = Panic msg_not_init) /\ (forall j, b_MapIndex s b j = Panic msg_not_init)) /\
  (st_init s i = true ->
    (forall X (f : memory -> rbox -> res X), b_get f s b = b_get f s (BxElem c k)) /\
    (forall n, b_Index s b n = b_Index s (BxElem c k) n) /\ (forall j, b_MapIndex s b j = b_MapIndex s (BxElem c k) j)).
Proof.
  intros s i c k b. unfold b. split; intros I; repeat split; intros; cbn; rewrite I; reflexivity.
Qed.
Print Assumptions C68_not_initialised.

(** ** Writing *)
(** Setting an element of a map, of the type of the value or of type interface{}: the map has the
    value under the key, nothing else changes, and a NotInitialized box is initialised.  Values of
    other types panic. *)
Theorem C68_set : forall A M size s b c k any t x f u v, memory_ok A M size (st_mem s) -> box_fine A M size b ->
  (b = BxElem c k \/ exists i, b = BxLater i c k) -> container_is (st_mem s) c any t (GMap x) -> key_fits any k -> setting A M size f u v ->
  (forall v', accepts t u v v' -> exists s', f s b = Ok s' /\ put (st_mem s) x k (Some v') (st_mem s') /\ flagged s b s' /\ memory_ok A M size (st_mem s')) /\
  ((forall v', ~ accepts t u v v') -> panics (f s b)).
Proof.
  intros A M size s b c k any t x f u v Hm Hb B Hc F S. destruct (setting_elem _ _ _ _ _ _ S) as [T [g ->]].
  assert (Hc' : box_ok A M size c) by (destruct B as [->|[i ->]]; exact Hb).
  assert (Mx : M x = (any, t)).
  { destruct (container_total _ _ _ _ _ Hm Hc') as [N|(any' & t' & x' & H' & D)]; [elim (N _ _ _ Hc)|].
    destruct (container_func _ _ _ _ _ _ _ _ Hc H') as (-> & -> & ->). destruct D as [D|(y & D & My)]; [discriminate|]. injection D as <-. exact My. }
  split.
  - intros v' Ac. pose proof (put_map_put any (st_mem s) x k (Some v') F) as P.
    assert (Hm' : memory_ok A M size (put_map (st_mem s) x k (Some v'))).
    { eapply put_ok; [exact Hm|exact P|]. intros w W. injection W as <-. rewrite Mx. eapply accepts_typed; eauto. }
    destruct B as [->|[i ->]]; cbn [b_set]; rewrite (set_map_dyn _ _ _ _ _ _ _ _ _ Hc F Ac); cbn [bind]; (eexists; split; [reflexivity|]); (split; [exact P|]); (split; [|exact Hm']).
    + intros j. cbn. split; [auto|intros [H|(c' & k' & E)]; [exact H|discriminate]].
    + intros j. cbn. destruct (Nat.eqb_spec j i) as [->|N]; [split; [right; eauto|auto]|]. split; [auto|intros [H|(c' & k' & E)]; [exact H|congruence]].
  - intros N. destruct (set_map_bad (st_mem s) c any t (GMap x) k u v Hc (or_intror (or_introl N))) as [w E].
    destruct B as [->|[i ->]]; cbn [b_set]; rewrite E; pan.
Qed.
Print Assumptions C68_set.
(** SetAny(nil) removes the key. *)
Theorem C68_set_nil : forall A M size s b c k any t x, memory_ok A M size (st_mem s) ->
  (b = BxElem c k \/ exists i, b = BxLater i c k) -> container_is (st_mem s) c any t (GMap x) -> key_fits any k ->
  exists s', b_SetAny GNil s b = Ok s' /\ put (st_mem s) x k None (st_mem s') /\ flagged s b s' /\ memory_ok A M size (st_mem s').
Proof.
  intros A M size s b c k any t x Hm B Hc F. pose proof (put_map_put any (st_mem s) x k None F) as P.
  assert (Hm' : memory_ok A M size (put_map (st_mem s) x k None)) by (eapply put_ok; [exact Hm|exact P|discriminate]).
  assert (E : r_SetMapIndex (st_mem s) c k GNil = Ok (put_map (st_mem s) x k None)).
  { inversion Hc as [any2 t2 p x2 C]; subst. apply content_fetch in C. cbn [r_SetMapIndex]. rewrite C. cbn [bind]. rewrite (proj2 (check_key_fits any KAny (fun _ => None) k) F). reflexivity. }
  unfold b_SetAny. destruct B as [->|[i ->]]; cbn [b_set]; rewrite E; cbn [bind]; (eexists; split; [reflexivity|]); (split; [exact P|]); (split; [|exact Hm']).
  - intros j. cbn. split; [auto|intros [H|(c' & k' & Q)]; [exact H|discriminate]].
  - intros j. cbn. destruct (Nat.eqb_spec j i) as [->|N]; [split; [right; eauto|auto]|]. split; [auto|intros [H|(c' & k' & Q)]; [exact H|congruence]].
Qed.
Print Assumptions C68_set_nil.
(** On a nil map it does nothing but set the flag. *)
Theorem C68_set_nil_map : forall s b c k any t, (b = BxElem c k \/ exists i, b = BxLater i c k) -> container_is (st_mem s) c any t GNilMap -> key_fits any k ->
  exists s', b_SetAny GNil s b = Ok s' /\ st_mem s' = st_mem s /\ flagged s b s'.
Proof.
  intros s b c k any t B Hc F.
  assert (E : r_SetMapIndex (st_mem s) c k GNil = Ok (st_mem s)).
  { inversion Hc as [any2 t2 p x2 C]; subst. apply content_fetch in C. cbn [r_SetMapIndex]. rewrite C. cbn [bind]. rewrite (proj2 (check_key_fits any KAny (fun _ => None) k) F). reflexivity. }
  unfold b_SetAny. destruct B as [->|[i ->]]; cbn [b_set]; rewrite E; cbn [bind]; (eexists; split; [reflexivity|]); (split; [reflexivity|]).
  - intros j. cbn. split; [auto|intros [H|(c' & k' & Q)]; [exact H|discriminate]].
  - intros j. cbn. destruct (Nat.eqb_spec j i) as [->|N]; [split; [right; eauto|auto]|]. split; [auto|intros [H|(c' & k' & Q)]; [exact H|congruence]].
Qed.
Print Assumptions C68_set_nil_map.
(** Everything else panics: containers that are no maps or nil, and keys of other types. *)
Theorem C68_set_none : forall A M size s b c k f u v, memory_ok A M size (st_mem s) -> box_fine A M size b ->
  (b = BxElem c k \/ exists i, b = BxLater i c k) -> setting A M size f u v ->
  (forall any t x, container_is (st_mem s) c any t (GMap x) -> ~ key_fits any k) -> panics (f s b).
Proof.
  intros A M size s b c k f u v Hm Hb B S N. destruct (setting_elem _ _ _ _ _ _ S) as [_ [g ->]].
  assert (Hc : box_ok A M size c) by (destruct B as [->|[i ->]]; exact Hb).
  assert (E : exists w, r_SetMapIndex (st_mem s) c k (GDyn u v) = Panic w).
  { destruct (container_total _ _ _ _ _ Hm Hc) as [K|(any & t & x & H & D)]; [eapply set_map_kind; eauto|].
    destruct D as [->|(y & -> & _)]; [eapply set_map_bad; eauto|]. eapply set_map_bad; [exact H|]. left. eauto. }
  destruct E as [w E]. destruct B as [->|[i ->]]; cbn [b_set]; rewrite E; pan.
Qed.
Print Assumptions C68_set_none.
(** What the boxes hold after the element of a map was set: those for the element hold the new
    value, or are empty, and all others hold what they held. *)
Theorem C68_change : forall s s' x k e, put (st_mem s) x k e (st_mem s') -> (forall j, st_init s j = true -> st_init s' j = true) ->
  (forall c any t v, container_is (st_mem s) c any t (GMap x) -> key_fits any k ->
    (holds s' (BxElem c k) t v <-> e = Some v) /\ (forall i, st_init s' i = true -> (holds s' (BxLater i c k) t v <-> e = Some v)) /\
    (empty s' (BxElem c k) <-> e = None)) /\
  (forall b t v, ~ points (st_mem s) x k b -> (forall i c j, b = BxLater i c j -> st_init s' i = st_init s i) -> (holds s' b t v <-> holds s b t v)).
Proof.
  intros s s' x k e (Ea & Ek & Eo) Hf.
  assert (Ca : forall c any t y, container_is (st_mem s') c any t y <-> container_is (st_mem s) c any t y).
  { intros. split; apply container_arrays; congruence. }
  split.
  - intros c any t v Hc F.
    assert (G : holds s' (BxElem c k) t v <-> e = Some v).
    { split.
      - intros H. inversion H as [|c2 any2 t2 x2 k2 v2 Hc2 F2 E2|]; subst. apply Ca in Hc2. destruct (container_func _ _ _ _ _ _ _ _ Hc Hc2) as (_ & _ & X). injection X as ->. congruence.
      - intros ->. econstructor; [apply Ca; exact Hc|exact F|exact Ek]. }
    split; [exact G|]. split.
    + intros i I. rewrite <- G. split; [intros H; inversion H; subst; assumption|intros H; constructor; assumption].
    + split.
      * intros H. inversion H as [|c2 any2 t2 x2 k2 Hc2 F2 N2|]; subst. apply Ca in Hc2. destruct (container_func _ _ _ _ _ _ _ _ Hc Hc2) as (_ & _ & ->). exact (N2 x eq_refl).
      * intros ->. econstructor; [apply Ca; exact Hc|exact F|]. intros y Y. injection Y as <-. exact Ek.
  - intros b t v N Hi.
    assert (R : forall p y, content (st_mem s') p y <-> content (st_mem s) p y) by (intros; split; apply content_arrays; congruence).
    assert (G : forall c j, ~ points (st_mem s) x k (BxElem c j) -> (holds s' (BxElem c j) t v <-> holds s (BxElem c j) t v)).
    { intros c j Nj. split; intros H; inversion H as [|c2 any2 t2 x2 k2 v2 Hc2 F2 E2|]; subst.
      - apply Ca in Hc2. econstructor; [exact Hc2|exact F2|]. rewrite <- E2. symmetry. apply Eo.
        destruct (Nat.eq_dec x2 x) as [->|]; [|left; assumption]. right. intros ->. apply Nj. econstructor; eauto.
      - econstructor; [apply Ca; exact Hc2|exact F2|]. rewrite Eo; [exact E2|].
        destruct (Nat.eq_dec x2 x) as [->|]; [|left; assumption]. right. intros ->. apply Nj. econstructor; eauto. }
    destruct b as [r|c j|i c j].
    + split; intros H; inversion H; subst; constructor; apply R; assumption.
    + apply G. exact N.
    + specialize (Hi i c j eq_refl). assert (Nj : ~ points (st_mem s) x k (BxElem c j)) by (intros P; apply N; inversion P; subst; constructor; exact P).
      split; intros H; inversion H; subst; constructor; try congruence; apply (G c j Nj); assumption.
Qed.
Print Assumptions C68_change.
(** A ReflectionBox with an address, of the type of the value: the element at the address is
    replaced.  (Other types are the subject of C61.) *)
Theorem C68_set_reflection : forall A M size s f u v a i path, memory_ok A M size (st_mem s) -> setting A M size f u v ->
  let b := BxRefl (Some (u, PRef a i path)) in box_fine A M size b ->
  exists s', f s b = Ok s' /\ changed (st_mem s) a i path v (st_mem s') /\ st_init s' = st_init s /\ memory_ok A M size (st_mem s') /\ holds s' b u v.
Proof.
  intros A M size s f u v a i path Hm S b Hb. destruct (C61_set A M size (st_mem s) u a i path Hm Hb) as (SI & SU & SF & SB & SS & SY & _ & SA).
  assert (G : forall g x, (exists m', g (st_mem s) (Some (u, PRef a i path)) = Ok m' /\ changed (st_mem s) a i path v m' /\ memory_ok A M size m') ->
    exists s', b_set g x s b = Ok s' /\ changed (st_mem s) a i path v (st_mem s') /\ st_init s' = st_init s /\ memory_ok A M size (st_mem s') /\ holds s' b u v).
  { intros g x (m' & E & C & Hm'). exists (mkSt m' (st_init s)). cbn [b_set b]. rewrite E. repeat (split; [reflexivity || assumption|]). constructor. eapply changed_same; eauto. }
  destruct S; apply G.
  - exact (proj1 (proj2 (SA t v ltac:(assumption))) eq_refl).
  - destruct (proj1 (SI z) 64 ltac:(constructor)) as (r & [Hr Hd] & m' & E & C & Hm'). assert (r = z).
    { unfold in_width in *. apply Z.mod_divide in Hd; [|lia]. destruct Hd as [q Hq]. lia. } subst r. eauto.
  - destruct (proj1 (SU z) 64 ltac:(constructor)) as (r & [Hr Hd] & m' & E & C & Hm'). assert (r = z).
    { unfold in_uwidth in *. apply Z.mod_divide in Hd; [|lia]. destruct Hd as [q Hq]. lia. } subst r. eauto.
  - exact (SF z).
  - exact (SB z).
  - exact (SS z ltac:(assumption)).
  - exact (proj1 (SY x ltac:(assumption)) eq_refl).
Qed.
Print Assumptions C68_set_reflection.
(** A ReflectionBox never changes a map or a flag. *)
Theorem C68_reflection : forall A M size s r f u v s', setting A M size f u v -> f s (BxRefl r) = Ok s' ->
  maps (st_mem s') = maps (st_mem s) /\ st_init s' = st_init s.
Proof.
  assert (W : forall m p x m', write m p x = Ok m' -> maps m' = maps m).
  { intros m [y|a i path] x m' E; cbn in E; [discriminate|]. destruct (nth_error (arrays m a) i); [|discriminate]. injection E as <-. reflexivity. }
  intros A M size s r f u v s' S E.
  assert (G : exists g y, f = b_set g y /\ forall m m', g m r = Ok m' -> maps m' = maps m).
  { destruct S; eexists; eexists; (split; [reflexivity|]); intros m m' G; (destruct r as [[t0 [y|a i path]]|]; cbn [r_SetAny r_SetInt r_SetUint r_SetFloat r_SetBool r_SetString r_SetBytes addressed] in G; try discriminate).
    - destruct (gty_eqb t0 YIface); [eapply W; exact G|]. destruct (gty_eqb t0 t); [eapply W; exact G|discriminate].
    - destruct t0; try discriminate; eapply W; exact G.
    - destruct t0; try discriminate; eapply W; exact G.
    - destruct t0; try discriminate; eapply W; exact G.
    - destruct t0; try discriminate; eapply W; exact G.
    - destruct t0; try discriminate; eapply W; exact G.
    - destruct t0; try discriminate. destruct t0; try discriminate. destruct (w =? 8); [eapply W; exact G|discriminate]. }
  destruct G as (g & y & -> & G). cbn [b_set] in E. destruct (g (st_mem s) r) as [m'| |] eqn:Eg; cbn in E; try discriminate. injection E as <-. cbn. split; [eapply G; eauto|reflexivity].
Qed.
Print Assumptions C68_reflection.

(** ** Index and MapIndex *)
(** Of a MapContainerReflectionBox, MapIndex and ComplexMapIndex give the box for another key of
    the same container, without looking at the element, and Index gives the empty box. *)
Theorem C68_index : forall s c k,
  (forall j, b_MapIndex s (BxElem c k) j = Ok (BxElem c j)) /\ (forall n, exists b, b_Index s (BxElem c k) n = Ok b /\ empty s b).
Proof. intros s c k. split; [reflexivity|]. intros n. exists (BxRefl None). split; [reflexivity|constructor]. Qed.
Print Assumptions C68_index.

(** ** A map of maps, a map of slices and a map of int8 *)
Definition bx_A (a : nat) : gty := YUint 8.
Definition bx_size (a : nat) : nat := match a with O => 2%nat | _ => O end.
Definition bx_M (x : nat) : bool * gty :=
  match x with O => (false, YMap false (YInt 8)) | 1%nat => (false, YInt 8) | 2%nat => (true, YSlice (YUint 8)) | _ => (false, YIface) end.
Definition bx_mem : memory := mkMem
  (fun a => match a with O => [GUint 65; GUint 66] | _ => [] end)
  (fun x k => match x, k with
              | O, KeyS s => if String.eqb s "n" then Some (GMap 1) else None
              | 1%nat, KeyS s => if String.eqb s "n" then Some (GInt 7) else None
              | 2%nat, KeyI z => if z =? 5 then Some (GSlice 0 0 2 2) else None
              | _, _ => None
              end).
Definition bx_state : state := mkSt bx_mem (fun _ => false).
Lemma bx_mem_ok : memory_ok bx_A bx_M bx_size bx_mem.
Proof.
  split.
  - intros [|a]; cbn; (split; [reflexivity|]); repeat (constructor; try (unfold is_width, in_uwidth; lia)).
  - intros x k v H. destruct x as [|[|[|x]]]; cbn in H; destruct k; try discriminate.
    + destruct (String.eqb s "n"); [injection H as <-; constructor; reflexivity|discriminate].
    + destruct (String.eqb s "n"); [injection H as <-; constructor; unfold is_width, in_width; lia|discriminate].
    + destruct (z =? 5); [injection H as <-; constructor; cbn; [reflexivity|lia|lia]|discriminate].
Qed.
Definition c_maps : rbox := Some (YMap false (YMap false (YInt 8)), PVal (GMap 0)).
Definition c_ints : rbox := Some (YMap false (YInt 8), PVal (GMap 1)).
Definition c_slices : rbox := Some (YMap true (YSlice (YUint 8)), PVal (GMap 2)).
Definition c_any : rbox := Some (YMap false YIface, PVal (GMap 3)).
(** The interface says that MapIndex gives the element associated to the key.  The element of the
    box's own value it is not: GetAny gives a map that has 7 under the key, but the box given by
    MapIndex holds something else. *)
Theorem C68_map_index_refuted : exists s b k t v e e', b_GetAny s b = Ok (GDyn t v) /\
  b_MapIndex s (BxRefl (Some (t, PVal v))) k = Ok e /\ b_GetInt s e = Ok 7 /\
  b_MapIndex s b k = Ok e' /\ panics (b_GetInt s e').
Proof.
  exists bx_state, (BxElem c_maps (KeyS "n")), (KeyS "n"). do 4 eexists. split; [vm_compute; reflexivity|]. split; [vm_compute; reflexivity|].
  split; [vm_compute; reflexivity|]. split; [reflexivity|]. eexists. vm_compute. reflexivity.
Qed.
Print Assumptions C68_map_index_refuted.
(** Nor does Index give an element of the box's own value. *)
Theorem C68_index_refuted : exists s b t v e e', b_GetAny s b = Ok (GDyn t v) /\
  b_Index s (BxRefl (Some (t, PVal v))) 1 = Ok e /\ b_GetUint s e = Ok 66 /\
  b_Index s b 1 = Ok e' /\ panics (b_GetUint s e').
Proof.
  exists bx_state, (BxElem c_slices (KeyI 5)). do 4 eexists. split; [vm_compute; reflexivity|]. split; [vm_compute; reflexivity|].
  split; [vm_compute; reflexivity|]. split; [reflexivity|]. eexists. vm_compute. reflexivity.
Qed.
Print Assumptions C68_index_refuted.
(** SetInt of an element of type int8 panics, though GetInt reads it and a ReflectionBox of that
    type can be set. *)
Theorem C68_set_int_refuted : exists A M size s b, memory_ok A M size (st_mem s) /\ box_fine A M size b /\
  holds s b (YInt 8) (GInt 7) /\ b_GetInt s b = Ok 7 /\ panics (b_SetInt 8 s b) /\
  forall m a i path, memory_ok A M size m -> box_ok A M size (Some (YInt 8, PRef a i path)) ->
    exists s', b_SetInt 8 (mkSt m (st_init s)) (BxRefl (Some (YInt 8, PRef a i path))) = Ok s'.
Proof.
  exists bx_A, bx_M, bx_size, bx_state, (BxElem c_ints (KeyS "n")). split; [exact bx_mem_ok|]. split; [constructor; reflexivity|].
  split; [econstructor; [constructor; constructor|exact I|reflexivity]|]. split; [vm_compute; reflexivity|]. split; [eexists; vm_compute; reflexivity|].
  intros m a i path Hm Hb. destruct (C61_set _ _ _ _ _ _ _ _ Hm Hb) as [S _]. destruct (proj1 (S 8) 8 ltac:(constructor)) as (r & _ & m' & E & _).
  unfold b_SetInt. cbn [b_set st_mem]. rewrite E. eexists. reflexivity.
Qed.
Print Assumptions C68_set_int_refuted.
(** A box set through another one with the same key; the third kind is initialised by its own Set. *)
Example C68_nil_map : exists s', b_SetAny GNil bx_state (BxLater 0 (Some (YMap false (YInt 8), PVal GNilMap)) (KeyS "a")) = Ok s' /\ st_init s' 0 = true /\
  container_is bx_mem (Some (YMap false (YInt 8), PVal GNilMap)) false (YInt 8) GNilMap /\ key_fits false (KeyS "a") /\
  panics (b_SetInt 5 bx_state (BxLater 0 (Some (YMap false (YInt 8), PVal GNilMap)) (KeyS "a"))).
Proof. eexists. split; [reflexivity|]. split; [reflexivity|]. split; [repeat constructor|]. split; [|eexists; vm_compute; reflexivity]. cbn. eauto. Qed.
Example C68_shared : exists s1 s2,
  b_SetInt 5 bx_state (BxElem c_any (KeyS "a")) = Ok s1 /\ setting bx_A bx_M bx_size (b_SetInt 5) (YInt 64) (GInt 5) /\ accepts YIface (YInt 64) (GInt 5) (GDyn (YInt 64) (GInt 5)) /\
  container_is bx_mem c_any false YIface (GMap 3) /\ box_fine bx_A bx_M bx_size (BxElem c_any (KeyS "a")) /\
  b_GetAny s1 (BxLater 0 c_any (KeyS "a")) = Panic msg_not_init /\
  b_SetString (bs "x") s1 (BxLater 0 c_any (KeyS "a")) = Ok s2 /\ b_GetAny s2 (BxElem c_any (KeyS "a")) = Ok (GDyn YString (GStr (bs "x"))) /\
  holds s2 (BxLater 0 c_any (KeyS "a")) YIface (GDyn YString (GStr (bs "x"))) /\ empty s2 (BxElem c_any (KeyS "b")) /\ broken s2 (BxElem c_any (KeyI 1)).
Proof.
  eexists. eexists. split; [reflexivity|]. split; [constructor; unfold in_width; lia|]. split; [constructor|]. split; [constructor; constructor|]. split; [constructor; reflexivity|].
  split; [reflexivity|]. split; [reflexivity|]. split; [vm_compute; reflexivity|]. split; [constructor; [reflexivity|]; eapply hd_elem; [constructor; constructor|exact I|reflexivity]|].
  split; [eapply em_elem; [constructor; constructor|exact I|]; intros y Y; injection Y as <-; reflexivity|]. eapply br_key; [constructor; constructor|]. cbn. discriminate.
Qed.
