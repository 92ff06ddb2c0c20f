(** C46: boxes read back what was written. *)
From Verif Require Import L_Box.
Notation keys s := (fun i => n_key (s_box s i)).

(** After any history of operations through any boxes on the container, GetAny returns
    the last value set for its key; it panics when that value was nil (which deletes
    the key). *)
Theorem C46_get_any : forall s l k v, last_set (k_any (s_map s)) (k_ety (s_map s)) (keys s) k l v ->
  (v <> DNil -> map_get (s_map (bop_run s l)) k KAny = Ok v) /\
  (v = DNil -> exists w, map_get (s_map (bop_run s l)) k KAny = Panic w).
Proof.
  intros s l k v H. destruct (last_set_spec _ _ _ _ H) as [E K]. unfold map_get, map_index.
  destruct (rel_run s l) as [[R1 R2] _].
  replace (check_key (s_map (bop_run s l)) k) with (@None string) by (symmetry; apply check_key_spec; rewrite R1; auto).
  rewrite E. split; [intros N; destruct v; try reflexivity; congruence|intros ->; simpl; eauto].
Qed.
Print Assumptions C46_get_any.

(** The accessor of the container's element type reads the last value as well. *)
Theorem C46_get_typed : forall s l k v, last_set (k_any (s_map s)) (k_ety (s_map s)) (keys s) k l v -> v <> DNil -> k_ety (s_map s) <> KAny ->
  map_get (s_map (bop_run s l)) k (k_ety (s_map s)) = Ok v.
Proof.
  intros s l k v H N T. destruct (last_set_spec _ _ _ _ H) as [E K]. unfold map_get, map_index.
  destruct (rel_run s l) as [[R1 R2] _].
  replace (check_key (s_map (bop_run s l)) k) with (@None string) by (symmetry; apply check_key_spec; rewrite R1; auto).
  rewrite E, R2. destruct v; try congruence; destruct (k_ety (s_map s)); try reflexivity; congruence.
Qed.
Print Assumptions C46_get_typed.

(** An accessor of another type does not: GetString returns a text that names the element
    type of the container, the others panic. *)
Definition type_names : list (ety * string) :=
  [(KInt, "int64"); (KUint, "uint64"); (KFloat, "float64"); (KBool, "bool"); (KBytes, "[]uint8"); (KAny, "interface {}")]%string.
Theorem C46_other_accessor : forall s l k v a name, last_set (k_any (s_map s)) (k_ety (s_map s)) (keys s) k l v -> v <> DNil ->
  In (k_ety (s_map s), name) type_names \/ k_ety (s_map s) = KStr -> a <> k_ety (s_map s) -> a <> KAny ->
  (a = KStr -> map_get (s_map (bop_run s l)) k a = Ok (DStr (bs "<" ++ bs name ++ bs " Value>"))) /\
  (a <> KStr -> exists w, map_get (s_map (bop_run s l)) k a = Panic w).
Proof.
  intros s l k v a name H N T Na Ny. destruct (last_set_spec _ _ _ _ H) as [E K]. unfold map_get, map_index.
  destruct (rel_run s l) as [[R1 R2] _].
  replace (check_key (s_map (bop_run s l)) k) with (@None string) by (symmetry; apply check_key_spec; rewrite R1; auto).
  rewrite E, R2. split; intros A.
  - subst a. destruct T as [T|T]; [|congruence]. unfold type_names in T. cbn [In] in T.
    destruct v; try congruence; decompose [or] T; try contradiction; match goal with G : (_, _) = (_, _) |- _ => injection G as <- <- end; reflexivity.
  - destruct v; try congruence; destruct a, (k_ety (s_map s)); try congruence; eexists; reflexivity.
Qed.
Print Assumptions C46_other_accessor.

(** Keys that were not set keep what they had. *)
Theorem C46_other_keys : forall s l k, never_set (k_any (s_map s)) (k_ety (s_map s)) (keys s) k l ->
  forall a, map_get (s_map (bop_run s l)) k a = map_get (s_map s) k a.
Proof.
  intros s l k H a. unfold map_get, map_index. rewrite (never_set_spec _ _ _ H). destruct (rel_run s l) as [[R1 R2] _]. rewrite R2.
  unfold check_key. rewrite R1. reflexivity.
Qed.
Print Assumptions C46_other_keys.

(** A NotInitialized box, fresh at the beginning, panics with its message exactly when
    nothing has been set through it; otherwise it reads like the other boxes. *)
Theorem C46_not_initialised : forall s l i a, n_init (s_box s i) = false ->
  let s' := bop_run s l in
  (~ initialised (k_any (s_map s)) (k_ety (s_map s)) (keys s) i l -> n_get (s_map s') (s_box s' i) a = Panic msg_not_init) /\
  (initialised (k_any (s_map s)) (k_ety (s_map s)) (keys s) i l -> n_get (s_map s') (s_box s' i) a = map_get (s_map s') (n_key (s_box s i)) a).
Proof.
  intros s l i a F s'. pose proof (init_spec s l i) as H. destruct (rel_run s l) as [_ R]. unfold n_get. unfold s'. rewrite R.
  destruct (n_init (s_box (bop_run s l) i)).
  - split; auto. intros N. destruct (proj1 H eq_refl); [congruence|tauto].
  - split; auto. intros I. discriminate (proj2 H (or_intror I)).
Qed.
Print Assumptions C46_not_initialised.

(** On a map[string]interface{} the typed accessors do not read back what was set:
    GetInt panics and GetString returns another text. *)
Definition any_map : container := mkMap false KAny (fun _ => None).
Definition s_any : bstate := mkB any_map (fun _ => mkNbox (KeyS "y") false).
Theorem C46_interface_map_refuted : exists s k,
  (exists w, map_get (s_map (bop_run s [OSet (BMap k) (DInt 5)])) k KInt = Panic w) /\
  map_get (s_map (bop_run s [OSet (BMap k) (DStr (bs "abc"))])) k KStr = Ok (DStr (bs "<interface {} Value>")).
Proof. exists s_any, (KeyS "x"). split; [eexists|]; vm_compute; reflexivity. Qed.
Print Assumptions C46_interface_map_refuted.

(** SetAny(nil) initialises the box, but the next GetAny panics, not with the message. *)
Theorem C46_nil_refuted : exists s i, n_init (s_box s i) = false /\
  let s' := bop_run s [OSet (BNot i) DNil] in
  exists w, n_get (s_map s') (s_box s' i) KAny = Panic w /\ w <> msg_not_init.
Proof. exists s_any, 0%nat. split; [reflexivity|]. eexists. split; [vm_compute; reflexivity|discriminate]. Qed.
Print Assumptions C46_nil_refuted.

(** A history over two boxes with the same key, a second key and a read. *)
Example C46_history : let l := [OSet (BMap (KeyS "y")) (DInt 1); OSet (BNot 0) (DInt 2); OGet (BNot 0) KAny; OSet (BMap (KeyS "z")) (DInt 3)] in
  last_set false KAny (keys s_any) (KeyS "y") l (DInt 2) /\ initialised false KAny (keys s_any) 0 l /\ never_set false KAny (keys s_any) (KeyS "w") l /\
  map_get (s_map (bop_run s_any l)) (KeyS "y") KAny = Ok (DInt 2).
Proof.
  split; [|split; [|split]].
  - apply (ls_other _ _ _ _ [_; _; _]); [left; discriminate|]. apply (ls_get _ _ _ _ [_; _]). apply (ls_here _ _ _ _ [_]); simpl; auto. right. auto.
  - exists (DInt 2). simpl. repeat split; auto. right. auto.
  - intros b v Hin. simpl in Hin. decompose [or] Hin; try tauto; try discriminate; match goal with H : OSet _ _ = _ |- _ => inversion H; subst end; discriminate.
  - vm_compute. reflexivity.
Qed.
