(** C61: ReflectionBox, base/box.go:53-150. *)
From Verif Require Import S_Refl L_Refl.

Definition panics {X : Type} (r : res X) : Prop := exists why, r = Panic why.
Ltac pan := eexists; reflexivity.

(** ** Reading *)
(** A box stands for one value, of the type of the box.  Each getter returns that value if the
    type is its own and panics otherwise, except that GetString describes the type. *)
Theorem C61_get : forall A M size m t p, memory_ok A M size m -> box_ok A M size (Some (t, p)) ->
  let b := Some (t, p) in
  exists v, content m p v /\ (forall v', content m p v' -> v' = v) /\ typed A M size t v /\
    r_GetAny m b = Ok (match t with YIface => v | _ => GDyn t v end) /\
    (match v with GInt z => r_GetInt m b = Ok z | _ => panics (r_GetInt m b) end) /\
    (match v with GUint z => r_GetUint m b = Ok z | _ => panics (r_GetUint m b) end) /\
    (match v with GFloat z => r_GetFloat m b = Ok z | _ => panics (r_GetFloat m b) end) /\
    (match v with GBool z => r_GetBool m b = Ok z | _ => panics (r_GetBool m b) end) /\
    (match v with GStr s => r_GetString m b = Ok s | _ => forall s, sane t -> type_name t s -> r_GetString m b = Ok (bs "<" ++ s ++ bs " Value>") end) /\
    ((t = YSlice (YUint 8) -> r_GetBytes m b = Ok v) /\ (t <> YSlice (YUint 8) -> panics (r_GetBytes m b))).
Proof.
  intros A M size m t p Hm Hb. destruct (box_content A M size m t p Hm Hb) as (v & C & T). exists v. split; [exact C|].
  split; [intros v' C'; eapply content_func; eauto|]. split; [exact T|]. apply content_fetch in C. clear Hb.
  assert (G : forall s, sane t -> type_name t s -> s = gty_text t)
    by (intros s Hs Hn; exact (name_func _ _ _ Hn (gty_name _ Hs))).
  destruct t; inversion T; subst; cbn; rewrite ?C; cbn; repeat split; try reflexivity; try pan; try congruence; try (intros _; pan);
    try (intros s Hs Hn; rewrite (G s Hs Hn); reflexivity).
  - intros E. injection E as ->. cbn. rewrite ?C. reflexivity.
  - intros N. destruct (A a) eqn:EA; try pan. destruct (Z.eqb_spec w 8) as [->|]; [congruence|pan].
Qed.
Print Assumptions C61_get.
(** Every type has one name, e.g. map[string][12]uint8. *)
Theorem C61_type_names : forall t, sane t -> exists s, type_name t s /\ forall s', type_name t s' -> s' = s.
Proof. intros t H. exists (gty_text t). split; [exact (gty_name t H)|]. intros s' H'. exact (name_func _ _ _ H' (gty_name t H)). Qed.
Print Assumptions C61_type_names.
Example C61_a_name : type_name (YMap false (YArray 12 (YUint 8))) (bs "map[string][12]uint8").
Proof.
  apply (tn_map false _ (bs "[12]uint8")), (tn_array 12 _ (bs "12") (bs "uint8")).
  - apply (dc_more [49] 1 2); [apply (dc_one 1)| |]; lia.
  - apply (tn_uint 8 [56]), (dc_one 8). lia.
Qed.
(** The zero box *)
Theorem C61_get_zero : forall m,
  panics (r_GetAny m None) /\ panics (r_GetInt m None) /\ panics (r_GetUint m None) /\ panics (r_GetFloat m None) /\
  panics (r_GetBool m None) /\ panics (r_GetBytes m None) /\ r_GetString m None = Ok (bs "<invalid Value>").
Proof. intros m. repeat split; pan. Qed.
Print Assumptions C61_get_zero.

(** ** Writing *)
(** Boxes without an address cannot be written. *)
Theorem C61_unaddressed : forall m b, (forall t a i path, b <> Some (t, PRef a i path)) ->
  (forall x, panics (r_SetAny m b x)) /\ (forall z, panics (r_SetInt m b z)) /\ (forall z, panics (r_SetUint m b z)) /\
  (forall z, panics (r_SetFloat m b z)) /\ (forall z, panics (r_SetBool m b z)) /\ (forall s, panics (r_SetString m b s)) /\
  (forall s, panics (r_SetBytes m b s)).
Proof. intros m [[t [v|a i path]]|] N; [|elim (N t a i path); reflexivity|]; repeat split; intros; pan. Qed.
Print Assumptions C61_unaddressed.
(** A setter of the right type replaces the element at the address, changes nothing else and keeps
    the memory well-typed; integers are reduced to the width of the type.  Otherwise it
    panics. *)
Theorem C61_set : forall A M size m t a i path, memory_ok A M size m -> box_ok A M size (Some (t, PRef a i path)) ->
  let b := Some (t, PRef a i path) in
  let stores r x := exists m', r = Ok m' /\ changed m a i path x m' /\ memory_ok A M size m' in
  (forall z, (forall w, int_width t w -> exists r, as_int w z r /\ stores (r_SetInt m b z) (GInt r)) /\ ((forall w, ~ int_width t w) -> panics (r_SetInt m b z))) /\
  (forall z, (forall w, uint_width t w -> exists r, as_uint w z r /\ stores (r_SetUint m b z) (GUint r)) /\ ((forall w, ~ uint_width t w) -> panics (r_SetUint m b z))) /\
  (forall z, match t with YFloat => stores (r_SetFloat m b z) (GFloat z) | _ => panics (r_SetFloat m b z) end) /\
  (forall z, match t with YBool => stores (r_SetBool m b z) (GBool z) | _ => panics (r_SetBool m b z) end) /\
  (forall s, Forall is_byte s -> match t with YString => stores (r_SetString m b s) (GStr s) | _ => panics (r_SetString m b s) end) /\
  (forall x, typed A M size (YSlice (YUint 8)) x ->
    (t = YSlice (YUint 8) -> stores (r_SetBytes m b x) x) /\ (t <> YSlice (YUint 8) -> panics (r_SetBytes m b x))) /\
  (panics (r_SetAny m b GNil)) /\
  (forall s v, typed A M size YIface (GDyn s v) ->
    (t = YIface -> stores (r_SetAny m b (GDyn s v)) (GDyn s v)) /\
    (t = s -> stores (r_SetAny m b (GDyn s v)) v) /\
    (t <> YIface -> t <> s -> panics (r_SetAny m b (GDyn s v)))).
Proof.
  intros A M size m t a i path Hm Hb b stores.
  assert (W : forall x, typed A M size t x -> stores (write m (PRef a i path) x) x).
  { intros x Tx. unfold stores. eapply write_changed; eauto. }
  destruct (box_content A M size m t _ Hm Hb) as (v0 & _ & T0). unfold b in *. clear b.
  assert (W64 : is_width 64) by (right; right; right; reflexivity).
  repeat split.
  - intros w I. exists (wrap_s w z). inversion I; subst; inversion T0; subst; pose proof (wrap_s_ok _ z ltac:(eassumption)) as X; (split; [exact X|]); apply W; constructor; try assumption; apply X.
  - intros N. destruct t; try pan; [elim (N w)|elim (N 64)]; constructor.
  - intros w I. exists (wrap_u w z). inversion I; subst; inversion T0; subst; pose proof (wrap_u_ok _ z ltac:(eassumption)) as X; (split; [exact X|]); apply W; constructor; try assumption; apply X.
  - intros N. destruct t; try pan; [elim (N w)|elim (N 64)]; constructor.
  - intros z. destruct t; try pan. apply W. constructor.
  - intros z. destruct t; try pan. apply W. constructor.
  - intros s Hs. destruct t; try pan. apply W. constructor. exact Hs.
  - intros ->. cbn. apply W. assumption.
  - intros N. destruct t; try pan. cbn. destruct t; try pan. destruct (Z.eqb_spec w 8) as [->|]; [congruence|pan].
  - pan.
  - intros ->. cbn. apply W. assumption.
  - intros ->. match goal with H : typed _ _ _ YIface _ |- _ => inversion H as [| | | | | |s' v' Ns Tv| | | | | | |]; subst end. cbn.
    destruct (gty_eqb s YIface) eqn:E; [apply gty_eqb_spec in E; congruence|]. assert (E' : gty_eqb s s = true) by (apply gty_eqb_spec; reflexivity). rewrite E'. apply W. assumption.
  - intros N1 N2. cbn. destruct (gty_eqb t YIface) eqn:E; [apply gty_eqb_spec in E; congruence|]. destruct (gty_eqb t s) eqn:E'; [apply gty_eqb_spec in E'; congruence|]. pan.
Qed.
Print Assumptions C61_set.
(** What the other boxes stand for after a change: the same box for the new element, boxes inside
    of it for parts of the new element, boxes around it for the old value with the element replaced;
    boxes elsewhere and copies are unaffected. *)
Theorem C61_change : forall m a i path x m', changed m a i path x m' ->
  content m' (PRef a i path) x /\
  (forall r y, content m' (PRef a i (path ++ r)) y <-> part x r y) /\
  (forall p r u, path = p ++ r -> content m (PRef a i p) u -> exists u', replaced u r x u' /\ content m' (PRef a i p) u') /\
  (forall b j q y, apart a i path b j q -> (content m' (PRef b j q) y <-> content m (PRef b j q) y)) /\
  (forall v y, content m' (PVal v) y <-> y = v).
Proof.
  intros m a i path x m' H. split; [eapply changed_same; eauto|]. split; [intros; eapply changed_inner; eauto|].
  split; [intros p r u -> C; eapply changed_outer; eauto|]. split; [intros; eapply changed_apart; eauto|].
  intros v y. split; [intros C; inversion C; reflexivity|intros ->; constructor].
Qed.
Print Assumptions C61_change.
(** In particular, what was set is read back, through the box itself and through every other box with
    the same address: for integers the reduced one, which is the integer given if it fits. *)
Theorem C61_set_get : forall A M size m t w a i path z, memory_ok A M size m -> int_width t w ->
  let b := Some (t, PRef a i path) in box_ok A M size b ->
  exists m' r, r_SetInt m b z = Ok m' /\ r_GetInt m' b = Ok r /\ (r = z <-> in_width w z).
Proof.
  intros A M size m t w a i path z Hm I b Hb. destruct (C61_set _ _ _ _ _ _ _ _ Hm Hb) as [S _]. destruct (proj1 (S z) w I) as (r & [Hr Hmod] & m' & E & C & Hm').
  exists m', r. split; [exact E|]. split.
  - destruct (C61_get _ _ _ _ _ _ Hm' Hb) as (v & Cv & U & _ & _ & G & _). rewrite <- (U _ (changed_same _ _ _ _ _ _ C)) in G. exact G.
  - destruct (box_content _ _ _ _ _ _ Hm Hb) as (v0 & _ & T0). assert (Hw : is_width w) by (destruct I; [inversion T0; assumption|right; right; right; reflexivity]).
    split; [intros <-; exact Hr|intros Hz]. unfold in_width in *. apply Z.mod_divide in Hmod; [|apply Z.pow_nonzero; unfold is_width in Hw; lia]. destruct Hmod as [k Hk].
    assert (E2 : 2 ^ w = 2 * 2 ^ (w - 1)) by (replace w with (1 + (w - 1)) at 1 by lia; rewrite Z.pow_add_r by (unfold is_width in Hw; lia); reflexivity).
    set (h := 2 ^ (w - 1)) in *. rewrite E2 in Hk. assert (0 < h) by lia. assert (k = 0) by nia. subst k. lia.
Qed.
Print Assumptions C61_set_get.

(** ** Index *)
(** An index in range gives a box for that element, with an address if it is an element of
    a slice or of an array with an address; anything else panics. *)
Theorem C61_index : forall A M size m t p k, memory_ok A M size m -> box_ok A M size (Some (t, p)) ->
  let b := Some (t, p) in
  exists v, content m p v /\
  match v with
  | GArray l =>
      (0 <= k < Z.of_nat (length l) -> exists u q e, t = YArray (length l) u /\ r_Index m b k = Ok (Some (u, q)) /\ box_ok A M size (Some (u, q)) /\
         nth_error l (Z.to_nat k) = Some e /\ content m q e /\
         match p with PRef a i path => q = PRef a i (path ++ [Z.to_nat k]) | PVal _ => q = PVal e end) /\
      (~ 0 <= k < Z.of_nat (length l) -> panics (r_Index m b k))
  | GSlice a off len _ =>
      (0 <= k < Z.of_nat len -> exists u, t = YSlice u /\ r_Index m b k = Ok (Some (u, PRef a (off + Z.to_nat k) [])) /\
         box_ok A M size (Some (u, PRef a (off + Z.to_nat k) []))) /\
      (~ 0 <= k < Z.of_nat len -> panics (r_Index m b k))
  | GStr s =>
      (0 <= k < Z.of_nat (length s) -> exists c, nth_error s (Z.to_nat k) = Some c /\ r_Index m b k = Ok (Some (YUint 8, PVal (GUint c))) /\
         box_ok A M size (Some (YUint 8, PVal (GUint c)))) /\
      (~ 0 <= k < Z.of_nat (length s) -> panics (r_Index m b k))
  | _ => panics (r_Index m b k)
  end.
Proof.
  intros A M size m t p k Hm Hb b. destruct (box_content A M size m t p Hm Hb) as (v & C & T). exists v. split; [exact C|]. pose proof C as F. apply content_fetch in F. unfold b. clear b.
  assert (B : forall n, ((0 <=? k) && (k <? Z.of_nat n) = true <-> 0 <= k < Z.of_nat n)) by (intros n; rewrite andb_true_iff, Z.leb_le, Z.ltb_lt; reflexivity).
  inversion T; subst; try (cbn; pan).
  - (* strings *) cbn. rewrite F. cbn. split; intros K.
    + destruct (nth_error s (Z.to_nat k)) as [c|] eqn:E; [|apply nth_error_None in E; lia]. exists c. split; [reflexivity|].
      replace ((0 <=? k) && (k <? Z.of_nat (length s))) with true by (symmetry; apply B; exact K). rewrite (nth_error_nth _ _ _ E). split; [reflexivity|].
      constructor; [left; reflexivity|]. match goal with H : Forall is_byte s |- _ => rewrite Forall_forall in H; specialize (H c (nth_error_In _ _ E)) end. unfold is_byte, in_uwidth in *. lia.
    + replace ((0 <=? k) && (k <? Z.of_nat (length s))) with false by (symmetry; apply not_true_is_false; rewrite B; exact K). pan.
  - (* slices *) cbn. rewrite F. cbn. split; intros K.
    + exists (A a). split; [reflexivity|]. replace ((0 <=? k) && (k <? Z.of_nat len)) with true by (symmetry; apply B; exact K). split; [reflexivity|]. split; [lia|constructor].
    + replace ((0 <=? k) && (k <? Z.of_nat len)) with false by (symmetry; apply not_true_is_false; rewrite B; exact K). pan.
  - (* arrays *) cbn. split; intros K.
    + replace ((0 <=? k) && (k <? Z.of_nat (length l))) with true by (symmetry; apply B; exact K).
      destruct (nth_error l (Z.to_nat k)) as [e|] eqn:E; [|apply nth_error_None in E; lia].
      assert (Te : typed A M size t0 e).
      { match goal with H : all_typed _ _ _ _ _ |- _ => apply all_typed_spec in H; rewrite Forall_forall in H; apply H end. eapply nth_error_In; eauto. }
      destruct p as [v|a i path].
      * inversion C; subst. cbn. rewrite E. exists t0, (PVal e), e. repeat split; auto. constructor.
      * exists t0, (PRef a i (path ++ [Z.to_nat k])), e. split; [reflexivity|]. split; [reflexivity|]. split.
        { destruct Hb as [Hi I]. split; [exact Hi|]. clear -I K. remember (YArray (length l) t0) as y. induction I as [y|n t i' path u Hi I IH]; subst; cbn; [|constructor; auto].
          constructor; [lia|constructor]. }
        split; [reflexivity|]. split; [|reflexivity]. inversion C as [|? ? ? u ? N P]; subst. econstructor; [exact N|]. apply part_app. exists (GArray l). split; [exact P|]. econstructor; [exact E|constructor].
    + replace ((0 <=? k) && (k <? Z.of_nat (length l))) with false by (symmetry; apply not_true_is_false; rewrite B; exact K). pan.
Qed.
Print Assumptions C61_index.
Theorem C61_index_zero : forall m k, panics (r_Index m None k).
Proof. intros. pan. Qed.

(** ** MapIndex and ComplexMapIndex *)
(** A key of the right type gives a box for a copy of the element, or the zero box if there is
    none; anything else panics. *)
Theorem C61_map_index : forall A M size m t p k, memory_ok A M size m -> box_ok A M size (Some (t, p)) ->
  let b := Some (t, p) in
  exists v, content m p v /\
  match v with
  | GMap x => exists anykey u, t = YMap anykey u /\
      (key_fits anykey k -> match maps m x k with
         | Some e => r_MapIndex m b k = Ok (Some (u, PVal e)) /\ box_ok A M size (Some (u, PVal e))
         | None => r_MapIndex m b k = Ok None end) /\
      (~ key_fits anykey k -> panics (r_MapIndex m b k))
  | GNilMap => exists anykey u, t = YMap anykey u /\ (key_fits anykey k -> r_MapIndex m b k = Ok None) /\ (~ key_fits anykey k -> panics (r_MapIndex m b k))
  | _ => panics (r_MapIndex m b k)
  end.
Proof.
  intros A M size m t p k Hm Hb b. destruct (box_content A M size m t p Hm Hb) as (v & C & T). exists v. split; [exact C|]. pose proof C as F. apply content_fetch in F. unfold b. clear b.
  inversion T; subst; try (cbn; pan).
  { match goal with H : M _ = (?a, ?b) |- _ => exists a, b; pose proof (proj2 Hm m0 k) as Hk; rewrite H in Hk end. split; [reflexivity|]. cbn [r_MapIndex]. rewrite F. cbn [bind]. cbn [snd] in Hk.
  destruct k as [s|n|]; cbn.
  - split; [intros _|intros N; elim N; exact I]. destruct (maps m m0 (KeyS s)); [split; [reflexivity|cbn; auto]|reflexivity].
  - split; [intros ->|intros N; match goal with |- context[if ?c then _ else _] => destruct c; [congruence|pan] end].
    destruct (maps m m0 (KeyI n)); [split; [reflexivity|cbn; auto]|reflexivity].
  - split; [contradiction|intros _; pan]. }
  exists k0, t0. split; [reflexivity|]. cbn [r_MapIndex]. rewrite F. cbn [bind]. destruct k as [s|n|]; cbn.
  - split; [reflexivity|intros N; elim N; exact I].
  - destruct k0; split; intros; try reflexivity; try pan; congruence.
  - split; [contradiction|intros _; pan].
Qed.
Print Assumptions C61_map_index.
Theorem C61_map_index_zero : forall m k, panics (r_MapIndex m None k).
Proof. intros. pan. Qed.

(** ** A memory with a variable of type [2][2]int8, one array of bytes and a map *)
Definition ex_A (a : nat) : gty := match a with O => YArray 2 (YArray 2 (YInt 8)) | 1%nat => YUint 8 | 2%nat => YSlice (YUint 8) | _ => YBool end.
Definition ex_M (x : nat) : bool * gty := (false, YInt 64).
Definition ex_size (a : nat) : nat := match a with O => 1 | 1%nat => 4 | 2%nat => 2 | _ => 0 end%nat.
Definition ex_mem : memory := mkMem
  (fun a => match a with
            | O => [GArray [GArray [GInt 1; GInt 2]; GArray [GInt 3; GInt 4]]]
            | 1%nat => [GUint 65; GUint 66; GUint 67; GUint 68]
            | 2%nat => [GSlice 1 0 3 4; GSlice 1 2 2 2]
            | _ => [] end)
  (fun x k => match k with KeyS s => if String.eqb s "n" then Some (GInt 7) else None | _ => None end).
Lemma ex_mem_ok : memory_ok ex_A ex_M ex_size ex_mem.
Proof.
  split.
  - intros [|[|[|a]]]; cbn; (split; [reflexivity|]); repeat (constructor; try reflexivity; try (unfold is_width, in_width, in_uwidth; lia)).
  - intros x k v H. destruct k; cbn in H; try discriminate. destruct (String.eqb s "n"); [|discriminate]. injection H as <-. constructor; [right; right; right; reflexivity|unfold in_width; lia].
Qed.
(** The claim that a value read back is the one set fails for narrow integers, *)
Theorem C61_set_get_refuted : exists A M size m b m',
  memory_ok A M size m /\ box_ok A M size b /\ r_SetInt m b 300 = Ok m' /\ r_GetInt m' b = Ok 44.
Proof.
  exists ex_A, ex_M, ex_size, ex_mem, (Some (YInt 8, PRef 0 0 [1%nat; 0%nat])). eexists. split; [exact ex_mem_ok|].
  split; [split; [cbn; lia|repeat constructor]|]. split; [cbn; reflexivity|]. vm_compute. reflexivity.
Qed.
Print Assumptions C61_set_get_refuted.
(** and a box obtained by MapIndex reads the element but cannot set it, *)
Theorem C61_map_set_refuted : exists A M size m b k e,
  memory_ok A M size m /\ box_ok A M size b /\ r_MapIndex m b k = Ok e /\ r_GetInt m e = Ok 7 /\ forall z, panics (r_SetInt m e z).
Proof.
  exists ex_A, ex_M, ex_size, ex_mem, (Some (YMap false (YInt 64), PVal (GMap 0))), (KeyS "n"). eexists. split; [exact ex_mem_ok|].
  split; [constructor; reflexivity|]. split; [vm_compute; reflexivity|]. split; [vm_compute; reflexivity|]. intros z. pan.
Qed.
Print Assumptions C61_map_set_refuted.
(** and SetAny cannot store nil, not even where nil is a value of the type. *)
Theorem C61_set_nil_refuted : forall m b, panics (r_SetAny m b GNil).
Proof. intros m [[t [v|a i path]]|]; pan. Qed.
Print Assumptions C61_set_nil_refuted.
(** Setting an element through one slice is seen through the other, which overlaps. *)
Example C61_shared : exists m' b c, 
  r_Index ex_mem (Some (YSlice (YUint 8), PRef 2 0 [])) 2 = Ok b /\ r_SetUint ex_mem b 90 = Ok m' /\
  r_Index m' (Some (YSlice (YUint 8), PRef 2 1 [])) 0 = Ok c /\ r_GetUint m' c = Ok 90 /\
  box_ok ex_A ex_M ex_size b /\ memory_ok ex_A ex_M ex_size m'.
Proof.
  assert (Hb : box_ok ex_A ex_M ex_size (Some (YUint 8, PRef 1 2 []))) by (split; [cbn; lia|constructor]).
  destruct (C61_set _ _ _ _ _ _ _ _ ex_mem_ok Hb) as (_ & S & _). destruct (proj1 (S 90) 8 ltac:(constructor)) as (r & _ & m' & E & _ & Hm').
  exists m', (Some (YUint 8, PRef 1 2 [])), (Some (YUint 8, PRef 1 2 [])). cbn in E. injection E as <-.
  repeat split; try (vm_compute; reflexivity); try apply Hm'. cbn; lia. constructor.
Qed.
Example C61_nested : exists m', 
  r_SetInt ex_mem (Some (YInt 8, PRef 0 0 [1%nat; 0%nat])) (-7) = Ok m' /\
  r_GetAny m' (Some (YArray 2 (YInt 8), PRef 0 0 [1%nat])) = Ok (GDyn (YArray 2 (YInt 8)) (GArray [GInt (-7); GInt 4])) /\
  apart 0 0 [1%nat; 0%nat] 0 0 [0%nat].
Proof.
  eexists. split; [cbn; reflexivity|]. split; [vm_compute; reflexivity|]. right. right. split; intros r; cbn; congruence.
Qed.
