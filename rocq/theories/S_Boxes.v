(** Specifications for the three kinds of Box together (C68). *)
From Verif Require Export S_Refl M_Boxes.

Definition box_fine (A : nat -> gty) (M : nat -> bool * gty) (size : nat -> nat) (b : box) : Prop :=
  match b with BxRefl r => box_ok A M size r | BxElem c _ | BxLater _ c _ => box_ok A M size c end.
(** [x] is the map that the container [c], of the type map[...]t, is at the moment. *)
Inductive container_is (m : memory) : rbox -> bool -> gty -> gval -> Prop :=
  ci : forall any t p x, content m p x -> container_is m (Some (YMap any t, p)) any t x.
(** The value of type [t] that a box gives access to; *)
Inductive holds (s : state) : box -> gty -> gval -> Prop :=
| hd_refl : forall t p v, content (st_mem s) p v -> holds s (BxRefl (Some (t, p))) t v
| hd_elem : forall c any t x k v, container_is (st_mem s) c any t (GMap x) -> key_fits any k -> maps (st_mem s) x k = Some v -> holds s (BxElem c k) t v
| hd_later : forall i c k t v, st_init s i = true -> holds s (BxElem c k) t v -> holds s (BxLater i c k) t v.
(** a box without a value; *)
Inductive empty (s : state) : box -> Prop :=
| em_zero : empty s (BxRefl None)
| em_elem : forall c any t x k, container_is (st_mem s) c any t x -> key_fits any k -> (forall y, x = GMap y -> maps (st_mem s) y k = None) -> empty s (BxElem c k)
| em_later : forall i c k, st_init s i = true -> empty s (BxElem c k) -> empty s (BxLater i c k).
(** and a box that cannot be read at all. *)
Inductive broken (s : state) : box -> Prop :=
| br_kind : forall c k, (forall any t x, ~ container_is (st_mem s) c any t x) -> broken s (BxElem c k)
| br_key : forall c any t x k, container_is (st_mem s) c any t x -> ~ key_fits any k -> broken s (BxElem c k)
| br_first : forall i c k, st_init s i = false -> broken s (BxLater i c k)
| br_later : forall i c k, broken s (BxElem c k) -> broken s (BxLater i c k).

(** ** Setters *)
(** The setters with their arguments: the type and the value they set. *)
Inductive setting (A : nat -> gty) (M : nat -> bool * gty) (size : nat -> nat) : (state -> box -> res state) -> gty -> gval -> Prop :=
| se_any : forall t v, typed A M size YIface (GDyn t v) -> setting A M size (b_SetAny (GDyn t v)) t v
| se_int : forall z, in_width 64 z -> setting A M size (b_SetInt z) (YInt 64) (GInt z)
| se_uint : forall z, in_uwidth 64 z -> setting A M size (b_SetUint z) (YUint 64) (GUint z)
| se_float : forall z, setting A M size (b_SetFloat z) YFloat (GFloat z)
| se_bool : forall z, setting A M size (b_SetBool z) YBool (GBool z)
| se_string : forall z, Forall is_byte z -> setting A M size (b_SetString z) YString (GStr z)
| se_bytes : forall x, typed A M size (YSlice (YUint 8)) x -> setting A M size (b_SetBytes x) (YSlice (YUint 8)) x.
(** What an element of type [t] holds after it was set to the value [v] of type [s]. *)
Inductive accepts : gty -> gty -> gval -> gval -> Prop :=
| ac_same : forall t v, t <> YIface -> accepts t t v v
| ac_iface : forall s v, accepts YIface s v (GDyn s v).
(** The map [x] has [e] under the key [k] now, and nothing else has changed. *)
Definition put (m : memory) (x : nat) (k : gkey) (e : option gval) (m' : memory) : Prop :=
  arrays m' = arrays m /\ maps m' x k = e /\ forall y j, y <> x \/ j <> k -> maps m' y j = maps m y j.
(** The flag of the box that was set. *)
Definition flagged (s : state) (b : box) (s' : state) : Prop :=
  forall j, st_init s' j = true <-> st_init s j = true \/ exists c k, b = BxLater j c k.
(** A box for the element of the key [k] of the map [x]. *)
Inductive points (m : memory) (x : nat) (k : gkey) : box -> Prop :=
| po_elem : forall c any t, container_is m c any t (GMap x) -> points m x k (BxElem c k)
| po_later : forall i c, points m x k (BxElem c k) -> points m x k (BxLater i c k).
