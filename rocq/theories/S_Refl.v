(** Specifications for ReflectionBox (C61). *)
From Verif Require Export M_Refl.

(** ** Well-typed memory
    [A] and [M] give the element types of the arrays and the types of the maps. *)
Definition in_width (w z : Z) : Prop := - 2 ^ (w - 1) <= z < 2 ^ (w - 1).
Definition in_uwidth (w z : Z) : Prop := 0 <= z < 2 ^ w.
Definition is_width (w : Z) : Prop := w = 8 \/ w = 16 \/ w = 32 \/ w = 64.
Section Typing.
Variables (A : nat -> gty) (M : nat -> bool * gty) (size : nat -> nat).
Inductive typed : gty -> gval -> Prop :=
| ty_bool : forall b, typed YBool (GBool b)
| ty_int : forall w z, is_width w -> in_width w z -> typed (YInt w) (GInt z)
| ty_uint : forall w z, is_width w -> in_uwidth w z -> typed (YUint w) (GUint z)
| ty_float : forall z, typed YFloat (GFloat z)
| ty_str : forall s, Forall is_byte s -> typed YString (GStr s)
| ty_nil : typed YIface GNil
| ty_dyn : forall t v, t <> YIface -> typed t v -> typed YIface (GDyn t v)
| ty_slice : forall t a off len cap, A a = t -> (len <= cap)%nat -> (off + cap <= size a)%nat -> typed (YSlice t) (GSlice a off len cap)
| ty_array : forall n t l, length l = n -> all_typed t l -> typed (YArray n t) (GArray l)
| ty_map : forall k t m, M m = (k, t) -> typed (YMap k t) (GMap m)
| ty_nilmap : forall k t, typed (YMap k t) GNilMap
| ty_goint : forall z, in_width 64 z -> typed YGoInt (GInt z)
| ty_gouint : forall z, in_uwidth 64 z -> typed YGoUint (GUint z)
| ty_other : forall name n, typed (YOther name) (GOther n)
with all_typed : gty -> list gval -> Prop :=
| at_nil : forall t, all_typed t []
| at_cons : forall t v l, typed t v -> all_typed t l -> all_typed t (v :: l).
Definition memory_ok (m : memory) : Prop :=
  (forall a, length (arrays m a) = size a /\ all_typed (A a) (arrays m a)) /\
  (forall x k v, maps m x k = Some v -> typed (snd (M x)) v).
(** The type of the element at the end of a path. *)
Inductive inside : gty -> list nat -> gty -> Prop :=
| in_here : forall t, inside t [] t
| in_elem : forall n t i path u, (i < n)%nat -> inside t path u -> inside (YArray n t) (i :: path) u.
Definition box_ok (b : rbox) : Prop :=
  match b with
  | None => True
  | Some (t, PVal v) => typed t v
  | Some (t, PRef a i path) => (i < size a)%nat /\ inside (A a) path t
  end.
End Typing.

(** ** Names of types
    A number in decimal digits without leading zeros. *)
Inductive decimal : bytes -> Z -> Prop :=
| dc_one : forall d, 0 <= d < 10 -> decimal [48 + d] d
| dc_more : forall s n d, decimal s n -> 0 < n -> 0 <= d < 10 -> decimal (s ++ [48 + d]) (10 * n + d).
(** The name of a type as Go writes it. *)
Inductive type_name : gty -> bytes -> Prop :=
| tn_bool : type_name YBool (bs "bool")
| tn_int : forall w s, decimal s w -> type_name (YInt w) (bs "int" ++ s)
| tn_uint : forall w s, decimal s w -> type_name (YUint w) (bs "uint" ++ s)
| tn_float : type_name YFloat (bs "float64")
| tn_string : type_name YString (bs "string")
| tn_iface : type_name YIface (bs "interface {}")
| tn_slice : forall t s, type_name t s -> type_name (YSlice t) (bs "[]" ++ s)
| tn_array : forall n t d s, decimal d (Z.of_nat n) -> type_name t s -> type_name (YArray n t) (bs "[" ++ d ++ bs "]" ++ s)
| tn_map : forall (any : bool) t s, type_name t s -> type_name (YMap any t) ((if any then bs "map[interface {}]" else bs "map[string]") ++ s)
| tn_goint : type_name YGoInt (bs "int")
| tn_gouint : type_name YGoUint (bs "uint")
| tn_other : forall name, type_name (YOther name) name.
(** Every integer type in it has 8, 16, 32 or 64 bits. *)
Fixpoint sane (t : gty) : Prop :=
  match t with
  | YInt w | YUint w => is_width w
  | YSlice t | YArray _ t | YMap _ t => sane t
  | _ => True
  end.

(** ** Contents and changes *)
(** [x] stands at [path] inside of [v]. *)
Inductive part : gval -> list nat -> gval -> Prop :=
| pt_here : forall v, part v [] v
| pt_elem : forall l i v path x, nth_error l i = Some v -> part v path x -> part (GArray l) (i :: path) x.
(** [v'] is [v] with [x] at [path]. *)
Inductive replaced : gval -> list nat -> gval -> gval -> Prop :=
| rp_here : forall v x, replaced v [] x x
| rp_elem : forall before v after path x v', replaced v path x v' ->
    replaced (GArray (before ++ v :: after)) (length before :: path) x (GArray (before ++ v' :: after)).
(** What a box stands for at the moment. *)
Inductive content (m : memory) : place -> gval -> Prop :=
| ct_val : forall v, content m (PVal v) v
| ct_ref : forall a i path v x, nth_error (arrays m a) i = Some v -> part v path x -> content m (PRef a i path) x.
(** The element at an address is [x] now, and nothing else has changed. *)
Definition changed (m : memory) (a i : nat) (path : list nat) (x : gval) (m' : memory) : Prop :=
  maps m' = maps m /\ (forall b, b <> a -> arrays m' b = arrays m b) /\
  exists before v after v', arrays m a = before ++ v :: after /\ length before = i /\
    replaced v path x v' /\ arrays m' a = before ++ v' :: after.
(** Addresses of which neither contains the other. *)
Definition apart (a i : nat) (path : list nat) (b j : nat) (path' : list nat) : Prop :=
  a <> b \/ i <> j \/ ((forall r, path' <> path ++ r) /\ (forall r, path <> path' ++ r)).
(** Integer types and their widths. *)
Inductive int_width : gty -> Z -> Prop := iw_sized : forall w, int_width (YInt w) w | iw_int : int_width YGoInt 64.
Inductive uint_width : gty -> Z -> Prop := uw_sized : forall w, uint_width (YUint w) w | uw_uint : uint_width YGoUint 64.
(** The number of [w] bits with the same residue. *)
Definition as_int (w z r : Z) : Prop := in_width w r /\ (z - r) mod 2 ^ w = 0.
Definition as_uint (w z r : Z) : Prop := in_uwidth w r /\ (z - r) mod 2 ^ w = 0.
(** A key the map can be asked for. *)
Definition key_fits (anykey : bool) (k : gkey) : Prop :=
  match k with KeyS _ => True | KeyI _ => anykey = true | KeyBad => False end.
