(** Specification of the boxes (C46), from the list of operations alone. *)
From Verif Require Export M_Box.

(** The key a box stands for; [keys] are those of the NotInitialized boxes. *)
Definition key_of (keys : nat -> gkey) (b : boxref) : gkey := match b with BMap k => k | BNot i => keys i end.
(** Keys and values the container can hold; nil stands for deleting the key. *)
Definition key_fits (any_key : bool) (k : gkey) : Prop :=
  match k with KeyS _ => True | KeyI _ => any_key = true | KeyBad => False end.
Definition value_fits (e : ety) (v : dval) : Prop :=
  v = DNil \/
  match e with
  | KAny => True
  | KInt => exists z, v = DInt z
  | KUint => exists z, v = DUint z
  | KFloat => exists z, v = DFloat z
  | KBool => exists b, v = DBool b
  | KStr => exists s, v = DStr s
  | KBytes => exists s, v = DBytes s
  end.
(** The last value set for the key [k], if there was any Set for it. *)
Inductive last_set (any_key : bool) (e : ety) (keys : nat -> gkey) (k : gkey) : list bop -> dval -> Prop :=
| ls_here : forall l b v, key_of keys b = k -> key_fits any_key k -> value_fits e v -> last_set any_key e keys k (l ++ [OSet b v]) v
| ls_get : forall l b a v, last_set any_key e keys k l v -> last_set any_key e keys k (l ++ [OGet b a]) v
| ls_other : forall l b w v, key_of keys b <> k \/ ~ value_fits e w -> last_set any_key e keys k l v ->
    last_set any_key e keys k (l ++ [OSet b w]) v.
(** No Set has changed the key. *)
Definition never_set (any_key : bool) (e : ety) (keys : nat -> gkey) (k : gkey) (l : list bop) : Prop :=
  forall b v, In (OSet b v) l -> key_of keys b = k -> ~ (key_fits any_key k /\ value_fits e v).
(** The i-th NotInitialized box has been set. *)
Definition initialised (any_key : bool) (e : ety) (keys : nat -> gkey) (i : nat) (l : list bop) : Prop :=
  exists v, In (OSet (BNot i) v) l /\ key_fits any_key (keys i) /\ value_fits e v.
