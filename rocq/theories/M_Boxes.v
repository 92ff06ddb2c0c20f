(** Model of base/box.go:8-397: the three implementations of Box on one memory, with the elements of
    maps of any type of M_Refl, and with Index, MapIndex and ComplexMapIndex.  M_Box has the
    simpler model of one container, for C46. *)
From Verif Require Export M_Refl.

(** 53-55: ReflectionBox; 153-156: MapContainerReflectionBox; 257-261: a pointer to a
    NotInitializedMapContainerReflectionBox, where [i] identifies the struct with the flag.
    Container and Key are never assigned. *)
Inductive box := BxRefl (b : rbox) | BxElem (c : rbox) (k : gkey) | BxLater (i : nat) (c : rbox) (k : gkey).
(** The memory and the fields Initialized. *)
Record state := mkSt { st_mem : memory; st_init : nat -> bool }.

(** reflect.Value.SetMapIndex(key, ValueOf(x)), reflect/value.go: ValueOf(nil) is the zero
    Value, which deletes the key; deleting from a nil map does nothing, other assignments to it
    panic. *)
Definition put_map (m : memory) (x : nat) (k : gkey) (e : option gval) : memory :=
  mkMem (arrays m) (fun y j => if Nat.eqb y x && key_eqb j k then e else maps m y j).
Definition r_SetMapIndex (m : memory) (c : rbox) (k : gkey) (x : gval) : res memory :=
  match c with
  | Some (YMap any t, p) =>
      bind (fetch m p) (fun v =>
        match check_key (mkMap any KAny (fun _ => None)) k with
        | Some w => Panic w
        | None =>
            match x with
            | GDyn s e =>
                if gty_eqb t YIface || gty_eqb t s then
                  match v with
                  | GMap y => Ok (put_map m y k (Some (if gty_eqb t YIface then x else e)))
                  | GNilMap => Panic "assignment to entry in nil map"
                  | _ => Panic "invalid memory"
                  end
                else Panic "reflect: not assignable"
            | _ =>
                match v with
                | GMap y => Ok (put_map m y k None)
                | GNilMap => Ok m
                | _ => Panic "invalid memory"
                end
            end
        end)
  | _ => wrong_kind
  end.

(** The shape of the getters: 58-90, 159-191, 264-317 *)
Definition b_get {X : Type} (f : memory -> rbox -> res X) (s : state) (b : box) : res X :=
  match b with
  | BxRefl r => f (st_mem s) r
  | BxElem c k => bind (r_MapIndex (st_mem s) c k) (f (st_mem s))
  | BxLater i c k => if st_init s i then bind (r_MapIndex (st_mem s) c k) (f (st_mem s)) else Panic msg_not_init
  end.
Definition b_GetAny := b_get r_GetAny.          (* 58, 159, 264 *)
Definition b_GetInt := b_get r_GetInt.          (* 63, 164, 272 *)
Definition b_GetUint := b_get r_GetUint.        (* 68, 169, 280 *)
Definition b_GetFloat := b_get r_GetFloat.      (* 73, 174, 288 *)
Definition b_GetBool := b_get r_GetBool.        (* 78, 179, 296 *)
Definition b_GetString := b_get r_GetString.    (* 83, 184, 304 *)
Definition b_GetBytes := b_get r_GetBytes.      (* 88, 189, 312 *)

(** The shape of the setters: 98-130, 199-231, 328-367; [x] is the argument as an interface{}.
    When SetMapIndex panics, Initialized is not reached. *)
Definition b_set (f : memory -> rbox -> res memory) (x : gval) (s : state) (b : box) : res state :=
  match b with
  | BxRefl r => bind (f (st_mem s) r) (fun m => Ok (mkSt m (st_init s)))
  | BxElem c k => bind (r_SetMapIndex (st_mem s) c k x) (fun m => Ok (mkSt m (st_init s)))
  | BxLater i c k => bind (r_SetMapIndex (st_mem s) c k x)
                       (fun m => Ok (mkSt m (fun j => if Nat.eqb j i then true else st_init s j)))
  end.
Definition b_SetAny (x : gval) := b_set (fun m r => r_SetAny m r x) x.                                       (* 98, 199, 328 *)
Definition b_SetInt (z : Z) := b_set (fun m r => r_SetInt m r z) (GDyn (YInt 64) (GInt z)).                  (* 103, 204, 334 *)
Definition b_SetUint (z : Z) := b_set (fun m r => r_SetUint m r z) (GDyn (YUint 64) (GUint z)).              (* 108, 209, 340 *)
Definition b_SetFloat (z : Z) := b_set (fun m r => r_SetFloat m r z) (GDyn YFloat (GFloat z)).               (* 113, 214, 346 *)
Definition b_SetBool (z : bool) := b_set (fun m r => r_SetBool m r z) (GDyn YBool (GBool z)).                (* 118, 219, 352 *)
Definition b_SetString (z : bytes) := b_set (fun m r => r_SetString m r z) (GDyn YString (GStr z)).          (* 123, 224, 358 *)
Definition b_SetBytes (x : gval) := b_set (fun m r => r_SetBytes m r x) (GDyn (YSlice (YUint 8)) x).         (* 128, 229, 364 *)

(** 138-140, 239-241, 376-381: ValueOf(nil) is the zero Value. *)
Definition b_Index (s : state) (b : box) (i : Z) : res box :=
  match b with
  | BxRefl r => bind (r_Index (st_mem s) r i) (fun r' => Ok (BxRefl r'))
  | BxElem _ _ => Ok (BxRefl None)
  | BxLater j _ _ => if st_init s j then Ok (BxRefl None) else Panic msg_not_init
  end.
(** 143-150, 244-251, 384-397: MapIndex for string keys, ComplexMapIndex for all keys *)
Definition b_MapIndex (s : state) (b : box) (k : gkey) : res box :=
  match b with
  | BxRefl r => bind (r_MapIndex (st_mem s) r k) (fun r' => Ok (BxRefl r'))
  | BxElem c _ => Ok (BxElem c k)
  | BxLater j c _ => if st_init s j then Ok (BxElem c k) else Panic msg_not_init
  end.
