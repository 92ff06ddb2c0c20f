(** Model of object/parsers.go and object/new.go. *)
From Verif Require Export M_Base M_Equal.

(** object/new.go:8-13, 16-22 and base/production.go:17-27 (newContext) *)
Definition new_object_ctx (sl : slicelike) (t : value) : ctx :=
  mkCtx [] (Some sl) sp0 0 [] Matched "" t.

(** [ctx.Slice.Len()] etc. panic on a nil Slice. *)
Definition with_slice (c : ctx) (k : slicelike -> out) : out :=
  match c_slice c with
  | None => Panic "nil pointer dereference"
  | Some sl => k sl
  end.

(** The common success tail, e.g. object/parsers.go:16-24. *)
Definition push_val (cls : string) (ty : asttype) (c : ctx) (v : value) (length : nat) : ctx :=
  let c1 := set_stack c (c_stack c ++ [mkAst 0 cls ty v (c_sp c)]) in
  let c2 := set_sp c1 (mkSP (c_pos c + length) length) in
  set_st c2 Matched.

(** object/parsers.go:9-28 *)
Definition obj_any_fn : light_fn := fun c0 =>
  let c := set_st c0 Unmatched in
  with_slice c (fun sl =>
    match nth_error (sl_items sl) (c_pos c) with
    | Some w => Ok (push_val ":object:Any" TAny c w 1, None)
    | None => Ok (c, None)
    end).

(** object/parsers.go:31-43 *)
Definition obj_end_fn : light_fn := fun c0 =>
  let c := set_st c0 Unmatched in
  with_slice c (fun sl =>
    if Nat.eqb (c_pos c) (length (sl_items sl))
    then Ok (set_st (set_len c 0) Matched, None)
    else Ok (c, None)).

(** object/parsers.go:55-59: the loop that compares; its [break] only leaves the
    loop, so nothing but a possible panic comes out of it. *)
Fixpoint obj_seq_loop (sl : slicelike) (w seq : list value) : bool :=
  match w, seq with
  | x :: w', y :: seq' =>
      match sl_eq sl x y with
      | None => false                       (* panic *)
      | Some false => true                  (* break *)
      | Some true => obj_seq_loop sl w' seq'
      end
  | _, _ => true
  end.

(** object/parsers.go:46-71 *)
Definition obj_seq_fn (seq : list value) : light_fn := fun c0 =>
  let c := set_st c0 Unmatched in
  with_slice c (fun sl =>
    let l := length seq in
    if Nat.leb (c_pos c + l) (length (sl_items sl)) then
      let w := sub (sl_items sl) (c_pos c) (c_pos c + l) in
      if obj_seq_loop sl w seq
      then Ok (push_val ":object:Seq" TListOfAny c (sl_mk sl w) l, None)
      else Panic "interface conversion"
    else Ok (c, None)).

(** The loop [for _, s := range oc { if ItemEquals(w, s) ... }]: [None] = panic. *)
Fixpoint obj_mem (sl : slicelike) (w : value) (oc : list value) : option bool :=
  match oc with
  | [] => Some false
  | s :: oc' =>
      match sl_eq sl w s with
      | None => None
      | Some true => Some true
      | Some false => obj_mem sl w oc'
      end
  end.

(** object/parsers.go:74-98 *)
Definition obj_class_fn (oc : list value) : light_fn := fun c0 =>
  let c := set_st c0 Unmatched in
  with_slice c (fun sl =>
    match nth_error (sl_items sl) (c_pos c) with
    | None => Ok (c, None)
    | Some w =>
        match obj_mem sl w oc with
        | None => Panic "interface conversion"
        | Some true => Ok (push_val ":object:ObjClass" TAny c w 1, None)
        | Some false => Ok (c, None)
        end
    end).

(** object/parsers.go:101-127; the pushed Type really is AstType_String. *)
Definition obj_classN_fn (oc : list value) : light_fn := fun c0 =>
  let c := set_st c0 Unmatched in
  with_slice c (fun sl =>
    match nth_error (sl_items sl) (c_pos c) with
    | None => Ok (c, None)
    | Some w =>
        match obj_mem sl w oc with
        | None => Panic "interface conversion"
        | Some true => Ok (c, None)
        | Some false => Ok (push_val ":object:ObjClassN" TString c w 1, None)
        end
    end).

(** object/parsers.go:130-151 *)
Definition obj_classFn_fn (fn : value -> bool) : light_fn := fun c0 =>
  let c := set_st c0 Unmatched in
  with_slice c (fun sl =>
    match nth_error (sl_items sl) (c_pos c) with
    | None => Ok (c, None)
    | Some w =>
        if fn w then Ok (push_val ":object:ObjClassFn" TAny c w 1, None) else Ok (c, None)
    end).
