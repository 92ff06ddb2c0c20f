(** Model of base/transformers.go. *)
From Verif Require Export M_Base.

Definition tok (l : list ast) : res (gerr + list ast) := Ok (inr l).
Definition terr (e : gerr) : res (gerr + list ast) := Ok (inl e).

(** base/transformers.go:11-13 *)
Definition Erase : trans := fun _ _ _ => tok [].

(** base/transformers.go:17-21 *)
Definition TransformError (s : string) : trans := fun _ _ _ => terr (EText s).

(** base/transformers.go:25-33 *)
Definition GroupingTransform : trans := fun _ _ asts =>
  tok [mkAst 0 ":base:Group" TListOfAst (VAsts asts) sp0].

(** The loop [for i, w := range asts { s.Set(i, w.Value) }], line 45-47. *)
Fixpoint set_all (set : value -> option value) (asts : list ast) : option (list value) :=
  match asts with
  | [] => Some []
  | a :: r =>
      match set (a_val a), set_all set r with
      | Some v, Some vs => Some (v :: vs)
      | _, _ => None
      end
  end.

(** base/transformers.go:37-54; a nil ctx.Slice panics. *)
Definition ToSlice : trans := fun _ c asts =>
  match c_slice c with
  | None => Panic "nil pointer dereference"
  | Some sl =>
      match asts with
      | [] => tok [mkAst 0 "" TListOfAny (sl_mk sl []) sp0]
      | a :: _ =>
          match set_all (sl_set sl) asts with
          | None => Panic "interface conversion"
          | Some vs => tok [mkAst 0 (a_cls a) TListOfAny (sl_mk sl vs) (a_sp a)]
          end
      end
  end.

(** Copy of the slice with element 0 changed when there is one; the common body
    of lines 59-67, 73-80, 86-93 and 99-107. *)
Definition upd_first (f : ast -> ast) (asts : list ast) : list ast :=
  match asts with [] => [] | a :: r => f a :: r end.

(** base/transformers.go:58-68 *)
Definition SetOpCodeAndClassName (op : Z) (name : string) : trans := fun _ _ asts =>
  tok (upd_first (fun a => mkAst op name (a_ty a) (a_val a) (a_sp a)) asts).
(** base/transformers.go:72-81 *)
Definition SetOpCode (op : Z) : trans := fun _ _ asts =>
  tok (upd_first (fun a => mkAst op (a_cls a) (a_ty a) (a_val a) (a_sp a)) asts).
(** base/transformers.go:85-94 *)
Definition ChangeClassName (name : string) : trans := fun _ _ asts =>
  tok (upd_first (fun a => mkAst (a_op a) name (a_ty a) (a_val a) (a_sp a)) asts).
(** base/transformers.go:98-108 *)
Definition SetValue (ty : asttype) (v : value) : trans := fun _ _ asts =>
  tok (upd_first (fun a => mkAst (a_op a) (a_cls a) ty v (a_sp a)) asts).

Definition set_asp (a : ast) (p : srcpos) : ast :=
  mkAst (a_op a) (a_cls a) (a_ty a) (a_val a) p.

(** base/transformers.go:112-122.  The closure variable [ast] is assigned to, so
    one call maps (contents of the variable, argument) to (new contents, result). *)
Definition prepend_step (ast0 : ast) (asts : list ast) : ast * list ast :=
  let ast1 := match asts with [] => ast0 | a :: _ => set_asp ast0 (a_sp a) end in
  (ast1, ast1 :: asts).
(** base/transformers.go:126-136 *)
Definition push_step (ast0 : ast) (asts : list ast) : ast * list ast :=
  let ast1 := match asts with
              | [] => ast0
              | _ => set_asp ast0 (a_sp (last asts ast0))
              end in
  (ast1, asts ++ [ast1]).
(** As stateless transformers: the behaviour of a fresh Prepend / Push value.
    Simplification: inside grammars the closure variable is reset on each call;
    the effect of the shared variable is the subject of C24 and, inside grammars, of
    C66 (M_Reuse). *)
Definition Prepend (a : ast) : trans := fun _ _ asts => tok (snd (prepend_step a asts)).
Definition Push (a : ast) : trans := fun _ _ asts => tok (snd (push_step a asts)).

(** base/transformers.go:140-146 *)
Definition Pop : trans := fun _ _ asts => tok (removelast asts).

(** Slice element assignment [w[i] = v]; [None] = index out of range. *)
Definition set_index (w : list ast) (i : nat) (v : ast) : option (list ast) :=
  if Nat.ltb i (length w) then Some (firstn i w ++ v :: skipn (S i) w) else None.

(** base/transformers.go:150-161.  [w] is made with length 0 and only
    [length-2] elements are appended before indices length-2 and length-1 are
    assigned. *)
Definition Exchange : trans := fun _ _ asts =>
  let n := length asts in
  if Nat.leb 2 n then
    let w := firstn (n - 2) asts in
    match nth_error asts (n - 1), nth_error asts (n - 2) with
    | Some top, Some below =>
        match set_index w (n - 2) top with
        | None => Panic "index out of range"
        | Some w1 =>
            match set_index w1 (n - 1) below with
            | None => Panic "index out of range"
            | Some w2 => tok w2
            end
        end
    | _, _ => Panic "index out of range"
    end
  else tok asts.

(** base/transformers.go:175-193: all four branches return asts unchanged. *)
Definition Roll (n : Z) : trans := fun _ _ asts =>
  let len := Z.of_nat (length asts) in
  if 0 <=? n then (if n <? len then tok asts else tok asts)
  else (if (- n) <? len then tok asts else tok asts).
