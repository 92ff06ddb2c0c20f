(** Model of base/match.go. *)
From Verif Require Export M_Base M_Equal.

Record mcase := mkCase { case_if : list ast -> bool; case_let : list trans }.

(** base/match.go:19-41.  [sp] is an int; slicing panics when it is outside
    [0, len]. *)
Definition match_fn (n : Z) (cases : list mcase) : parser := fun fuel c0 =>
  let sp := Z.of_nat (length (c_stack c0)) - n in
  let c := set_st (set_len c0 0) Unmatched in
  match find (fun cs => case_if cs (c_stack c)) cases with
  | None => Ok (c, None)
  | Some cs =>
      if (sp <? 0) || (Z.of_nat (length (c_stack c)) <? sp)
      then Panic "slice bounds out of range"
      else
        let k := Z.to_nat sp in
        match run_trans fuel c (case_let cs) (skipn k (c_stack c)) with
        | Panic w => Panic w
        | Fuel => Fuel
        | Ok (inl e) => Ok (set_st c Errored, Some e)
        | Ok (inr asts) => Ok (set_st (set_stack c (firstn k (c_stack c) ++ asts)) Matched, None)
        end
  end.

Definition top_val (asts : list ast) : option value :=
  match asts with [] => None | a :: r => Some (a_val (last r a)) end.
(** base/match.go:47-64 *)
Definition TopIsRune (v : list Z) (asts : list ast) : bool :=
  match top_val asts with Some (VRune s) => existsb (Z.eqb s) v | _ => false end.
(** base/match.go:67-84 *)
Definition TopIsInt (v : list Z) (asts : list ast) : bool :=
  match top_val asts with Some (VInt s) => existsb (Z.eqb s) v | _ => false end.
(** base/match.go:87-104 *)
Definition TopIsUint (v : list Z) (asts : list ast) : bool :=
  match top_val asts with Some (VUint s) => existsb (Z.eqb s) v | _ => false end.
(** base/match.go:107-124 *)
Definition TopIsFloat (v : list spec_float) (asts : list ast) : bool :=
  match top_val asts with Some (VFloat s) => existsb (SFeqb s) v | _ => false end.
(** base/match.go:127-144 *)
Definition TopIsBool (v : list bool) (asts : list ast) : bool :=
  match top_val asts with Some (VBool s) => existsb (Bool.eqb s) v | _ => false end.
(** base/match.go:147-164 *)
Definition TopIsStr (v : list bytes) (asts : list ast) : bool :=
  match top_val asts with Some (VStr s) => existsb (bytes_eqb s) v | _ => false end.
(** base/match.go:167-181 *)
Definition TopIs (v : list value) (asts : list ast) : bool :=
  match top_val asts with Some s => existsb (deep_eqb s) v | None => false end.
(** base/match.go:184-186 *)
Definition TopIsAny (asts : list ast) : bool := true.
