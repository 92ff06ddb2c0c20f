(** Model of string/transformers.go. *)
From Verif Require Export M_Str M_Trans M_Strconv.

(** [w.Value.(string)]: a failed type assertion panics. *)
Definition as_str (v : value) : option bytes := match v with VStr s => Some s | _ => None end.

(** string/transformers.go:27-32, the loop of Concat. *)
Fixpoint concat_loop (asts : list ast) : res (gerr + bytes) :=
  match asts with
  | [] => Ok (inr [])
  | w :: r =>
      if asttype_eqb (a_ty w) TString then
        match as_str (a_val w) with
        | None => Panic "interface conversion"
        | Some s =>
            match concat_loop r with
            | Ok (inr t) => Ok (inr (s ++ t))
            | other => other
            end
        end
      else Ok (inl (EBadType (a_ty w)))
  end.

(** string/transformers.go:19-39 *)
Definition concat_asts (asts : list ast) : res (gerr + list ast) :=
  match asts with
  | [] => tok [mkAst 0 "" TString (VStr []) sp0]
  | a :: _ =>
      match concat_loop asts with
      | Ok (inr s) => tok [mkAst 0 (a_cls a) TString (VStr s) (a_sp a)]
      | Ok (inl e) => terr e
      | Panic w => Panic w
      | Fuel => Fuel
      end
  end.
Definition Concat : trans := fun _ _ asts => concat_asts asts.

(** string/transformers.go:14 and strings.Trim/TrimLeft/TrimRight (Go standard
    library): cut while the first / last decoded rune is in the cutset.  The
    cutset has no U+FFFD, so invalid bytes are never cut.  [n] bounds the loop by
    the length of the string. *)
Definition in_cutset (r : Z) : bool :=
  (r =? 9) || (r =? 10) || (r =? 11) || (r =? 12) || (r =? 13) || (r =? 32)
  || (r =? 133) || (r =? 160).
Fixpoint trim_left_n (n : nat) (s : bytes) : bytes :=
  match n with
  | O => s
  | S n' =>
      let '(r, l) := decode_rune s in
      if negb (Nat.eqb l 0) && in_cutset r then trim_left_n n' (skipn l s) else s
  end.
Definition trim_left (s : bytes) : bytes := trim_left_n (length s) s.
Fixpoint trim_right_n (n : nat) (s : bytes) : bytes :=
  match n with
  | O => s
  | S n' =>
      let '(r, l) := decode_last_rune s in
      if negb (Nat.eqb l 0) && in_cutset r
      then trim_right_n n' (firstn (length s - l) s) else s
  end.
Definition trim_right (s : bytes) : bytes := trim_right_n (length s) s.
Definition trim_both (s : bytes) : bytes := trim_right (trim_left s).

(** [asts, err := Concat(ctx, asts); ...; asts[0].Value = f(asts[0].Value.(string))] *)
Definition with_concat (asts : list ast) (k : ast -> bytes -> res (gerr + list ast))
    : res (gerr + list ast) :=
  match concat_asts asts with
  | Ok (inr (a :: _)) =>
      match as_str (a_val a) with
      | Some s => k a s
      | None => Panic "interface conversion"
      end
  | Ok (inr []) => Panic "index out of range"
  | other => other
  end.

Definition set_val (a : ast) (ty : asttype) (v : value) : ast :=
  mkAst (a_op a) (a_cls a) ty v (a_sp a).

Definition Trim : trans := fun _ _ asts =>                            (* 43-50 *)
  with_concat asts (fun a s => tok [set_val a (a_ty a) (VStr (trim_both s))]).
Definition TrimStart : trans := fun _ _ asts =>                       (* 54-61 *)
  with_concat asts (fun a s => tok [set_val a (a_ty a) (VStr (trim_left s))]).
Definition TrimEnd : trans := fun _ _ asts =>                         (* 65-72 *)
  with_concat asts (fun a s => tok [set_val a (a_ty a) (VStr (trim_right s))]).

Definition is_range (e : numerr) : bool := match e with ErrRange => true | _ => false end.

(** string/transformers.go:75-88, 92-102 *)
Definition ParseIntRadix (base : Z) : trans := fun _ _ asts =>
  with_concat asts (fun a s =>
    match parse_int s base with
    | inl e => terr (ENum "parseIntImpl" s (is_range e))
    | inr z => tok [set_val a TInt (VInt z)]
    end).
Definition ParseInt : trans := ParseIntRadix 10.

(** string/transformers.go:105-122, 126-136.  [str2[0]] panics on "". *)
Definition ParseUintRadix (base : Z) : trans := fun _ _ asts =>
  with_concat asts (fun a s =>
    match s with
    | [] => Panic "index out of range"
    | c :: s' =>
        match parse_uint (if c =? 43 then s' else s) base with
        | inl e => terr (ENum "parseUintImpl" s (is_range e))
        | inr z => tok [set_val a TUint (VUint z)]
        end
    end).
Definition ParseUint : trans := ParseUintRadix 10.

(** string/transformers.go:140-153.  strconv.ParseFloat is a parameter. *)
Definition ParseFloat (parse_float : bytes -> numerr + spec_float) : trans := fun _ _ asts =>
  with_concat asts (fun a s =>
    match parse_float s with
    | inl e => terr (ENum "ParseFloat" s (is_range e))
    | inr f => tok [set_val a TFloat (VFloat f)]
    end).

(** rune(x) for an int64 x: truncation to int32. *)
Definition to_int32 (z : Z) : Z := (z + 2147483648) mod 4294967296 - 2147483648.

(** string/transformers.go:157-197.  [asts[0]] panics on an empty list, the type
    assertions panic on another dynamic type. *)
Definition RuneFromInt : trans := fun _ _ asts =>
  match asts with
  | mkAst _ cls _ (VInt z) sp :: _ => tok [mkAst 0 cls TAny (VRune (to_int32 z)) sp]
  | _ :: _ => Panic "interface conversion"
  | [] => Panic "index out of range"
  end.
Definition IntFromRune : trans := fun _ _ asts =>
  match asts with
  | mkAst _ cls _ (VRune r) sp :: _ => tok [mkAst 0 cls TString (VInt r) sp]
  | _ :: _ => Panic "interface conversion"
  | [] => Panic "index out of range"
  end.
Definition StringFromInt : trans := fun _ _ asts =>
  match asts with
  | mkAst _ cls _ (VInt z) sp :: _ =>
      tok [mkAst 0 cls TString (VStr (encode_rune (to_int32 z))) sp]
  | _ :: _ => Panic "interface conversion"
  | [] => Panic "index out of range"
  end.
Definition StringFromRune : trans := fun _ _ asts =>
  match asts with
  | mkAst _ cls _ (VRune r) sp :: _ => tok [mkAst 0 cls TString (VStr (encode_rune r)) sp]
  | _ :: _ => Panic "interface conversion"
  | [] => Panic "index out of range"
  end.
