(** Model of Go's strconv.ParseUint / ParseInt with bitSize 64 (standard library
    strconv/atoi.go; trusted reading).  Bases other than 0 and 2..36 are a base error. *)
From Verif Require Export M_Types M_Utf8.

Inductive numerr := ErrSyntax | ErrRange | ErrBase.

Definition lower (c : Z) : Z := if in_rng 65 90 c then c + 32 else c.

(** atoi.go: digit value of a byte, [None] for a non-digit. *)
Definition digit_val (c : Z) : option Z :=
  if in_rng 48 57 c then Some (c - 48)
  else if in_rng 97 122 (lower c) then Some (lower c - 97 + 10)
  else None.

Definition maxUint64 : Z := 18446744073709551615.
Definition two64 : Z := 18446744073709551616.
Definition two63 : Z := 9223372036854775808.

(** atoi.go ParseUint main loop; [n1] is computed in uint64 (wraps). *)
Fixpoint parse_uint_loop (base : Z) (s : bytes) (n : Z) : numerr + Z :=
  match s with
  | [] => inr n
  | c :: s' =>
      match digit_val c with
      | None => inl ErrSyntax
      | Some d =>
          if base <=? d then inl ErrSyntax
          else if maxUint64 / base + 1 <=? n then inl ErrRange
          else
            let n0 := (n * base) mod two64 in
            let n1 := (n0 + d) mod two64 in
            if (n1 <? n0) || (maxUint64 <? n1) then inl ErrRange
            else parse_uint_loop base s' n1
      end
  end.

(** atoi.go ParseUint, base 0: the base the prefix stands for and the text behind it. *)
Definition literal_prefix (s : bytes) : Z * bytes :=
  match s with
  | z :: r =>
      if z =? 48 then
        match r with
        | x :: ((_ :: _) as t) =>
            if lower x =? 98 then (2, t) else if lower x =? 111 then (8, t) else if lower x =? 120 then (16, t) else (8, r)
        | _ => (8, r)
        end
      else (10, s)
  | [] => (10, [])
  end.
(** The main loop for base 0: underscores are noted and skipped. *)
Fixpoint parse_literal_loop (base : Z) (s : bytes) (n : Z) (underscores : bool) : numerr + Z * bool :=
  match s with
  | [] => inr (n, underscores)
  | c :: s' =>
      if c =? 95 then parse_literal_loop base s' n true else
      match digit_val c with
      | None => inl ErrSyntax
      | Some d =>
          if base <=? d then inl ErrSyntax
          else if maxUint64 / base + 1 <=? n then inl ErrRange
          else
            let n0 := (n * base) mod two64 in
            let n1 := (n0 + d) mod two64 in
            if (n1 <? n0) || (maxUint64 <? n1) then inl ErrRange
            else parse_literal_loop base s' n1 underscores
      end
  end.
(** atoi.go underscoreOK: the last class of characters seen is ^ (94) at the start, 0 (48)
    for a digit or prefix, _ (95) or ! (33). *)
Fixpoint underscore_scan (hex : bool) (s : bytes) (saw : Z) : bool :=
  match s with
  | [] => negb (saw =? 95)
  | c :: r =>
      if in_rng 48 57 c || (hex && in_rng 97 102 (lower c)) then underscore_scan hex r 48
      else if c =? 95 then if saw =? 48 then underscore_scan hex r 95 else false
      else if saw =? 95 then false else underscore_scan hex r 33
  end.
Definition underscore_ok (s : bytes) : bool :=
  let t := match s with c :: r => if (c =? 45) || (c =? 43) then r else s | [] => [] end in
  match t with
  | z :: x :: r =>
      if (z =? 48) && ((lower x =? 98) || (lower x =? 111) || (lower x =? 120)) then underscore_scan (lower x =? 120) r 48
      else underscore_scan false t 94
  | _ => underscore_scan false t 94
  end.
Definition parse_literal (s : bytes) : numerr + Z :=
  let '(base, t) := literal_prefix s in
  match parse_literal_loop base t 0 false with
  | inl e => inl e
  | inr (n, underscores) => if underscores && negb (underscore_ok s) then inl ErrSyntax else inr n
  end.

Definition parse_uint (s : bytes) (base : Z) : numerr + Z :=
  match s with
  | [] => inl ErrSyntax
  | _ => if (2 <=? base) && (base <=? 36) then parse_uint_loop base s 0
         else if base =? 0 then parse_literal s
         else inl ErrBase
  end.

(** atoi.go ParseInt.  On ErrRange of ParseUint the value is maxUint64, which then
    fails the cutoff test: a range error. *)
Definition parse_int (s : bytes) (base : Z) : numerr + Z :=
  match s with
  | [] => inl ErrSyntax
  | c :: s' =>
      let '(neg, t) := if c =? 43 then (false, s')
                       else if c =? 45 then (true, s')
                       else (false, s) in
      match parse_uint t base with
      | inl e => inl e
      | inr un =>
          if negb neg && (two63 <=? un) then inl ErrRange
          else if neg && (two63 <? un) then inl ErrRange
          else inr (if neg then - un else un)
      end
  end.
