(** Model of strconv.ParseFloat(s, 64) for every text (Go standard library,
    strconv/atof.go: special, readFloat, atofHex, atof64, ParseFloat; trusted reading).
    Simplification: as in M_Float the whole mantissa is read and rounded in exact
    arithmetic, where Go keeps at most 19 decimal or 16 hexadecimal digits and notes
    whether a non-zero digit was dropped; the position of the point is kept as the number
    of digits behind it. *)
From Verif Require Export M_Float.

(** atof.go commonPrefixLenIgnoreCase; [pre] is in lower case. *)
Fixpoint prefix_len (s pre : bytes) : nat :=
  match s, pre with
  | c :: s', p :: pre' => if lower c =? p then S (prefix_len s' pre') else 0%nat
  | _, _ => 0%nat
  end.
(** atof.go special: the value and the number of bytes read. *)
Definition special_inf (neg : bool) (nsign : nat) (t : bytes) : option (spec_float * nat) :=
  let n0 := prefix_len t (bs "infinity") in
  let n := if Nat.ltb 3 n0 && Nat.ltb n0 8 then 3%nat else n0 in
  if Nat.eqb n 3 || Nat.eqb n 8 then Some (S754_infinity neg, nsign + n)%nat else None.
Definition special (s : bytes) : option (spec_float * nat) :=
  match s with
  | [] => None
  | c :: r =>
      if (c =? 43) || (c =? 45) then special_inf (c =? 45) 1 r
      else if lower c =? 105 then special_inf false 0 s
      else if lower c =? 110 then
        if Nat.eqb (prefix_len s (bs "nan")) 3 then Some (S754_nan, 3%nat) else None
      else None
  end.

(** atof.go readFloat, the loop over the digits: mantissa, number of digits behind the
    point, whether a digit and whether an underscore was seen, rest. *)
Definition hex_letter (c : Z) : bool := in_rng 97 102 (lower c).
Fixpoint read_mant (hex : bool) (s : bytes) (dot dig us : bool) (m frac : Z) : Z * Z * bool * bool * bytes :=
  match s with
  | [] => (m, frac, dig, us, [])
  | c :: r =>
      if c =? 95 then read_mant hex r dot dig true m frac
      else if c =? 46 then if dot then (m, frac, dig, us, s) else read_mant hex r true dig us m frac
      else if is_num c then
        read_mant hex r dot true us (m * (if hex then 16 else 10) + (c - 48)) (if dot then frac + 1 else frac)
      else if hex && hex_letter c then
        read_mant hex r dot true us (m * 16 + (lower c - 97 + 10)) (if dot then frac + 1 else frac)
      else (m, frac, dig, us, s)
  end.
(** readFloat, the loop over the exponent digits. *)
Fixpoint read_exp_digits (s : bytes) (e : Z) (us : bool) : Z * bool * bytes :=
  match s with
  | [] => (e, us, [])
  | c :: r =>
      if c =? 95 then read_exp_digits r e true
      else if is_num c then read_exp_digits r (if e <? 10000 then e * 10 + (c - 48) else e) us
      else (e, us, s)
  end.
(** readFloat, the exponent; a hexadecimal number must have one. *)
Definition read_exp (hex : bool) (s : bytes) (us : bool) : option (Z * bool * bytes) :=
  let none := if hex then None else Some (0, us, s) in
  match s with
  | [] => none
  | c :: r =>
      if lower c =? (if hex then 112 else 101) then
        let '(sg, r1) := match r with
                         | x :: r' => if x =? 43 then (1, r') else if x =? 45 then (-1, r') else (1, r)
                         | [] => (1, [])
                         end in
        match r1 with
        | d :: _ => if is_num d then let '(e, us', r2) := read_exp_digits r1 0 us in Some (sg * e, us', r2) else None
        | [] => None
        end
      else none
  end.
(** atof.go readFloat: sign, whether hexadecimal, mantissa, power of 2 or 10, rest. *)
Definition read_float_all (s : bytes) : option (bool * bool * Z * Z * bytes) :=
  let '(neg, s1) := match s with
                    | c :: r => if c =? 43 then (false, r) else if c =? 45 then (true, r) else (false, s)
                    | [] => (false, [])
                    end in
  let '(hex, s2) := match s1 with
                    | z :: x :: ((_ :: _) as t) => if (z =? 48) && (lower x =? 120) then (true, t) else (false, s1)
                    | _ => (false, s1)
                    end in
  let '(m, frac, dig, us, r) := read_mant hex s2 false false false 0 0 in
  if dig then
    match read_exp hex r us with
    | Some (e, us', rest) =>
        if us' && negb (underscore_ok (firstn (length s - length rest) s)) then None
        else Some (neg, hex, m, if hex then e - 4 * frac else e - frac, rest)
    | None => None
    end
  else None.
(** atof.go atofHex: (-1)^neg * m * 2^e as a float64; ErrRange if it is too large. *)
Definition binary_to_float (neg : bool) (m e : Z) : numerr + spec_float :=
  if m =? 0 then inr (S754_zero neg)
  else
    let '(u, p) := round_units (m * 2 ^ Z.max e 0) (2 ^ Z.max (- e) 0) in
    if 2045 <? p then inl ErrRange
    else match u with
         | Z.pos x => inr (S754_finite neg x (p - 1074))
         | _ => inr (S754_zero neg)
         end.
(** atof.go ParseFloat with atof64: what was not read to the end is a syntax error. *)
Definition strconv_ParseFloat64 (s : bytes) : numerr + spec_float :=
  match special s with
  | Some (x, n) => if Nat.eqb n (length s) then inr x else inl ErrSyntax
  | None =>
      match read_float_all s with
      | Some (neg, hex, m, e, []) => if hex then binary_to_float neg m e else decimal_to_float neg m e
      | _ => inl ErrSyntax
      end
  end.
