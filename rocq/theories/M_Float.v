(** Model of strconv.ParseFloat(s, 64) (Go standard library, strconv/atof.go) for texts
    of decimal digits, points, signs and exponent letters; other texts (hexadecimal,
    inf, nan, underscores) go to the parameter [other].
    Simplification: Go reads at most 19 digits into a uint64 and then tries several
    algorithms that all return the correctly rounded value of the whole text; here the
    whole mantissa is read and rounded in exact arithmetic. *)
From Verif Require Export M_StrTrans.

Definition is_num (b : Z) : bool := (48 <=? b) && (b <=? 57).
Definition is_exp (b : Z) : bool := (b =? 101) || (b =? 69).
Definition decimal_byte (b : Z) : bool := is_num b || is_exp b || (b =? 46) || (b =? 43) || (b =? 45).

(** readFloat, the loop over the digits: mantissa, number of digits behind the point,
    whether a digit was seen, rest. *)
Fixpoint read_mantissa (s : bytes) (dot dig : bool) (m : Z) (frac : Z) : Z * Z * bool * bytes :=
  match s with
  | [] => (m, frac, dig, [])
  | c :: r =>
      if c =? 46 then if dot then (m, frac, dig, s) else read_mantissa r true dig m frac
      else if is_num c then read_mantissa r dot true (m * 10 + (c - 48)) (if dot then frac + 1 else frac)
      else (m, frac, dig, s)
  end.
(** readFloat, the loop over the exponent digits: digits are dropped once 10000 is
    reached. *)
Fixpoint read_digits (s : bytes) (e : Z) : Z * bytes :=
  match s with
  | [] => (e, [])
  | c :: r => if is_num c then read_digits r (if e <? 10000 then e * 10 + (c - 48) else e) else (e, s)
  end.
Definition read_exponent (s : bytes) : option (Z * bytes) :=
  match s with
  | [] => Some (0, [])
  | c :: r =>
      if is_exp c then
        let '(sg, r1) := match r with
                         | x :: r' => if x =? 43 then (1, r') else if x =? 45 then (-1, r') else (1, r)
                         | [] => (1, [])
                         end in
        match r1 with
        | d :: _ => if is_num d then let '(e, r2) := read_digits r1 0 in Some (sg * e, r2) else None
        | [] => None
        end
      else Some (0, s)
  end.
(** readFloat and the test that the whole text was read: sign, mantissa, power of ten. *)
Definition read_float (s : bytes) : option (bool * Z * Z) :=
  let '(neg, s1) := match s with
                    | c :: r => if c =? 43 then (false, r) else if c =? 45 then (true, r) else (false, s)
                    | [] => (false, [])
                    end in
  let '(m, frac, dig, r) := read_mantissa s1 false false 0 0 in
  if dig then
    match read_exponent r with
    | Some (e, []) => Some (neg, m, e - frac)
    | _ => None
    end
  else None.

(** Rounding n/d to the nearest binary64, ties to even, in units of 2^-1074: mantissa and
    power of two of the result. *)
Definition round_units (n d : Z) : Z * Z :=
  let w := n * 2 ^ 1074 in
  let p := Z.max (Z.log2 (w / d) - 52) 0 in
  let b := d * 2 ^ p in
  let q := w / b in
  let r := w mod b in
  let m := if (b <? 2 * r) || ((2 * r =? b) && Z.odd q) then q + 1 else q in
  if m =? 2 ^ 53 then (2 ^ 52, p + 1) else (m, p).
(** The value (-1)^neg * m * 10^e as a float64; ErrRange if it is too large. *)
Definition decimal_to_float (neg : bool) (m e : Z) : numerr + spec_float :=
  if m =? 0 then inr (S754_zero neg)
  else
    let '(u, p) := round_units (m * 10 ^ Z.max e 0) (10 ^ Z.max (- e) 0) in
    if 2045 <? p then inl ErrRange
    else match u with
         | Z.pos x => inr (S754_finite neg x (p - 1074))
         | _ => inr (S754_zero neg)
         end.

Definition strconv_ParseFloat (other : bytes -> numerr + spec_float) (s : bytes) : numerr + spec_float :=
  if forallb decimal_byte s then
    match read_float s with
    | Some (neg, m, e) => decimal_to_float neg m e
    | None => inl ErrSyntax
    end
  else other s.
