(** Model of strconv.FormatFloat(x, 'g', -1, 64) (Go standard library, strconv/ftoa.go and
    decimal.go; trusted reading), which marshal.go:109 calls, and of the conversion to float32 of
    reflect.Value.SetFloat (reflect/value.go), which marshal.go:213 calls.
    Simplifications: FormatFloat tries a faster algorithm (ryuFtoaShortest), which returns the
    same digits as roundShortest does; roundShortest is modelled.  Its decimals have at most 767
    digits and are never cut off.  They are represented by integers with a common power of ten, so
    that comparing two decimals digit by digit is comparing integers. *)
From Verif Require Export M_FloatAll M_Marshal.

(** decimal.go Assign, digits of a positive integer. *)
Definition decimal (z : Z) : bytes := dec_digits (S (Z.to_nat (Z.log2 z))) z.
(** decimal.go trim: no zeros at the end. *)
Fixpoint trim (l : bytes) : bytes :=
  match l with
  | [] => []
  | c :: r => match trim r with [] => if c =? 48 then [] else [c] | t => c :: t end
  end.
(** decimal.go Shift: v * 2^(e-2) as an integer, to be multiplied by 10^(e-2) if e < 2. *)
Definition quarters (e v : Z) : Z := if 2 <=? e then v * 2 ^ (e - 2) else v * 5 ^ (2 - e).
(** decimal.go shouldRoundUp for [v] before the digit that counts 10^j; ties go to the even digit. *)
Definition should_round_up (v : Z) (j : nat) : bool :=
  let b := 10 ^ Z.of_nat j in
  (b <? 2 * (v mod b)) || ((2 * (v mod b) =? b) && Z.odd (v / b)).
(** ftoa.go roundShortest, the loop over the digits, from the highest one of [upper] down.  The
    digits down to the one that counts 10^j, rounded down, are above [lower] or equal to it if that
    is allowed (okdown); rounded up they are below [upper] or equal to it (okup).  At the last digit
    of [v] rounding down changes nothing, so that the loop ends there. *)
Fixpoint round_shortest (inclusive : bool) (lower v upper : Z) (j : nat) : Z * nat :=
  let b := 10 ^ Z.of_nat j in
  let q := v / b in
  let okdown := (lower <? q * b) || (inclusive && (lower =? q * b)) in
  let okup := ((q + 1) * b <? upper) || (inclusive && (upper =? (q + 1) * b)) in
  if okdown && okup then (if should_round_up v j then q + 1 else q, j)
  else if okdown then (q, j)
  else if okup then (q + 1, j)
  else match j with O => (v, O) | S j' => round_shortest inclusive lower v upper j' end.
(** ftoa.go roundShortest: digits and position of the point of the shortest decimal for m * 2^e.
    The test whether the decimal is already shortest (minexp, 332) is left out, it saves time only. *)
Definition shortest_digits (m e : Z) : bytes * Z :=
  let v := quarters e (4 * m) in
  let upper := quarters e (4 * m + 2) in
  let lower := quarters e (if (2 ^ 52 <? m) || (e =? -1074) then 4 * m - 2 else 4 * m - 1) in
  let '(k, j) := round_shortest (Z.even m) lower v upper (length (decimal upper) - 1) in
  (trim (decimal k), Z.of_nat (length (decimal k) + j) - Z.max 0 (2 - e)).

Definition minus (neg : bool) : bytes := if neg then [45] else [].
(** ftoa.go fmtE with as many digits as there are. *)
Definition fmt_e (neg : bool) (ds : bytes) (dp : Z) : bytes :=
  let ex := Z.abs (dp - 1) in
  minus neg ++ firstn 1 ds ++ (match skipn 1 ds with [] => [] | r => 46 :: r end) ++
  [101; if dp - 1 <? 0 then 45 else 43] ++
  (if ex <? 10 then [48; 48 + ex]
   else if ex <? 100 then [48 + ex / 10; 48 + ex mod 10]
   else [48 + ex / 100; 48 + ex / 10 mod 10; 48 + ex mod 10]).
(** ftoa.go fmtF with max(nd - dp, 0) digits behind the point. *)
Definition fmt_f (neg : bool) (ds : bytes) (dp : Z) : bytes :=
  let nd := Z.of_nat (length ds) in
  minus neg ++
  (if 0 <? dp then firstn (Z.to_nat dp) ds ++ repeat 48 (Z.to_nat (dp - nd)) else [48]) ++
  (if 0 <? nd - dp then 46 :: repeat 48 (Z.to_nat (- dp)) ++ skipn (Z.to_nat dp) ds else []).
(** ftoa.go formatDigits for 'g' and the shortest precision. *)
Definition fmt_g (neg : bool) (ds : bytes) (dp : Z) : bytes :=
  if (dp - 1 <? -4) || (6 <=? dp - 1) then fmt_e neg ds dp else fmt_f neg ds dp.
(** ftoa.go genericFtoa *)
Definition FormatFloat (x : spec_float) : bytes :=
  match x with
  | S754_nan => bs "NaN"
  | S754_infinity neg => if neg then bs "-Inf" else bs "+Inf"
  | S754_zero neg => fmt_g neg [] 0
  | S754_finite neg m e => let '(ds, dp) := shortest_digits (Z.pos m) e in fmt_g neg ds dp
  end.

(** ** float32(x), as a float64 again *)
(** The float64 m * 2^e with 53 bits, or with the lowest exponent. *)
Definition widen (neg : bool) (m : positive) (e : Z) : spec_float :=
  let s := Z.min (52 - Z.log2 (Z.pos m)) (e + 1074) in
  match Z.pos m * 2 ^ s with Z.pos u => S754_finite neg u (e - s) | _ => S754_zero neg end.
(** The nearest float32, ties to even; infinity if it is too large.  The number is counted in units
    of 2^-1074, the smallest float64; the smallest float32 is 2^925 units. *)
Definition to_float32 (x : spec_float) : spec_float :=
  match x with
  | S754_finite neg m e =>
      let w := Z.pos m * 2 ^ (e + 1074) in
      let s := Z.max (Z.log2 w - 23) 925 in
      let b := 2 ^ s in
      let q := w / b in
      let r := w mod b in
      let u := if (b <? 2 * r) || ((2 * r =? b) && Z.odd q) then q + 1 else q in
      if 2 ^ 1202 <=? u * b then S754_infinity neg
      else match u with Z.pos u' => widen neg u' (s - 1074) | _ => S754_zero neg end
  | _ => x
  end.
