(** Specifications for ParseFloat (C54). *)
From Verif Require Export S_Extra M_Float.

(** ** binary64
    Finite numbers, measured in units of 2^-1074, the smallest positive one. *)
Definition finite_double (x : spec_float) : Prop :=
  match x with
  | S754_zero _ => True
  | S754_finite _ m e => Z.pos m < 2 ^ 53 /\ -1074 <= e <= 971
  | _ => False
  end.
Definition units (x : spec_float) : Z :=
  match x with
  | S754_finite s m e => (if s then -1 else 1) * (Z.pos m * 2 ^ (e + 1074))
  | _ => 0
  end.
(** Normalised: 53 bits, or the smallest exponent. *)
Definition normal_form (x : spec_float) : Prop :=
  match x with S754_finite _ m e => 2 ^ 52 <= Z.pos m \/ e = -1074 | _ => True end.
Definition even_mantissa (x : spec_float) : Prop :=
  match x with S754_finite _ m _ => Z.even (Z.pos m) = true | _ => True end.
Definition negative (x : spec_float) : bool :=
  match x with S754_zero s | S754_finite s _ _ | S754_infinity s => s | S754_nan => false end.

(** [x] is n/d rounded to the nearest, ties to even.  Distances are multiplied by
    d * 2^1074. *)
Definition distance (n d : Z) (x : spec_float) : Z := Z.abs (units x * d - n * 2 ^ 1074).
Definition rounded (n d : Z) (x : spec_float) : Prop :=
  finite_double x /\ normal_form x /\
  (forall y, finite_double y -> distance n d x <= distance n d y) /\
  (forall y, finite_double y -> distance n d y = distance n d x -> units y <> units x -> even_mantissa x).
(** |n/d| is at least half a unit of the last place above the largest finite number. *)
Definition too_large (n d : Z) : Prop := (2 ^ 54 - 1) * 2 ^ 970 * d <= Z.abs n.

(** ** Decimal texts
    sign, digits with at most one point and at least one digit, optional exponent. *)
Definition exponent_value (x : bytes) (ex : Z) : Prop :=
  (x = [] /\ ex = 0) \/
  exists c sg ds k, x = c :: sg ++ ds /\ (c = 69 \/ c = 101) /\ numeral 10 ds k /\ Forall dec_digit ds /\
    ((sg = [] \/ sg = [43]) /\ ex = k \/ sg = [45] /\ ex = - k).
Definition decimal_value (s : bytes) (neg : bool) (m ex frac : Z) : Prop :=
  exists sg i p f x, s = sg ++ i ++ p ++ f ++ x /\ ((sg = [] \/ sg = [43]) /\ neg = false \/ sg = [45] /\ neg = true) /\
    Forall dec_digit i /\ (p = [46] \/ (p = [] /\ f = [])) /\ Forall dec_digit f /\
    numeral 10 (i ++ f) m /\ exponent_value x ex /\ frac = Z.of_nat (length f).
(** The number (-1)^neg * m * 10^(ex - frac) as a fraction. *)
Definition numer (neg : bool) (m ex frac : Z) : Z := (if neg then -1 else 1) * (m * 10 ^ Z.max (ex - frac) 0).
Definition denom (ex frac : Z) : Z := 10 ^ Z.max (frac - ex) 0.

(** What ParseFloat has to answer for a number. *)
Definition float_of (neg : bool) (m ex frac : Z) (r : numerr + spec_float) : Prop :=
  (exists x, r = inr x /\ rounded (numer neg m ex frac) (denom ex frac) x /\ negative x = neg /\
     ~ too_large (numer neg m ex frac) (denom ex frac)) \/
  (r = inl ErrRange /\ too_large (numer neg m ex frac) (denom ex frac)).

(** ** Answers
    Texts of the bytes [0-9+-.eE]. *)
Definition decimal_alphabet (s : bytes) : Prop :=
  Forall (fun b => dec_digit b \/ b = 43 \/ b = 45 \/ b = 46 \/ b = 69 \/ b = 101) s.
Definition is_number (s : bytes) : Prop := exists neg m ex frac, decimal_value s neg m ex frac.
(** [x] is what every reading of [s] as a number denotes.  The exponents Go reads
    exactly are those below 100000. *)
Definition denotes (s : bytes) (x : spec_float) : Prop :=
  is_number s /\ forall neg m ex frac, decimal_value s neg m ex frac -> Z.abs ex < 100000 -> float_of neg m ex frac (inr x).
Definition overflows (s : bytes) : Prop :=
  is_number s /\ forall neg m ex frac, decimal_value s neg m ex frac -> Z.abs ex < 100000 -> float_of neg m ex frac (inl ErrRange).

(** A parser that reads the longest word of [R] and returns the float64 it denotes. *)
Definition float64_token (e : pexp) (cls : string) (R : tlang) : Prop :=
  forall env c, (forall k, peg_gram (env k)) -> Forall is_byte (c_str c) -> (c_pos c <= length (c_str c))%nat ->
  c_st c = Matched ->
  exists n o err, run env n e c = Ok (o, err) /\
    ((exists w s x a, longest R (skipn (c_pos c) (c_str c)) w s /\ denotes s x /\ err = None /\
        c_st o = Matched /\ c_pos o = (c_pos c + length w)%nat /\ c_stack o = c_stack c ++ [a] /\
        a_cls a = cls /\ a_ty a = TFloat /\ a_val a = VFloat x) \/
     (exists w s, longest R (skipn (c_pos c) (c_str c)) w s /\ (overflows s \/ ~ is_number s) /\
        err <> None /\ c_st o = Errored) \/
     (no_word R (skipn (c_pos c) (c_str c)) /\ err = None /\ c_st o = Unmatched)).
