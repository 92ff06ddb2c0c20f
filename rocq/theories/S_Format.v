(** Specification of the texts Marshal writes for floats (C71). *)
From Verif Require Export S_FloatAll S_MarshalX M_Format.

(** Every float64. *)
Definition a_double (x : spec_float) : Prop := match x with S754_finite _ _ _ => finite_double x /\ normal_form x | _ => True end.
(** Every float64 that is a float32: 24 bits; in units of 2^-1074. *)
Definition single_units (u : Z) : Prop := exists k j, Z.abs u = k * 2 ^ (j + 1074) /\ 0 <= k < 2 ^ 24 /\ -149 <= j <= 104.
Definition a_single (x : spec_float) : Prop := a_double x /\ single_units (units x).
(** The last of the 24 bits is 0. *)
Definition even_single (u : Z) : Prop := exists k j, Z.abs u = 2 * k * 2 ^ (j + 1074) /\ -149 <= j /\ 0 <= 2 * k <= 2 ^ 24 /\ (2 ^ 23 <= 2 * k \/ j = -149).
(** [y] is [x] rounded to the nearest float32, ties to even. *)
Definition single_of (x y : spec_float) : Prop :=
  match x with
  | S754_finite neg _ _ =>
      (y = S754_infinity neg /\ (2 ^ 25 - 1) * 2 ^ 1177 <= Z.abs (units x)) \/
      (Z.abs (units x) < (2 ^ 25 - 1) * 2 ^ 1177 /\ negative y = neg /\ finite_double y /\ a_single y /\
       forall u, single_units u -> Z.abs (units y - units x) <= Z.abs (u - units x) /\
         (Z.abs (units y - units x) = Z.abs (u - units x) -> u <> units y -> even_single (units y)))
  | _ => y = x
  end.

(** ** The digits *)
(** The decimal (-1)^neg k * 10^t rounds to [x]. *)
Definition rounds_to (x : spec_float) (k t : Z) : Prop :=
  nearest (negative x) (numer_of (negative x) k 10 t) (denom_of 10 t) (inr x).
(** How far it is away from [x]; comparable for one [t]. *)
Definition off (x : spec_float) (k t : Z) : Z := distance (numer_of (negative x) k 10 t) (denom_of 10 t) x.
(** The decimal [k] * 10^[t], which has the digits [ds], rounds to [x]; no decimal that rounds to
    [x] has fewer digits, or ends at a higher power of ten; none that ends at 10^t is nearer. *)
Definition shortest (x : spec_float) (ds : bytes) (t : Z) : Prop :=
  exists k, canonical ds k /\ rounds_to x k t /\
    (forall k' t', 0 < k' -> rounds_to x k' t' -> 10 ^ (Z.of_nat (length ds) - 1) <= k' /\ t' <= t) /\
    (forall k', 0 < k' -> rounds_to x k' t -> off x k t <= off x k' t).

(** ** The layout *)
(** An exponent: a sign and two or three digits. *)
Definition exponent_text (s : bytes) (ex : Z) : Prop :=
  exists g ds, s = g :: ds /\ numeral 10 ds (Z.abs ex) /\ ((g = 43 /\ 0 <= ex) \/ (g = 45 /\ ex < 0)) /\
    (length ds = 2%nat \/ (length ds = 3%nat /\ 100 <= Z.abs ex)).
(** The digits [ds], the last one counting 10^t, with or without exponent. *)
Inductive layout (neg : bool) (ds : bytes) (t : Z) : bytes -> Prop :=
| ly_exp : forall d rest x ex, ds = d :: rest -> ex = t + Z.of_nat (length rest) -> (ex < -4 \/ 6 <= ex) -> exponent_text x ex ->
    layout neg ds t ((if neg then [45] else []) ++ d :: (if rest then [] else 46 :: rest) ++ 101 :: x)
| ly_int : 0 <= t -> t + Z.of_nat (length ds) <= 6 -> layout neg ds t ((if neg then [45] else []) ++ ds ++ repeat 48 (Z.to_nat t))
| ly_point : forall a b, ds = a ++ b -> a <> [] -> t = - Z.of_nat (length b) -> t < 0 -> (length a <= 6)%nat ->
    layout neg ds t ((if neg then [45] else []) ++ a ++ 46 :: b)
| ly_small : forall z, t + Z.of_nat (length ds) = - Z.of_nat z -> (z <= 3)%nat ->
    layout neg ds t ((if neg then [45] else []) ++ 48 :: 46 :: repeat 48 z ++ ds).
Definition float_text (x : spec_float) (s : bytes) : Prop :=
  match x with
  | S754_nan => s = bs "NaN"
  | S754_infinity neg => s = bs (if neg then "-Inf" else "+Inf")
  | S754_zero neg => s = bs (if neg then "-0" else "0")
  | S754_finite neg _ _ => exists ds t, shortest x ds t /\ layout neg ds t s
  end.
