(** Arithmetic formulas: their text, their trees and their values, without parsers,
    positions or syntax trees of the library (C38-C40). *)
From Verif Require Export S_Extra S_Csv.

Inductive fop := OAdd | OSub | OMul | ODiv.
Inductive arith :=
| FLit (z : Z)
| FNeg (f : arith)
| FBin (o : fop) (f g : arith).

(** ** Text *)
Definition op_byte (o : fop) : Z := match o with OAdd => 43 | OSub => 45 | OMul => 42 | ODiv => 47 end.
Definition additive (o : fop) : Prop := o = OAdd \/ o = OSub.
Definition multiplicative (o : fop) : Prop := o = OMul \/ o = ODiv.
(** Tab, LF, VT, FF, CR, space, U+0085 and U+00A0 in UTF-8. *)
Definition space_char (w : bytes) : Prop :=
  In w [[9]; [10]; [11]; [12]; [13]; [32]; [194; 133]; [194; 160]].
Inductive gap : bytes -> Prop :=
| gap_nil : gap []
| gap_more : forall x t, space_char x -> gap t -> gap (x ++ t).
(** 0_* or [1-9][0-9_]* with an optional plus sign; the underscores do not count. *)
Definition literal (w : bytes) (z : Z) : Prop :=
  exists d, (w = d \/ w = 43 :: d) /\ int_shape d /\ numeral 10 (strip d) z.

Inductive atomT : bytes -> arith -> Prop :=
| at_lit : forall w b z, literal w z -> gap b -> atomT (w ++ b) (FLit z)
| at_paren : forall b t f b', gap b -> exprT t f -> gap b' ->
    atomT ([40] ++ b ++ t ++ [41] ++ b') f
with factorT : bytes -> arith -> Prop :=
| ft_atom : forall t f, atomT t f -> factorT t f
| ft_neg : forall b t f, gap b -> factorT t f -> factorT ([45] ++ b ++ t) (FNeg f)
with termT : bytes -> arith -> Prop :=
| tt_factor : forall t f, factorT t f -> termT t f
| tt_bin : forall t f o b u g, multiplicative o -> termT t f -> gap b -> factorT u g ->
    termT (t ++ [op_byte o] ++ b ++ u) (FBin o f g)
with exprT : bytes -> arith -> Prop :=
| et_term : forall t f, termT t f -> exprT t f
| et_bin : forall t f o b u g, additive o -> exprT t f -> gap b -> termT u g ->
    exprT (t ++ [op_byte o] ++ b ++ u) (FBin o f g).
(** [s] is the text of the formula [f]. *)
Definition formula (s : bytes) (f : arith) : Prop := exists b t, s = b ++ t /\ gap b /\ exprT t f.

(** ** Value *)
(** [z] is the int64 with the same residue. *)
Definition wraps (z r : Z) : Prop := int64 r /\ exists k, z = r + k * 2 ^ 64.
(** The quotient rounded towards zero: the remainder is smaller than the divisor and
    has the sign of the dividend. *)
Definition trunc_quot (x y q : Z) : Prop := exists m, x = y * q + m /\ Z.abs m < Z.abs y /\ 0 <= x * m.
(** Evaluation in wrapping 64-bit arithmetic; division truncates towards zero.  There
    is no rule for a division by zero. *)
Inductive evals : arith -> Z -> Prop :=
| ev_lit : forall z, evals (FLit z) z
| ev_neg : forall f x r, evals f x -> wraps (- x) r -> evals (FNeg f) r
| ev_add : forall f g x y r, evals f x -> evals g y -> wraps (x + y) r -> evals (FBin OAdd f g) r
| ev_sub : forall f g x y r, evals f x -> evals g y -> wraps (x - y) r -> evals (FBin OSub f g) r
| ev_mul : forall f g x y r, evals f x -> evals g y -> wraps (x * y) r -> evals (FBin OMul f g) r
| ev_div : forall f g x y q r, evals f x -> evals g y -> y <> 0 -> trunc_quot x y q -> wraps q r ->
    evals (FBin ODiv f g) r.
(** Somewhere in the formula something is divided by zero. *)
Inductive divides_by_zero : arith -> Prop :=
| dz_here : forall f g, evals g 0 -> divides_by_zero (FBin ODiv f g)
| dz_neg : forall f, divides_by_zero f -> divides_by_zero (FNeg f)
| dz_left : forall o f g, divides_by_zero f -> divides_by_zero (FBin o f g)
| dz_right : forall o f g, divides_by_zero g -> divides_by_zero (FBin o f g).
(** The value in the integers, where it exists and nothing overflows. *)
Inductive exact : arith -> Z -> Prop :=
| ex_lit : forall z, exact (FLit z) z
| ex_neg : forall f x, exact f x -> int64 (- x) -> exact (FNeg f) (- x)
| ex_add : forall f g x y, exact f x -> exact g y -> int64 (x + y) -> exact (FBin OAdd f g) (x + y)
| ex_sub : forall f g x y, exact f x -> exact g y -> int64 (x - y) -> exact (FBin OSub f g) (x - y)
| ex_mul : forall f g x y, exact f x -> exact g y -> int64 (x * y) -> exact (FBin OMul f g) (x * y)
| ex_div : forall f g x y, exact f x -> exact g y -> y <> 0 -> int64 (Z.quot x y) ->
    exact (FBin ODiv f g) (Z.quot x y).
(** All literals are below (or at most) a bound. *)
Fixpoint literals (P : Z -> Prop) (f : arith) : Prop :=
  match f with
  | FLit z => P z
  | FNeg g => literals P g
  | FBin _ g h => literals P g /\ literals P h
  end.
