(** Postfix forms and their evaluation (C40). *)
From Verif Require Export S_Formula M_Types.

(** A literal under any number of minus signs, and its value. *)
Inductive signed : arith -> Z -> Prop :=
| sg_lit : forall z, signed (FLit z) z
| sg_neg : forall f x r, signed f x -> wraps (- x) r -> signed (FNeg f) r.
(** Formulas with a binary operator in them. *)
Inductive compound : arith -> Prop :=
| cp_bin : forall o f g, compound (FBin o f g)
| cp_neg : forall f, compound f -> compound (FNeg f).
(** Operands first, then the operator; signs are folded into literals. *)
Inductive postfix : arith -> list value -> Prop :=
| pf_num : forall f z, signed f z -> postfix f [VInt z]
| pf_neg : forall f l, compound f -> postfix f l -> postfix (FNeg f) (l ++ [VStr [45]])
| pf_bin : forall o f g l m, postfix f l -> postfix g m -> postfix (FBin o f g) (l ++ m ++ [VStr [op_byte o]]).

(** One operation in wrapping 64-bit arithmetic. *)
Inductive operates : fop -> Z -> Z -> Z -> Prop :=
| op_add : forall x y r, wraps (x + y) r -> operates OAdd x y r
| op_sub : forall x y r, wraps (x - y) r -> operates OSub x y r
| op_mul : forall x y r, wraps (x * y) r -> operates OMul x y r
| op_div : forall x y q r, y <> 0 -> trunc_quot x y q -> wraps q r -> operates ODiv x y r.
(** The usual stack machine: numbers are pushed, an operator takes two operands. *)
Inductive machine : list value -> list Z -> list Z -> Prop :=
| mc_end : forall st, machine [] st st
| mc_num : forall z l st st', machine l (z :: st) st' -> machine (VInt z :: l) st st'
| mc_op : forall o x y r l st st', operates o x y r -> machine l (r :: st) st' ->
    machine (VStr [op_byte o] :: l) (y :: x :: st) st'.
(** Minus signs only before literals, not before parentheses with an operator inside. *)
Fixpoint plainly_signed (f : arith) : Prop :=
  match f with
  | FLit _ => True
  | FNeg g => plainly_signed g /\ ~ compound g
  | FBin _ g h => plainly_signed g /\ plainly_signed h
  end.
