(** Specifications for C78: how many parser calls production rules make. *)
From Verif Require Export M_CountRule S_Obj.

(** The number of rules of a table. *)
Definition width (prs : prod_table) : nat := length (flat_map fst prs).
(** Whenever the parser returns for a list, at any position, it has made at most [K] calls. *)
Definition rule_calls (env : nat -> pexp) (tag : value) (K : nat) (e : pexp) : Prop :=
  forall n asts p o err, (p <= length asts)%nat -> run env n e (at_pos tag asts p) = Ok (o, err) -> (cost env n e (at_pos tag asts p) <= K)%nat.
(** Whenever the rule matches, it replaces what it matches by something shorter. *)
Definition shortens (env : nat -> pexp) (tag : value) (e : pexp) : Prop :=
  forall n asts p o, (p <= length asts)%nat -> run env n e (at_pos tag asts p) = Ok (o, None) -> c_st o = Matched ->
    (p + length (c_stack o) < c_pos o)%nat.
(** A transformer that returns one AST whenever it returns ASTs. *)
Definition to_one (t : trans) : Prop := forall n c l l1, t n c l = Ok (inr l1) -> length l1 = 1%nat.
(** [k] additions of numbers as the formula grammar reads them: n + n + ... + n. *)
Definition is_number (a : ast) : Prop := a_cls a = "Number"%string /\ exists z, a_val a = VInt z.
Definition is_plus (a : ast) : Prop := a_cls a = "BinaryOperator"%string /\ a_val a = VStr (bs "+").
Inductive additions : nat -> list ast -> Prop :=
| ad_one : forall a, is_number a -> additions 0 [a]
| ad_more : forall k a s l, is_number a -> is_plus s -> additions k l -> additions (S k) (a :: s :: l).
(** The text 1+1+...+1 with [k] signs. *)
Fixpoint plus_ones (k : nat) : bytes := match k with 0%nat => [] | S k' => 43 :: 49 :: plus_ones k' end.
Definition sum_text (k : nat) : bytes := 49 :: plus_ones k.
