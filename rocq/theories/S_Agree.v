(** What the two formula examples have in common (C82). *)
From Verif Require Export S_FormulaRead S_Torpn.

(** [s] is read as the formula [f], whether or not it can be computed. *)
Definition read_as (s : bytes) (f : arith) : Prop :=
  exists b u, whole_gap s b u /\ expression_at (fun _ => False) u (Got f []).
(** A list of numbers and operators that a stack machine can run: how many numbers are on
    its stack before and after.  An operator takes two of them and leaves one. *)
Inductive stacks : nat -> list value -> nat -> Prop :=
| stk_end : forall d, stacks d [] d
| stk_num : forall d z l d', stacks (Datatypes.S d) l d' -> stacks d (VInt z :: l) d'
| stk_op : forall d o l d', stacks (Datatypes.S d) l d' -> stacks (Datatypes.S (Datatypes.S d)) (VStr [op_byte o] :: l) d'.
(** Every number in the list is as said. *)
Definition numbers (P : Z -> Prop) (l : list value) : Prop := forall z, In (VInt z) l -> P z.
