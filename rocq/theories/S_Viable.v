(** Texts that can be completed (C86). *)
From Verif Require Export S_FormulaRead.

(** A one and closing parentheses. *)
Definition completion (t : bytes) : Prop := exists n, t = 49 :: repeat 41 n.
(** A literal that does not fit into 64 bits, then space. *)
Definition too_large (y : bytes) : Prop :=
  exists w b z, y = w ++ b /\ gap b /\ integer_word w /\ int_numeral 10 (strip w) z /\ ~ int64 z.
