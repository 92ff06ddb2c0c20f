(** Formulas put together (C84). *)
From Verif Require Export S_FormulaRead.

(** A text in parentheses. *)
Definition grouped (s : bytes) : bytes := [40] ++ s ++ [41].
