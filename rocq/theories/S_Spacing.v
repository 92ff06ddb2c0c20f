(** The tokens of a formula and the space between them (C85). *)
From Verif Require Export S_FormulaRead.

(** A number, perhaps with its own sign, an operator or a parenthesis. *)
Definition lexeme (w : bytes) : Prop := integer_word w \/ In w [[40]; [41]; [42]; [43]; [45]; [47]].
(** Tokens with any space after each. *)
Inductive spelled : list bytes -> bytes -> Prop :=
| sl_end : spelled [] []
| sl_more : forall w b l s, gap b -> spelled l s -> spelled (w :: l) (w ++ b ++ s).
(** Tokens with any space before, between and after them. *)
Definition spelling (l : list bytes) (s : bytes) : Prop := exists b t, s = b ++ t /\ gap b /\ spelled l t.
