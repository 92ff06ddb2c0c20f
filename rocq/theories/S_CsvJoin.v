(** CSV texts put together (C83). *)
From Verif Require Export S_Csv.

(** The last row has text. *)
Definition texts_last (rows : list (list bytes)) : Prop := exists l r, rows = l ++ [r] /\ ~ textless r.
(** One or more line breaks. *)
Definition breaks (b : bytes) : Prop := exists ws, ws <> [] /\ Forall line_break ws /\ b = concat ws.
(** Lines with line breaks between them. *)
Inductive joined : list bytes -> bytes -> Prop :=
| jn_one : forall x, joined [x] x
| jn_more : forall x b xs s, breaks b -> joined xs s -> joined (x :: xs) (x ++ b ++ s).
