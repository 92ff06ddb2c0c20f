(** Specifications for the messages of failed parses (C57). *)
From Verif Require Export S_Err S_LineCol S_Marshal.

(** The first line of the message. *)
Inductive says : option gerr -> bytes -> Prop :=
| sy_none : says None (bs "Parse failed")
| sy_text : forall m, says (Some (EText m)) (bs m)
| sy_range : forall w, says (Some (ENum "ParseInt" w true)) (bs "strconv.ParseInt: parsing " ++ [34] ++ w ++ [34] ++ bs ": value out of range").
(** [told t p q m]: [m] is [t] followed by the line and the column between the texts [p]
    and [q], counted from 1 and in bytes, and the lines around. *)
Definition told (t p q m : bytes) : Prop :=
  exists ls last rest dl dc, lines p ls last /\ line_rest q rest /\
    int_text (1 + Z.of_nat (length ls)) dl /\ int_text (1 + Z.of_nat (length last)) dc /\
    m = t ++ [10] ++ bs " --> Line " ++ dl ++ bs ", Col " ++ dc ++ [10] ++ report 4 ls last rest.
(** The message explains the failure. *)
Definition explained (s m : bytes) : Prop :=
  (told (bs "Parse failed") [] s m /\ exists t r f, s = t ++ r /\ formula t f /\ r <> [] /\ forall o, ~ begins [op_byte o] r) \/
  (exists p q y t, s = p ++ q /\ blames p q y /\ says (Some y) t /\ told t p q m).
