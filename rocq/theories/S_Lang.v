(** Languages with output: what a text parser may consume and what text it returns
    for it.  No parsers, no positions. *)
From Verif Require Export M_Types S_Text.

(** [R w o]: the text [w] belongs to the language and yields the text [o]. *)
Definition tlang := bytes -> bytes -> Prop.

(** One byte / one well-formed character of a set, kept. *)
Definition oneL (P : Z -> Prop) : tlang := fun w o => exists b, w = [b] /\ o = [b] /\ P b.
Definition charL (P : Z -> Prop) : tlang := fun w o => exists r, utf8_char r w /\ o = w /\ P r.
Definition litL (s : bytes) : tlang := fun w o => w = s /\ o = s.
(** Nothing consumed, [s] inserted. *)
Definition insL (s : bytes) : tlang := fun w o => w = [] /\ o = s.
Definition seqL (R1 R2 : tlang) : tlang := fun w o =>
  exists w1 o1 w2 o2, w = w1 ++ w2 /\ o = o1 ++ o2 /\ R1 w1 o1 /\ R2 w2 o2.
Definition altL (R1 R2 : tlang) : tlang := fun w o => R1 w o \/ R2 w o.
Definition optL (R : tlang) : tlang := altL R (insL []).
Definition noneL : tlang := fun _ _ => False.
Definition mapL (f : bytes -> bytes) (R : tlang) : tlang := fun w o => exists o', R w o' /\ o = f o'.
(** [k] words in a row. *)
Fixpoint powL (R : tlang) (k : nat) : tlang :=
  match k with O => insL [] | S k' => seqL R (powL R k') end.
(** At least [mn] and, unless [mx] is negative, at most [mx] words. *)
Definition repL (mn mx : Z) (R : tlang) : tlang := fun w o =>
  exists k, powL R k w o /\ mn <= Z.of_nat k /\ (mx < 0 \/ Z.of_nat k <= mx).

(** [w] is the longest word of the language at the start of [rest]. *)
Definition longest (R : tlang) (rest w o : bytes) : Prop :=
  (exists t, rest = w ++ t) /\ R w o /\
  (forall w' o' t', rest = w' ++ t' -> R w' o' -> (length w' <= length w)%nat).
(** No word of the language is there. *)
Definition no_word (R : tlang) (rest : bytes) : Prop := forall w o t, rest = w ++ t -> ~ R w o.
