(** Which error a text that is no number of 64 bits causes (C21, C45). *)
From Verif Require Export S_Trans M_StrTrans.

(** The text begins with digits that are too large for 64 bits. *)
Definition too_long (base : Z) (s : bytes) : Prop := exists p r z, s = p ++ r /\ numeral base p z /\ 2 ^ 64 <= z.
(** The error of an unsigned number: out of range, even if what follows is no digit, or else
    a syntax error. *)
Definition uint_fault (base : Z) (s : bytes) (range : bool) : Prop :=
  (range = true /\ too_long base s) \/
  (range = false /\ ~ too_long base s /\ forall z, ~ numeral base s z).
(** The text without its sign. *)
Definition unsigned (s : bytes) (neg : bool) (t : bytes) : Prop :=
  (neg = false /\ s = 43 :: t) \/ (neg = true /\ s = 45 :: t) \/
  (neg = false /\ s = t /\ forall u, s <> 43 :: u /\ s <> 45 :: u).
Definition int_fault (base : Z) (s : bytes) (range : bool) : Prop :=
  exists neg t, unsigned s neg t /\
  ((range = true /\ (too_long base t \/ exists z, numeral base t z /\ ~ int64 (if neg then - z else z))) \/
   (range = false /\ ~ too_long base t /\ forall z, ~ numeral base t z)).
