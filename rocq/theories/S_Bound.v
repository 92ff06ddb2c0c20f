(** What WordBoundary takes for the previous character (C19). *)
From Verif Require Export S_Str.

(** The planes whose UTF-8 lead bytes (F1, F2 and F4) are passed over. *)
Definition passed_over (r : Z) : Prop := 262144 <= r < 786432 \/ 1048576 <= r.
(** [r] is the last character before position [p] of [s] that is not passed over. *)
Definition seen_before (s : bytes) (p : nat) (r : Z) : Prop :=
  exists t cs u rs, firstn p s = t ++ cs ++ u /\ utf8_char r cs /\ ~ passed_over r /\ utf8 rs u /\ Forall passed_over rs.
