(** Specifications for C53: slices as windows on arrays. *)
From Verif Require Export S_Heap M_Slice.

(** The elements [start..end-1]. *)
Definition window {A} (l : list A) (i j : Z) : list A := firstn (Z.to_nat (j - i)) (skipn (Z.to_nat i) l).
(** Index [i] of [s] and index [j] of [t] are the same memory cell. *)
Definition same_cell (s : slice) (i : Z) (t : slice) (j : Z) : Prop :=
  s_arr s = s_arr t /\ Z.of_nat (s_off s) + i = Z.of_nat (s_off t) + j.
(** No cell of [s] is a cell of [t]. *)
Definition separate (s t : slice) : Prop :=
  forall i j, 0 <= i < ast_len s -> 0 <= j < ast_len t -> ~ same_cell s i t j.
(** Every slice that was valid is valid and has its elements. *)
Definition untouched (h h' : heap) : Prop := forall t, valid h t -> valid h' t /\ elems h' t = elems h t.
