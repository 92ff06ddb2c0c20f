(** Property theorems for the SliceLike methods of AstSlice: C53. *)
From Verif Require Import S_Slice L_Slice.

Theorem C53_get : forall h s i, valid h s ->
  (forall a, ast_get h s i = Ok a <-> 0 <= i < ast_len s /\ nth_error (elems h s) (Z.to_nat i) = Some a) /\
  ((exists w, ast_get h s i = Panic w) <-> ~ 0 <= i < ast_len s).
Proof. intros h s i V. split; [intros a; apply get_ok; exact V|apply get_panics; exact V]. Qed.
Print Assumptions C53_get.

(** Set writes one memory cell: every slice sees the new AST where it shares that cell,
    and nothing else changes. *)
Theorem C53_set : forall h s i a, valid h s -> 0 <= i < ast_len s -> exists h', ast_set h s i (VAst a) = Ok h' /\
  forall t, valid h t -> valid h' t /\ forall j, 0 <= j < ast_len t ->
    (same_cell s i t j -> nth_error (elems h' t) (Z.to_nat j) = Some a) /\
    (~ same_cell s i t j -> nth_error (elems h' t) (Z.to_nat j) = nth_error (elems h t) (Z.to_nat j)).
Proof. exact set_ok. Qed.
Print Assumptions C53_set.
Theorem C53_set_panics : forall h s i v,
  (exists w, ast_set h s i v = Panic w) <-> (~ 0 <= i < ast_len s \/ forall a, v <> VAst a).
Proof. exact set_panics. Qed.
Print Assumptions C53_set_panics.

(** Reslice is a window on the same memory: index [k] of the result is the cell [i + k]. *)
Theorem C53_reslice : forall h s i j t, valid h s -> ast_reslice h s i j = Ok t ->
  valid h t /\ ast_len t = j - i /\ 0 <= i <= j /\ (forall k, same_cell t k s (i + k)) /\
  (j <= ast_len s -> elems h t = window (elems h s) i j).
Proof. exact slice_ok. Qed.
Print Assumptions C53_reslice.
(** The bound is the capacity. *)
Theorem C53_reslice_panics : forall h s i j,
  (exists w, ast_reslice h s i j = Panic w) <-> ~ (0 <= i <= j /\ j <= Z.of_nat (s_cap h s)).
Proof. exact slice_panics. Qed.
Print Assumptions C53_reslice_panics.

(** Copy is a new array: it shares no cell with any slice there was. *)
Theorem C53_copy : forall g h s i j, valid h s -> 0 <= i <= j -> j <= ast_len s ->
  exists h' t, ast_copy g h s i j = Ok (h', t) /\ valid h' t /\ elems h' t = window (elems h s) i j /\
    untouched h h' /\ forall u, valid h u -> separate t u.
Proof. exact copy_ok. Qed.
Print Assumptions C53_copy.

Theorem C53_make : forall h len cap, 0 <= len <= cap -> exists h' t, ast_make h len cap = Ok (h', t) /\ valid h' t /\
  ast_len t = len /\ Z.of_nat (s_cap h' t) = cap /\ (forall a, In a (elems h' t) -> a = mkAst 0 "" TNil VNil (mkSP 0 0)) /\
  untouched h h' /\ forall u, valid h u -> separate t u.
Proof. exact make_ok. Qed.
Print Assumptions C53_make.

(** They panic exactly for bounds that make no sense. *)
Theorem C53_copy_panics : forall g h s i j,
  (exists w, ast_copy g h s i j = Panic w) <-> ~ (0 <= i <= j /\ j <= Z.of_nat (s_cap h s)).
Proof. exact copy_panics. Qed.
Print Assumptions C53_copy_panics.
Theorem C53_make_panics : forall h len cap, (exists w, ast_make h len cap = Panic w) <-> ~ 0 <= len <= cap.
Proof. exact make_panics. Qed.
Print Assumptions C53_make_panics.

(** A slice of two elements in an array of four. *)
Definition x1 (n : Z) : ast := mkAst 0 "x" TInt (VInt n) (mkSP 0 0).
Definition h1 : heap := [[x1 0; x1 1; x1 2; x1 3]].
Definition s1 : slice := mkSlice 0 1 2.
Example C53_example :
  valid h1 s1 /\ elems h1 s1 = [x1 1; x1 2] /\ ast_get h1 s1 1 = Ok (x1 2) /\
  ast_set h1 s1 1 (VAst (x1 9)) = Ok [[x1 0; x1 1; x1 9; x1 3]] /\
  (* beyond the length, up to the capacity *)
  (exists t, ast_reslice h1 s1 1 3 = Ok t /\ elems h1 t = [x1 2; x1 3]) /\
  ast_make h1 3 2 = Panic "makeslice: cap out of range" /\ ast_copy (fun _ n => n) h1 s1 1 4 = Panic "slice bounds out of range" /\
  (exists h' t, ast_copy (fun _ n => n) h1 s1 0 2 = Ok (h', t) /\ elems h' t = [x1 1; x1 2] /\ s_arr t = 1%nat).
Proof.
  split; [split; simpl; lia|]. repeat split; try reflexivity; do 2 eexists; repeat split; reflexivity.
Qed.
