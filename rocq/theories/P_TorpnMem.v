(** C65: torpn with Go's slice semantics. *)
From Verif Require Import L_Torpn L_TorpnMem.

(** Whatever the memory holds before the call and however the runtime chooses capacities,
    Parse answers as if lists were values: no [append] in place ever changes a list
    that is still used. *)
Theorem C65_lists_are_values : forall g h n s, mem_Parse g h n s = torpn_Parse n s.
Proof. exact mem_parse. Qed.
Print Assumptions C65_lists_are_values.

(** So the answer for a formula is its postfix form. *)
Theorem C65_postfix : forall g h s f l, Forall is_byte s -> formula s f -> literals (fun z => z < 2 ^ 63)%Z f -> postfix f l ->
  exists n0, forall n, (n0 <= n)%nat -> mem_Parse g h n s = Ok (inr (inr l)).
Proof.
  intros g h s f l Hb F L P. destruct (torpn_postfix s f l Hb F L P) as (n0 & H). exists n0. intros n Hn. rewrite mem_parse. apply H. exact Hn.
Qed.
Print Assumptions C65_postfix.

(** Arrays that existed before the call are as they were, also when Parse fails. *)
Theorem C65_caller_memory : forall g h n s h1 r, w_run (fun _ => mem_grouped g) n (mem_program g) h (new_string_ctx s) = (h1, Ok r) ->
  firstn (length h) h1 = h.
Proof. exact mem_kept. Qed.
Print Assumptions C65_caller_memory.

(** The transformer alone does not have this property: the second use of an operand
    changes the result of the first. *)
Theorem C65_unary_alone_refuted : forall g c, exists h op op' x h1 r h2 r', mem_unary g 0 c h [op; x] = (h1, tok [r]) /\
  mem_unary g 0 c h1 [op'; x] = (h2, tok [r']) /\
  mem_answer h1 r = Ok (inr [VInt 1; VInt 2; VStr (bs "+"); VStr (bs "-")]) /\
  mem_answer h2 r = Ok (inr [VInt 1; VInt 2; VStr (bs "+"); VStr (bs "~")]).
Proof.
  intros g c. pose (o := fun t => mkAst 0 "UnaryOperator" TString (VStr (bs t)) sp0).
  exists [[int_ast 1; int_ast 2; o "+"%string; zero_ast]], (o "-"%string), (o "~"%string), (slice_ast (mkSlice 0 0 3)),
    [[int_ast 1; int_ast 2; o "+"%string; o "-"%string]], (slice_ast (mkSlice 0 0 4)),
    [[int_ast 1; int_ast 2; o "+"%string; o "~"%string]], (slice_ast (mkSlice 0 0 4)).
  repeat split.
Qed.
Print Assumptions C65_unary_alone_refuted.

(** A formula whose lists are extended in place: with capacities doubled on growth the
    five elements of (1+2)+3 leave room for the minus sign, which is written behind
    them; the unused array of 1+2 stays behind. *)
Definition doubling : growth := fun cap need => (2 * Nat.max cap need)%nat.
Definition ast_text (a : ast) : value := a_val a.
Example C65_sample : mem_Parse doubling [] 60 (bs "-((1+2)+3)") = Ok (inr (inr [VInt 1; VInt 2; VStr (bs "+"); VInt 3; VStr (bs "+"); VStr (bs "-")])) /\
  map (map ast_text) (fst (w_run (fun _ => mem_grouped doubling) 60 (mem_program doubling) [] (new_string_ctx (bs "-((1+2)+3)")))) =
    [[VInt 1; VInt 2; VStr (bs "+")];
     [VInt 1; VInt 2; VStr (bs "+")];
     [VInt 1; VInt 2; VStr (bs "+"); VInt 3; VStr (bs "+"); VStr (bs "-"); VNil; VNil]].
Proof. split; vm_compute; reflexivity. Qed.
