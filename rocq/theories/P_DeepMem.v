(** C75: reflect.DeepEqual and AstSlice.ItemEquals on memory with sharing, nil slices and cycles. *)
From Verif Require Import L_DeepMem.

(** ** DeepEqual *)
(** It always ends, whatever cycles the memory has, and always with the one answer of the bisimulation. *)
Theorem C75_DeepEqual : forall s u v, exists f b,
  (forall g, (f <= g)%nat -> DeepEqual g s u v = Ok b) /\
  (forall g r, DeepEqual g s u v = r -> r = Ok b \/ r = Fuel) /\
  (b = true <-> any_same s u v).
Proof. exact DeepEqual_exact. Qed.
Print Assumptions C75_DeepEqual.
(** It is symmetric and transitive, and every slice equals itself. *)
Theorem C75_relation : forall s,
  (forall x y, deeply_at s x y -> deeply_at s y x) /\
  (forall x y z, deeply_at s x y -> deeply_at s y z -> deeply_at s x z) /\
  (forall x o, node_at s x = Some (DSlice o) -> deeply_at s x x).
Proof. intros s. split; [exact (deeply_sym s)|]. split; [exact (deeply_trans s)|exact (deeply_slice s)]. Qed.
Print Assumptions C75_relation.
(** Without cycles, NaN and functions the answer depends on the contents alone, not on what is shared. *)
Theorem C75_contents : forall s x y n m t t', node_at s x = Some n -> node_at s y = Some m ->
  unfolds s n t -> unfolds s m t' -> tree_same t t -> (deeply_at s x y <-> tree_same t t').
Proof. exact deep_tree. Qed.
Print Assumptions C75_contents.
(** For the values of the model it is the comparison of M_Equal. *)
Theorem C75_DeepEqual_value : forall s u u' v w, unfolds s (DIface u) (tree_of v) -> unfolds s (DIface u') (tree_of w) -> deep_eqb v v = true ->
  exists f, forall g, (f <= g)%nat -> DeepEqual g s u u' = Ok (deep_eqb v w).
Proof. exact DeepEqual_value. Qed.
Print Assumptions C75_DeepEqual_value.
(** ItemEquals on two Asts in memory gives what the model's ItemEquals gives, panics of type assertions included. *)
Theorem C75_ItemEquals : forall s a b n m, unfolds s n (tree_of_ast a) -> unfolds s m (tree_of_ast b) -> deep_eqb_ast a a = true ->
  exists f, forall g, (f <= g)%nat -> mem_equals g s n m = of_answer (ast_equals a b).
Proof. exact mem_equals_ok. Qed.
Print Assumptions C75_ItemEquals.

(** ** A memory for the examples *)
(** An Ast in memory. *)
Definition d_ast (cls : string) (ty : asttype) (v : option (nat * nat)) (p l : Z) : dnode :=
  DStruct [DAtom (VInt 0); DAtom (VStr (bs cls)); DAtom (VOther (ty_code ty)); DIface v; DIface None; DStruct [DAtom (VInt p); DAtom (VInt l)]].
(** 0: the number 7; 1: an array of two Asts that both hold it; 2: a list header over both; 3: a list header over
    the second; 4: another 7; 5: an Ast array with it; 6: a header over that; 7: a NaN array; 8, 9: headers over it;
    10: a header over a copy of it; 11: the copy; 12: a nil slice; 13: an empty slice; 14: an Ast list that contains itself; 15: its header. *)
Definition ex_store : dstore :=
  [ [DAtom (VInt 7)];
    [d_ast "N" TInt (Some (2, 0)) 0 1; d_ast "N" TInt (Some (2, 0)) 0 1];
    [DSlice (Some (1, 0, 2))];
    [DSlice (Some (1, 1, 1))];
    [DAtom (VInt 7)];
    [d_ast "N" TInt (Some (2, 4)) 0 1];
    [DSlice (Some (5, 0, 1))];
    [DIface (Some (4, 16))];
    [DSlice (Some (7, 0, 1))];
    [DSlice (Some (7, 0, 1))];
    [DSlice (Some (11, 0, 1))];
    [DIface (Some (4, 16))];
    [DSlice None];
    [DSlice (Some (0, 0, 0))];
    [d_ast "L" TListOfAst (Some (21, 15)) 0 0];
    [DSlice (Some (14, 0, 1))];
    [DAtom (VFloat S754_nan)] ]%nat.
Definition ex_seven := mkAst 0 "N" TInt (VInt 7) (mkSP 0 1).
Ltac unfold_memory := repeat first [apply uf_atom|apply uf_nil|apply uf_nils|eapply uf_iface; [reflexivity|]|eapply uf_slice; [reflexivity|cbn; lia|]|apply uf_struct|apply ua_nil|apply ua_cons|progress cbn].

(** The two list values with one seven each, one of which is part of a larger array. *)
Example C75_lists : unfolds ex_store (DIface (Some (dt_asts, 3%nat))) (tree_of (VAsts [ex_seven])) /\
  unfolds ex_store (DIface (Some (dt_asts, 6%nat))) (tree_of (VAsts [ex_seven])) /\
  deep_eqb (VAsts [ex_seven]) (VAsts [ex_seven]) = true /\
  DeepEqual 40 ex_store (Some (dt_asts, 3%nat)) (Some (dt_asts, 6%nat)) = Ok true /\
  DeepEqual 40 ex_store (Some (dt_asts, 2%nat)) (Some (dt_asts, 6%nat)) = Ok false.
Proof. split; [unfold_memory|]. split; [unfold_memory|]. vm_compute. auto. Qed.
Definition d_list (b : nat) : dnode := d_ast "L" TListOfAst (Some (dt_asts, b)) 0 0.
Example C75_items : unfolds ex_store (d_list 3) (tree_of_ast (mkAst 0 "L" TListOfAst (VAsts [ex_seven]) (mkSP 0 0))) /\
  unfolds ex_store (d_list 2) (tree_of_ast (mkAst 0 "L" TListOfAst (VAsts [ex_seven; ex_seven]) (mkSP 0 0))) /\
  mem_equals 40 ex_store (d_list 3) (d_list 6) = Ok true /\ mem_equals 40 ex_store (d_list 3) (d_list 2) = Ok false /\
  mem_equals 40 ex_store (d_list 3) (d_ast "L" TListOfAst (Some (2%nat, 0%nat)) 0 0) = Panic "interface conversion".
Proof. split; [unfold_memory|]. split; [unfold_memory|]. vm_compute. auto. Qed.

(** ** What the comparison by contents alone would get wrong *)
(** With NaN, what is shared counts: two headers over one array are equal, a header over a copy is not. *)
Theorem C75_shared_nan_refuted : exists s x y z t,
  (forall u, In u [x; y; z] -> exists n, node_at s (u, 0%nat, []) = Some n /\ unfolds s n t) /\
  DeepEqual 40 s (Some (23%nat, x)) (Some (23%nat, y)) = Ok true /\ DeepEqual 40 s (Some (23%nat, x)) (Some (23%nat, z)) = Ok false.
Proof.
  exists ex_store, 8%nat, 9%nat, 10%nat, (TrSlice (Some [TrIface (Some (4%nat, TrAtom (VFloat S754_nan)))])).
  split; [|vm_compute; auto]. intros u [<-|[<-|[<-|[]]]]; eexists; (split; [reflexivity|]); unfold_memory.
Qed.
Print Assumptions C75_shared_nan_refuted.
(** A nil and an empty slice are different for DeepEqual, so for a ListOfAny; for the ListOfAst of ItemEquals they are equal. *)
Theorem C75_nil_slice_refuted : exists s x y,
  node_at s (x, 0%nat, []) = Some (DSlice None) /\ (exists a i, node_at s (y, 0%nat, []) = Some (DSlice (Some (a, i, 0%nat)))) /\
  DeepEqual 40 s (Some (23%nat, x)) (Some (23%nat, y)) = Ok false /\
  mem_equals 40 s (d_ast "A" TListOfAny (Some (23%nat, x)) 0 0) (d_ast "A" TListOfAny (Some (23%nat, y)) 0 0) = Ok false /\
  mem_equals 40 s (d_list x) (d_list y) = Ok true.
Proof. exists ex_store, 12%nat, 13%nat. split; [reflexivity|]. split; [eexists _, _; reflexivity|]. vm_compute. auto. Qed.
Print Assumptions C75_nil_slice_refuted.
(** ItemEquals has no record of what it visited: on a list that contains itself it never ends, where DeepEqual answers. *)
Theorem C75_cyclic_list_refuted : exists s n t b, node_at s (b, 0%nat, []) = Some n /\
  (forall g, mem_equals g s n n = Fuel) /\ (forall g, (40 <= g)%nat -> DeepEqual g s (Some (t, b)) (Some (t, b)) = Ok true).
Proof.
  exists ex_store, (d_list 15), dt_ast, 14%nat. split; [reflexivity|]. split.
  - assert (Step : forall g, mem_equals (S g) ex_store (d_list 15) (d_list 15) =
      match mem_equals g ex_store (d_list 15) (d_list 15) with Ok true => Ok true | r => r end) by reflexivity.
    induction g as [|g IH]; [reflexivity|]. rewrite Step, IH. reflexivity.
  - intros g L. destruct (C75_DeepEqual ex_store (Some (dt_ast, 14%nat)) (Some (dt_ast, 14%nat))) as (f & b & F & A & _).
    assert (Q : DeepEqual 40 ex_store (Some (dt_ast, 14%nat)) (Some (dt_ast, 14%nat)) = Ok true) by (vm_compute; reflexivity).
    destruct (A 40%nat _ Q) as [B|B]; [|discriminate]. injection B as <-.
    cbn [DeepEqual] in *. rewrite Nat.eqb_refl in *. destruct (deq 40 ex_store [] (dcell 14 0) (dcell 14 0)) as [[seen r]|] eqn:E; [|discriminate].
    rewrite (deq_more ex_store 40 g [] _ _ _ L E). exact Q.
Qed.
Print Assumptions C75_cyclic_list_refuted.
