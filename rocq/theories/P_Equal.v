(** C27: exactly which ASTs AstSlice.ItemEquals takes for equal, and when it panics. *)
From Verif Require Import L_Equal.

Theorem C27_equal : forall x y, item_equals x y = Some true <-> exists a b, x = VAst a /\ y = VAst b /\ same_ast a b.
Proof.
  intros x y. split.
  - intros H. destruct x; try discriminate. destruct y; try discriminate. do 2 eexists. split; [reflexivity|]. split; [reflexivity|]. apply same_iff. exact H.
  - intros (a & b & -> & -> & S). apply same_iff. exact S.
Qed.
Print Assumptions C27_equal.
(** It panics if it is not given ASTs, or ASTs whose values are not what their types say. *)
Theorem C27_panics : forall x y, item_equals x y = None <-> ~ (exists a b, x = VAst a /\ y = VAst b) \/ exists a b, x = VAst a /\ y = VAst b /\ bad_pair a b.
Proof.
  intros x y. assert (K : (exists a b, x = VAst a /\ y = VAst b) \/ ~ (exists a b, x = VAst a /\ y = VAst b)).
  { destruct x; try (right; intros (? & ? & ? & ?); discriminate). destruct y; try (right; intros (? & ? & ? & ?); discriminate). left. eauto. }
  destruct K as [(a & b & -> & ->)|K].
  - cbn [item_equals]. rewrite bad_iff. split; [intros B; right; eauto|]. intros [N|(a' & b' & E & E' & B)]; [exfalso; apply N; eauto|]. injection E as ->. injection E' as ->. exact B.
  - split; [intros _; left; exact K|]. intros _. destruct x; auto. destruct y; auto. exfalso. apply K. eauto.
Qed.
Print Assumptions C27_panics.
(** DeepEqual. *)
Theorem C27_deep : forall v w, deep_eqb v w = true <-> deeply v w.
Proof. exact (proj1 deep_iff). Qed.
Print Assumptions C27_deep.

Definition five (o : Z) (p : nat) : ast := mkAst o "n" TInt (VInt 5) (mkSP p 1).
Definition lying : ast := mkAst 0 "l" TListOfAst (VInt 1) sp0.
Definition listed (o : Z) (l : list ast) : ast := mkAst o "l" TListOfAst (VAsts l) sp0.
Example C27_some_equal : same_ast (listed 1 [five 2 3; listed 0 []]) (listed 7 [five 0 0; listed 9 []]) /\
  ~ same_ast (listed 0 [five 0 0]) (listed 0 []) /\
  deeply (VSlice [VAst (five 0 0); VFloat (S754_zero true)]) (VSlice [VAst (five 0 0); VFloat (S754_zero false)]) /\
  ~ deeply (VSlice [VAst (five 0 0)]) (VSlice [VAst (five 1 0)]).
Proof.
  split; [|split; [|split]].
  - repeat constructor; discriminate.
  - intros S. apply same_iff in S. discriminate.
  - repeat constructor.
  - intros D. apply C27_deep in D. discriminate.
Qed.
Example C27_some_bad : bad_pair (listed 1 [five 2 3; lying]) (listed 1 [five 2 4; lying]) /\ ~ bad_pair (listed 1 [five 2 3; lying]) (listed 1 [lying; lying]) /\
  item_equals (VInt 1) (VInt 1) = None.
Proof.
  split; [|split; [|reflexivity]].
  - apply (bp_item 1 1 _ _ _ [five 2 3] lying [] [five 2 4] lying []); auto.
    + repeat constructor; discriminate.
    + apply bp_list. intros (l & l' & H & _). discriminate.
  - intros B. apply bad_iff in B. discriminate.
Qed.
