(** C41: Traverse visits and rebuilds the tree. *)
From Verif Require Import L_Traverse.

(** Callbacks that change nothing, and return no error: the same tree comes back, and
    the callbacks have been called in the order [v]: each node once before its
    children and once after them.  [f] and [g] are what the callbacks do to their
    state, so that the order is observable. *)
Theorem C41_identity : forall (S : Type) (f g : S -> ast -> S) cherr s v, visits s v ->
  exists n, forall st,
    traverse (fun st a => (f st a, (a, MNone, None))) (fun st a => (g st a, mkT a 0 TNop None None)) cherr n st s =
    Ok (fold_left (fun st x => match x with There a => f st a | Back a => g st a end) v st, mkT s 0 TNop None None).
Proof. exact @identity. Qed.
Print Assumptions C41_identity.

(** Every tree whose tags describe its values has such an order. *)
Theorem C41_visits_exist : forall s, tagged s -> exists v, visits s v.
Proof. exact tagged_visits. Qed.
Print Assumptions C41_visits_exist.

(** For arbitrary callbacks the sequence of calls, with arguments and answers, is a
    run of the automaton of S_Traverse.v that ends with the result of Traverse. *)
Theorem C41_calls : forall (S : Type) there back cherr n (st : S) root st' evs r,
  traverse (log_there there) (log_back back) (log_err cherr) n (st, []) root = Ok ((st', evs), r) ->
  tsteps root (Run []) evs (Finished r).
Proof.
  intros S there back cherr n st root st' evs r E. destruct (traverse_log there back cherr n _ _ _ _ E) as (e & X & H).
  simpl in X. subst e. apply H; constructor.
Qed.
Print Assumptions C41_calls.

(** Writing the log changes nothing else. *)
Theorem C41_log_is_transparent : forall (S : Type) there back cherr n (st : S) root log,
  match traverse (log_there there) (log_back back) (log_err cherr) n (st, log) root with
  | Ok (p, r) => Ok (fst p, r) | Panic w => Panic w | Fuel => Fuel end = traverse there back cherr n st root.
Proof. intros. apply (strip_traverse there back cherr n (st, log) root). Qed.
Print Assumptions C41_log_is_transparent.

(** Once a node failed (Unwind), only fnChildrenErr is called: once for every open node
    from the inside out, each time with the same thrown value and error, which are also
    returned. *)
Theorem C41_error_reaches_every_ancestor : forall root K r evs r', t_failed r = true ->
  tsteps root (Unwind K r) evs (Finished r') ->
  Forall2 (fun f e => exists c, e = EvErr (f_node f) c (t_thrown r) (t_err r)) K evs /\
  t_thrown r' = t_thrown r /\ t_err r' = t_err r.
Proof. exact unwinds. Qed.
Print Assumptions C41_error_reaches_every_ancestor.

(** Traverse does not panic when fnWayThere returns nodes whose tags describe their
    values and fnWayBack does not jump backwards by pcIncr ... *)
Theorem C41_no_panic : forall (S : Type) there back cherr,
  (forall (st : S) a, shaped (fst (fst (snd (there st a))))) -> (forall (st : S) a, 0 <= t_pc (snd (back st a))) ->
  forall n st s w, traverse there back cherr n st s <> Panic w.
Proof.
  intros S there back cherr H1 H2 n st s w E. pose proof (safe_traverse there back cherr H1 H2 n st s) as X. rewrite E in X. exact X.
Qed.
Print Assumptions C41_no_panic.

Definition leaf (k : Z) : ast := mkAst k "n" TInt (VInt k) sp0.
Definition lst (l : list ast) : ast := mkAst 0 "l" TListOfAst (VAsts l) sp0.
(** ... but a negative pcIncr can move the index below the first child. *)
Theorem C41_backward_jump_panics : exists (back : unit -> ast -> unit * tres) n,
  traverse (fun st a => (st, (a, MLast, None))) back (fun st _ _ _ _ => st) n tt (lst [leaf 1; leaf 2]) = Panic "index out of range".
Proof. exists (fun st a => (st, mkT a (-2) TNop None None)), 9%nat. vm_compute. reflexivity. Qed.
Print Assumptions C41_backward_jump_panics.

(** A tree with a list, a cons cell and leaves: the order of its visits. *)
Example C41_order :
  let c := mkAst 0 "c" TAstCons (VCons (leaf 2) (leaf 3)) sp0 in let t := lst [leaf 1; c] in
  tagged t /\ visits t [There t; There (leaf 1); Back (leaf 1); There c; There (leaf 2); Back (leaf 2); There (leaf 3); Back (leaf 3); Back c; Back t].
Proof.
  cbv zeta. assert (L : forall k, tagged (leaf k)) by (intros; apply tg_leaf; discriminate).
  assert (V : forall k, visits (leaf k) [There (leaf k); Back (leaf k)]) by (intros; apply v_leaf; discriminate).
  split.
  - eapply tg_list; [reflexivity|reflexivity|]. constructor; [auto|]. constructor; [|constructor]. eapply tg_cons; [reflexivity|reflexivity|auto|auto].
  - eapply v_list with (vs := [[There (leaf 1); Back (leaf 1)]; There _ :: [There (leaf 2); Back (leaf 2)] ++ [There (leaf 3); Back (leaf 3)] ++ [Back _]]);
      [reflexivity|reflexivity|]. constructor; [auto|]. constructor; [|constructor].
    eapply v_cons; [reflexivity|reflexivity|auto|auto].
Qed.
(** A loop: in WayThereMode_Last, leaf 2 continues to the first child twice, then leaf 3
    breaks; leaf 4 is never visited.  The state counts. *)
Example C41_loop :
  let there (st : list Z) a := (st ++ [a_op a], (a, match a_ty a with TListOfAst => MLast | _ => MNone end, None)) in
  let back (st : list Z) a := (st, if (a_op a =? 2) && (Nat.ltb (length st) 6) then mkT a 0 TContinue None None
                              else if a_op a =? 3 then mkT a 0 TBreak None None else mkT a 0 TNop None None) in
  traverse there back (fun st _ _ _ _ => st) 20 [] (lst [leaf 1; leaf 2; leaf 3; leaf 4]) =
  Ok ([0; 1; 2; 1; 2; 1; 2; 3], mkT (lst [leaf 2]) 0 TNop None None).
Proof. vm_compute. reflexivity. Qed.
(** An error two levels down, with the log. *)
Example C41_error :
  let there (st : unit) a := (st, (a, MNone, if a_op a =? 3 then Some (EText "no") else None)) in
  let back (st : unit) a := (st, mkT a 0 TNop None None) in
  let inner := lst [leaf 2; leaf 3; leaf 4] in let t := lst [leaf 1; inner; leaf 5] in
  match traverse (log_there there) (log_back back) (log_err (fun st _ _ _ _ => st)) 20 (tt, []) t with
  | Ok ((_, evs), r) =>
      r = mkT t 0 TNop None (Some (EText "no")) /\
      skipn 6 evs = [EvThere (leaf 3) (leaf 3) MNone (Some (EText "no")); EvErr inner (leaf 3) None (Some (EText "no")); EvErr t inner None (Some (EText "no"))]
  | _ => False
  end.
Proof. vm_compute. auto. Qed.
