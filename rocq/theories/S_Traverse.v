(** Specification of Ast.Traverse (C41): an automaton with an explicit stack that
    reads the sequence of callback calls. *)
From Verif Require Export M_Traverse.

(** A call of a callback with its argument and its answer. *)
Inductive tev :=
| EvThere (a s : ast) (m : waymode) (err : option gerr)
| EvBack (s : ast) (r : tres)
| EvErr (parent child : ast) (thrown : option value) (err : option gerr).

(** Open nodes: without children to visit; with the children done and still to do;
    with the program counter of WayThereMode_Last. *)
Inductive frame :=
| FLeaf (s : ast)
| FSeq (s : ast) (done todo : list ast)
| FJump (s : ast) (orig : list ast) (i : Z) (slot : list ast).
Definition f_node (f : frame) : ast := match f with FLeaf s | FSeq s _ _ | FJump s _ _ _ => s end.

(** Opening the node [s] that fnWayThere returned with mode [m]. *)
Inductive opens : ast -> waymode -> frame -> Prop :=
| op_lazy : forall s, opens s MLazy (FLeaf s)
| op_cons : forall s m car cdr, m <> MLazy -> a_ty s = TAstCons -> a_val s = VCons car cdr -> opens s m (FSeq s [] [car; cdr])
| op_list : forall s m l, m <> MLazy -> m <> MLast -> a_ty s = TListOfAst -> a_val s = VAsts l -> opens s m (FSeq s [] l)
| op_last : forall s l, a_ty s = TListOfAst -> a_val s = VAsts l ->
    opens s MLast (FJump s l 0 (match l with [] => [] | _ => [zero_ast] end))
| op_leaf : forall s m, m <> MLazy -> a_ty s <> TAstCons -> a_ty s <> TListOfAst -> opens s m (FLeaf s).
(** The child that is visited next. *)
Inductive wants : frame -> ast -> Prop :=
| w_seq : forall s done a todo, wants (FSeq s done (a :: todo)) a
| w_jump : forall s l i slot a, 0 <= i -> nth_error l (Z.to_nat i) = Some a -> wants (FJump s l i slot) a.
(** All children done: the node handed to fnWayBack, with the results of the children
    in place of the children. *)
Inductive complete : frame -> ast -> Prop :=
| c_leaf : forall s, complete (FLeaf s) s
| c_cons : forall s a b, a_ty s = TAstCons -> complete (FSeq s [a; b] []) (put_val s (VCons a b))
| c_list : forall s done, a_ty s = TListOfAst -> complete (FSeq s done []) (put_val s (VAsts done))
| c_jump : forall s l i slot, Z.of_nat (length l) <= i -> complete (FJump s l i slot) (put_val s (VAsts slot)).
(** A child has returned normally.  Break: to the end; Continue: to the first child;
    otherwise: to the next; in each case plus pcIncr.  Only Nop stores the result. *)
Inductive advance : frame -> tres -> frame -> Prop :=
| ad_seq : forall s done a todo r, advance (FSeq s done (a :: todo)) r (FSeq s (done ++ [t_ast r]) todo)
| ad_nop : forall s l i x slot r, t_op r = TNop -> advance (FJump s l i (x :: slot)) r (FJump s l (i + 1 + t_pc r) (t_ast r :: slot))
| ad_break : forall s l i slot r, t_op r = TBreak -> advance (FJump s l i slot) r (FJump s l (Z.of_nat (length l) + t_pc r) slot)
| ad_continue : forall s l i slot r, t_op r = TContinue -> advance (FJump s l i slot) r (FJump s l (0 + t_pc r) slot)
| ad_other : forall s l i slot r k, t_op r = TOther k -> advance (FJump s l i slot) r (FJump s l (i + 1 + t_pc r) slot).
(** The child named in fnChildrenErr: the original one for lists, the one returned for
    cons cells. *)
Inductive blamed : frame -> tres -> ast -> Prop :=
| bl_cons : forall s done todo r, a_ty s = TAstCons -> blamed (FSeq s done todo) r (t_ast r)
| bl_list : forall s done a todo r, a_ty s = TListOfAst -> blamed (FSeq s done (a :: todo)) r a
| bl_jump : forall s l i slot r a, wants (FJump s l i slot) a -> blamed (FJump s l i slot) r a.

(** Running with the open nodes on a stack; unwinding after a node failed; finished. *)
Inductive config := Run (K : list frame) | Unwind (K : list frame) (r : tres) | Finished (r : tres).
(** Handing the result of a node to its parent. *)
Inductive deliver : list frame -> tres -> config -> Prop :=
| dl_top : forall r, deliver [] r (Finished r)
| dl_fail : forall f K r, t_failed r = true -> deliver (f :: K) r (Unwind (f :: K) r)
| dl_ok : forall f f' K r, t_failed r = false -> advance f r f' -> deliver (f :: K) r (Run (f' :: K)).
Definition expects (root : ast) (K : list frame) (a : ast) : Prop :=
  match K with [] => a = root | f :: _ => wants f a end.

Inductive tstep (root : ast) : config -> tev -> config -> Prop :=
| ts_there : forall K a s m f, expects root K a -> opens s m f ->
    tstep root (Run K) (EvThere a s m None) (Run (f :: K))
| ts_there_err : forall K a s m e C, expects root K a -> deliver K (t_fail s None (Some e)) C ->
    tstep root (Run K) (EvThere a s m (Some e)) C
| ts_back : forall K f s r C, complete f s -> deliver K r C -> tstep root (Run (f :: K)) (EvBack s r) C
| ts_err : forall K f r c C, blamed f r c -> deliver K (t_fail (f_node f) (t_thrown r) (t_err r)) C ->
    tstep root (Unwind (f :: K) r) (EvErr (f_node f) c (t_thrown r) (t_err r)) C.
Inductive tsteps (root : ast) : config -> list tev -> config -> Prop :=
| tss_nil : forall C, tsteps root C [] C
| tss_cons : forall C e C1 l C2, tstep root C e C1 -> tsteps root C1 l C2 -> tsteps root C (e :: l) C2.

(** Callbacks that also write a log. *)
Section Logged.
Context {S : Type}.
Variable there : S -> ast -> S * (ast * waymode * option gerr).
Variable back : S -> ast -> S * tres.
Variable cherr : S -> ast -> ast -> option value -> option gerr -> S.
Definition log_there (p : S * list tev) (a : ast) : (S * list tev) * (ast * waymode * option gerr) :=
  let '(st, (s, m, e)) := there (fst p) a in ((st, snd p ++ [EvThere a s m e]), (s, m, e)).
Definition log_back (p : S * list tev) (s : ast) : (S * list tev) * tres :=
  let '(st, r) := back (fst p) s in ((st, snd p ++ [EvBack s r]), r).
Definition log_err (p : S * list tev) (s c : ast) (th : option value) (e : option gerr) : S * list tev :=
  (cherr (fst p) s c th e, snd p ++ [EvErr s c th e]).
End Logged.

(** ** Callbacks that change nothing *)
(** Type and dynamic type agree, where Traverse relies on it. *)
Inductive tagged : ast -> Prop :=
| tg_cons : forall s a b, a_ty s = TAstCons -> a_val s = VCons a b -> tagged a -> tagged b -> tagged s
| tg_list : forall s l, a_ty s = TListOfAst -> a_val s = VAsts l -> Forall tagged l -> tagged s
| tg_leaf : forall s, a_ty s <> TAstCons -> a_ty s <> TListOfAst -> tagged s.
(** The visits of a tree: each node once on the way there, before its children, and
    once on the way back, after them. *)
Inductive visit := There (a : ast) | Back (a : ast).
Inductive visits : ast -> list visit -> Prop :=
| v_cons : forall s a b va vb, a_ty s = TAstCons -> a_val s = VCons a b -> visits a va -> visits b vb ->
    visits s ([There s] ++ va ++ vb ++ [Back s])
| v_list : forall s l vs, a_ty s = TListOfAst -> a_val s = VAsts l -> Forall2 visits l vs ->
    visits s ([There s] ++ concat vs ++ [Back s])
| v_leaf : forall s, a_ty s <> TAstCons -> a_ty s <> TListOfAst -> visits s [There s; Back s].
(** One node only. *)
Definition shaped (s : ast) : Prop :=
  (a_ty s = TAstCons -> exists a b, a_val s = VCons a b) /\ (a_ty s = TListOfAst -> exists l, a_val s = VAsts l).
