(** Specification of debug tracing (C42). *)
From Verif Require Export M_Tracer.

(** ** The grammar without tracing: DebugTrace is a group
    The engine of M_Base and M_Production, run on the same grammar. *)
Definition t_levels (ls : list (list (ctx -> out) * bool)) : list precedence :=
  map (fun l => mkPrec (map (fun p (_ : nat) => p) (fst l)) (snd l)) ls.
Definition t_trans : list ttr -> list (ctx -> out) -> list trans :=
  arrange (fun t => t) (fun ls check => ProductionRule (t_levels ls) (fun _ => check)) (fun _ => Panic nil_call).
Fixpoint t_denote (rho : nat -> ctx -> out) (n : nat) (e : texp) {struct e} : ctx -> out :=
  match e with
  | TLight cls fn => light_base_parser cls (fn n)
  | TBase cls fn props es rs tr =>
      base_parser cls fn props (map (t_denote rho n) es) (option_map (fun ts => t_trans ts (map (t_denote rho n) rs)) tr) n
  | TBehind neg mn mx es => look_behind_base neg mn mx (map (t_denote rho n) es) n
  | TInd k => Indirect (rho k)
  | TTrace _ _ es => base_parser ":Base:DebugTrace" None [] (map (t_denote rho n) es) None n
  end.
Fixpoint t_run_env (env : nat -> texp) (n : nat) (k : nat) : ctx -> out :=
  match n with
  | O => fun _ => Fuel
  | S m => fun c => t_denote (t_run_env env m) m (env k) c
  end.
Definition t_run (env : nat -> texp) (n : nat) (e : texp) : ctx -> out := t_denote (t_run_env env n) n e.

(** The same as a grammar of M_Grammar, when the rules of the calls of ProductionRule use
    no Indirect: they do not need the environment. *)
Definition no_indirect : nat -> pexp := fun _ => EUnmatched.
Definition e_levels (ls : list (list pexp * bool)) : list precedence :=
  map (fun l => mkPrec (map (fun e n => run no_indirect n e) (fst l)) (snd l)) ls.
Definition e_trans : list ttr -> list pexp -> list trans :=
  arrange (fun t => t) (fun ls check => ProductionRule (e_levels ls) (fun n => run no_indirect n check)) (ELight "" (fun _ _ => Panic nil_call)).
Fixpoint erase (e : texp) : pexp :=
  match e with
  | TLight cls fn => ELight cls fn
  | TBase cls fn props es rs tr => EBase cls fn props (map erase es) (option_map (fun ts => e_trans ts (map erase rs)) tr)
  | TBehind neg mn mx es => ELookBehind neg mn mx (map erase es)
  | TInd k => EIndirect k
  | TTrace _ _ es => EBase ":Base:DebugTrace" None [] (map erase es) None
  end.
(** Tracers that only look. *)
Definition observer (t : tracer) : Prop :=
  (forall m c, tr_before t m c = (c, None)) /\ (forall m c err, tr_after t m c err = (c, None)) /\ (forall m c w, tr_panic t m c w = None).
(** The state before anything has been built or run. *)
Definition g_start : gs := mkGs false "" 0 0 [] (fun _ => None) [].

(** Properly nested events, and events up to a panic with the value [w].  Every Before is
    closed by an After, or by a Panic that the whole call goes on with; a Panic that follows
    an After is about that After itself.  A Panic is given the context that Before has left, or
    the one that the panicking After has left.  The exception: where recover() returns nil for
    panic(nil), the Before of the parser that recovers is closed by nothing. *)
Section Nested.
Variable lost : bool.
Variable pts : nat -> tracer.
Definition next_panic (m : mark) (c : ctx) (w : string) : string :=
  match tr_panic (pts (m_tr m)) m c w with Some w' => w' | None => w end.
Inductive nested : list event -> Prop :=
| ns_nil : nested []
| ns_pair : forall m c es o err rest, nested es -> nested rest ->
    nested (EvBefore m c :: es ++ EvAfter m o err :: rest)
| ns_lost : forall m c es rest, lost = true -> crashed panic_nil es -> nested rest -> nested (EvBefore m c :: es ++ rest)
with crashed : string -> list event -> Prop :=
| cr_here : forall w es, nested es -> crashed w es
| cr_in : forall w pre m c es c', nested pre -> crashed w es -> fst (tr_before (pts (m_tr m)) m c) = c' ->
    crashed (next_panic m c' w) (pre ++ EvBefore m c :: es ++ [EvPanic m c' w])
| cr_after : forall w pre m c es o err c', nested pre -> nested es -> tr_after (pts (m_tr m)) m o err = (c', Some w) ->
    crashed (next_panic m c' w) (pre ++ EvBefore m c :: es ++ [EvAfter m o err; EvPanic m c' w]).
End Nested.

(** The marks of a parser tree, in the order of construction. *)
Definition opt_list {A} (o : option A) : list A := match o with Some x => [x] | None => [] end.
Fixpoint marks (b : bexp) : list mark :=
  match b with
  | BLight m _ _ => opt_list m
  | BBase m _ _ _ bs rs _ => flat_map marks bs ++ flat_map marks rs ++ opt_list m
  | BBehind m _ _ _ bs => flat_map marks bs ++ opt_list m
  | BInd m _ _ => opt_list m
  end.
(** Every parser of the tree is traced / none is. *)
Fixpoint all_marked (b : bexp) : Prop :=
  match b with
  | BLight m _ _ | BInd m _ _ => m <> None
  | BBase m _ _ _ bs rs _ => m <> None /\ fold_right and True (map all_marked bs) /\ fold_right and True (map all_marked rs)
  | BBehind m _ _ _ bs => m <> None /\ fold_right and True (map all_marked bs)
  end.
(** A grammar without DebugTrace. *)
Fixpoint untraced (e : texp) : Prop :=
  match e with
  | TLight _ _ | TInd _ => True
  | TBase _ _ _ es rs _ => fold_right and True (map untraced es) /\ fold_right and True (map untraced rs)
  | TBehind _ _ _ es => fold_right and True (map untraced es)
  | TTrace _ _ _ => False
  end.
(** A parser without Indirect; a grammar whose production rules are such parsers. *)
Fixpoint closed (e : texp) : Prop :=
  match e with
  | TLight _ _ => True
  | TInd _ => False
  | TBase _ _ _ es rs _ => fold_right and True (map closed es) /\ fold_right and True (map closed rs)
  | TBehind _ _ _ es | TTrace _ _ es => fold_right and True (map closed es)
  end.
Fixpoint closed_rules (e : texp) : Prop :=
  match e with
  | TLight _ _ | TInd _ => True
  | TBase _ _ _ es rs _ => fold_right and True (map closed_rules es) /\ fold_right and True (map closed rs)
  | TBehind _ _ _ es | TTrace _ _ es => fold_right and True (map closed_rules es)
  end.
(** The mark of a parser that [tracer] wraps directly (the function returned by
    LookBehind runs a traced parser, but is not traced itself). *)
Definition top_mark (b : bexp) : option mark :=
  match b with BLight m _ _ | BBase m _ _ _ _ _ _ | BInd m _ _ => m | BBehind _ _ _ _ _ => None end.

(** Parsers that are run one after the other, each of which matches. *)
Inductive chain (call : bexp -> sparser) : list bexp -> gs -> ctx -> gs -> ctx -> Prop :=
| ch_nil : forall g c, chain call [] g c g c
| ch_cons : forall b bs g c g1 c1 g2 c2, call b g c = (g1, Ok (c1, None)) -> c_st c1 = Matched -> chain call bs g1 c1 g2 c2 ->
    chain call (b :: bs) g c g2 c2.
(** Parsers that are run one after the other on the same context, none of which matches. *)
Inductive misses (call : bexp -> sparser) : list bexp -> gs -> ctx -> gs -> Prop :=
| mi_nil : forall g c, misses call [] g c g
| mi_cons : forall b bs g c g1 c1 g2, call b g c = (g1, Ok (c1, None)) -> c_st c1 = Unmatched -> misses call bs g1 c g2 ->
    misses call (b :: bs) g c g2.
(** The transformers of a parser as they are written, with the arguments in their places. *)
Inductive written (A : Type) := AsPure (t : trans) | AsRule (levels : list (list A * bool)) (check : A).
Arguments AsPure {A}. Arguments AsRule {A}.
Definition shape_of {A} (w : written A) : ttr :=
  match w with AsPure t => TTPure t | AsRule ls _ => TTRule (map (fun l => (length (fst l), snd l)) ls) end.
Definition args_of {A} (w : written A) : list A :=
  match w with AsPure _ => [] | AsRule ls check => flat_map fst ls ++ [check] end.
