(** Model of Indirect under concurrent calls, base/parsers.go:11-20:

      var parser ParserFn
      ... if parser == nil { parser = fn() }
          return parser(ctx)

    Any number of goroutines (numbered) call the parser; each step of one goroutine is
    one access to the shared variable [parser], one call of fn, or one run of a parser.
    fn returns a new parser at each call; they are numbered too, and [sem] says what
    they do. *)
From Verif Require Export M_Grammar.

Inductive pc :=
| Idle
| Test (c : ctx)                    (* before [parser == nil] *)
| Build (c : ctx)                   (* before the call of fn *)
| Store (c : ctx) (v : nat)         (* fn returned parser v, before the assignment *)
| Load (c : ctx) (wrote : bool)     (* before reading [parser] for the call; has this call assigned it? *)
| Running (c : ctx) (v : nat)       (* inside parser v *)
| Crashed.                          (* call of a nil function *)
Record ist := mkI {
  i_cell : option nat;              (* the variable [parser] *)
  i_pc : nat -> pc;
  i_made : nat;                     (* calls of fn so far *)
  i_hist : list (ctx * out) }.      (* finished calls with their results *)
Definition set_pc (f : nat -> pc) (t : nat) (p : pc) : nat -> pc := fun u => if Nat.eqb u t then p else f u.
Definition i_start : ist := mkI None (fun _ => Idle) 0 [].

Section Steps.
Variable sem : nat -> ctx -> out.
(** [racy]: without synchronisation the Go memory model also allows a read to return
    the initial value nil after another goroutine has written (only the writes of the
    goroutine itself are sure to be seen). *)
Variable racy : bool.
Inductive istep : ist -> ist -> Prop :=
| is_call : forall x f m h t c, f t = Idle -> istep (mkI x f m h) (mkI x (set_pc f t (Test c)) m h)
| is_nil : forall f m h t c, f t = Test c -> istep (mkI None f m h) (mkI None (set_pc f t (Build c)) m h)
| is_set : forall v f m h t c, f t = Test c -> istep (mkI (Some v) f m h) (mkI (Some v) (set_pc f t (Load c false)) m h)
| is_build : forall x f m h t c, f t = Build c -> istep (mkI x f m h) (mkI x (set_pc f t (Store c m)) (S m) h)
| is_store : forall x f m h t c v, f t = Store c v -> istep (mkI x f m h) (mkI (Some v) (set_pc f t (Load c true)) m h)
| is_load : forall v f m h t c b, f t = Load c b -> istep (mkI (Some v) f m h) (mkI (Some v) (set_pc f t (Running c v)) m h)
| is_crash : forall f m h t c b, f t = Load c b -> istep (mkI None f m h) (mkI None (set_pc f t Crashed) m h)
| is_return : forall x f m h t c v, f t = Running c v ->
    istep (mkI x f m h) (mkI x (set_pc f t Idle) m (h ++ [(c, Indirect (sem v) c)]))
| is_stale_nil : forall v f m h t c, racy = true -> f t = Test c -> istep (mkI (Some v) f m h) (mkI (Some v) (set_pc f t (Build c)) m h)
| is_stale_crash : forall v f m h t c, racy = true -> f t = Load c false -> istep (mkI (Some v) f m h) (mkI (Some v) (set_pc f t Crashed) m h).
Inductive isteps : ist -> ist -> Prop :=
| iss_nil : forall s, isteps s s
| iss_cons : forall s s1 s2, istep s s1 -> isteps s1 s2 -> isteps s s2.
End Steps.
