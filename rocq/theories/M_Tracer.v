(** Model of base/tracer.go: building and running grammars with DebugTrace.

    Building (calling the parser constructors) reads and writes the package variables
    of tracer.go; running calls the tracers and, inside Indirect, builds the rules on
    first use.  The state [gs] holds the package variables, the variables [parser] of
    all Indirect parsers (base/parsers.go:13) and the sequence of all tracer calls.
    Not modelled: tracers that keep the pointer they are given. *)
From Verif Require Export M_World.

(** What a parser built by LightBaseParser or BaseParser knows of the tracing state:
    the arguments scope, pt (as a number), trNo, className of [tracer],
    base/tracer.go:65. *)
Record mark := mkMark { m_scope : string; m_tr : nat; m_no : nat; m_cls : string }.
(** Calls of the three methods of ParserTracer, base/tracer.go:4-11. *)
Inductive event :=
| EvBefore (m : mark) (c : ctx)
| EvAfter (m : mark) (c : ctx) (err : option gerr)
| EvPanic (m : mark) (c : ctx) (why : string).
(** A tracer receives a pointer to the context: it may change it.  It may also panic
    ([Some] of the value). *)
Record tracer := mkTracer {
  tr_before : mark -> ctx -> ctx * option string;
  tr_after : mark -> ctx -> option gerr -> ctx * option string;
  tr_panic : mark -> ctx -> string -> option string }.

(** A transformer of a grammar: one that runs no parsers (or none that was built with
    tracing), or a call of ProductionRule (base/production.go:29) with one precedence per
    entry of the list: the number of its rules, and Rtol. *)
Inductive ttr := TTPure (t : trans) | TTRule (shape : list (nat * bool)).
(** Grammars: the constructors of pexp that the others are made of, and DebugTrace.  The
    parsers that are arguments of the calls of ProductionRule, in the order in which they
    stand there (the rules, then the check), are the list [rs] of TBase. *)
Inductive texp :=
| TLight (cls : string) (fn : parser)
| TBase (cls : string) (fn : option impl_fn) (props : list prop) (es rs : list texp) (tr : option (list ttr))
| TBehind (neg : bool) (mn mx : Z) (es : list texp)
| TInd (k : nat)
| TTrace (scope : string) (pt : nat) (es : list texp).
(** Parsers: what the constructors return. *)
Inductive bexp :=
| BLight (m : option mark) (cls : string) (fn : parser)
| BBase (m : option mark) (cls : string) (fn : option impl_fn) (props : list prop) (bs rs : list bexp) (tr : option (list ttr))
| BBehind (m : option mark) (neg : bool) (mn mx : Z) (bs : list bexp)
| BInd (m : option mark) (cell : nat) (k : nat).

Record gs := mkGs {
  g_on : bool;                    (* traceEnabled *)
  g_scope : string;               (* traceScope *)
  g_no : nat;                     (* traceParserTrackingNo *)
  g_tr : nat;                     (* parserTracer *)
  g_inds : list nat;              (* the Indirect parsers built: the closures they were given *)
  g_cell : nat -> option bexp;    (* their variables [parser] *)
  g_log : list event }.
Definition g_set (g : gs) (on : bool) (scope : string) (tr : nat) : gs :=
  mkGs on scope (g_no g) tr (g_inds g) (g_cell g) (g_log g).
Definition g_emit (g : gs) (e : event) : gs :=
  mkGs (g_on g) (g_scope g) (g_no g) (g_tr g) (g_inds g) (g_cell g) (g_log g ++ [e]).
Definition g_store (g : gs) (i : nat) (b : bexp) : gs :=
  mkGs (g_on g) (g_scope g) (g_no g) (g_tr g) (g_inds g) (fun j => if Nat.eqb j i then Some b else g_cell g j) (g_log g).
Definition g_alloc (g : gs) (k : nat) : gs :=
  mkGs (g_on g) (g_scope g) (g_no g) (g_tr g) (g_inds g ++ [k]) (g_cell g) (g_log g).

(** base/base.go:17-22 and 168-173 *)
Definition new_mark (cls : string) (g : gs) : option mark * gs :=
  if g_on g then
    let no := S (g_no g) in
    (Some (mkMark (g_scope g) (g_tr g) no cls), mkGs (g_on g) (g_scope g) no (g_tr g) (g_inds g) (g_cell g) (g_log g))
  else (None, g).

(** Arguments are evaluated from left to right, before the call. *)
Fixpoint build (e : texp) (g : gs) {struct e} : bexp * gs :=
  let fix build_list (es : list texp) (g : gs) : list bexp * gs :=
    match es with
    | [] => ([], g)
    | e :: es' => let '(b, g1) := build e g in let '(bs, g2) := build_list es' g1 in (b :: bs, g2)
    end in
  match e with
  | TLight cls fn => let '(m, g1) := new_mark cls g in (BLight m cls fn, g1)
  | TBase cls fn props es rs tr =>
      let '(bs, g1) := build_list es g in let '(qs, g2) := build_list rs g1 in
      let '(m, g3) := new_mark cls g2 in (BBase m cls fn props bs qs tr, g3)
  | TBehind neg mn mx es =>
      let '(bs, g1) := build_list es g in
      let '(m, g2) := new_mark (if neg then ":base:LookBehindN" else ":base:LookBehind") g1 in (BBehind m neg mn mx bs, g2)
  | TInd k =>
      let '(m, g1) := new_mark ":base:Indirect" g in (BInd m (length (g_inds g1)) k, g_alloc g1 k)
  | TTrace scope pt es =>                                    (* base/tracer.go:41-62 *)
      let g0 := g_set g true (g_scope g ++ "/" ++ scope)%string pt in
      let '(bs, g1) := build_list es g0 in let '(m, g2) := new_mark ":Base:DebugTrace" g1 in
      (BBase m ":Base:DebugTrace" None [] bs [] None, g_set g2 (g_on g) (g_scope g) (g_tr g))
  end.

(** ** Running, by the engine of M_World with the state as the memory. *)
Definition sparser := wfn gs.

(** The value of [panic(nil)].  [recover()] returns nil for it before Go 1.21, and later
    when the go directive of the main module is older (that of /repo/go.mod is 1.17):
    [lost] = true.  Otherwise it returns a *runtime.PanicNilError. *)
Definition panic_nil : string := "panic(nil)".
(** What a function without named results returns when it recovers: the zero values. *)
Definition zero_ctx : ctx := mkCtx [] None sp0 0 [] Matched "" VNil.

Section Traced.
Variable lost : bool.
Variable pts : nat -> tracer.
(** base/tracer.go:67-72, after a panic with [w]; [c] is the variable ctx.  A panic of the
    method Panic replaces the one at hand. *)
Definition recovered (k : mark) (g : gs) (c : ctx) (w : string) : gs * out :=
  if lost && String.eqb w panic_nil then (g, Ok (zero_ctx, None))
  else (g_emit g (EvPanic k c w), Panic (match tr_panic (pts (m_tr k)) k c w with Some w' => w' | None => w end)).
(** base/tracer.go:65-79; line 75 assigns to the parameter ctx. *)
Definition traced (m : option mark) (p : sparser) : sparser :=
  match m with
  | None => p
  | Some k => fun g c =>
      let g0 := g_emit g (EvBefore k c) in
      match tr_before (pts (m_tr k)) k c with
      | (c0, Some w) => recovered k g0 c0 w
      | (c0, None) =>
          match p g0 c0 with
          | (g1, Ok (o, err)) =>
              let g2 := g_emit g1 (EvAfter k o err) in
              match tr_after (pts (m_tr k)) k o err with
              | (o', Some w) => recovered k g2 o' w
              | (o', None) => (g2, Ok (o', err))
              end
          | (g1, Panic w) => recovered k g1 c0 w
          | (g1, Fuel) => (g1, Fuel)
          end
      end
  end.
End Traced.

(** The arguments of the calls of ProductionRule: the next rules for every precedence,
    then the check; [d] stands for an argument that is missing (a nil function). *)
Fixpoint take_levels {A} (shape : list (nat * bool)) (rs : list A) : list (list A * bool) * list A :=
  match shape with
  | [] => ([], rs)
  | (k, rtol) :: shape' => let '(ls, rest) := take_levels shape' (skipn k rs) in ((firstn k rs, rtol) :: ls, rest)
  end.
Fixpoint arrange {A T} (pure : trans -> T) (prod : list (list A * bool) -> A -> T) (d : A) (tr : list ttr) (rs : list A) : list T :=
  match tr with
  | [] => []
  | TTPure t :: tr' => pure t :: arrange pure prod d tr' rs
  | TTRule shape :: tr' =>
      let '(ls, rest) := take_levels shape rs in prod ls (hd d rest) :: arrange pure prod d tr' (tl rest)
  end.
Definition nil_call : string := "invalid memory address or nil pointer dereference".
Definition s_levels (ls : list (list sparser * bool)) : list (wprecedence gs) :=
  map (fun l => mkWPrec (map (fun p (_ : nat) => p) (fst l)) (snd l)) ls.
Definition s_trans : list ttr -> list sparser -> list (wtrans gs) :=
  arrange (fun t n c g l => (g, t n c l)) (fun ls check => w_ProductionRule (s_levels ls) (fun _ => check)) (fun g _ => (g, Panic nil_call)).

Section Run.
Variable lost : bool.
Variable pts : nat -> tracer.
Variable env : nat -> texp.
(** [rho] runs the parsers found in the variables of the Indirect parsers. *)
Fixpoint sdenote (rho : bexp -> sparser) (n : nat) (b : bexp) {struct b} : sparser :=
  match b with
  | BLight m cls fn => traced lost pts m (fun g c => (g, light_base_parser cls (fn n) c))
  | BBase m cls fn props bs rs tr => traced lost pts m (w_base cls fn props (map (sdenote rho n) bs)
      (option_map (fun ts => s_trans ts (map (sdenote rho n) rs)) tr) n)
  | BBehind m neg mn mx bs => fun g c =>
      let p := traced lost pts m (w_base (if neg then ":base:LookBehindN" else ":base:LookBehind") None [PRewind] (map (sdenote rho n) bs) None n) in
      w_behind_loop neg p g c mn (Z.to_nat (mx - mn + 1))
  | BInd m i k => traced lost pts m (w_light ":base:Indirect" (fun g c =>          (* base/parsers.go:15-18 *)
      match g_cell g i with
      | Some b => rho b g c
      | None => let '(b, g1) := build (env k) g in rho b (g_store g1 i b) c
      end))
  end.
Fixpoint srun_env (n : nat) (b : bexp) : sparser :=
  match n with
  | O => fun g _ => (g, Fuel)
  | S m => fun g c => sdenote (srun_env m) m b g c
  end.
Definition srun (n : nat) (b : bexp) : sparser := sdenote (srun_env n) n b.
End Run.
