(** Counting parser calls: the grammars of M_Grammar run by the engine of M_World, with
    the number of calls made so far as the memory.  Counted are the calls of the functions
    that LightBaseParser (base/base.go:4-23) and BaseParser (base/base.go:26-174) return,
    that is the calls a tracer would be told of (base/tracer.go:65-79) if every parser, also
    one behind an Indirect, were built while tracing is on.  Calls made by transformers
    (production rules) are not counted. *)
From Verif Require Export M_World.

(** One more call. *)
Definition tick (p : wfn nat) : wfn nat := fun k c => p (S k) c.
Definition no_effect (t : trans) : wtrans nat := fun n c k l => (k, t n c l).
(** As [denote] of M_Grammar: base/parsers.go:11-206. *)
Fixpoint kdenote (rho : nat -> wfn nat) (n : nat) (e : pexp) {struct e} : wfn nat :=
  match e with
  | ELight cls fn => tick (fun k c => (k, light_base_parser cls (fn n) c))
  | EFlatGroup es => tick (w_base ":base:FlatGroup" None [] (map (kdenote rho n) es) None n)
  | EGroup es => tick (w_base ":base:Group" None [] (map (kdenote rho n) es) (Some [no_effect GroupingTransform]) n)
  | EFirst es => tick (w_base ":base:First" None [PThereExists] (map (kdenote rho n) es) None n)
  | ELookAhead es => tick (w_base ":base:LookAhead" None [PRewind] (map (kdenote rho n) es) None n)
  | ELookAheadN es => tick (w_base ":base:LookAheadN" None [PRewind; PNegative] (map (kdenote rho n) es) None n)
  | ELookBehind neg mn mx es => fun k c =>                      (* the closure of parsers.go:129 is not such a function *)
      w_behind_loop neg (tick (w_base (if neg then ":base:LookBehindN" else ":base:LookBehind") None [PRewind] (map (kdenote rho n) es) None n))
        k c mn (Z.to_nat (mx - mn + 1))
  | ERepeat t es => tick (w_base ":base:Repeat" None [PTimes t] (map (kdenote rho n) es) None n)
  | ETrans e1 tr => tick (w_base ":base:Trans" None [] [kdenote rho n e1] (option_map (map no_effect) (variadic tr)) n)
  | EIndirect j => tick (w_light ":base:Indirect" (rho j))
  | EBase cls fn props es tr => tick (w_base cls fn props (map (kdenote rho n) es) (option_map (map no_effect) tr) n)
  end.
Fixpoint krun_env (env : nat -> pexp) (n j : nat) : wfn nat :=
  match n with
  | O => fun k _ => (k, Fuel)
  | S m => fun k c => kdenote (krun_env env m) m (env j) k c
  end.
Definition krun (env : nat -> pexp) (n : nat) (e : pexp) : wfn nat := kdenote (krun_env env n) n e.
(** The number of calls of a run. *)
Definition cost (env : nat -> pexp) (n : nat) (e : pexp) (c : ctx) : nat := fst (krun env n e 0%nat c).
