(** How far a parse looks: the engine of M_World with the furthest position at which a leaf parser has been
    called as the memory.  It is not part of the code; it only reads positions off its calls. *)
From Verif Require Export M_Count.

(** base/base.go:4-23: a leaf parser is called at the position of its context. *)
Definition mark (p : ctx -> out) : wfn nat := fun k c => (Nat.max k (c_pos c), p c).
(** As [denote] of M_Grammar: base/parsers.go:11-206. *)
Fixpoint rdenote (rho : nat -> wfn nat) (n : nat) (e : pexp) {struct e} : wfn nat :=
  match e with
  | ELight cls fn => mark (light_base_parser cls (fn n))
  | EFlatGroup es => w_base ":base:FlatGroup" None [] (map (rdenote rho n) es) None n
  | EGroup es => w_base ":base:Group" None [] (map (rdenote rho n) es) (Some [no_effect GroupingTransform]) n
  | EFirst es => w_base ":base:First" None [PThereExists] (map (rdenote rho n) es) None n
  | ELookAhead es => w_base ":base:LookAhead" None [PRewind] (map (rdenote rho n) es) None n
  | ELookAheadN es => w_base ":base:LookAheadN" None [PRewind; PNegative] (map (rdenote rho n) es) None n
  | ELookBehind neg mn mx es => fun k c =>
      w_behind_loop neg (w_base (if neg then ":base:LookBehindN" else ":base:LookBehind") None [PRewind] (map (rdenote rho n) es) None n)
        k c mn (Z.to_nat (mx - mn + 1))
  | ERepeat t es => w_base ":base:Repeat" None [PTimes t] (map (rdenote rho n) es) None n
  | ETrans e1 tr => w_base ":base:Trans" None [] [rdenote rho n e1] (option_map (map no_effect) (variadic tr)) n
  | EIndirect j => w_light ":base:Indirect" (rho j)
  | EBase cls fn props es tr => w_base cls fn props (map (rdenote rho n) es) (option_map (map no_effect) tr) n
  end.
Fixpoint rrun_env (env : nat -> pexp) (n j : nat) : wfn nat :=
  match n with
  | O => fun k _ => (k, Fuel)
  | S m => fun k c => rdenote (rrun_env env m) m (env j) k c
  end.
Definition rrun (env : nat -> pexp) (n : nat) (e : pexp) : wfn nat := rdenote (rrun_env env n) n e.
(** The furthest position at which a run calls a leaf parser. *)
Definition furthest (env : nat -> pexp) (n : nat) (e : pexp) (c : ctx) : nat := fst (rrun env n e 0%nat c).
