(** Grammars that keep the variables of Prepend and Push (base/transformers.go:112-136).

    A value returned by Prepend or Push owns the variable [ast]; it assigns to it when it
    is called, and whoever uses the value again, later in the same parse or in another
    parse, finds what the last call has left there.  [vars] holds these variables. *)
From Verif Require Export M_World.

Definition vars := nat -> ast.
Definition v_set (v : vars) (j : nat) (a : ast) : vars := fun i => if Nat.eqb i j then a else v i.

(** A transformer of a grammar: one without a variable, or the Prepend or Push value that
    owns variable [j].  A value may stand at several places of a grammar. *)
Inductive vtr := VPure (t : trans) | VPrepend (j : nat) | VPush (j : nat).
Definition v_trans (t : vtr) : wtrans vars := fun n c v l =>
  match t with
  | VPure f => (v, f n c l)
  | VPrepend j => let '(a, r) := prepend_step (v j) l in (v_set v j a, tok r)   (* 112-122 *)
  | VPush j => let '(a, r) := push_step (v j) l in (v_set v j a, tok r)         (* 126-136 *)
  end.

(** Grammars: LightBaseParser, BaseParser (base/base.go:4-174), lookBehindBase
    (base/parsers.go:122-160) and Indirect (11-20).  All other combinators of
    base/parsers.go are calls of BaseParser. *)
Inductive vexp :=
| VLight (cls : string) (fn : parser)
| VBase (cls : string) (fn : option impl_fn) (props : list prop) (es : list vexp) (tr : option (list vtr))
| VBehind (neg : bool) (mn mx : Z) (es : list vexp)
| VIndirect (k : nat).
Fixpoint v_denote (rho : nat -> wfn vars) (n : nat) (e : vexp) {struct e} : wfn vars :=
  match e with
  | VLight cls fn => w_pure (light_base_parser cls (fn n))
  | VBase cls fn props es tr => w_base cls fn props (map (v_denote rho n) es) (option_map (map v_trans) tr) n
  | VBehind neg mn mx es => fun v c =>
      w_behind_loop neg (w_base (if neg then ":base:LookBehindN" else ":base:LookBehind") None [PRewind]
        (map (v_denote rho n) es) None n) v c mn (Z.to_nat (mx - mn + 1))
  | VIndirect k => w_light ":base:Indirect" (rho k)
  end.
Fixpoint v_run_env (env : nat -> vexp) (n : nat) (k : nat) : wfn vars :=
  match n with
  | O => fun v _ => (v, Fuel)
  | S m => fun v c => v_denote (v_run_env env m) m (env k) v c
  end.
Definition v_run (env : nat -> vexp) (n : nat) (e : vexp) : wfn vars := v_denote (v_run_env env n) n e.

(** Using one grammar value for several parses, one after the other. *)
Fixpoint v_session (env : nat -> vexp) (n : nat) (e : vexp) (v : vars) (cs : list ctx) : list out :=
  match cs with
  | [] => []
  | c :: cs' => let '(v1, r) := v_run env n e v c in r :: v_session env n e v1 cs'
  end.
