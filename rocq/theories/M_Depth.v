(** How deep parser calls nest: the grammars of M_Grammar and M_World run by the engine of
    M_World, with the number of calls that have not returned yet and the largest such number
    so far as the memory.  Counted are the functions that LightBaseParser (base/base.go:4-23)
    and BaseParser (base/base.go:26-174) return, as in M_Count; each of them is a constant
    number of frames on the stack of the goroutine. *)
From Verif Require Export M_CountRule.

Definition frames : Type := nat * nat.
(** A call is entered, and left again. *)
Definition on_stack (p : wfn frames) : wfn frames := fun w c =>
  let '(w1, r) := p (S (fst w), Nat.max (snd w) (S (fst w))) c in ((fst w, snd w1), r).
Definition flat_tr (t : trans) : wtrans frames := fun n c w l => (w, t n c l).
(** As [denote] of M_Grammar: base/parsers.go:11-206.  Transformers call no parsers here. *)
Fixpoint ddenote (rho : nat -> wfn frames) (n : nat) (e : pexp) {struct e} : wfn frames :=
  match e with
  | ELight cls fn => on_stack (fun w c => (w, light_base_parser cls (fn n) c))
  | EFlatGroup es => on_stack (w_base ":base:FlatGroup" None [] (map (ddenote rho n) es) None n)
  | EGroup es => on_stack (w_base ":base:Group" None [] (map (ddenote rho n) es) (Some [flat_tr GroupingTransform]) n)
  | EFirst es => on_stack (w_base ":base:First" None [PThereExists] (map (ddenote rho n) es) None n)
  | ELookAhead es => on_stack (w_base ":base:LookAhead" None [PRewind] (map (ddenote rho n) es) None n)
  | ELookAheadN es => on_stack (w_base ":base:LookAheadN" None [PRewind; PNegative] (map (ddenote rho n) es) None n)
  | ELookBehind neg mn mx es => fun w c =>                      (* the closure of parsers.go:129 is not such a function *)
      w_behind_loop neg (on_stack (w_base (if neg then ":base:LookBehindN" else ":base:LookBehind") None [PRewind] (map (ddenote rho n) es) None n))
        w c mn (Z.to_nat (mx - mn + 1))
  | ERepeat t es => on_stack (w_base ":base:Repeat" None [PTimes t] (map (ddenote rho n) es) None n)
  | ETrans e1 tr => on_stack (w_base ":base:Trans" None [] [ddenote rho n e1] (option_map (map flat_tr) (variadic tr)) n)
  | EIndirect j => on_stack (w_light ":base:Indirect" (rho j))
  | EBase cls fn props es tr => on_stack (w_base cls fn props (map (ddenote rho n) es) (option_map (map flat_tr) tr) n)
  end.
Fixpoint drun_env (env : nat -> pexp) (n j : nat) : wfn frames :=
  match n with
  | O => fun w _ => (w, Fuel)
  | S m => fun w c => ddenote (drun_env env m) m (env j) w c
  end.
Definition drun (env : nat -> pexp) (n : nat) (e : pexp) : wfn frames := ddenote (drun_env env n) n e.
(** The largest number of calls on the stack during a run. *)
Definition nesting (env : nat -> pexp) (n : nat) (e : pexp) (c : ctx) : nat := snd (fst (drun env n e (0%nat, 0%nat) c)).

(** Grammars whose transformers may call parsers, as [kw_denote] of M_CountRule. *)
Fixpoint dw_denote (rho : nat -> wfn frames) (n : nat) (e : wexp frames) {struct e} : wfn frames :=
  match e with
  | WPure e1 => ddenote rho n e1
  | WFlatGroup es => on_stack (w_base ":base:FlatGroup" None [] (map (dw_denote rho n) es) None n)
  | WFirst es => on_stack (w_base ":base:First" None [PThereExists] (map (dw_denote rho n) es) None n)
  | WRepeat t es => on_stack (w_base ":base:Repeat" None [PTimes t] (map (dw_denote rho n) es) None n)
  | WTrans e1 tr => on_stack (w_base ":base:Trans" None [] [dw_denote rho n e1] (variadic tr) n)
  | WIndirect j => on_stack (w_light ":base:Indirect" (rho j))
  end.
Fixpoint dw_run_env (env : nat -> wexp frames) (n j : nat) : wfn frames :=
  match n with
  | O => fun w _ => (w, Fuel)
  | S m => fun w c => dw_denote (dw_run_env env m) m (env j) w c
  end.
Definition dw_run (env : nat -> wexp frames) (n : nat) (e : wexp frames) : wfn frames := dw_denote (dw_run_env env n) n e.

(** base/production.go:16-83 with rules and a check that are grammars *)
Definition dprod (env : nat -> pexp) (prs : prod_table) (check : pexp) : wtrans frames :=
  w_ProductionRule (map (fun l => mkWPrec (map (fun e n => drun env n e) (fst l)) (snd l)) prs) (fun n => drun env n check).
(** formula/precedence.go, torpn/precedence.go *)
Definition d_rules (neg mul add : trans) : wtrans frames := dprod no_rules (formula_table neg mul add) prod_check.
(** formula.go:103-125, 128-133, 87-100, 136-143 (torpn.go is the same), as in M_Formula *)
Section Grammar.
Variable dp : wtrans frames.
Definition d_expression : wexp frames :=
  WTrans
    (WFlatGroup [
      WPure (EZeroOrMore [unaryOperator]);
      WFirst [WPure simpleExpression; WIndirect 0; WPure (EError "Value required")];
      WRepeat qtyZeroOrMoreTimes [
        WPure binaryOperator;
        WFirst [
          WFlatGroup [WPure (EZeroOrMore [unaryOperator]); WFirst [WPure simpleExpression; WIndirect 0]];
          WPure (EError "Error in the expression after the binary operator")]]])
    [dp].
Definition d_grouped : wexp frames :=
  WFlatGroup [
    WPure (erase (SCharClass [bs "("]));
    WFirst [
      WFlatGroup [WPure (erase sp_0); d_expression; WPure (erase (SCharClass [bs ")"])); WPure (erase sp_0)];
      WPure (EError "Error in grouped expression")]].
Definition d_program : wexp frames := WFlatGroup [WPure EStart; WPure (erase sp_0); d_expression; WPure SEnd].
End Grammar.
(** The largest number of parser calls on the stack during formula.Parse and torpn.Parse (formula.go:147, torpn.go:147) *)
Definition formula_nesting (neg mul add : trans) (n : nat) (s : bytes) : nat :=
  snd (fst (dw_run (fun _ => d_grouped (d_rules neg mul add)) n (d_program (d_rules neg mul add)) (0%nat, 0%nat) (new_string_ctx s))).
