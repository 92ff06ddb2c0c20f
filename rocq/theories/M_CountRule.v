(** Counting the parser calls that production rules make: base/production.go run by the
    engine of M_World with the number of calls as the memory, as in M_Count; and the
    grammar of _examples/formula and _examples/torpn with these rules. *)
From Verif Require Export M_Count M_Formula.

(** A table of production rules, level by level: the rules, and whether the level is scanned from the right
    (base/production.go:6-13). *)
Definition prod_table := list (list pexp * bool).
(** base/production.go:16-83 with rules and a check that are grammars *)
Definition table_prod (env : nat -> pexp) (prs : prod_table) (check : pexp) : trans :=
  ProductionRule (map (fun l => mkPrec (map (fun e n => run env n e) (fst l)) (snd l)) prs) (fun n => run env n check).
(** The same, counting. *)
Definition kprod (env : nat -> pexp) (prs : prod_table) (check : pexp) : wtrans nat :=
  w_ProductionRule (map (fun l => mkWPrec (map (fun e n => krun env n e) (fst l)) (snd l)) prs) (fun n => krun env n check).
Definition prod_cost (env : nat -> pexp) (prs : prod_table) (check : pexp) (n : nat) (c : ctx) (l : list ast) : nat :=
  fst (kprod env prs check n c 0%nat l).

(** Grammars whose transformers may count: as [kdenote] of M_Count, for the grammars of M_World. *)
Fixpoint kw_denote (rho : nat -> wfn nat) (n : nat) (e : wexp nat) {struct e} : wfn nat :=
  match e with
  | WPure e1 => kdenote rho n e1                                (* its transformers do not count *)
  | WFlatGroup es => tick (w_base ":base:FlatGroup" None [] (map (kw_denote rho n) es) None n)
  | WFirst es => tick (w_base ":base:First" None [PThereExists] (map (kw_denote rho n) es) None n)
  | WRepeat t es => tick (w_base ":base:Repeat" None [PTimes t] (map (kw_denote rho n) es) None n)
  | WTrans e1 tr => tick (w_base ":base:Trans" None [] [kw_denote rho n e1] (variadic tr) n)
  | WIndirect j => tick (w_light ":base:Indirect" (rho j))
  end.
Fixpoint kw_run_env (env : nat -> wexp nat) (n j : nat) : wfn nat :=
  match n with
  | O => fun k _ => (k, Fuel)
  | S m => fun k c => kw_denote (kw_run_env env m) m (env j) k c
  end.
Definition kw_run (env : nat -> wexp nat) (n : nat) (e : wexp nat) : wfn nat := kw_denote (kw_run_env env n) n e.

(** The table of formula/precedence.go:9-97 and torpn/precedence.go:11-50, 112-116 *)
Definition formula_table (neg mul add : trans) : prod_table :=
  [([unary_rule neg], true); ([binary_rule [bs "*"; bs "/"] mul], false); ([binary_rule [bs "+"; bs "-"] add], false)].
Definition k_rules (neg mul add : trans) : wtrans nat := kprod no_rules (formula_table neg mul add) prod_check.
(** formula.go:103-125, 128-133, 87-100, 136-143 (torpn.go is the same), as in M_Formula *)
Section Grammar.
Variable kp : wtrans nat.
Definition k_expression : wexp nat :=
  WTrans
    (WFlatGroup [
      WPure (EZeroOrMore [unaryOperator]);
      WFirst [WPure simpleExpression; WIndirect 0; WPure (EError "Value required")];
      WRepeat qtyZeroOrMoreTimes [
        WPure binaryOperator;
        WFirst [
          WFlatGroup [WPure (EZeroOrMore [unaryOperator]); WFirst [WPure simpleExpression; WIndirect 0]];
          WPure (EError "Error in the expression after the binary operator")]]])
    [kp].
Definition k_grouped : wexp nat :=
  WFlatGroup [
    WPure (erase (SCharClass [bs "("]));
    WFirst [
      WFlatGroup [WPure (erase sp_0); k_expression; WPure (erase (SCharClass [bs ")"])); WPure (erase sp_0)];
      WPure (EError "Error in grouped expression")]].
Definition k_program : wexp nat := WFlatGroup [WPure EStart; WPure (erase sp_0); k_expression; WPure SEnd].
End Grammar.
(** The parser calls of formula.Parse and torpn.Parse (formula.go:147, torpn.go:147) on the text [s] *)
Definition formula_calls (neg mul add : trans) (n : nat) (s : bytes) : nat :=
  fst (kw_run (fun _ => k_grouped (k_rules neg mul add)) n (k_program (k_rules neg mul add)) 0%nat (new_string_ctx s)).
