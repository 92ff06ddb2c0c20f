(** One grammar value used by several goroutines at the same time.

    The only memory that a grammar shares between its calls are the variable of Indirect
    (base/parsers.go:11-20, see M_Indirect) and the variables [ast] of Prepend and Push
    (base/transformers.go:112-136).  Here one goroutine runs a grammar, and the others
    assign to the variables of Prepend and Push whenever they like:

      if length > 0 { ast.SourcePosition = asts[0].SourcePosition }      one access
      w[0] = ast                                                         one access

    Simplification: each access is one step (Go promises nothing about accesses that race). *)
From Verif Require Export M_Reuse.

(** Grammars of M_Reuse with any meaning of the transformers. *)
Section Generic.
Variable W : Type.
Variable sem : vtr -> wtrans W.
Fixpoint g_denote (rho : nat -> wfn W) (n : nat) (e : vexp) {struct e} : wfn W :=
  match e with
  | VLight cls fn => w_pure (light_base_parser cls (fn n))
  | VBase cls fn props es tr => w_base cls fn props (map (g_denote rho n) es) (option_map (map sem) tr) n
  | VBehind neg mn mx es => fun v c =>
      w_behind_loop neg (w_base (if neg then ":base:LookBehindN" else ":base:LookBehind") None [PRewind]
        (map (g_denote rho n) es) None n) v c mn (Z.to_nat (mx - mn + 1))
  | VIndirect k => w_light ":base:Indirect" (rho k)
  end.
Fixpoint g_run_env (env : nat -> vexp) (n : nat) (k : nat) : wfn W :=
  match n with
  | O => fun v _ => (v, Fuel)
  | S m => fun v c => g_denote (g_run_env env m) m (env k) v c
  end.
Definition g_run (env : nat -> vexp) (n : nat) (e : vexp) : wfn W := g_denote (g_run_env env n) n e.
End Generic.
Arguments g_denote {W}. Arguments g_run_env {W}. Arguments g_run {W}.

(** The variables, and the number of accesses of this goroutine so far. *)
Record shared := mkSh { sh_vars : vars; sh_time : nat }.
(** The assignment [ast.SourcePosition = p] to variable [j]. *)
Definition assign (v : vars) (x : nat * srcpos) : vars := v_set v (fst x) (set_asp (v (fst x)) (snd x)).
Section Others.
(** What the other goroutines assign before the access number [t] of this one. *)
Variable others : nat -> list (nat * srcpos).
Definition sh_others (w : shared) : shared := mkSh (fold_left assign (others (sh_time w)) (sh_vars w)) (S (sh_time w)).
Definition sh_write (w : shared) (j : nat) (p : srcpos) : shared :=
  let w1 := sh_others w in mkSh (assign (sh_vars w1) (j, p)) (sh_time w1).
Definition s_trans (t : vtr) : wtrans shared := fun n c w l =>
  match t with
  | VPure f => (w, f n c l)
  | VPrepend j =>                                                                  (* 112-122 *)
      let w1 := match l with [] => w | a :: _ => sh_write w j (a_sp a) end in
      let w2 := sh_others w1 in
      (w2, tok (sh_vars w2 j :: l))
  | VPush j =>                                                                     (* 126-136 *)
      let w1 := match l with [] => w | a :: r => sh_write w j (a_sp (last r a)) end in
      let w2 := sh_others w1 in
      (w2, tok (l ++ [sh_vars w2 j]))
  end.
Definition s_run : (nat -> vexp) -> nat -> vexp -> wfn shared := g_run s_trans.
End Others.
