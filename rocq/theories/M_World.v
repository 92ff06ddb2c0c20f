(** The code of base/ again, for transformers and rules that read and write memory:
    every function takes the state [W] of the memory and returns the new one.  The
    memory is never rolled back, not even when a parser fails and its context is
    dropped.  What does not touch the memory is a grammar of M_Grammar. *)
From Verif Require Export M_Production.

Section World.
Variable W : Type.
Definition wfn := W -> ctx -> W * out.                                          (* ParserFn *)
Definition wtrans := nat -> ctx -> W -> list ast -> W * res (gerr + list ast).  (* TransformerFn *)

(** base/base.go:4-23 *)
Definition w_light (cls : string) (fn : wfn) : wfn := fun w c =>
  match fn w c with
  | (w1, Ok (out0, err)) =>
      let out1 := fix_status out0 err in
      let out2 := match c_st out1 with Matched => set_qty out1 1 | _ => out1 end in
      (w1, Ok (set_cls out2 cls, err))
  | r => r
  end.
(** base/base.go:64-92 *)
Fixpoint w_children (ex : bool) (saved : ctx) (cs : list wfn) (w : W) (o : ctx) (num : nat) : W * cres :=
  match cs with
  | [] => (w, CEnd o num)
  | child :: cs' =>
      match child w o with
      | (w1, Panic x) => (w1, CReturn (Panic x))
      | (w1, Fuel) => (w1, CReturn Fuel)
      | (w1, Ok (o1, err)) =>
          let o1 := fix_status o1 err in
          match c_st o1 with
          | Errored => (w1, CReturn (Ok (o1, err)))
          | Unmatched =>
              if ex then w_children ex saved cs' w1 o num
              else (w1, CBreak saved)
          | Matched =>
              if ex then (w1, CEnd o1 (S num))
              else w_children ex saved cs' w1 o1 (S num)
          end
      end
  end.
(** base/base.go:59-118; [fn] does not touch the memory *)
Fixpoint w_parent (fuel : nat) (q : times) (ex : bool) (fn : option impl_fn) (bottom : nat) (cs : list wfn)
    (w : W) (o : ctx) (count : nat) : W * pres :=
  if more q count then
    match fuel with
    | O => (w, PReturn Fuel)
    | S fuel' =>
        match w_children ex o cs w o 0 with
        | (w1, CReturn r) => (w1, PReturn r)
        | (w1, CBreak c) => (w1, PDone c count)
        | (w1, CEnd o1 num) =>
            if ex && (Nat.ltb 0 (length cs)) && (Nat.eqb num 0) then (w1, PDone o count)
            else
              match call_fn fn (Z.of_nat num) bottom (set_qty o1 count) with
              | Panic x => (w1, PReturn (Panic x))
              | Fuel => (w1, PReturn Fuel)
              | Ok (o2, err) =>
                  match c_st o2 with
                  | Errored => (w1, PReturn (Ok (o2, err)))
                  | Unmatched => (w1, PDone o count)
                  | Matched => w_parent fuel' q ex fn bottom cs w1 o2 (S count)
                  end
              end
        end
    end
  else (w, PDone o count).
(** base/base.go:155-161 *)
Fixpoint w_run_trans (fuel : nat) (c : ctx) (tr : list wtrans) (w : W) (asts : list ast) : W * res (gerr + list ast) :=
  match tr with
  | [] => (w, Ok (inr asts))
  | t :: tr' =>
      match t fuel c w asts with
      | (w1, Ok (inr asts')) => w_run_trans fuel c tr' w1 asts'
      | r => r
      end
  end.
(** base/base.go:26-174 *)
Definition w_base (cls : string) (fn : option impl_fn) (props : list prop) (children : list wfn)
    (tr : option (list wtrans)) (fuel : nat) : wfn :=
  fun w ctx0 =>
  let f := flags_of props in
  let c := set_cls ctx0 cls in
  let bottom := length (c_stack c) in
  match w_parent fuel (f_qty f) (f_ex f) fn bottom children w (set_st c Matched) 0 with
  | (w1, PReturn r) => (w1, r)
  | (w1, PDone o count) =>
      let o1 := after_loop f o count in
      match c_st o1 with
      | Unmatched | Errored => (w1, Ok (o1, None))
      | Matched =>
          match call_fn fn (-1) bottom (set_qty o1 count) with
          | Panic x => (w1, Panic x)
          | Fuel => (w1, Fuel)
          | Ok (o2, _) =>
              match c_st o2 with
              | Unmatched | Errored => (w1, Ok (o2, None))
              | Matched =>
                  let o3 := if f_rew f then c else o2 in
                  match tr with
                  | None => (w1, Ok (o3, None))
                  | Some ts =>
                      if Nat.ltb (length (c_stack o3)) bottom
                      then (w1, Panic "slice bounds out of range")
                      else
                        match w_run_trans fuel c ts w1 (skipn bottom (c_stack o3)) with
                        | (w2, Panic x) => (w2, Panic x)
                        | (w2, Fuel) => (w2, Fuel)
                        | (w2, Ok (inl e)) => (w2, Ok (set_st o3 Errored, Some e))
                        | (w2, Ok (inr asts)) => (w2, Ok (set_stack o3 (firstn bottom (c_stack o3) ++ asts), None))
                        end
                  end
              end
          end
      end
  end.
(** base/parsers.go:122-160 *)
Fixpoint w_behind_loop (neg : bool) (p : wfn) (w : W) (c : ctx) (i : Z) (k : nat) : W * out :=
  match k with
  | O => (w, Ok (set_st c (if neg then Matched else Unmatched), None))
  | S k' =>
      let q := Z.of_nat (c_pos c) - i in
      if q <? 0 then w_behind_loop neg p w c (i + 1) k'
      else
        match p w (set_pos c (Z.to_nat q)) with
        | (w1, Panic x) => (w1, Panic x)
        | (w1, Fuel) => (w1, Fuel)
        | (w1, Ok (o, Some e)) => (w1, Ok (o, Some e))
        | (w1, Ok (o, None)) =>
            match c_st o with
            | Matched => if neg then (w1, Ok (set_st o Unmatched, None)) else (w1, Ok (c, None))
            | _ => w_behind_loop neg p w1 c (i + 1) k'
            end
        end
  end.

(** ** Grammars
    [WPure e]: a grammar without EIndirect whose transformers do not touch the
    memory.  The others as in M_Grammar (base/parsers.go:11-20, 83-98, 175-206). *)
Inductive wexp :=
| WPure (e : pexp)
| WFlatGroup (es : list wexp)
| WFirst (es : list wexp)
| WRepeat (t : times) (es : list wexp)
| WTrans (e : wexp) (tr : list wtrans)
| WIndirect (k : nat).
Definition w_pure (f : ctx -> out) : wfn := fun w c => (w, f c).
Fixpoint w_denote (rho : nat -> wfn) (n : nat) (e : wexp) {struct e} : wfn :=
  match e with
  | WPure e1 => w_pure (run (fun _ => EUnmatched) n e1)
  | WFlatGroup es => w_base ":base:FlatGroup" None [] (map (w_denote rho n) es) None n
  | WFirst es => w_base ":base:First" None [PThereExists] (map (w_denote rho n) es) None n
  | WRepeat t es => w_base ":base:Repeat" None [PTimes t] (map (w_denote rho n) es) None n
  | WTrans e1 tr => w_base ":base:Trans" None [] [w_denote rho n e1] (variadic tr) n
  | WIndirect k => w_light ":base:Indirect" (rho k)
  end.
Fixpoint w_run_env (env : nat -> wexp) (n : nat) (k : nat) : wfn :=
  match n with
  | O => fun w _ => (w, Fuel)
  | S m => fun w c => w_denote (w_run_env env m) m (env k) w c
  end.
Definition w_run (env : nat -> wexp) (n : nat) (e : wexp) : wfn := w_denote (w_run_env env n) n e.

(** ** base/production.go *)
(** 6-13 *)
Record wprecedence := mkWPrec { wpr_rules : list (nat -> wfn); wpr_rtol : bool }.
(** 40-65 *)
Fixpoint w_try_rules (n : nat) (rules : list (nat -> wfn)) (astc : ctx) (w : W) (asts : list ast) (p : nat) : W * scan :=
  match rules with
  | [] => (w, SNone)
  | rule :: rules' =>
      match rule n w (set_pos astc p) with
      | (w1, Panic x) => (w1, SBad x)
      | (w1, Fuel) => (w1, SFuel)
      | (w1, Ok (_, Some e)) => (w1, SErr e)
      | (w1, Ok (o, None)) =>
          match c_st o with
          | Matched =>
              if Nat.leb p (length asts) && Nat.leb (c_pos o) (length asts)
              then (w1, SHit (firstn p asts ++ c_stack o ++ skipn (c_pos o) asts))
              else (w1, SBad "slice bounds out of range")
          | _ => w_try_rules n rules' astc w1 asts p
          end
      end
  end.
(** 39-66 *)
Fixpoint w_try_positions (n : nat) (pr : wprecedence) (astc : ctx) (w : W) (asts : list ast) (i k : nat) : W * scan :=
  match k with
  | O => (w, SNone)
  | S k' =>
      let p := if wpr_rtol pr then (length asts - i)%nat else i in
      match w_try_rules n (wpr_rules pr) astc w asts p with
      | (w1, SNone) => w_try_positions n pr astc w1 asts (S i) k'
      | r => r
      end
  end.
(** 35-67 *)
Fixpoint w_try_precedences (n : nat) (prs : list wprecedence) (tag : value) (w : W) (asts : list ast) : W * scan :=
  match prs with
  | [] => (w, SNone)
  | pr :: prs' =>
      let astc := new_object_ctx (ast_slice asts) tag in
      match w_try_positions n pr astc w asts 0 (S (length asts)) with
      | (w1, SNone) => w_try_precedences n prs' tag w1 asts
      | r => r
      end
  end.
(** 32-81 *)
Fixpoint w_production (n k : nat) (prs : list wprecedence) (check : nat -> wfn) (tag : value) (w : W) (asts : list ast)
    : W * res (gerr + list ast) :=
  match k with
  | O => (w, Fuel)
  | S k' =>
      let check_then (w1 : W) (asts1 : list ast) (next : W -> W * res (gerr + list ast)) :=
        match check n w1 (new_object_ctx (ast_slice asts1) tag) with
        | (w2, Panic x) => (w2, Panic x)
        | (w2, Fuel) => (w2, Fuel)
        | (w2, Ok (o, None)) => match c_st o with Matched => (w2, tok asts1) | _ => next w2 end
        | (w2, Ok (_, Some _)) => next w2
        end in
      match w_try_precedences n prs tag w asts with
      | (w1, SErr e) => (w1, terr e)
      | (w1, SBad x) => (w1, Panic x)
      | (w1, SFuel) => (w1, Fuel)
      | (w1, SHit asts1) => check_then w1 asts1 (fun w2 => w_production n k' prs check tag w2 asts1)
      | (w1, SNone) => check_then w1 asts (fun w2 => (w2, terr prod_err))
      end
  end.
Definition w_ProductionRule (prs : list wprecedence) (check : nat -> wfn) : wtrans :=
  fun n c w asts => w_production n n prs check (c_tag c) w asts.
End World.
Arguments w_light {W}. Arguments w_children {W}. Arguments w_parent {W}. Arguments w_run_trans {W}.
Arguments w_base {W}. Arguments w_behind_loop {W}. Arguments w_pure {W}. Arguments w_denote {W}. Arguments w_run_env {W}. Arguments w_run {W}.
Arguments WPure {W}. Arguments WFlatGroup {W}. Arguments WFirst {W}. Arguments WRepeat {W}.
Arguments WTrans {W}. Arguments WIndirect {W}. Arguments mkWPrec {W}. Arguments wpr_rules {W}. Arguments wpr_rtol {W}.
Arguments w_try_rules {W}. Arguments w_try_positions {W}. Arguments w_try_precedences {W}.
Arguments w_production {W}. Arguments w_ProductionRule {W}.
