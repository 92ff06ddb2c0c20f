(** Model of base/production.go. *)
From Verif Require Export M_Grammar.

(** base/production.go:6-13; a rule is a parser. *)
Record precedence := mkPrec { pr_rules : list parser; pr_rtol : bool }.

(** Result of one scan for an applicable rule. *)
Inductive scan :=
| SErr (e : gerr)
| SBad (why : string)
| SFuel
| SHit (asts : list ast)
| SNone.

(** base/production.go:40-65, the loop over the rules at one index. *)
Fixpoint try_rules (n : nat) (rules : list parser) (astc : ctx) (asts : list ast) (p : nat) : scan :=
  match rules with
  | [] => SNone
  | rule :: rules' =>
      match rule n (set_pos astc p) with
      | Panic w => SBad w
      | Fuel => SFuel
      | Ok (_, Some e) => SErr e
      | Ok (o, None) =>
          match c_st o with
          | Matched =>
              if Nat.leb p (length asts) && Nat.leb (c_pos o) (length asts)
              then SHit (firstn p asts ++ c_stack o ++ skipn (c_pos o) asts)
              else SBad "slice bounds out of range"
          | _ => try_rules n rules' astc asts p
          end
      end
  end.

(** base/production.go:39-66, the loop [for i := 0; i <= asts.Len(); i++];
    [k] = number of indices left. *)
Fixpoint try_positions (n : nat) (pr : precedence) (astc : ctx) (asts : list ast)
    (i k : nat) : scan :=
  match k with
  | O => SNone
  | S k' =>
      let p := if pr_rtol pr then (length asts - i)%nat else i in
      match try_rules n (pr_rules pr) astc asts p with
      | SNone => try_positions n pr astc asts (S i) k'
      | r => r
      end
  end.

(** base/production.go:35-67, the PRECEDENCE loop. *)
Fixpoint try_precedences (n : nat) (prs : list precedence) (tag : value) (asts : list ast) : scan :=
  match prs with
  | [] => SNone
  | pr :: prs' =>
      let astc := new_object_ctx (ast_slice asts) tag in
      match try_positions n pr astc asts 0 (S (length asts)) with
      | SNone => try_precedences n prs' tag asts
      | r => r
      end
  end.

Definition prod_err : gerr := EText "Production rules are not matched.".

(** base/production.go:32-81, the outer loop; [k] bounds its iterations. *)
Fixpoint production_loop (n k : nat) (prs : list precedence) (check : parser)
    (tag : value) (asts : list ast) : res (gerr + list ast) :=
  match k with
  | O => Fuel
  | S k' =>
      let check_then (asts1 : list ast) (next : res (gerr + list ast)) :=
        match check n (new_object_ctx (ast_slice asts1) tag) with
        | Panic w => Panic w
        | Fuel => Fuel
        | Ok (o, None) => match c_st o with Matched => tok asts1 | _ => next end
        | Ok (_, Some _) => next
        end in
      match try_precedences n prs tag asts with
      | SErr e => terr e
      | SBad w => Panic w
      | SFuel => Fuel
      | SHit asts1 => check_then asts1 (production_loop n k' prs check tag asts1)
      | SNone => check_then asts (terr prod_err)
      end
  end.
Definition ProductionRule (prs : list precedence) (check : parser) : trans :=
  fun n c asts => production_loop n n prs check (c_tag c) asts.
