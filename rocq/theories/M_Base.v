(** Model of base/base.go: LightBaseParser and BaseParser. *)
From Verif Require Export M_Types.

(** base/base.go:7-9, 70-72, 105-107, 140-142:
    [if err != nil && out.MatchStatus < MatchStatus_Error { ... = Error }] *)
Definition fix_status (o : ctx) (err : option gerr) : ctx :=
  match err with
  | Some _ => set_st o Errored
  | None => o
  end.

(** base/base.go:4-23, LightBaseParser (without the tracer, see M_Tracer). *)
Definition light_base_parser (cls : string) (fn : light_fn) : light_fn := fun c =>
  match fn c with
  | Ok (out0, err) =>
      let out1 := fix_status out0 err in
      let out2 := match c_st out1 with Matched => set_qty out1 1 | _ => out1 end in
      Ok (set_cls out2 cls, err)
  | Panic w => Panic w
  | Fuel => Fuel
  end.

(** base/const.go:5-25 *)
Definition qtyOnce := mkTimes 1 1.
Definition qtyZeroOrOnce := mkTimes 0 1.
Definition qtyZeroOrMoreTimes := mkTimes 0 (-1).
Definition qtyOneOrMoreTimes := mkTimes 1 (-1).

(** base/base.go:31-47, the flags collected from [props]. *)
Record flags := mkFlags { f_neg : bool; f_ex : bool; f_rew : bool; f_qty : times }.
Definition flag_step (f : flags) (p : prop) : flags :=
  match p with
  | PTimes t => mkFlags (f_neg f) (f_ex f) (f_rew f) t
  | PNegative => mkFlags true (f_ex f) (f_rew f) (f_qty f)
  | PThereExists => mkFlags (f_neg f) true (f_rew f) (f_qty f)
  | PRewind => mkFlags (f_neg f) (f_ex f) true (f_qty f)
  end.
Definition flags_of (props : list prop) : flags :=
  fold_left flag_step props (mkFlags false false false qtyOnce).

(** Result of the CHILDREN loop: leave the whole function, break PARENT with a
    context, or fall out of the loop. *)
Inductive cres :=
| CReturn (o : out)
| CBreak (c : ctx)
| CEnd (c : ctx) (num : nat).

(** base/base.go:64-92, the CHILDREN loop.  [prev] is the [o] of the iteration. *)
Fixpoint children_loop (ex : bool) (saved : ctx) (cs : list (ctx -> out))
    (o : ctx) (num : nat) : cres :=
  match cs with
  | [] => CEnd o num
  | child :: cs' =>
      match child o with
      | Panic w => CReturn (Panic w)
      | Fuel => CReturn Fuel
      | Ok (o1, err) =>
          let o1 := fix_status o1 err in
          match c_st o1 with
          | Errored => CReturn (Ok (o1, err))
          | Unmatched =>
              if ex then children_loop ex saved cs' o num
              else CBreak saved
          | Matched =>
              if ex then CEnd o1 (S num)
              else children_loop ex saved cs' o1 (S num)
          end
      end
  end.

(** Result of the PARENT loop: return from the function, or leave the loop. *)
Inductive pres :=
| PReturn (o : out)
| PDone (c : ctx) (count : nat).

(** Calling [fn] when it is not nil (base/base.go:103-108, 138-143). *)
Definition call_fn (fn : option impl_fn) (num : Z) (bottom : nat) (o : ctx) : out :=
  match fn with
  | None => Ok (o, None)
  | Some f =>
      match f num bottom o with
      | Ok (o1, err) => Ok (fix_status o1 err, err)
      | Panic w => Panic w
      | Fuel => Fuel
      end
  end.

(** base/base.go:60: [qty.Max < 0 || count < qty.Max] *)
Definition more (q : times) (count : nat) : bool :=
  (t_max q <? 0) || (Z.of_nat count <? t_max q).

(** base/base.go:59-118, the PARENT loop.  Fuel bounds the number of iterations.
    The variable [err] is only returned right after an assignment, so it is not
    carried from one iteration to the next. *)
Fixpoint parent_loop (fuel : nat) (q : times) (ex : bool) (fn : option impl_fn)
    (bottom : nat) (cs : list (ctx -> out)) (o : ctx) (count : nat) : pres :=
  if more q count then
    match fuel with
    | O => PReturn Fuel
    | S fuel' =>
        match children_loop ex o cs o 0 with
        | CReturn r => PReturn r
        | CBreak c => PDone c count
        | CEnd o1 num =>
            if ex && (Nat.ltb 0 (length cs)) && (Nat.eqb num 0) then PDone o count
            else
              match call_fn fn (Z.of_nat num) bottom (set_qty o1 count) with
              | Panic w => PReturn (Panic w)
              | Fuel => PReturn Fuel
              | Ok (o2, err) =>
                  match c_st o2 with
                  | Errored => PReturn (Ok (o2, err))
                  | Unmatched => PDone o count
                  | Matched => parent_loop fuel' q ex fn bottom cs o2 (S count)
                  end
              end
        end
    end
  else PDone o count.

(** base/base.go:155-161, the transformer loop. *)
Fixpoint run_trans (fuel : nat) (c : ctx) (tr : list trans) (asts : list ast)
    : res (gerr + list ast) :=
  match tr with
  | [] => Ok (inr asts)
  | t :: tr' =>
      match t fuel c asts with
      | Ok (inr asts') => run_trans fuel c tr' asts'
      | Ok (inl e) => Ok (inl e)
      | Panic w => Panic w
      | Fuel => Fuel
      end
  end.

(** base/base.go:120-131, quantifier test and negation. *)
Definition after_loop (f : flags) (o : ctx) (count : nat) : ctx :=
  let o1 := if (0 <=? t_min (f_qty f)) && (Z.of_nat count <? t_min (f_qty f))
            then set_st o Unmatched else o in
  if f_neg f then
    match c_st o1 with
    | Unmatched => set_st o1 Matched
    | Matched => set_st o1 Unmatched
    | Errored => o1
    end
  else o1.

(** base/base.go:26-174, BaseParser.  The slice expression
    [out.AstStack[len(ctx.AstStack):]] at line 154 panics when the stack has
    become shorter than on entry (only a child like Match can do that; Go
    permits [low] up to the capacity for slices with an explicit high bound
    only, here high = len). *)
Definition base_parser (cls : string) (fn : option impl_fn) (props : list prop)
    (children : list (ctx -> out)) (tr : option (list trans)) (fuel : nat)
    : ctx -> out := fun ctx0 =>
  let f := flags_of props in
  let c := set_cls ctx0 cls in
  let bottom := length (c_stack c) in
  match parent_loop fuel (f_qty f) (f_ex f) fn bottom children (set_st c Matched) 0 with
  | PReturn r => r
  | PDone o count =>
      let o1 := after_loop f o count in
      match c_st o1 with
      | Unmatched | Errored => Ok (o1, None)
      | Matched =>
          match call_fn fn (-1) bottom (set_qty o1 count) with
          | Panic w => Panic w
          | Fuel => Fuel
          | Ok (o2, _) =>
              match c_st o2 with
              | Unmatched | Errored => Ok (o2, None)
              | Matched =>
                  let o3 := if f_rew f then c else o2 in
                  match tr with
                  | None => Ok (o3, None)
                  | Some ts =>
                      if Nat.ltb (length (c_stack o3)) bottom
                      then Panic "slice bounds out of range"
                      else
                        match run_trans fuel c ts (skipn bottom (c_stack o3)) with
                        | Panic w => Panic w
                        | Fuel => Fuel
                        | Ok (inl e) => Ok (set_st o3 Errored, Some e)
                        | Ok (inr asts) =>
                            Ok (set_stack o3 (firstn bottom (c_stack o3) ++ asts), None)
                        end
                  end
              end
          end
      end
  end.
