(** Model of Ast.Traverse, base/ast.go:89-242.  The callbacks are stateful: the type
    [S] stands for whatever they share (ctx and captured variables). *)
From Verif Require Export M_Types.

(** base/ast.go:91-101 WayThereMode, 106-113 TraverseOpcode; other integers behave
    like WayThereMode_None / like an opcode that stores nothing. *)
Inductive waymode := MNone | MLazy | MLast | MOther (n : nat).
Inductive topcode := TNop | TBreak | TContinue | TOther (n : nat).
(** What fnWayBack and Traverse return: AST, pcIncr, uOpcode, thrown, err. *)
Record tres := mkT { t_ast : ast; t_pc : Z; t_op : topcode; t_thrown : option value; t_err : option gerr }.

(** [thrown != nil || err != nil] *)
Definition t_failed (r : tres) : bool :=
  match t_thrown r, t_err r with None, None => false | _, _ => true end.
(** [return s, 0, 0, thrown, err] *)
Definition t_fail (s : ast) (thrown : option value) (err : option gerr) : tres := mkT s 0 TNop thrown err.
Definition put_val (s : ast) (v : value) : ast := mkAst (a_op s) (a_cls s) (a_ty s) v (a_sp s).
(** The zero value of Ast, the elements of a slice made by [make]. *)
Definition zero_ast : ast := mkAst 0 "" TNil VNil sp0.

Section Traverse.
Context {S : Type}.
Variable there : S -> ast -> S * (ast * waymode * option gerr).
Variable back : S -> ast -> S * tres.
Variable cherr : S -> ast -> ast -> option value -> option gerr -> S.

Section Body.
(** the recursive call *)
Variable tr : S -> ast -> res (S * tres).

(** base/ast.go:220-237: the loop over all children; [done] is [slice[0:i]]. *)
Fixpoint kids (st : S) (s : ast) (done todo : list ast) : res (S * tres) :=
  match todo with
  | [] => Ok (back st (put_val s (VAsts done)))
  | a :: todo' =>
      match tr st a with
      | Ok (st1, r) =>
          if t_failed r then Ok (cherr st1 s a (t_thrown r) (t_err r), t_fail s (t_thrown r) (t_err r))
          else kids st1 s (done ++ [t_ast r]) todo'
      | Panic w => Panic w
      | Fuel => Fuel
      end
  end.
(** base/ast.go:193-219: the loop of WayThereMode_Last; [slot] is the result slice,
    of length 0 or 1.  [m] bounds the iterations of the loop. *)
Fixpoint last_loop (m : nat) (st : S) (s : ast) (orig : list ast) (i : Z) (slot : list ast) : res (S * tres) :=
  match m with
  | O => Fuel
  | Datatypes.S m' =>
      if i <? Z.of_nat (length orig) then
        if i <? 0 then Panic "index out of range" else
        match nth_error orig (Z.to_nat i) with
        | None => Panic "index out of range"
        | Some a =>
            match tr st a with
            | Ok (st1, r) =>
                if t_failed r then Ok (cherr st1 s a (t_thrown r) (t_err r), t_fail s (t_thrown r) (t_err r))
                else
                  let slot' := match t_op r with TNop => match slot with [] => [] | _ :: q => t_ast r :: q end | _ => slot end in
                  let i1 := match t_op r with
                            | TBreak => Z.of_nat (length orig) - 1
                            | TContinue => -1
                            | _ => i
                            end in
                  last_loop m' st1 s orig (i1 + t_pc r + 1) slot'
            | Panic w => Panic w
            | Fuel => Fuel
            end
        end
      else Ok (back st (put_val s (VAsts slot)))
  end.
(** base/ast.go:169-188 *)
Definition cons_part (st : S) (s car cdr : ast) : res (S * tres) :=
  match tr st car with
  | Ok (st1, r1) =>
      if t_failed r1 then Ok (cherr st1 s (t_ast r1) (t_thrown r1) (t_err r1), t_fail s (t_thrown r1) (t_err r1))
      else
        match tr st1 cdr with
        | Ok (st2, r2) =>
            if t_failed r2 then Ok (cherr st2 s (t_ast r2) (t_thrown r2) (t_err r2), t_fail s (t_thrown r2) (t_err r2))
            else Ok (back st2 (put_val s (VCons (t_ast r1) (t_ast r2))))
        | Panic w => Panic w
        | Fuel => Fuel
        end
  | Panic w => Panic w
  | Fuel => Fuel
  end.
End Body.

(** base/ast.go:147-242.  The casts through unsafe.Pointer at lines 168, 194 and 223
    assume that the dynamic type of Value is the one that Type names; otherwise their
    behaviour is undefined, which the model calls a panic. *)
Fixpoint traverse (n : nat) (st : S) (s0 : ast) : res (S * tres) :=
  match n with
  | O => Fuel
  | Datatypes.S n' =>
      let '(st1, (s, mode, err)) := there st s0 in
      match err with
      | Some e => Ok (st1, t_fail s None (Some e))
      | None =>
          match mode with
          | MLazy => Ok (back st1 s)
          | _ =>
              match a_ty s with
              | TAstCons =>
                  match a_val s with
                  | VCons car cdr => cons_part (traverse n') st1 s car cdr
                  | _ => Panic "undefined: unsafe cast"
                  end
              | TListOfAst =>
                  match a_val s with
                  | VAsts orig =>
                      match mode with
                      | MLast => last_loop (traverse n') n' st1 s orig 0 (match orig with [] => [] | _ => [zero_ast] end)
                      | _ => kids (traverse n') st1 s [] orig
                      end
                  | _ => Panic "undefined: unsafe cast"
                  end
              | _ => Ok (back st1 s)
              end
          end
      end
  end.
End Traverse.
