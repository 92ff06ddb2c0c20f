(** The code of base/ with Go's slice semantics: AstStack is a slice header, the
    ASTs live in backing arrays that all copies of a ParserContext share, and
    [append] writes in place while the capacity allows it. *)
From Verif Require Export M_Production.

(** ** Arrays and slices
    The heap is the list of all backing arrays; the length of an array is its
    capacity.  A slice is an array, an offset and a length.  (A slice made by
    [s[i:j]] keeps the capacity up to the end of the array.) *)
Definition heap := list (list ast).
Record slice := mkSlice { s_arr : nat; s_off : nat; s_len : nat }.
Definition cells (h : heap) (a : nat) : list ast := nth a h [].
(** The elements of a slice. *)
Definition elems (h : heap) (s : slice) : list ast :=
  firstn (s_len s) (skipn (s_off s) (cells h (s_arr s))).

(** [s[:k]] and [s[k:]]; the bounds are checked by the callers. *)
Definition upto (s : slice) (k : nat) : slice := mkSlice (s_arr s) (s_off s) k.
Definition from (s : slice) (k : nat) : slice := mkSlice (s_arr s) (s_off s + k) (s_len s - k).

(** Overwriting the cells of [l] from index [i] with [new]. *)
Definition overwrite (l : list ast) (i : nat) (new : list ast) : list ast :=
  firstn i l ++ new ++ skipn (i + length new) l.
Definition set_array (h : heap) (a : nat) (l : list ast) : heap :=
  firstn a h ++ l :: skipn (S a) h.

Definition zero_ast : ast := mkAst 0 "" TNil VNil sp0.
(** How much capacity a reallocation asks for, given the old capacity and the
    length needed (Go specifies only that it suffices). *)
Definition growth := nat -> nat -> nat.

(** A new array holding [l], with capacity at least [cap]. *)
Definition alloc (h : heap) (cap : nat) (l : list ast) : heap * slice :=
  (h ++ [l ++ repeat zero_ast (cap - length l)], mkSlice (length h) 0 (length l)).
(** The builtin [append(s, new...)].  [new] has been read before the copy, as by
    Go's memmove. *)
Definition go_append (g : growth) (h : heap) (s : slice) (new : list ast) : heap * slice :=
  let cap := (length (cells h (s_arr s)) - s_off s)%nat in
  let need := (s_len s + length new)%nat in
  if Nat.leb need cap
  then (set_array h (s_arr s) (overwrite (cells h (s_arr s)) (s_off s + s_len s) new),
        mkSlice (s_arr s) (s_off s) need)
  else alloc h (g cap need) (elems h s ++ new).
(** [s[i] = f(s[i])] for an index inside the slice. *)
Definition go_update (h : heap) (s : slice) (i : nat) (f : ast -> ast) : heap :=
  set_array h (s_arr s)
    (overwrite (cells h (s_arr s)) (s_off s + i)
       (map f (firstn 1 (skipn (s_off s + i) (cells h (s_arr s)))))).

(** ** Contexts and functions over the heap
    A ParserContext whose AstStack is a slice header; the [c_stack] of [h_ctx] is
    not used. *)
Record hctx := mkH { h_ctx : ctx; h_stk : slice }.
(** The context as the list model sees it. *)
Definition view (h : heap) (x : hctx) : ctx := set_stack (h_ctx x) (elems h (h_stk x)).
Definition hmap (f : ctx -> ctx) (x : hctx) : hctx := mkH (f (h_ctx x)) (h_stk x).
Definition hst (x : hctx) : status := c_st (h_ctx x).

Definition hout := res (heap * hctx * option gerr).
Definition hrun := heap -> hctx -> hout.                       (* ParserFn *)
Definition hparser := nat -> hrun.                             (* with fuel *)
Definition himpl := Z -> nat -> hrun.                          (* ParserImplFn *)
Definition htrans := nat -> ctx -> heap -> slice -> res (heap * (gerr + slice)). (* TransformerFn *)

(** ** Leaves *)

(** The leaves of string/parsers.go, object/parsers.go and base/parsers.go read
    the context and change the stack only by [append(ctx.AstStack, ...)]; [fn] is
    the model of the leaf over lists. *)
Definition h_leaf (g : growth) (fn : parser) : hparser := fun n h x =>
  match fn n (view h x) with
  | Ok (o, e) =>
      let '(h1, s1) := go_append g h (h_stk x) (skipn (s_len (h_stk x)) (c_stack o)) in
      Ok (h1, mkH o s1, e)
  | Panic w => Panic w
  | Fuel => Fuel
  end.
(** The same for an implementation function given to BaseParser. *)
Definition h_impl (g : growth) (f : impl_fn) : himpl := fun num b h x =>
  h_leaf g (fun _ => f num b) 0%nat h x.

(** base/parsers.go:57-59, the loop setting the source positions of the inserted
    ASTs in place; [k] = number of elements left. *)
Fixpoint zero_patch (h : heap) (s : slice) (p : srcpos) (i k : nat) : heap :=
  match k with
  | O => h
  | S k' => zero_patch (go_update h s i (fun a => set_asp a p)) s p (S i) k'
  end.
(** base/parsers.go:52-64, Zero *)
Definition h_zero (g : growth) (ins : list ast) : hparser := fun _ h x =>
  let saved := s_len (h_stk x) in
  let '(h1, s1) := go_append g h (h_stk x) ins in
  let h2 := zero_patch h1 s1 (c_sp (h_ctx x)) saved (length ins) in
  Ok (h2, mkH (set_st (set_len (h_ctx x) 0) Matched) s1, None).

(** ** Transformers *)

(** The transformer loops of base/base.go:155-161 and base/match.go:28-34. *)
Fixpoint h_run_trans (fuel : nat) (c : ctx) (tr : list htrans) (h : heap) (s : slice)
    : res (heap * (gerr + slice)) :=
  match tr with
  | [] => Ok (h, inr s)
  | t :: tr' =>
      match t fuel c h s with
      | Ok (h1, inr s1) => h_run_trans fuel c tr' h1 s1
      | Ok (h1, inl e) => Ok (h1, inl e)
      | Panic w => Panic w
      | Fuel => Fuel
      end
  end.

(** A transformer that reads its argument and returns a new slice, like
    GroupingTransform, ToSlice (base/transformers.go:25-54) and those of
    string/transformers.go, which return a slice literal. *)
Definition h_fresh (t : trans) : htrans := fun n c h s =>
  match t n c (elems h s) with
  | Ok (inr l) => let '(h1, s1) := alloc h (length l) l in Ok (h1, inr s1)
  | Ok (inl e) => Ok (h, inl e)
  | Panic w => Panic w
  | Fuel => Fuel
  end.
(** base/transformers.go:11-13: [asts[0:0]] *)
Definition h_erase : htrans := fun _ _ h s => Ok (h, inr (upto s 0)).
(** base/transformers.go:140-146: [asts[:len(asts)-1]] *)
Definition h_pop : htrans := fun _ _ h s =>
  if Nat.ltb 0 (s_len s) then Ok (h, inr (upto s (s_len s - 1))) else Ok (h, inr s).
(** base/transformers.go:175-193 *)
Definition h_roll : htrans := fun _ _ h s => Ok (h, inr s).
(** base/transformers.go:58-108 (SetOpCodeAndClassName, SetOpCode,
    ChangeClassName, SetValue): copy, then assign to [w[0]]. *)
Definition h_upd_first (g : growth) (f : ast -> ast) : htrans := fun _ _ h s =>
  let '(h1, w0) := alloc h (s_len s) [] in
  let '(h2, w) := go_append g h1 w0 (elems h1 s) in
  Ok (if Nat.ltb 0 (s_len w) then go_update h2 w 0 f else h2, inr w).
(** base/transformers.go:126-136 *)
Definition h_push (g : growth) (a : ast) : htrans := fun _ _ h s =>
  let a1 := match elems h s with [] => a | l => set_asp a (a_sp (last l a)) end in
  let '(h1, w0) := alloc h (s_len s + 1) [] in
  let '(h2, w1) := go_append g h1 w0 (elems h1 s) in
  let '(h3, w2) := go_append g h2 w1 [a1] in
  Ok (h3, inr w2).
(** base/transformers.go:112-122 *)
Definition h_prepend (g : growth) (a : ast) : htrans := fun _ _ h s =>
  let a1 := match elems h s with [] => a | b :: _ => set_asp a (a_sp b) end in
  let '(h1, w0) := alloc h (s_len s + 1) [zero_ast] in
  let h2 := go_update h1 w0 0 (fun _ => a1) in
  let '(h3, w1) := go_append g h2 w0 (elems h2 s) in
  Ok (h3, inr w1).
(** A user's transformer that works in place: it assigns to all elements of its
    argument slice. *)
Fixpoint in_place (f : ast -> ast) (h : heap) (s : slice) (i k : nat) : heap :=
  match k with
  | O => h
  | S k' => in_place f (go_update h s i f) s (S i) k'
  end.
Definition h_in_place (f : ast -> ast) : htrans := fun _ _ h s =>
  Ok (in_place f h s 0 (s_len s), inr s).

(** ** base/match.go:16-43, Match *)
Record hcase := mkHCase { hcase_if : list ast -> bool; hcase_let : list htrans }.
Definition h_match (g : growth) (n : Z) (cases : list hcase) : hparser := fun fuel h x0 =>
  let sp := Z.of_nat (s_len (h_stk x0)) - n in
  let x := hmap (fun c => set_st (set_len c 0) Unmatched) x0 in
  match find (fun cs => hcase_if cs (elems h (h_stk x))) cases with
  | None => Ok (h, x, None)
  | Some cs =>
      if (sp <? 0) || (Z.of_nat (s_len (h_stk x)) <? sp)
      then Panic "slice bounds out of range"
      else
        let k := Z.to_nat sp in
        match h_run_trans fuel (view h x) (hcase_let cs) h (from (h_stk x) k) with
        | Panic w => Panic w
        | Fuel => Fuel
        | Ok (h1, inl e) => Ok (h1, hmap (fun c => set_st c Errored) x, Some e)
        | Ok (h1, inr asts) =>
            let '(h2, s2) := go_append g h1 (upto (h_stk x) k) (elems h1 asts) in
            Ok (h2, mkH (set_st (h_ctx x) Matched) s2, None)
        end
  end.

(** ** base/base.go, as in M_Base but threading the heap *)
Definition h_fix_status (x : hctx) (err : option gerr) : hctx :=
  hmap (fun c => fix_status c err) x.

(** base/base.go:4-23 *)
Definition h_light (cls : string) (fn : hrun) : hrun := fun h x =>
  match fn h x with
  | Ok (h1, o, err) =>
      let o1 := h_fix_status o err in
      let o2 := match hst o1 with Matched => hmap (fun c => set_qty c 1) o1 | _ => o1 end in
      Ok (h1, hmap (fun c => set_cls c cls) o2, err)
  | Panic w => Panic w
  | Fuel => Fuel
  end.

Inductive hcres :=
| HReturn (o : hout)
| HBreak (h : heap) (x : hctx)
| HEnd (h : heap) (x : hctx) (num : nat).

(** base/base.go:64-92; [saved] and [o] are headers into the shared arrays. *)
Fixpoint h_children (ex : bool) (saved : hctx) (cs : list hrun)
    (h : heap) (o : hctx) (num : nat) : hcres :=
  match cs with
  | [] => HEnd h o num
  | child :: cs' =>
      match child h o with
      | Panic w => HReturn (Panic w)
      | Fuel => HReturn Fuel
      | Ok (h1, o1, err) =>
          let o1 := h_fix_status o1 err in
          match hst o1 with
          | Errored => HReturn (Ok (h1, o1, err))
          | Unmatched =>
              if ex then h_children ex saved cs' h1 o num
              else HBreak h1 saved
          | Matched =>
              if ex then HEnd h1 o1 (S num)
              else h_children ex saved cs' h1 o1 (S num)
          end
      end
  end.

Inductive hpres :=
| HPReturn (o : hout)
| HPDone (h : heap) (x : hctx) (count : nat).

(** base/base.go:103-108, 138-143 *)
Definition h_call_fn (fn : option himpl) (num : Z) (bottom : nat) (h : heap) (o : hctx) : hout :=
  match fn with
  | None => Ok (h, o, None)
  | Some f =>
      match f num bottom h o with
      | Ok (h1, o1, err) => Ok (h1, h_fix_status o1 err, err)
      | Panic w => Panic w
      | Fuel => Fuel
      end
  end.

(** base/base.go:59-118 *)
Fixpoint h_parent (fuel : nat) (q : times) (ex : bool) (fn : option himpl)
    (bottom : nat) (cs : list hrun) (h : heap) (o : hctx) (count : nat) : hpres :=
  if more q count then
    match fuel with
    | O => HPReturn Fuel
    | S fuel' =>
        match h_children ex o cs h o 0 with
        | HReturn r => HPReturn r
        | HBreak h1 x => HPDone h1 x count
        | HEnd h1 o1 num =>
            if ex && (Nat.ltb 0 (length cs)) && (Nat.eqb num 0) then HPDone h1 o count
            else
              match h_call_fn fn (Z.of_nat num) bottom h1 (hmap (fun c => set_qty c count) o1) with
              | Panic w => HPReturn (Panic w)
              | Fuel => HPReturn Fuel
              | Ok (h2, o2, err) =>
                  match hst o2 with
                  | Errored => HPReturn (Ok (h2, o2, err))
                  | Unmatched => HPDone h2 o count
                  | Matched => h_parent fuel' q ex fn bottom cs h2 o2 (S count)
                  end
              end
        end
    end
  else HPDone h o count.

(** base/base.go:26-174 *)
Definition h_base (g : growth) (cls : string) (fn : option himpl) (props : list prop)
    (children : list hrun) (tr : option (list htrans)) (fuel : nat) : hrun := fun h x0 =>
  let f := flags_of props in
  let x := hmap (fun c => set_cls c cls) x0 in
  let bottom := s_len (h_stk x) in
  match h_parent fuel (f_qty f) (f_ex f) fn bottom children h (hmap (fun c => set_st c Matched) x) 0 with
  | HPReturn r => r
  | HPDone h1 o count =>
      let o1 := hmap (fun c => after_loop f c count) o in
      match hst o1 with
      | Unmatched | Errored => Ok (h1, o1, None)
      | Matched =>
          match h_call_fn fn (-1) bottom h1 (hmap (fun c => set_qty c count) o1) with
          | Panic w => Panic w
          | Fuel => Fuel
          | Ok (h2, o2, _) =>
              match hst o2 with
              | Unmatched | Errored => Ok (h2, o2, None)
              | Matched =>
                  let o3 := if f_rew f then x else o2 in
                  match tr with
                  | None => Ok (h2, o3, None)
                  | Some ts =>
                      if Nat.ltb (s_len (h_stk o3)) bottom
                      then Panic "slice bounds out of range"
                      else
                        match h_run_trans fuel (view h2 x) ts h2 (from (h_stk o3) bottom) with
                        | Panic w => Panic w
                        | Fuel => Fuel
                        | Ok (h3, inl e) => Ok (h3, hmap (fun c => set_st c Errored) o3, Some e)
                        | Ok (h3, inr asts) =>
                            let '(h4, s4) := go_append g h3 (upto (h_stk o3) bottom) (elems h3 asts) in
                            Ok (h4, mkH (h_ctx o3) s4, None)
                        end
                  end
              end
          end
      end
  end.

(** base/parsers.go:122-160 *)
Fixpoint h_look_behind (neg : bool) (p : hrun) (h : heap) (x : hctx) (i : Z) (k : nat) : hout :=
  match k with
  | O => Ok (h, hmap (fun c => set_st c (if neg then Matched else Unmatched)) x, None)
  | S k' =>
      let q := Z.of_nat (c_pos (h_ctx x)) - i in
      if q <? 0 then h_look_behind neg p h x (i + 1) k'
      else
        match p h (hmap (fun c => set_pos c (Z.to_nat q)) x) with
        | Panic w => Panic w
        | Fuel => Fuel
        | Ok (h1, o, Some e) => Ok (h1, o, Some e)
        | Ok (h1, o, None) =>
            match hst o with
            | Matched => if neg then Ok (h1, hmap (fun c => set_st c Unmatched) o, None) else Ok (h1, x, None)
            | _ => h_look_behind neg p h1 x (i + 1) k'
            end
        end
  end.

(** ** Grammars: as [pexp], with leaves, implementation functions and
    transformers that work on the heap. *)
Inductive hexp :=
| HLight (cls : string) (fn : hparser)
| HFlatGroup (es : list hexp)
| HGroup (es : list hexp)
| HFirst (es : list hexp)
| HLookAhead (es : list hexp)
| HLookAheadN (es : list hexp)
| HLookBehind (neg : bool) (mn mx : Z) (es : list hexp)
| HRepeat (t : times) (es : list hexp)
| HTrans (e : hexp) (tr : list htrans)
| HIndirect (k : nat)
| HBase (cls : string) (fn : option himpl) (props : list prop) (es : list hexp)
        (tr : option (list htrans)).

(** base/parsers.go, the combinators (same lines as in M_Grammar) *)
Fixpoint h_denote (g : growth) (rho : nat -> hrun) (n : nat) (e : hexp) {struct e} : hrun :=
  match e with
  | HLight cls fn => h_light cls (fn n)
  | HFlatGroup es => h_base g ":base:FlatGroup" None [] (map (h_denote g rho n) es) None n
  | HGroup es => h_base g ":base:Group" None [] (map (h_denote g rho n) es)
                   (Some [h_fresh GroupingTransform]) n
  | HFirst es => h_base g ":base:First" None [PThereExists] (map (h_denote g rho n) es) None n
  | HLookAhead es => h_base g ":base:LookAhead" None [PRewind] (map (h_denote g rho n) es) None n
  | HLookAheadN es => h_base g ":base:LookAheadN" None [PRewind; PNegative] (map (h_denote g rho n) es) None n
  | HLookBehind neg mn mx es => fun h x =>
      h_look_behind neg
        (h_base g (if neg then ":base:LookBehindN" else ":base:LookBehind")
           None [PRewind] (map (h_denote g rho n) es) None n) h x mn (Z.to_nat (mx - mn + 1))
  | HRepeat t es => h_base g ":base:Repeat" None [PTimes t] (map (h_denote g rho n) es) None n
  | HTrans e1 tr => h_base g ":base:Trans" None [] [h_denote g rho n e1] (variadic tr) n
  | HIndirect k => h_light ":base:Indirect" (rho k)
  | HBase cls fn props es tr => h_base g cls fn props (map (h_denote g rho n) es) tr n
  end.

Fixpoint h_run_env (g : growth) (env : nat -> hexp) (n : nat) (k : nat) : hrun :=
  match n with
  | O => fun _ _ => Fuel
  | S m => fun h x => h_denote g (h_run_env g env m) m (env k) h x
  end.
Definition h_run (g : growth) (env : nat -> hexp) (n : nat) (e : hexp) : hrun :=
  h_denote g (h_run_env g env n) n e.

(** string/new.go:8-24, object/new.go:8-24, base/production.go:16-26:
    [make(AstSlice, 0, 1024)]. The context itself is [new_string_ctx] or
    [new_object_ctx]. *)
Definition h_new (h : heap) (c : ctx) : heap * hctx :=
  let '(h1, s) := alloc h 1024 [] in (h1, mkH c s).

(** ** base/production.go:29-82, ProductionRule
    Simplification: the rules see [asts], given to them as their source slice, as
    it is when the context is made; M_Live.v does without. *)
Record hprec := mkHPrec { hpr_rules : list hparser; hpr_rtol : bool }.
Inductive hscan :=
| HSErr (h : heap) (e : gerr)
| HSBad (why : string)
| HSFuel
| HSHit (h : heap) (asts : slice)
| HSNone (h : heap).

(** 40-65 *)
Fixpoint h_try_rules (g : growth) (n : nat) (rules : list hparser) (astx : hctx) (asts : slice) (p : nat)
    (h : heap) : hscan :=
  match rules with
  | [] => HSNone h
  | rule :: rules' =>
      match rule n h (hmap (fun c => set_pos c p) astx) with
      | Panic w => HSBad w
      | Fuel => HSFuel
      | Ok (h1, _, Some e) => HSErr h1 e
      | Ok (h1, o, None) =>
          match hst o with
          | Matched =>
              if Nat.leb p (s_len asts) && Nat.leb (c_pos (h_ctx o)) (s_len asts)
              then
                let '(h2, z0) := alloc h1 (s_len asts) [] in
                let '(h3, z1) := go_append g h2 z0 (elems h2 (upto asts p)) in
                let '(h4, z2) := go_append g h3 z1 (elems h3 (h_stk o)) in
                let '(h5, z3) := go_append g h4 z2 (elems h4 (from asts (c_pos (h_ctx o)))) in
                HSHit h5 z3
              else HSBad "slice bounds out of range"
          | _ => h_try_rules g n rules' astx asts p h1
          end
      end
  end.

(** 39-66 *)
Fixpoint h_try_positions (g : growth) (n : nat) (pr : hprec) (astx : hctx) (asts : slice)
    (i k : nat) (h : heap) : hscan :=
  match k with
  | O => HSNone h
  | S k' =>
      let p := if hpr_rtol pr then (s_len asts - i)%nat else i in
      match h_try_rules g n (hpr_rules pr) astx asts p h with
      | HSNone h1 => h_try_positions g n pr astx asts (S i) k' h1
      | r => r
      end
  end.

(** 35-67; all attempts of one precedence start from the same empty stack. *)
Fixpoint h_try_precedences (g : growth) (n : nat) (prs : list hprec) (tag : value) (asts : slice)
    (h : heap) : hscan :=
  match prs with
  | [] => HSNone h
  | pr :: prs' =>
      let '(h1, astx) := h_new h (new_object_ctx (ast_slice (elems h asts)) tag) in
      match h_try_positions g n pr astx asts 0 (S (s_len asts)) h1 with
      | HSNone h2 => h_try_precedences g n prs' tag asts h2
      | r => r
      end
  end.

(** 32-81 *)
Fixpoint h_production_loop (g : growth) (n k : nat) (prs : list hprec) (check : hparser)
    (tag : value) (asts : slice) (h : heap) : res (heap * (gerr + slice)) :=
  match k with
  | O => Fuel
  | S k' =>
      let check_then (h1 : heap) (asts1 : slice) (next : heap -> res (heap * (gerr + slice))) :=
        let '(h2, x) := h_new h1 (new_object_ctx (ast_slice (elems h1 asts1)) tag) in
        match check n h2 x with
        | Panic w => Panic w
        | Fuel => Fuel
        | Ok (h3, o, None) => match hst o with Matched => Ok (h3, inr asts1) | _ => next h3 end
        | Ok (h3, _, Some _) => next h3
        end in
      match h_try_precedences g n prs tag asts h with
      | HSErr h1 e => Ok (h1, inl e)
      | HSBad w => Panic w
      | HSFuel => Fuel
      | HSHit h1 asts1 => check_then h1 asts1 (h_production_loop g n k' prs check tag asts1)
      | HSNone h1 => check_then h1 asts (fun h3 => Ok (h3, inl prod_err))
      end
  end.
Definition h_production (g : growth) (prs : list hprec) (check : hparser) : htrans :=
  fun n c h s => h_production_loop g n n prs check (c_tag c) s h.
