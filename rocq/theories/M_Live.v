(** Object parsers over a slice of ASTs that lies in the shared memory: ctx.Slice is a slice header,
    so that a parser that looks at the source sees the cells as they are now, not as they were when
    the context was made (base/production.go:36 and 69, base/ast.go:256-290). *)
From Verif Require Export M_Heap.

(** The context with the elements that the slice [src] has now. *)
Definition now (src : slice) (h : heap) (c : ctx) : ctx :=
  mkCtx (c_str c) (Some (ast_slice (elems h src))) (c_sp c) (c_qty c) (c_stack c) (c_st c) (c_cls c) (c_tag c).
(** Leaves, implementation functions and transformers that read the source when they are called. *)
Definition live_parser (src : slice) (p : hparser) : hparser := fun n h x => p n h (hmap (now src h) x).
Definition live_impl (src : slice) (f : himpl) : himpl := fun num b h x => f num b h (hmap (now src h) x).
Definition live_trans (src : slice) (t : htrans) : htrans := fun n c h s => t n (now src h c) h s.
(** The grammar, all of whose parts do so. *)
Fixpoint live (src : slice) (e : hexp) : hexp :=
  match e with
  | HLight cls fn => HLight cls (live_parser src fn)
  | HFlatGroup es => HFlatGroup (map (live src) es)
  | HGroup es => HGroup (map (live src) es)
  | HFirst es => HFirst (map (live src) es)
  | HLookAhead es => HLookAhead (map (live src) es)
  | HLookAheadN es => HLookAheadN (map (live src) es)
  | HLookBehind neg mn mx es => HLookBehind neg mn mx (map (live src) es)
  | HRepeat t es => HRepeat t (map (live src) es)
  | HTrans e1 tr => HTrans (live src e1) (map (live_trans src) tr)
  | HIndirect k => HIndirect k
  | HBase cls fn props es tr =>
      HBase cls (option_map (live_impl src) fn) props (map (live src) es) (option_map (map (live_trans src)) tr)
  end.
Definition live_run (g : growth) (henv : nat -> hexp) (src : slice) (n : nat) (e : hexp) : hrun :=
  h_run g (fun k => live src (henv k)) n (live src e).

(** base/production.go:32-81 with rules and a check that depend on the slice they work on. *)
Fixpoint live_production_loop (g : growth) (n k : nat) (prs : slice -> list hprec) (check : slice -> hparser)
    (tag : value) (asts : slice) (h : heap) : res (heap * (gerr + slice)) :=
  match k with
  | O => Fuel
  | S k' =>
      let check_then (h1 : heap) (asts1 : slice) (next : heap -> res (heap * (gerr + slice))) :=
        let '(h2, x) := h_new h1 (new_object_ctx (ast_slice (elems h1 asts1)) tag) in
        match check asts1 n h2 x with
        | Panic w => Panic w
        | Fuel => Fuel
        | Ok (h3, o, None) => match hst o with Matched => Ok (h3, inr asts1) | _ => next h3 end
        | Ok (h3, _, Some _) => next h3
        end in
      match h_try_precedences g n (prs asts) tag asts h with
      | HSErr h1 e => Ok (h1, inl e)
      | HSBad w => Panic w
      | HSFuel => Fuel
      | HSHit h1 asts1 => check_then h1 asts1 (live_production_loop g n k' prs check tag asts1)
      | HSNone h1 => check_then h1 asts (fun h3 => Ok (h3, inl prod_err))
      end
  end.
(** A precedence with its rules as grammars. *)
Record gprec := mkGPrec { gpr_rules : list hexp; gpr_rtol : bool }.
Definition live_production (g : growth) (henv : nat -> hexp) (prs : list gprec) (check : hexp) : htrans := fun n c h s =>
  live_production_loop g n n
    (fun src => map (fun p => mkHPrec (map (fun e m => live_run g henv src m e) (gpr_rules p)) (gpr_rtol p)) prs)
    (fun src m => live_run g henv src m check) (c_tag c) s h.
(** The same with rules that see the source as it was when their context was made. *)
Definition snapshot_production (g : growth) (henv : nat -> hexp) (prs : list gprec) (check : hexp) : htrans :=
  h_production g (map (fun p => mkHPrec (map (fun e m => h_run g henv m e) (gpr_rules p)) (gpr_rtol p)) prs)
    (fun m => h_run g henv m check).
