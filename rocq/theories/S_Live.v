(** What is asked of the parts of a grammar for C74. *)
From Verif Require Export S_Heap M_Live.

(** From the heap [h] to [h'] at most the array [a] and new ones have been written to, and [s'] lies
    in one of these. *)
Definition near (h : heap) (a : nat) (h' : heap) (s' : slice) : Prop :=
  kept h h' a 0 /\ valid h' s' /\ (s_arr s' = a \/ (length h <= s_arr s')%nat).
(** A parser that writes to the array of its stack and to new ones only, and leaves ctx.Slice alone. *)
Definition framed (p : hrun) : Prop := forall h x, valid h (h_stk x) ->
  match p h x with
  | Ok (h', x', _) => near h (s_arr (h_stk x)) h' (h_stk x') /\ c_slice (h_ctx x') = c_slice (h_ctx x)
  | _ => True
  end.
Definition framed_trans (t : htrans) : Prop := forall n c h s, valid h s ->
  match t n c h s with
  | Ok (h', inr s') => near h (s_arr s) h' s'
  | Ok (h', inl _) => kept h h' (s_arr s) 0
  | _ => True
  end.
Definition framed_opt {A} (P : A -> Prop) (o : option A) : Prop := match o with Some a => P a | None => True end.
(** A grammar of such parts. *)
Inductive framed_exp : hexp -> Prop :=
| fe_light : forall cls fn, (forall n, framed (fn n)) -> framed_exp (HLight cls fn)
| fe_flat : forall es, Forall framed_exp es -> framed_exp (HFlatGroup es)
| fe_group : forall es, Forall framed_exp es -> framed_exp (HGroup es)
| fe_first : forall es, Forall framed_exp es -> framed_exp (HFirst es)
| fe_ahead : forall es, Forall framed_exp es -> framed_exp (HLookAhead es)
| fe_aheadN : forall es, Forall framed_exp es -> framed_exp (HLookAheadN es)
| fe_behind : forall neg mn mx es, Forall framed_exp es -> framed_exp (HLookBehind neg mn mx es)
| fe_repeat : forall t es, Forall framed_exp es -> framed_exp (HRepeat t es)
| fe_trans : forall e ts, framed_exp e -> Forall framed_trans ts -> framed_exp (HTrans e ts)
| fe_indirect : forall k, framed_exp (HIndirect k)
| fe_base : forall cls fn props es ts, framed_opt (fun f => forall num b, framed (f num b)) fn -> Forall framed_exp es ->
    framed_opt (Forall framed_trans) ts -> framed_exp (HBase cls fn props es ts).
(** The context reads the slice [src] and keeps its stack elsewhere. *)
Definition source_at (src : slice) (h : heap) (x : hctx) : Prop :=
  valid h src /\ valid h (h_stk x) /\ s_arr (h_stk x) <> s_arr src /\ c_slice (h_ctx x) = Some (ast_slice (elems h src)).
