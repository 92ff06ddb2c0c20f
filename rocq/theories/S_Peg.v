(** Textbook recognition semantics of grammars: an inductive big-step relation
    that knows nothing of loops, flags, saved contexts or fuel. *)
From Verif Require Export S_Gram.

(** The parts of a context that never change, and the rules behind Indirect. *)
Record world := mkW {
  w_str : bytes;
  w_slice : option slicelike;
  w_tag : value;
  w_env : nat -> pexp }.

(** A context at a source position with nothing parsed before. *)
Definition fresh (w : world) (cur : srcpos) : ctx :=
  mkCtx (w_str w) (w_slice w) cur 0 [] Matched "" (w_tag w).

(** Success with the new source position and the produced ASTs; failure; or an
    error raised at a position. *)
Inductive result :=
| RSucc (cur : srcpos) (asts : list ast)
| RFail
| RErr (cur : srcpos) (e : gerr).

Definition leaf_result (o : ctx) (err : option gerr) : result :=
  match err with
  | Some e => RErr (c_sp o) e
  | None => match c_st o with Matched => RSucc (c_sp o) (c_stack o) | _ => RFail end
  end.

(** The positions look-behind tries: pos-mn, pos-mn-1, ..., pos-mx, without the
    negative ones. *)
Fixpoint behind (cur : srcpos) (i : Z) (k : nat) : list srcpos :=
  match k with
  | O => []
  | S k' =>
      let q := Z.of_nat (sp_pos cur) - i in
      if q <? 0 then behind cur (i + 1) k'
      else mkSP (Z.to_nat q) (sp_len cur) :: behind cur (i + 1) k'
  end.

(** Applying transformers left to right. *)
Inductive pipeline (c : ctx) : list trans -> list ast -> gerr + list ast -> Prop :=
| pl_nil : forall l, pipeline c [] l (inr l)
| pl_err : forall n t tr l e, t n c l = Ok (inl e) -> pipeline c (t :: tr) l (inl e)
| pl_ok : forall n t tr l l1 r,
    t n c l = Ok (inr l1) -> pipeline c tr l1 r -> pipeline c (t :: tr) l r.

Definition group_ast (l : list ast) : ast := mkAst 0 ":base:Group" TListOfAst (VAsts l) sp0.

Inductive peg (w : world) : pexp -> srcpos -> result -> Prop :=
| peg_leaf : forall cls fn n cur o err,
    fn n (fresh w cur) = Ok (o, err) ->
    peg w (ELight cls fn) cur (leaf_result o err)
| peg_flat : forall es cur r, pegs w es cur r -> peg w (EFlatGroup es) cur r
| peg_group_ok : forall es cur cur1 l,
    pegs w es cur (RSucc cur1 l) -> peg w (EGroup es) cur (RSucc cur1 [group_ast l])
| peg_group_fail : forall es cur, pegs w es cur RFail -> peg w (EGroup es) cur RFail
| peg_group_err : forall es cur cur1 e,
    pegs w es cur (RErr cur1 e) -> peg w (EGroup es) cur (RErr cur1 e)
| peg_first_none : forall cur, peg w (EFirst []) cur (RSucc cur [])
| peg_first : forall e es cur r, pegc w (e :: es) cur r -> peg w (EFirst (e :: es)) cur r
| peg_and_ok : forall es cur cur1 l,
    pegs w es cur (RSucc cur1 l) -> peg w (ELookAhead es) cur (RSucc cur [])
| peg_and_fail : forall es cur, pegs w es cur RFail -> peg w (ELookAhead es) cur RFail
| peg_and_err : forall es cur cur1 e,
    pegs w es cur (RErr cur1 e) -> peg w (ELookAhead es) cur (RErr cur1 e)
| peg_not_fail : forall es cur cur1 l,
    pegs w es cur (RSucc cur1 l) -> peg w (ELookAheadN es) cur RFail
| peg_not_ok : forall es cur, pegs w es cur RFail -> peg w (ELookAheadN es) cur (RSucc cur [])
| peg_not_err : forall es cur cur1 e,
    pegs w es cur (RErr cur1 e) -> peg w (ELookAheadN es) cur (RErr cur1 e)
| peg_behind_ok : forall mn mx es cur p,
    pegb w es (behind cur mn (Z.to_nat (mx - mn + 1))) (RSucc p []) ->
    peg w (ELookBehind false mn mx es) cur (RSucc cur [])
| peg_behind_fail : forall mn mx es cur,
    pegb w es (behind cur mn (Z.to_nat (mx - mn + 1))) RFail ->
    peg w (ELookBehind false mn mx es) cur RFail
| peg_behindN_fail : forall mn mx es cur p,
    pegb w es (behind cur mn (Z.to_nat (mx - mn + 1))) (RSucc p []) ->
    peg w (ELookBehind true mn mx es) cur RFail
| peg_behindN_ok : forall mn mx es cur,
    pegb w es (behind cur mn (Z.to_nat (mx - mn + 1))) RFail ->
    peg w (ELookBehind true mn mx es) cur (RSucc cur [])
| peg_behind_err : forall neg mn mx es cur cur1 e,
    pegb w es (behind cur mn (Z.to_nat (mx - mn + 1))) (RErr cur1 e) ->
    peg w (ELookBehind neg mn mx es) cur (RErr cur1 e)
| peg_rep_ok : forall t es cur k cur1 l,
    pegr w t es 0 cur (inr (cur1, l, k)) -> t_min t <= Z.of_nat k ->
    peg w (ERepeat t es) cur (RSucc cur1 l)
| peg_rep_few : forall t es cur k cur1 l,
    pegr w t es 0 cur (inr (cur1, l, k)) -> Z.of_nat k < t_min t ->
    peg w (ERepeat t es) cur RFail
| peg_rep_err : forall t es cur cur1 e,
    pegr w t es 0 cur (inl (cur1, e)) -> peg w (ERepeat t es) cur (RErr cur1 e)
| peg_trans_ok : forall e tr cur cur1 l l1,
    peg w e cur (RSucc cur1 l) -> pipeline (fresh w cur) tr l (inr l1) ->
    peg w (ETrans e tr) cur (RSucc cur1 l1)
| peg_trans_bad : forall e tr cur cur1 l x,
    peg w e cur (RSucc cur1 l) -> pipeline (fresh w cur) tr l (inl x) ->
    peg w (ETrans e tr) cur (RErr cur1 x)
| peg_trans_fail : forall e tr cur, peg w e cur RFail -> peg w (ETrans e tr) cur RFail
| peg_trans_err : forall e tr cur cur1 x,
    peg w e cur (RErr cur1 x) -> peg w (ETrans e tr) cur (RErr cur1 x)
| peg_indirect : forall k cur r, peg w (w_env w k) cur r -> peg w (EIndirect k) cur r
(* sequence *)
with pegs (w : world) : list pexp -> srcpos -> result -> Prop :=
| seq_nil : forall cur, pegs w [] cur (RSucc cur [])
| seq_ok : forall e es cur cur1 l cur2 l2,
    peg w e cur (RSucc cur1 l) -> pegs w es cur1 (RSucc cur2 l2) ->
    pegs w (e :: es) cur (RSucc cur2 (l ++ l2))
| seq_fail_later : forall e es cur cur1 l,
    peg w e cur (RSucc cur1 l) -> pegs w es cur1 RFail -> pegs w (e :: es) cur RFail
| seq_err_later : forall e es cur cur1 l cur2 x,
    peg w e cur (RSucc cur1 l) -> pegs w es cur1 (RErr cur2 x) ->
    pegs w (e :: es) cur (RErr cur2 x)
| seq_fail : forall e es cur, peg w e cur RFail -> pegs w (e :: es) cur RFail
| seq_err : forall e es cur cur1 x,
    peg w e cur (RErr cur1 x) -> pegs w (e :: es) cur (RErr cur1 x)
(* ordered choice *)
with pegc (w : world) : list pexp -> srcpos -> result -> Prop :=
| ch_nil : forall cur, pegc w [] cur RFail
| ch_ok : forall e es cur cur1 l,
    peg w e cur (RSucc cur1 l) -> pegc w (e :: es) cur (RSucc cur1 l)
| ch_err : forall e es cur cur1 x,
    peg w e cur (RErr cur1 x) -> pegc w (e :: es) cur (RErr cur1 x)
| ch_next : forall e es cur r,
    peg w e cur RFail -> pegc w es cur r -> pegc w (e :: es) cur r
(* greedy repetition: [k] iterations done so far; the answer is the final
   position, all ASTs and the total number of iterations *)
with pegr (w : world) : times -> list pexp -> nat -> srcpos ->
                        (srcpos * gerr) + (srcpos * list ast * nat) -> Prop :=
| rep_limit : forall t es k cur,
    0 <= t_max t <= Z.of_nat k -> pegr w t es k cur (inr (cur, [], k))
| rep_stop : forall t es k cur,
    t_max t < 0 \/ Z.of_nat k < t_max t ->
    pegs w es cur RFail -> pegr w t es k cur (inr (cur, [], k))
| rep_err : forall t es k cur cur1 x,
    t_max t < 0 \/ Z.of_nat k < t_max t ->
    pegs w es cur (RErr cur1 x) -> pegr w t es k cur (inl (cur1, x))
| rep_more : forall t es k cur cur1 l cur2 l2 k2,
    t_max t < 0 \/ Z.of_nat k < t_max t ->
    pegs w es cur (RSucc cur1 l) -> pegr w t es (S k) cur1 (inr (cur2, l2, k2)) ->
    pegr w t es k cur (inr (cur2, l ++ l2, k2))
| rep_more_err : forall t es k cur cur1 l cur2 x,
    t_max t < 0 \/ Z.of_nat k < t_max t ->
    pegs w es cur (RSucc cur1 l) -> pegr w t es (S k) cur1 (inl (cur2, x)) ->
    pegr w t es k cur (inl (cur2, x))
(* look-behind: the first of the listed positions where the sequence matches *)
with pegb (w : world) : list pexp -> list srcpos -> result -> Prop :=
| lb_none : forall es, pegb w es [] RFail
| lb_ok : forall es p ps cur1 l,
    pegs w es p (RSucc cur1 l) -> pegb w es (p :: ps) (RSucc p [])
| lb_err : forall es p ps cur1 x,
    pegs w es p (RErr cur1 x) -> pegb w es (p :: ps) (RErr cur1 x)
| lb_next : forall es p ps r,
    pegs w es p RFail -> pegb w es ps r -> pegb w es (p :: ps) r.

(** ** Contracts of the functions a grammar is built from *)

(** [o] and [o'] are answers to the same leaf call from a context with stack [s]
    and from one with an empty stack. *)
Definition same_answer (s : list ast) (a b : out) : Prop :=
  match a, b with
  | Ok (o, e), Ok (o', e') =>
      e = e' /\ c_sp o = c_sp o' /\
      (e = None -> c_st o = c_st o' /\ c_st o <> Errored) /\
      (e = None -> c_st o = Matched -> c_stack o = s ++ c_stack o')
  | Panic x, Panic y => x = y
  | Fuel, Fuel => True
  | _, _ => False
  end.

(** A context-independent leaf: from a context in status Matched its answer depends
    only on source, slice, tag and source position, it only appends to the stack,
    leaves the source alone, and reports status Error only with an error value. *)
Definition leaf_ok (fn : parser) : Prop :=
  forall n c, c_st c = Matched ->
    same_answer (c_stack c) (fn n c)
      (fn n (mkCtx (c_str c) (c_slice c) (c_sp c) 0 [] Matched "" (c_tag c))) /\
    (forall o e, fn n c = Ok (o, e) ->
       c_str o = c_str c /\ c_slice o = c_slice c /\ c_tag o = c_tag c).

(** A transformer that looks at nothing but source, slice, tag and position. *)
Definition trans_ok (t : trans) : Prop :=
  forall n c c' l,
    c_str c = c_str c' -> c_slice c = c_slice c' -> c_tag c = c_tag c' -> c_sp c = c_sp c' ->
    t n c l = t n c' l.

Definition peg_spec : gspec :=
  mkGS (fun _ fn => mono_parser fn /\ leaf_ok fn)
       (fun t => mono_trans t /\ trans_ok t) anyZ anyR anyI noBase.
(** Grammars from the exported combinators with such leaves and transformers. *)
Definition peg_gram : pexp -> Prop := gram peg_spec.
Definition peg_env (w : world) : Prop := forall k, peg_gram (w_env w k).

(** The context belongs to the world. *)
Definition in_world (w : world) (c : ctx) : Prop :=
  c_str c = w_str w /\ c_slice c = w_slice w /\ c_tag c = w_tag w.

(** What a returned (context, error) pair says, seen by the caller who passed a
    context with stack [s]. *)
Definition returns (s : list ast) (o : ctx) (err : option gerr) (r : result) : Prop :=
  match r with
  | RSucc cur l => err = None /\ c_st o = Matched /\ c_sp o = cur /\ c_stack o = s ++ l
  | RFail => err = None /\ c_st o = Unmatched
  | RErr cur e => err = Some e /\ c_st o = Errored /\ c_sp o = cur
  end.
