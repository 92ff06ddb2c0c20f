(** Specifications for C13 and C14. *)
From Verif Require Export S_Core M_Heap.

(** A slice inside an existing array. *)
Definition valid (h : heap) (s : slice) : Prop :=
  (s_arr s < length h)%nat /\ (s_off s + s_len s <= length (cells h (s_arr s)))%nat.

(** From [h] to [h'] nothing that existed changed, except perhaps cells of the
    array [a] at index [k] or above. *)
Definition kept (h h' : heap) (a k : nat) : Prop :=
  (length h <= length h')%nat /\
  (forall b, (b < length h)%nat -> length (cells h' b) = length (cells h b)) /\
  (forall b, (b < length h)%nat -> b <> a -> cells h' b = cells h b) /\
  firstn k (cells h' a) = firstn k (cells h a).

(** The index [r] elements below the top of a stack. *)
Definition cut (s : slice) (r : Z) : nat := (s_off s + (s_len s - Z.to_nat r))%nat.

(** [s'] starts where [s] starts, or lies in an array newer than [h]. *)
Definition moved (h : heap) (s s' : slice) : Prop :=
  (s_arr s' = s_arr s /\ s_off s' = s_off s) \/ (length h <= s_arr s')%nat.

(** Equal apart from the AST stack. *)
Definition like (x : hctx) (o : ctx) : Prop := set_stack (h_ctx x) [] = set_stack o [].

(** ** Transformers *)

(** [ht] does on the heap what [t] does on lists.  It may write into its argument
    slice and behind it, not below or elsewhere; its result lies there too or is
    new. *)
Definition faithful (ht : htrans) (t : trans) : Prop := forall n c h s, valid h s ->
  match ht n c h s, t n c (elems h s) with
  | Ok (h', inr s'), Ok (inr l) =>
      elems h' s' = l /\ valid h' s' /\ kept h h' (s_arr s) (s_off s) /\
      ((s_arr s' = s_arr s /\ (s_off s <= s_off s')%nat) \/ (length h <= s_arr s')%nat)
  | Ok (h', inl e'), Ok (inl e) => e' = e /\ kept h h' (s_arr s) (s_off s)
  | Panic w', Panic w => w' = w
  | Fuel, Fuel => True
  | _, _ => False
  end.
(** The transformer does not look at the AST stack of its context. *)
Definition stackless (t : trans) : Prop :=
  forall n c s l, t n (set_stack c s) l = t n c l.

(** ** Parsers *)

(** The heap parser's answer [r'] to a call with heap [h] and stack [s] agrees
    with the answer [r] over lists: the outcome, the error and the context are
    the same; and so is the stack if it matched.  A match has changed at most [rs]
    of the ASTs that were on the stack, a mismatch at most [rf]; a match pushes at
    least [p] more ASTs than it takes away. *)
Definition answers (rs rf p : Z) (h : heap) (s : slice) (r' : hout) (r : out) : Prop :=
  match r', r with
  | Ok (h', x', e'), Ok (o, e) =>
      e' = e /\ like x' o /\
      match e, c_st o with
      | Some _, _ => kept h h' (s_arr s) 0
      | None, Matched =>
          view h' x' = o /\ valid h' (h_stk x') /\ kept h h' (s_arr s) (cut s rs) /\
          moved h s (h_stk x') /\ Z.of_nat (s_len s) + p <= Z.of_nat (s_len (h_stk x'))
      | None, Unmatched =>
          kept h h' (s_arr s) (cut s rf) /\ (rf <= 0 -> view h' x' = o /\ valid h' (h_stk x'))
      | None, Errored => kept h h' (s_arr s) (cut s (Z.max rs rf))
      end
  | Panic w', Panic w => w' = w
  | Fuel, Fuel => True
  | _, _ => False
  end.
Definition agrees (hp : hrun) (q : ctx -> out) (rs rf p : Z) : Prop :=
  forall h x, valid h (h_stk x) -> answers rs rf p h (h_stk x) (hp h x) (q (view h x)).

(** ** C13: grammars without Match *)

(** A leaf that changes the stack by appending to it at most. *)
Definition appends (fn : parser) : Prop := forall n c o e, fn n c = Ok (o, e) -> pushes c o.
Definition appends_impl (f : impl_fn) : Prop :=
  forall num b c o e, f num b c = Ok (o, e) -> pushes c o.
Inductive impl_made (g : growth) : option himpl -> option impl_fn -> Prop :=
| im_none : impl_made g None None
| im_some : forall f, appends_impl f -> impl_made g (Some (h_impl g f)) (Some f).
Definition faithful_opt (hts : option (list htrans)) (ts : option (list trans)) : Prop :=
  match hts, ts with
  | None, None => True
  | Some a, Some b => Forall2 faithful a b
  | _, _ => False
  end.

(** [implements g he e]: the grammar [he] over the heap is [e] with leaves that
    append and with faithful transformers. *)
Inductive implements (g : growth) : hexp -> pexp -> Prop :=
| i_leaf : forall cls fn, appends fn -> implements g (HLight cls (h_leaf g fn)) (ELight cls fn)
| i_zero : forall ins, implements g (HLight ":base:Zero" (h_zero g ins)) (EZero ins)
| i_flat : forall hs es, implements_all g hs es -> implements g (HFlatGroup hs) (EFlatGroup es)
| i_group : forall hs es, implements_all g hs es -> implements g (HGroup hs) (EGroup es)
| i_first : forall hs es, implements_all g hs es -> implements g (HFirst hs) (EFirst es)
| i_ahead : forall hs es, implements_all g hs es -> implements g (HLookAhead hs) (ELookAhead es)
| i_aheadN : forall hs es, implements_all g hs es -> implements g (HLookAheadN hs) (ELookAheadN es)
| i_behind : forall neg mn mx hs es, implements_all g hs es ->
    implements g (HLookBehind neg mn mx hs) (ELookBehind neg mn mx es)
| i_repeat : forall t hs es, implements_all g hs es -> implements g (HRepeat t hs) (ERepeat t es)
| i_trans : forall he e hts ts, implements g he e -> Forall2 faithful hts ts ->
    implements g (HTrans he hts) (ETrans e ts)
| i_indirect : forall k, implements g (HIndirect k) (EIndirect k)
| i_base : forall cls hfn fn props hs es hts ts,
    impl_made g hfn fn -> implements_all g hs es -> faithful_opt hts ts ->
    implements g (HBase cls hfn props hs hts) (EBase cls fn props es ts)
with implements_all (g : growth) : list hexp -> list pexp -> Prop :=
| i_nil : implements_all g [] []
| i_cons : forall he e hs es, implements g he e -> implements_all g hs es ->
    implements_all g (he :: hs) (e :: es).

(** ** C14: grammars with Match *)

(** The cases of Match over the heap and over lists. *)
Inductive cases_made : list hcase -> list mcase -> Prop :=
| cm_nil : cases_made [] []
| cm_cons : forall test hts ts hcs cs, Forall2 faithful hts ts -> cases_made hcs cs ->
    cases_made (mkHCase test hts :: hcs) (mkCase test ts :: cs).
(** Given at least [d] ASTs the transformers return at least [k]. *)
Definition returns (d k : Z) (ts : list trans) : Prop :=
  forall n c l l', d <= Z.of_nat (length l) -> run_trans n c ts l = Ok (inr l') -> k <= Z.of_nat (length l').

(** [reach g sg he e rs rf p]: in the grammar [he], which implements [e],
    - a match of it rewrites at most [rs] of the ASTs that were on the stack,
    - a mismatch at most [rf],
    - a match adds at least [p] ASTs net.
    [sg] gives these three numbers for the rules of the environment.  The rules for
    combinators that go on after a mismatch (First, Repeat, negative lookahead)
    demand that a mismatch rewrites nothing, those that rewind after a match
    demand that a match rewrites nothing. *)
Inductive reach (g : growth) (sg : nat -> Z * Z * Z) : hexp -> pexp -> Z -> Z -> Z -> Prop :=
| re_weaken : forall he e rs rf p rs' rf' p',
    reach g sg he e rs rf p -> rs <= rs' -> rf <= rf' -> p' <= p -> reach g sg he e rs' rf' p'
| re_leaf : forall cls fn p, appends fn ->
    (forall n c o, fn n c = Ok (o, None) -> c_st o = Matched ->
       Z.of_nat (length (c_stack c)) + p <= Z.of_nat (length (c_stack o))) ->
    reach g sg (HLight cls (h_leaf g fn)) (ELight cls fn) 0 0 p
| re_zero : forall ins,
    reach g sg (HLight ":base:Zero" (h_zero g ins)) (EZero ins) 0 0 (Z.of_nat (length ins))
| re_match : forall n hcs cs k, 0 <= n -> cases_made hcs cs ->
    Forall (fun c => returns n k (case_let c)) cs ->
    reach g sg (HLight "Match" (h_match g n hcs)) (EMatch n cs) n 0 (k - n)
| re_flat : forall hs es rs rf p, reach_seq g sg hs es rs rf p ->
    reach g sg (HFlatGroup hs) (EFlatGroup es) rs rf p
| re_group : forall hs es rs rf p, reach_seq g sg hs es rs rf p ->
    reach g sg (HGroup hs) (EGroup es) rs rf 1
| re_first : forall hs es rs p, reach_alt g sg hs es rs p -> 0 <= rs -> (es = [] -> p <= 0) ->
    reach g sg (HFirst hs) (EFirst es) rs 0 p
| re_ahead : forall hs es rf p, reach_seq g sg hs es 0 rf p ->
    reach g sg (HLookAhead hs) (ELookAhead es) 0 rf 0
| re_aheadN : forall hs es rs p, reach_seq g sg hs es rs 0 p ->
    reach g sg (HLookAheadN hs) (ELookAheadN es) 0 rs 0
| re_behind : forall neg mn mx hs es p, reach_seq g sg hs es 0 0 p ->
    reach g sg (HLookBehind neg mn mx hs) (ELookBehind neg mn mx es) 0 0 0
| re_once : forall hs es rs rf p, reach_seq g sg hs es rs rf p ->
    reach g sg (HRepeat qtyOnce hs) (EOnce es) rs rf p
| re_repeat : forall t hs es rs p, reach_seq g sg hs es rs 0 p -> 0 <= p ->
    reach g sg (HRepeat t hs) (ERepeat t es) rs
      (if t_min t <=? 1 then 0 else rs) (if t_min t <=? 0 then 0 else p)
| re_trans : forall he e hts ts rs rf p k, reach g sg he e rs rf p -> Forall2 faithful hts ts ->
    0 <= rs -> 0 <= rf -> 0 <= rs + p -> rs = 0 \/ Forall stackless ts ->
    returns p k ts -> (ts = [] -> k <= p) ->
    reach g sg (HTrans he hts) (ETrans e ts) rs rf k
| re_indirect : forall k,
    reach g sg (HIndirect k) (EIndirect k) (fst (fst (sg k))) (snd (fst (sg k))) (snd (sg k))
| re_base : forall cls hfn fn props hs es hts ts,
    impl_made g hfn fn -> reach_alt g sg hs es 0 0 -> faithful_opt hts ts ->
    reach g sg (HBase cls hfn props hs hts) (EBase cls fn props es ts) 0 0 0
with reach_seq (g : growth) (sg : nat -> Z * Z * Z) : list hexp -> list pexp -> Z -> Z -> Z -> Prop :=
| is_nil : reach_seq g sg [] [] 0 0 0
| is_cons : forall he e hs es rs1 rf1 p1 rs2 rf2 p2 rs rf p,
    reach g sg he e rs1 rf1 p1 -> reach_seq g sg hs es rs2 rf2 p2 ->
    0 <= rs -> rs1 <= rs -> rs2 - p1 <= rs ->
    0 <= rf -> rf1 <= rf -> (es <> [] -> rs1 <= rf /\ rf2 - p1 <= rf) ->
    p <= p1 + p2 ->
    reach_seq g sg (he :: hs) (e :: es) rs rf p
with reach_alt (g : growth) (sg : nat -> Z * Z * Z) : list hexp -> list pexp -> Z -> Z -> Prop :=
| ia_nil : forall rs p, reach_alt g sg [] [] rs p
| ia_cons : forall he e hs es rs p,
    reach g sg he e rs 0 p -> reach_alt g sg hs es rs p ->
    reach_alt g sg (he :: hs) (e :: es) rs p.
