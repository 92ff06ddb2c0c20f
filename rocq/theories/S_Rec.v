(** Specifications for recursive grammars (C56). *)
From Verif Require Export S_Core.

(** A leaf that consumes input whenever it matches. *)
Definition eats_leaf (sz : size) (fn : parser) : Prop :=
  forall n c o, in_bounds sz c -> fn n c = Ok (o, None) -> c_st o = Matched -> (c_pos c < c_pos o)%nat.

(** Library leaves that cannot match without consuming: those that read a character or an
    element, literals that are not empty, and the parsers that never match. *)
Inductive hungry : parser -> Prop :=
| h_char : forall cls test, hungry (lift (char_fn cls test))
| h_any : hungry (lift any_fn)
| h_seq : forall s, s <> [] -> hungry (lift (seq_fn s))
| h_seqi : forall fold s, s <> [] -> hungry (lift (seqi_fn fold s))
| h_class : forall cc, Forall (fun s => s <> []) cc -> hungry (lift (char_class_fn cc))
| h_classN : forall cc, hungry (lift (char_classN_fn cc))
| h_oany : hungry (lift obj_any_fn)
| h_oseq : forall seq, seq <> [] -> hungry (lift (obj_seq_fn seq))
| h_oclass : forall oc, hungry (lift (obj_class_fn oc))
| h_oclassN : forall oc, hungry (lift (obj_classN_fn oc))
| h_oclassFn : forall f, hungry (lift (obj_classFn_fn f))
| h_error : forall msg, hungry (lift (error_fn msg))
| h_unmatched : hungry (lift unmatched_fn).

(** A parser that cannot match without consuming, given that the rules in [eat] cannot. *)
Inductive eats (sz : size) (eat : nat -> Prop) : pexp -> Prop :=
| eat_leaf : forall cls fn, eats_leaf sz fn -> eats sz eat (ELight cls fn)
| eat_flat : forall es e, In e es -> eats sz eat e -> eats sz eat (EFlatGroup es)
| eat_group : forall es e, In e es -> eats sz eat e -> eats sz eat (EGroup es)
| eat_first : forall es, es <> [] -> (forall e, In e es -> eats sz eat e) -> eats sz eat (EFirst es)
| eat_repeat : forall t es e, 1 <= t_min t -> In e es -> eats sz eat e -> eats sz eat (ERepeat t es)
| eat_trans : forall e tr, eats sz eat e -> eats sz eat (ETrans e tr)
| eat_rule : forall k, eat k -> eats sz eat (EIndirect k).

(** Where a parser may refer to rules: to those in [here] while nothing has been
    consumed, to those in [later] behind a parser that consumes, to those in [back]
    inside a look-behind.  The body of an unbounded repetition has to consume. *)
Inductive guarded (sz : size) (eat back : nat -> Prop) : (nat -> Prop) -> (nat -> Prop) -> pexp -> Prop :=
| gd_leaf : forall here later cls fn, pos_leaf sz fn -> total_leaf fn -> mono_parser fn ->
    guarded sz eat back here later (ELight cls fn)
| gd_flat : forall here later es, guarded_seq sz eat back here later es -> guarded sz eat back here later (EFlatGroup es)
| gd_group : forall here later es, guarded_seq sz eat back here later es -> guarded sz eat back here later (EGroup es)
| gd_ahead : forall here later es, guarded_seq sz eat back here later es -> guarded sz eat back here later (ELookAhead es)
| gd_aheadN : forall here later es, guarded_seq sz eat back here later es -> guarded sz eat back here later (ELookAheadN es)
| gd_first : forall here later es, guarded_all sz eat back here later es -> guarded sz eat back here later (EFirst es)
| gd_behind : forall here later neg mn mx es, 0 <= mn -> guarded_seq sz eat back back back es ->
    guarded sz eat back here later (ELookBehind neg mn mx es)
| gd_repeat : forall here later t es, guarded_seq sz eat back here later es ->
    (t_max t < 0 -> exists e, In e es /\ eats sz eat e) -> guarded sz eat back here later (ERepeat t es)
| gd_trans : forall here later e tr, guarded sz eat back here later e ->
    allP (fun t => total_trans t /\ mono_trans t) tr -> guarded sz eat back here later (ETrans e tr)
| gd_rule : forall (here later : nat -> Prop) k, here k -> guarded sz eat back here later (EIndirect k)
(* in sequence *)
with guarded_seq (sz : size) (eat back : nat -> Prop) : (nat -> Prop) -> (nat -> Prop) -> list pexp -> Prop :=
| gs_nil : forall here later, guarded_seq sz eat back here later []
| gs_keep : forall here later e es, guarded sz eat back here later e ->
    guarded_seq sz eat back here later es -> guarded_seq sz eat back here later (e :: es)
| gs_eat : forall here later e es, guarded sz eat back here later e -> eats sz eat e ->
    guarded_seq sz eat back later later es -> guarded_seq sz eat back here later (e :: es)
(* as alternatives *)
with guarded_all (sz : size) (eat back : nat -> Prop) : (nat -> Prop) -> (nat -> Prop) -> list pexp -> Prop :=
| ga_nil : forall here later, guarded_all sz eat back here later []
| ga_cons : forall here later e es, guarded sz eat back here later e ->
    guarded_all sz eat back here later es -> guarded_all sz eat back here later (e :: es).

(** Rules without left recursion: there is a rank that decreases along references made
    before anything is consumed, and look-behinds refer to rules of a lower layer only. *)
Definition ranked (sz : size) (eat : nat -> Prop) (layer rank : nat -> nat) (env : nat -> pexp) : Prop :=
  (forall k, eat k -> eats sz eat (env k)) /\
  (forall k, guarded sz eat (fun j => (layer j < layer k)%nat)
               (fun j => (layer j < layer k)%nat \/ layer j = layer k /\ (rank j < rank k)%nat)
               (fun j => (layer j <= layer k)%nat) (env k)).

(** ** Left recursion *)
(** [k] complete passes through a list of parsers. *)
Inductive passes (w : world) (es : list pexp) : nat -> srcpos -> srcpos -> Prop :=
| ps_0 : forall cur, passes w es 0 cur cur
| ps_S : forall k cur cur1 l cur2, pegs w es cur (RSucc cur1 l) -> passes w es k cur1 cur2 -> passes w es (S k) cur cur2.
(** Running the parser from a position gets as far as calling a rule from a position. *)
Inductive opens (w : world) : pexp -> srcpos -> nat -> srcpos -> Prop :=
| op_rule : forall k cur, opens w (EIndirect k) cur k cur
| op_flat : forall pre e post cur cur1 l k to, pegs w pre cur (RSucc cur1 l) -> opens w e cur1 k to ->
    opens w (EFlatGroup (pre ++ e :: post)) cur k to
| op_group : forall pre e post cur cur1 l k to, pegs w pre cur (RSucc cur1 l) -> opens w e cur1 k to ->
    opens w (EGroup (pre ++ e :: post)) cur k to
| op_ahead : forall pre e post cur cur1 l k to, pegs w pre cur (RSucc cur1 l) -> opens w e cur1 k to ->
    opens w (ELookAhead (pre ++ e :: post)) cur k to
| op_aheadN : forall pre e post cur cur1 l k to, pegs w pre cur (RSucc cur1 l) -> opens w e cur1 k to ->
    opens w (ELookAheadN (pre ++ e :: post)) cur k to
| op_first : forall pre e post cur k to, pegc w pre cur RFail -> opens w e cur k to ->
    opens w (EFirst (pre ++ e :: post)) cur k to
| op_repeat : forall t pre e post cur i cur1 cur2 l k to, passes w (pre ++ e :: post) i cur cur1 ->
    (t_max t < 0 \/ Z.of_nat i < t_max t) -> pegs w pre cur1 (RSucc cur2 l) -> opens w e cur2 k to ->
    opens w (ERepeat t (pre ++ e :: post)) cur k to
| op_behind : forall neg mn mx pre e post cur before p after cur1 l k to,
    behind cur mn (Z.to_nat (mx - mn + 1)) = before ++ p :: after ->
    Forall (fun q => pegs w (pre ++ e :: post) q RFail) before ->
    pegs w pre p (RSucc cur1 l) -> opens w e cur1 k to ->
    opens w (ELookBehind neg mn mx (pre ++ e :: post)) cur k to
| op_trans : forall e tr cur k to, opens w e cur k to -> opens w (ETrans e tr) cur k to.
