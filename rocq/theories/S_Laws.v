(** Specifications for C76: rewriting grammars by laws. *)
From Verif Require Export S_Peg.

(** One iteration less: Max counts down unless it is unlimited. *)
Definition fewer (t : times) : times := mkTimes (t_min t - 1) (if t_max t <? 0 then t_max t else t_max t - 1).
(** Parsers that never fail: Zero, Error, and repetitions of at least zero times. *)
Inductive unfailing : pexp -> Prop :=
| uf_zero : forall l, unfailing (EZero l)
| uf_error : forall m, unfailing (EError m)
| uf_repeat : forall t es, t_min t <= 0 -> unfailing (ERepeat t es).
(** Parsers after which nothing is parsed. *)
Inductive dead_end : pexp -> Prop :=
| de_error : forall m, dead_end (EError m)
| de_unmatched : dead_end EUnmatched.

(** The laws for single expressions. *)
Inductive law : pexp -> pexp -> Prop :=
| law_flat_one : forall e, law (EFlatGroup [e]) e
| law_first_one : forall e, law (EFirst [e]) e
| law_group : forall es, law (EGroup es) (ETrans (EFlatGroup es) [GroupingTransform])
| law_trans_none : forall e, law (ETrans e []) e
| law_trans_more : forall e t1 t2, law (ETrans (ETrans e t1) t2) (ETrans e (t1 ++ t2))
| law_repeat_none : forall t es, t_min t <= 0 -> t_max t = 0 -> law (ERepeat t es) (EFlatGroup [])
| law_repeat_never : forall t es, 0 < t_min t -> t_max t = 0 -> law (ERepeat t es) EUnmatched
| law_repeat_more : forall t es, 0 < t_min t -> t_max t <> 0 -> law (ERepeat t es) (EFlatGroup (es ++ [ERepeat (fewer t) es]))
| law_repeat_option : forall t es, t_min t <= 0 -> t_max t <> 0 ->
    law (ERepeat t es) (EFirst [EFlatGroup (es ++ [ERepeat (fewer t) es]); EFlatGroup []])
| law_repeat_same : forall t t' es, Z.max 0 (t_min t) = Z.max 0 (t_min t') -> Z.max (-1) (t_max t) = Z.max (-1) (t_max t') -> law (ERepeat t es) (ERepeat t' es)
| law_not_not : forall es, law (ELookAheadN [ELookAheadN es]) (ELookAhead es)
| law_ahead_ahead : forall es, law (ELookAhead [ELookAhead es]) (ELookAhead es)
| law_behind_here : forall es, law (ELookBehind false 0 0 es) (ELookAhead es)
| law_behind_not : forall mn mx es, law (ELookBehind true mn mx es) (ELookAheadN [ELookBehind false mn mx es]).

(** Rewriting by laws anywhere in a grammar: in expressions, in sequences of parsers and in alternatives. *)
Inductive rewrites : pexp -> pexp -> Prop :=
| rw_law : forall e e', law e e' -> rewrites e e'
| rw_refl : forall e, rewrites e e
| rw_sym : forall e e', rewrites e e' -> rewrites e' e
| rw_trans : forall a b c, rewrites a b -> rewrites b c -> rewrites a c
| rw_flat : forall es es', rewrites_seq es es' -> rewrites (EFlatGroup es) (EFlatGroup es')
| rw_group : forall es es', rewrites_seq es es' -> rewrites (EGroup es) (EGroup es')
| rw_ahead : forall es es', rewrites_seq es es' -> rewrites (ELookAhead es) (ELookAhead es')
| rw_aheadN : forall es es', rewrites_seq es es' -> rewrites (ELookAheadN es) (ELookAheadN es')
| rw_behind : forall neg mn mx es es', rewrites_seq es es' -> rewrites (ELookBehind neg mn mx es) (ELookBehind neg mn mx es')
| rw_repeat : forall t es es', rewrites_seq es es' -> rewrites (ERepeat t es) (ERepeat t es')
| rw_trans_in : forall e e' tr, rewrites e e' -> rewrites (ETrans e tr) (ETrans e' tr)
| rw_first : forall es es', rewrites_alt es es' -> rewrites (EFirst es) (EFirst es')
with rewrites_seq : list pexp -> list pexp -> Prop :=
| rs_nil : rewrites_seq [] []
| rs_cons : forall e e' es es', rewrites e e' -> rewrites_seq es es' -> rewrites_seq (e :: es) (e' :: es')
| rs_sym : forall a b, rewrites_seq a b -> rewrites_seq b a
| rs_trans : forall a b c, rewrites_seq a b -> rewrites_seq b c -> rewrites_seq a c
| rs_flat : forall es es', rewrites_seq (EFlatGroup es :: es') (es ++ es')
| rs_dead : forall e es, dead_end e -> rewrites_seq (e :: es) [e]
with rewrites_alt : list pexp -> list pexp -> Prop :=
| ra_nil : rewrites_alt [] []
| ra_cons : forall e e' es es', rewrites e e' -> rewrites_alt es es' -> rewrites_alt (e :: es) (e' :: es')
| ra_sym : forall a b, rewrites_alt a b -> rewrites_alt b a
| ra_trans : forall a b c, rewrites_alt a b -> rewrites_alt b c -> rewrites_alt a c
| ra_first : forall e es es', rewrites_alt (EFirst (e :: es) :: es') (e :: es ++ es')
| ra_unmatched : forall e es, rewrites_alt (EUnmatched :: e :: es) (e :: es)
| ra_unmatched_last : forall e, rewrites_alt [e; EUnmatched] [e]
| ra_dead : forall e es, unfailing e -> rewrites_alt (e :: es) [e]
| ra_again : forall e es es', peg_gram e -> rewrites_alt (e :: es ++ e :: es') (e :: es ++ es')
| ra_factor : forall e es es' rest, peg_gram e ->
    rewrites_alt (EFlatGroup (e :: es) :: EFlatGroup (e :: es') :: rest) (EFlatGroup [e; EFirst [EFlatGroup es; EFlatGroup es']] :: rest).

(** The calls of two parsers, each with its rules, have the same answers: match with the same position and ASTs,
    failure, or the same error at the same position. *)
Definition same_answers (env : nat -> pexp) (e : pexp) (env' : nat -> pexp) (e' : pexp) (c : ctx) : Prop :=
  forall r, (exists n o err, run env n e c = Ok (o, err) /\ returns (c_stack c) o err r) <->
            (exists n o err, run env' n e' c = Ok (o, err) /\ returns (c_stack c) o err r).
