(** Specifications for the properties of the core combinators (C02-C12). *)
From Verif Require Export S_Peg.

(** ** Running a list of parser functions in turn *)

(** All of [fs] match in turn, leading from one context to another. *)
Inductive seq_runs : list (ctx -> out) -> ctx -> ctx -> Prop :=
| sr_nil : forall c, seq_runs [] c c
| sr_cons : forall f fs c o c',
    f c = Ok (o, None) -> c_st o = Matched -> seq_runs fs o c' -> seq_runs (f :: fs) c c'.

(** Some of [fs] is Unmatched after all earlier ones matched. *)
Inductive seq_fails : list (ctx -> out) -> ctx -> Prop :=
| sf_here : forall f fs c o,
    f c = Ok (o, None) -> c_st o = Unmatched -> seq_fails (f :: fs) c
| sf_later : forall f fs c o,
    f c = Ok (o, None) -> c_st o = Matched -> seq_fails fs o -> seq_fails (f :: fs) c.

(** [k] complete iterations of the body; after each one Quantity holds its index. *)
Inductive iters (fs : list (ctx -> out)) : nat -> ctx -> ctx -> Prop :=
| it_0 : forall c, iters fs 0 c c
| it_S : forall k c c1 c2,
    iters fs k c c1 -> seq_runs fs c1 c2 -> iters fs (S k) c (set_qty c2 k).

(** The context the children of a combinator with class name [cls] start from. *)
Definition enter (cls : string) (c : ctx) : ctx := set_st (set_cls c cls) Matched.

(** ** C04: a parser that is Unmatched from a context *)
Definition skipped (f : ctx -> out) (c : ctx) : Prop := exists o, f c = Ok (o, None) /\ c_st o = Unmatched.

(** ** C05: the sub-parser calls a parser makes *)

(** [calls env n e c m e' c']: running [e] on [c] with fuel [n] gets as far as
    running its immediate sub-parser [e'] on [c'] with fuel [m]: everything it
    runs before that has been passed successfully. *)
Inductive calls (env : nat -> pexp) : nat -> pexp -> ctx -> nat -> pexp -> ctx -> Prop :=
| call_flat : forall n pre e post c c',
    seq_runs (map (run env n) pre) (enter ":base:FlatGroup" c) c' ->
    (0 < n)%nat -> calls env n (EFlatGroup (pre ++ e :: post)) c n e c'
| call_group : forall n pre e post c c',
    seq_runs (map (run env n) pre) (enter ":base:Group" c) c' ->
    (0 < n)%nat -> calls env n (EGroup (pre ++ e :: post)) c n e c'
| call_ahead : forall n pre e post c c',
    seq_runs (map (run env n) pre) (enter ":base:LookAhead" c) c' ->
    (0 < n)%nat -> calls env n (ELookAhead (pre ++ e :: post)) c n e c'
| call_aheadN : forall n pre e post c c',
    seq_runs (map (run env n) pre) (enter ":base:LookAheadN" c) c' ->
    (0 < n)%nat -> calls env n (ELookAheadN (pre ++ e :: post)) c n e c'
| call_first : forall n pre e post c,
    Forall (fun p => exists o, run env n p (enter ":base:First" c) = Ok (o, None) /\ c_st o = Unmatched) pre ->
    (0 < n)%nat -> calls env n (EFirst (pre ++ e :: post)) c n e (enter ":base:First" c)
| call_repeat : forall n t pre e post c k c1 c',
    iters (map (run env n) (pre ++ e :: post)) k (enter ":base:Repeat" c) c1 ->
    (t_max t < 0 \/ Z.of_nat k < t_max t) -> (k < n)%nat ->
    seq_runs (map (run env n) pre) c1 c' ->
    calls env n (ERepeat t (pre ++ e :: post)) c n e c'
| call_behind : forall n (neg : bool) mn mx pre e post c i c',
    mn <= i <= mx -> i <= Z.of_nat (c_pos c) ->
    (forall j, mn <= j < i -> j <= Z.of_nat (c_pos c) ->
       seq_fails (map (run env n) (pre ++ e :: post))
         (enter (if neg then ":base:LookBehindN" else ":base:LookBehind")
            (set_pos c (Z.to_nat (Z.of_nat (c_pos c) - j))))) ->
    seq_runs (map (run env n) pre)
      (enter (if neg then ":base:LookBehindN" else ":base:LookBehind")
         (set_pos c (Z.to_nat (Z.of_nat (c_pos c) - i)))) c' ->
    (0 < n)%nat -> calls env n (ELookBehind neg mn mx (pre ++ e :: post)) c n e c'
| call_trans : forall n e tr c,
    (0 < n)%nat -> calls env n (ETrans e tr) c n e (enter ":base:Trans" c)
| call_indirect : forall n k c,
    calls env (S n) (EIndirect k) c n (env k) c.

(** Calls at any depth. *)
Inductive reaches (env : nat -> pexp) : nat -> pexp -> ctx -> nat -> pexp -> ctx -> Prop :=
| reach_here : forall n e c, reaches env n e c n e c
| reach_step : forall n e c n1 e1 c1 n2 e2 c2,
    calls env n e c n1 e1 c1 -> reaches env n1 e1 c1 n2 e2 c2 -> reaches env n e c n2 e2 c2.

(** ** C06: contract of a leaf *)
Definition honest_leaf (fn : parser) : Prop :=
  forall n c o, c_st c = Matched -> fn n c = Ok (o, None) -> c_st o <> Errored.
Definition honest_spec : gspec :=
  mkGS (fun _ fn => honest_leaf fn) (fun _ => True) anyZ anyR anyI
       (fun _ fn _ _ => fn = None).

(** ** C07 *)
Definition same_source (c o : ctx) : Prop :=
  c_str o = c_str c /\ c_slice o = c_slice c /\ c_tag o = c_tag c.
Definition source_leaf (fn : parser) : Prop :=
  forall n c o e, fn n c = Ok (o, e) -> same_source c o.
Definition source_impl (fn : option impl_fn) : Prop :=
  match fn with
  | None => True
  | Some f => forall num b c o e, f num b c = Ok (o, e) -> same_source c o
  end.
Definition source_spec : gspec :=
  mkGS (fun _ fn => source_leaf fn) (fun _ => True) anyZ anyR anyI
       (fun _ fn _ _ => source_impl fn).

(** ** C08 *)
(** The length of the source: of the string for string parsers, of the slice for
    object parsers. *)
Definition size := bytes -> option slicelike -> nat.
Definition str_size : size := fun s _ => length s.
Definition obj_size : size := fun _ sl =>
  match sl with Some l => length (sl_items l) | None => 0%nat end.
Definition in_bounds (sz : size) (c : ctx) : Prop := (c_pos c <= sz (c_str c) (c_slice c))%nat.
Definition pos_leaf (sz : size) (fn : parser) : Prop :=
  forall n c o e, in_bounds sz c -> fn n c = Ok (o, e) ->
    same_source c o /\ in_bounds sz o /\ (e = None -> c_st o = Matched -> (c_pos c <= c_pos o)%nat).
Definition pos_spec (sz : size) : gspec :=
  mkGS (fun _ fn => pos_leaf sz fn) (fun _ => True) (fun mn _ => 0 <= mn) anyR anyI
       (fun _ fn _ _ => fn = None).

(** ** C09 *)
Definition pushes (c o : ctx) : Prop := exists l, c_stack o = c_stack c ++ l.
Definition push_leaf (fn : parser) : Prop :=
  forall n c o, fn n c = Ok (o, None) -> c_st o = Matched -> pushes c o.
Definition push_impl (fn : option impl_fn) : Prop :=
  match fn with
  | None => True
  | Some f => forall num b c o, f num b c = Ok (o, None) -> c_st o = Matched -> pushes c o
  end.
Definition push_spec : gspec :=
  mkGS (fun _ fn => push_leaf fn) (fun _ => True) anyZ anyR anyI
       (fun _ fn _ _ => push_impl fn).

(** ** C10 *)
(** ASTs tagged as strings hold strings (what Concat asserts). *)
Definition typed (a : ast) : Prop := a_ty a = TString -> exists s, a_val a = VStr s.
Definition typed_push (c o : ctx) : Prop := exists l, c_stack o = c_stack c ++ l /\ Forall typed l.
Definition calm_leaf (sz : size) (fn : parser) : Prop :=
  (forall n c w, in_bounds sz c -> fn n c <> Panic w) /\ pos_leaf sz fn /\
  (forall n c o, fn n c = Ok (o, None) -> c_st o = Matched -> typed_push c o).
(** A transformer that neither panics on such ASTs nor produces others. *)
Definition calm_trans (t : trans) : Prop := forall n c l, Forall typed l ->
  match t n c l with Ok (inr l') => Forall typed l' | Panic _ => False | _ => True end.
Definition calm_spec (sz : size) : gspec :=
  mkGS (fun _ fn => calm_leaf sz fn) calm_trans (fun mn _ => 0 <= mn) anyR anyI noBase.

(** ** C11 *)
Definition total_leaf (fn : parser) : Prop := forall c, exists n, fn n c <> Fuel.
Definition total_trans (t : trans) : Prop := forall c l, exists n, t n c l <> Fuel.
(** The body consumes input whenever it matches. *)
Definition consumes (sz : size) (env : nat -> pexp) (es : list pexp) : Prop :=
  forall n c c', in_bounds sz c -> seq_runs (map (run env n) es) c c' -> (c_pos c < c_pos c')%nat.
(** Grammars that refer only to rules with an index below [r]. *)
Definition total_spec (sz : size) (env : nat -> pexp) (r : nat) : gspec :=
  mkGS (fun _ fn => pos_leaf sz fn /\ total_leaf fn /\ mono_parser fn)
       (fun t => total_trans t /\ mono_trans t) (fun mn _ => 0 <= mn)
       (fun t es => t_max t < 0 -> consumes sz env es)
       (fun k => (k < r)%nat) noBase.

(** ** C12 *)
Definition same_view (c c' : ctx) : Prop :=
  c_str c = c_str c' /\ c_slice c = c_slice c' /\ c_tag c = c_tag c' /\ c_sp c = c_sp c' /\
  c_st c = Matched /\ c_st c' = Matched.
(** Two answers to the same call from contexts with stacks [s] and [s']. *)
Definition same_outcome (s s' : list ast) (a b : out) : Prop :=
  match a, b with
  | Ok (o, e), Ok (o', e') =>
      e = e' /\ c_st o = c_st o' /\ c_sp o = c_sp o' /\
      (c_st o = Matched -> exists l, c_stack o = s ++ l /\ c_stack o' = s' ++ l)
  | Panic x, Panic y => x = y
  | Fuel, Fuel => True
  | _, _ => False
  end.

(** ** The library's leaf parsers *)

(** base/parsers.go; [P] restricts the ASTs Zero inserts. *)
Definition anyA (_ : list ast) : Prop := True.
Inductive base_leaf (P : list ast -> Prop) : string -> parser -> Prop :=
| bl_error : forall msg, base_leaf P ":base:Error" (lift (error_fn msg))
| bl_unmatched : base_leaf P ":base:Unmatched" (lift unmatched_fn)
| bl_zero : forall ins, P ins -> base_leaf P ":base:Zero" (lift (zero_fn ins))
| bl_start : base_leaf P ":base:Start" (lift start_fn).
(** string/parsers.go and extra/extra.go (UnicodeWordBoundary) *)
Inductive string_leaf (P : list ast -> Prop) : string -> parser -> Prop :=
| sl_base : forall cls fn, base_leaf P cls fn -> string_leaf P cls fn
| sl_any : string_leaf P ":string:Any" (lift any_fn)
| sl_end : string_leaf P ":string:End" (lift end_fn)
| sl_seq : forall s, string_leaf P ":string:Seq" (lift (seq_fn s))
| sl_seqi : forall fold s, string_leaf P ":string:SeqI" (lift (seqi_fn fold s))
| sl_range : forall cr, string_leaf P ":string:CharRange" (lift (char_range_fn cr))
| sl_rangeN : forall cr, string_leaf P ":string:CharRangeN" (lift (char_rangeN_fn cr))
| sl_class : forall cc, string_leaf P ":string:CharClass" (lift (char_class_fn cc))
| sl_classN : forall cc, string_leaf P ":string:CharClassN" (lift (char_classN_fn cc))
| sl_classfn : forall f, string_leaf P ":string:CharClassFn" (lift (char_class_fn_fn f))
| sl_ws : string_leaf P ":string:Whitespace" (lift whitespace_fn)
| sl_wsn : string_leaf P ":string:WhitespaceNoLineBreak" (lift whitespace_nlb_fn)
| sl_lb : string_leaf P ":string:LineBreak" (lift linebreak_fn)
| sl_alpha : string_leaf P ":string:Alpha" (lift alpha_fn)
| sl_number : string_leaf P ":string:Number" (lift number_fn)
| sl_alnum : string_leaf P ":string:Alnum" (lift alnum_fn)
| sl_bin : string_leaf P ":string:BinNumber" (lift bin_number_fn)
| sl_oct : string_leaf P ":string:OctNumber" (lift oct_number_fn)
| sl_hex : string_leaf P ":string:HexNumber" (lift hex_number_fn)
| sl_wb : string_leaf P ":string:WordBoundary" (lift word_boundary_fn)
| sl_uwb : forall word, string_leaf P ":string:WordBoundary" (lift (word_boundary_gen word)).
(** object/parsers.go *)
Inductive object_leaf (P : list ast -> Prop) : string -> parser -> Prop :=
| ol_base : forall cls fn, base_leaf P cls fn -> object_leaf P cls fn
| ol_any : object_leaf P ":object:Any" (lift obj_any_fn)
| ol_end : object_leaf P ":object:End" (lift obj_end_fn)
| ol_seq : forall seq, object_leaf P ":object:Seq" (lift (obj_seq_fn seq))
| ol_class : forall oc, object_leaf P ":object:ObjClass" (lift (obj_class_fn oc))
| ol_classN : forall oc, object_leaf P ":object:ObjClassN" (lift (obj_classN_fn oc))
| ol_classFn : forall f, object_leaf P ":object:ObjClassFn" (lift (obj_classFn_fn f)).
Definition lib_leaf (cls : string) (fn : parser) : Prop := string_leaf anyA cls fn \/ object_leaf anyA cls fn.
(** Grammars of leaves [L] and transformers [T] under the exported combinators. *)
Definition lib_spec (L : string -> parser -> Prop) (T : trans -> Prop) (B : Z -> Z -> Prop) : gspec :=
  mkGS L T B anyR anyI noBase.
Definition anyT (_ : trans) : Prop := True.
Definition forwardB (mn _ : Z) : Prop := 0 <= mn.
