(** Model of base/parsers.go: the grammar syntax and its meaning. *)
From Verif Require Export M_Base M_Trans M_Str M_Match M_Obj.

(** ** Leaf functions of base/parsers.go *)

(** base/parsers.go:32-39 *)
Definition error_fn (msg : string) : light_fn := fun c =>
  Ok (set_st (set_len c 0) Errored, Some (EText msg)).
(** base/parsers.go:42-49 *)
Definition unmatched_fn : light_fn := fun c => Ok (set_st (set_len c 0) Unmatched, None).
(** base/parsers.go:52-64 *)
Definition zero_fn (ins : list ast) : light_fn := fun c =>
  let c1 := set_stack c (c_stack c ++ map (fun a => set_asp a (c_sp c)) ins) in
  Ok (set_st (set_len c1 0) Matched, None).
(** base/parsers.go:67-79 *)
Definition start_fn : light_fn := fun c0 =>
  let c := set_st c0 Unmatched in
  if Nat.eqb (c_pos c) 0 then Ok (set_st (set_len c 0) Matched, None) else Ok (c, None).

(** base/parsers.go:122-160, the loop of lookBehindBase over i = minN..maxN
    ([k] is the number of values left). On a match of the positive form the
    returned context is the one passed in, status included (line 149). *)
Fixpoint look_behind_loop (neg : bool) (p : ctx -> out) (c : ctx) (i : Z) (k : nat) : out :=
  match k with
  | O => Ok (set_st c (if neg then Matched else Unmatched), None)
  | S k' =>
      let q := Z.of_nat (c_pos c) - i in
      if q <? 0 then look_behind_loop neg p c (i + 1) k'
      else
        match p (set_pos c (Z.to_nat q)) with
        | Panic w => Panic w
        | Fuel => Fuel
        | Ok (o, Some e) => Ok (o, Some e)
        | Ok (o, None) =>
            match c_st o with
            | Matched => if neg then Ok (set_st o Unmatched, None) else Ok (c, None)
            | _ => look_behind_loop neg p c (i + 1) k'
            end
        end
  end.
Definition look_behind_base (neg : bool) (mn mx : Z) (children : list (ctx -> out))
    (fuel : nat) : ctx -> out := fun c =>
  let p := base_parser (if neg then ":base:LookBehindN" else ":base:LookBehind")
             None [PRewind] children None fuel in
  look_behind_loop neg p c mn (Z.to_nat (mx - mn + 1)).

(** ** The combinators of base/parsers.go over parser functions *)
Definition FlatGroup (fs : list (ctx -> out)) (fuel : nat) : ctx -> out :=   (* 83-86 *)
  base_parser ":base:FlatGroup" None [] fs None fuel.
Definition Group (fs : list (ctx -> out)) (fuel : nat) : ctx -> out :=       (* 89-92 *)
  base_parser ":base:Group" None [] fs (Some [GroupingTransform]) fuel.
Definition First (fs : list (ctx -> out)) (fuel : nat) : ctx -> out :=       (* 95-98 *)
  base_parser ":base:First" None [PThereExists] fs None fuel.
Definition LookAhead (fs : list (ctx -> out)) (fuel : nat) : ctx -> out :=   (* 110-113 *)
  base_parser ":base:LookAhead" None [PRewind] fs None fuel.
Definition LookAheadN (fs : list (ctx -> out)) (fuel : nat) : ctx -> out :=  (* 116-119 *)
  base_parser ":base:LookAheadN" None [PRewind; PNegative] fs None fuel.
Definition Repeat (t : times) (fs : list (ctx -> out)) (fuel : nat) : ctx -> out := (* 175-178 *)
  base_parser ":base:Repeat" None [PTimes t] fs None fuel.
(** A variadic parameter without arguments is a nil slice. *)
Definition variadic {A} (l : list A) : option (list A) :=
  match l with [] => None | _ => Some l end.
Definition Trans (f : ctx -> out) (tr : list trans) (fuel : nat) : ctx -> out := (* 203-206 *)
  base_parser ":base:Trans" None [] [f] (variadic tr) fuel.
(** 11-20: once initialised, Indirect runs the parser its closure returned
    (initialisation itself: M_Indirect). *)
Definition Indirect (f : ctx -> out) : ctx -> out := light_base_parser ":base:Indirect" f.

(** ** Grammars
    One constructor per exported combinator; [ELight] is LightBaseParser with any
    function, [EBase] BaseParser with any implementation function, properties,
    children and transformers. [EIndirect k] refers to the k-th rule of an
    environment (the parser returned by the closure given to Indirect). *)
Inductive pexp :=
| ELight (cls : string) (fn : parser)
| EFlatGroup (es : list pexp)
| EGroup (es : list pexp)
| EFirst (es : list pexp)
| ELookAhead (es : list pexp)
| ELookAheadN (es : list pexp)
| ELookBehind (neg : bool) (mn mx : Z) (es : list pexp)
| ERepeat (t : times) (es : list pexp)
| ETrans (e : pexp) (tr : list trans)
| EIndirect (k : nat)
| EBase (cls : string) (fn : option impl_fn) (props : list prop) (es : list pexp)
        (tr : option (list trans)).

(** Meaning of a grammar: [rho] runs the rules of the environment, [n] is the fuel
    of the loops. *)
Fixpoint denote (rho : nat -> ctx -> out) (n : nat) (e : pexp) {struct e} : ctx -> out :=
  match e with
  | ELight cls fn => light_base_parser cls (fn n)
  | EFlatGroup es => FlatGroup (map (denote rho n) es) n
  | EGroup es => Group (map (denote rho n) es) n
  | EFirst es => First (map (denote rho n) es) n
  | ELookAhead es => LookAhead (map (denote rho n) es) n
  | ELookAheadN es => LookAheadN (map (denote rho n) es) n
  | ELookBehind neg mn mx es =>
      look_behind_base neg mn mx (map (denote rho n) es) n   (* LookBehindN: 168-170, LookBehind: 163-165 *)
  | ERepeat t es => Repeat t (map (denote rho n) es) n
  | ETrans e1 tr => Trans (denote rho n e1) tr n
  | EIndirect k => Indirect (rho k)
  | EBase cls fn props es tr =>                                 (* base.go:26-174 *)
      base_parser cls fn props (map (denote rho n) es) tr n
  end.

(** Running the rules of an environment; each level of Indirect costs one fuel. *)
Fixpoint run_env (env : nat -> pexp) (n : nat) (k : nat) : ctx -> out :=
  match n with
  | O => fun _ => Fuel
  | S m => fun c => denote (run_env env m) m (env k) c
  end.

Definition run (env : nat -> pexp) (n : nat) (e : pexp) : ctx -> out :=
  denote (run_env env n) n e.

(** ** Names for the exported parsers *)
Definition lift (fn : light_fn) : parser := fun _ => fn.

Definition EError (msg : string) := ELight ":base:Error" (lift (error_fn msg)).
Definition EUnmatched := ELight ":base:Unmatched" (lift unmatched_fn).
Definition EZero (ins : list ast) := ELight ":base:Zero" (lift (zero_fn ins)).
Definition EStart := ELight ":base:Start" (lift start_fn).
Definition EOnce (es : list pexp) := ERepeat qtyOnce es.                        (* 183-185 *)
Definition EZeroOrOnce (es : list pexp) := ERepeat qtyZeroOrOnce es.            (* 188-190 *)
Definition EZeroOrMore (es : list pexp) := ERepeat qtyZeroOrMoreTimes es.       (* 193-195 *)
Definition EOneOrMore (es : list pexp) := ERepeat qtyOneOrMoreTimes es.         (* 198-200 *)
Definition EIf (b : bool) (t f : pexp) : pexp := if b then t else f.            (* 23-29 *)
Definition EMatch (n : Z) (cases : list mcase) := ELight "Match" (match_fn n cases).

Definition SAny := ELight ":string:Any" (lift any_fn).
Definition SEnd := ELight ":string:End" (lift end_fn).
Definition SSeq (s : bytes) := ELight ":string:Seq" (lift (seq_fn s)).
Definition SSeqI (fold : Z -> Z -> bool) (s : bytes) := ELight ":string:SeqI" (lift (seqi_fn fold s)).
Definition SCharRange (cr : list runerange) := ELight ":string:CharRange" (lift (char_range_fn cr)).
Definition SCharRangeN (cr : list runerange) := ELight ":string:CharRangeN" (lift (char_rangeN_fn cr)).
Definition SCharClass (cc : list bytes) := ELight ":string:CharClass" (lift (char_class_fn cc)).
Definition SCharClassN (cc : list bytes) := ELight ":string:CharClassN" (lift (char_classN_fn cc)).
Definition SCharClassFn (f : Z -> bool) := ELight ":string:CharClassFn" (lift (char_class_fn_fn f)).
Definition SWhitespace := ELight ":string:Whitespace" (lift whitespace_fn).
Definition SWhitespaceNoLineBreak := ELight ":string:WhitespaceNoLineBreak" (lift whitespace_nlb_fn).
Definition SLineBreak := ELight ":string:LineBreak" (lift linebreak_fn).
Definition SAlpha := ELight ":string:Alpha" (lift alpha_fn).
Definition SNumber := ELight ":string:Number" (lift number_fn).
Definition SAlnum := ELight ":string:Alnum" (lift alnum_fn).
Definition SBinNumber := ELight ":string:BinNumber" (lift bin_number_fn).
Definition SOctNumber := ELight ":string:OctNumber" (lift oct_number_fn).
Definition SHexNumber := ELight ":string:HexNumber" (lift hex_number_fn).
Definition SWordBoundary := ELight ":string:WordBoundary" (lift word_boundary_fn).

Definition OAny := ELight ":object:Any" (lift obj_any_fn).
Definition OEnd := ELight ":object:End" (lift obj_end_fn).
Definition OSeq (seq : list value) := ELight ":object:Seq" (lift (obj_seq_fn seq)).
Definition OClass (oc : list value) := ELight ":object:ObjClass" (lift (obj_class_fn oc)).
Definition OClassN (oc : list value) := ELight ":object:ObjClassN" (lift (obj_classN_fn oc)).
Definition OClassFn (fn : value -> bool) := ELight ":object:ObjClassFn" (lift (obj_classFn_fn fn)).
