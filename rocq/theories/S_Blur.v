(** Specification of what positions of ASTs can influence (C69). *)
From Verif Require Export M_Reuse M_StrTrans M_Time.

(** An AST and a value without the positions in them. *)
Fixpoint blur (a : ast) : ast :=
  match a with mkAst op cls ty v _ => mkAst op cls ty (blur_v v) sp0 end
with blur_v (v : value) : value :=
  match v with
  | VCons a b => VCons (blur a) (blur b)
  | VAsts l => VAsts (map blur l)
  | VAst a => VAst (blur a)
  | VSlice l => VSlice (map blur_v l)
  | _ => v
  end.
(** Lists of ASTs that differ in the positions of the ASTs at most. *)
Definition lsame (l m : list ast) : Prop := map blur l = map blur m.
Definition vsame (x y : value) : Prop := blur_v x = blur_v y.
(** Sources of object parsers; [Set] and making a slice must not look at positions. *)
Definition sl_same (s t : option slicelike) : Prop :=
  match s, t with
  | None, None => True
  | Some x, Some y => map blur_v (sl_items x) = map blur_v (sl_items y) /\
      (forall v w, vsame v w -> option_map blur_v (sl_set x v) = option_map blur_v (sl_set y w)) /\
      (forall l m, map blur_v l = map blur_v m -> vsame (sl_mk x l) (sl_mk y m))
  | _, _ => False
  end.
Definition csame (c d : ctx) : Prop :=
  c_str c = c_str d /\ sl_same (c_slice c) (c_slice d) /\ c_sp c = c_sp d /\ c_qty c = c_qty d /\
  lsame (c_stack c) (c_stack d) /\ c_st c = c_st d /\ c_cls c = c_cls d /\ c_tag c = c_tag d.
Definition osame (x y : out) : Prop :=
  match x, y with
  | Ok (c, e), Ok (d, f) => csame c d /\ e = f
  | Panic p, Panic q => p = q
  | Fuel, Fuel => True
  | _, _ => False
  end.
Definition tsame (x y : res (gerr + list ast)) : Prop :=
  match x, y with
  | Ok (inl e), Ok (inl f) => e = f
  | Ok (inr l), Ok (inr m) => lsame l m
  | Panic p, Panic q => p = q
  | Fuel, Fuel => True
  | _, _ => False
  end.

(** Parsers, implementation functions and transformers that do not look at positions of ASTs. *)
Definition blind (p : parser) : Prop := forall n c d, csame c d -> osame (p n c) (p n d).
Definition blind_impl (f : impl_fn) : Prop := forall num bottom c d, csame c d -> osame (f num bottom c) (f num bottom d).
Definition blind_tr (t : trans) : Prop := forall n c d l m, csame c d -> lsame l m -> tsame (t n c l) (t n d m).
Definition blind_opt (f : option impl_fn) : Prop := match f with Some g => blind_impl g | None => True end.
Definition blind_trs (tr : option (list trans)) : Prop := match tr with Some ts => Forall blind_tr ts | None => True end.
Definition each {A} (P : A -> Prop) (l : list A) : Prop := fold_right and True (map P l).
(** Grammars made of such parts. *)
Fixpoint blind_exp (e : pexp) : Prop :=
  match e with
  | ELight _ fn => blind fn
  | EFlatGroup es | EGroup es | EFirst es | ELookAhead es | ELookAheadN es | ELookBehind _ _ _ es | ERepeat _ es => each blind_exp es
  | ETrans e1 tr => blind_exp e1 /\ Forall blind_tr tr
  | EIndirect _ => True
  | EBase _ fn _ es tr => blind_opt fn /\ each blind_exp es /\ blind_trs tr
  end.

(** Values without ASTs in them. *)
Fixpoint bare (v : value) : Prop :=
  match v with
  | VCons _ _ | VAsts _ | VAst _ => False
  | VSlice l => fold_right and True (map bare l)
  | _ => True
  end.
(** Conditions and the cases of Match. *)
Definition blind_if (f : list ast -> bool) : Prop := forall l m, lsame l m -> f l = f m.
Definition blind_case (m : mcase) : Prop := blind_if (case_if m) /\ Forall blind_tr (case_let m).
Definition blind_item (f : value -> bool) : Prop := forall v w, vsame v w -> f v = f w.
(** The parsers and transformers of the library. *)
Inductive library_leaf : parser -> Prop :=
| ll_error : forall s, library_leaf (lift (error_fn s))
| ll_unmatched : library_leaf (lift unmatched_fn)
| ll_zero : forall l, library_leaf (lift (zero_fn l))
| ll_start : library_leaf (lift start_fn)
| ll_match : forall n cases, Forall blind_case cases -> library_leaf (match_fn n cases)
| ll_any : library_leaf (lift any_fn)
| ll_end : library_leaf (lift end_fn)
| ll_seq : forall s, library_leaf (lift (seq_fn s))
| ll_seqi : forall fold s, library_leaf (lift (seqi_fn fold s))
| ll_char : forall cls test, library_leaf (lift (char_fn cls test))
| ll_class : forall cc, library_leaf (lift (char_class_fn cc))
| ll_classN : forall cc, library_leaf (lift (char_classN_fn cc))
| ll_boundary : forall word, library_leaf (lift (word_boundary_gen word))
| ll_oany : library_leaf (lift obj_any_fn)
| ll_oend : library_leaf (lift obj_end_fn)
| ll_oclassfn : forall f, blind_item f -> library_leaf (lift (obj_classFn_fn f)).
Inductive library_if : (list ast -> bool) -> Prop :=
| li_rune : forall v, library_if (TopIsRune v)
| li_int : forall v, library_if (TopIsInt v)
| li_uint : forall v, library_if (TopIsUint v)
| li_float : forall v, library_if (TopIsFloat v)
| li_bool : forall v, library_if (TopIsBool v)
| li_str : forall v, library_if (TopIsStr v)
| li_val : forall v, Forall bare v -> library_if (TopIs v)
| li_any : library_if TopIsAny.
Definition blind_prec (pr : precedence) : Prop := Forall blind (pr_rules pr).
Inductive library_tr : trans -> Prop :=
| lt_erase : library_tr Erase
| lt_error : forall s, library_tr (TransformError s)
| lt_group : library_tr GroupingTransform
| lt_slice : library_tr ToSlice
| lt_opcls : forall op name, library_tr (SetOpCodeAndClassName op name)
| lt_op : forall op, library_tr (SetOpCode op)
| lt_cls : forall name, library_tr (ChangeClassName name)
| lt_val : forall ty v, library_tr (SetValue ty v)
| lt_prepend : forall a, library_tr (Prepend a)
| lt_push : forall a, library_tr (Push a)
| lt_pop : library_tr Pop
| lt_exchange : library_tr Exchange
| lt_roll : forall n, library_tr (Roll n)
| lt_concat : library_tr Concat
| lt_trim : library_tr Trim
| lt_trims : library_tr TrimStart
| lt_trime : library_tr TrimEnd
| lt_int : forall b, library_tr (ParseIntRadix b)
| lt_uint : forall b, library_tr (ParseUintRadix b)
| lt_float : forall pf, library_tr (ParseFloat pf)
| lt_rfi : library_tr RuneFromInt
| lt_ifr : library_tr IntFromRune
| lt_sfi : library_tr StringFromInt
| lt_sfr : library_tr StringFromRune
| lt_pad : library_tr pad9
| lt_time : forall strict mk cls layout pre post, library_tr (time_trans strict mk cls layout pre post)
| lt_prod : forall prs check, Forall blind_prec prs -> blind check -> library_tr (ProductionRule prs check).

(** Grammars with the variables of Prepend and Push. *)
Definition blind_vtr (t : vtr) : Prop := match t with VPure f => blind_tr f | _ => True end.
Fixpoint blind_vexp (e : vexp) : Prop :=
  match e with
  | VLight _ fn => blind fn
  | VBase _ fn _ es tr => blind_opt fn /\ each blind_vexp es /\ match tr with Some ts => Forall blind_vtr ts | None => True end
  | VBehind _ _ _ es => each blind_vexp es
  | VIndirect _ => True
  end.
