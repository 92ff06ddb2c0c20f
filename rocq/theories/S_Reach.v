(** Specification of what a parse can know of the text before, around and after it (C79). *)
From Verif Require Export M_Reach S_Blur.

(** The same ASTs; but if texts [u] precede, their positions may be others, as in C69. *)
Definition stsame (u : bytes) (l m : list ast) : Prop := lsame l m /\ (u = [] -> l = m).
(** [d] is the context [c] with [u] put before the text, and perhaps another text from [m] bytes after that on. *)
Definition view (m : nat) (u : bytes) (c d : ctx) : Prop :=
  (exists t, c_str d = u ++ t /\ firstn m (c_str c) = firstn m t) /\ c_slice c = None /\ c_slice d = None /\
  c_pos d = (length u + c_pos c)%nat /\ c_len c = c_len d /\ c_qty c = c_qty d /\
  stsame u (c_stack c) (c_stack d) /\ c_st c = c_st d /\ c_cls c = c_cls d /\ c_tag c = c_tag d.
Definition vout (m : nat) (u : bytes) (x y : out) : Prop :=
  match x, y with
  | Ok (c, e), Ok (d, f) => view m u c d /\ e = f
  | Panic p, Panic q => p = q
  | Fuel, Fuel => True
  | _, _ => False
  end.
(** What of it shows: status, position (after [u]), ASTs and error. *)
Definition alike (u : bytes) (x y : out) : Prop :=
  match x, y with
  | Ok (c, e), Ok (d, f) => c_st c = c_st d /\ c_pos d = (length u + c_pos c)%nat /\ c_len c = c_len d /\ stsame u (c_stack c) (c_stack d) /\ e = f
  | Panic p, Panic q => p = q
  | Fuel, Fuel => True
  | _, _ => False
  end.
(** A leaf parser that looks at [K] bytes at most, from its position on, and answers alike when [u] is put before the text. *)
Definition near (K : nat) (u : bytes) (p : parser) : Prop := forall m n c d, (c_pos c + K <= m)%nat -> view m u c d -> vout m u (p n c) (p n d).
Definition near_impl (u : bytes) (f : impl_fn) : Prop := forall m num bottom c d, view m u c d -> vout m u (f num bottom c) (f num bottom d).
Definition near_opt (u : bytes) (f : option impl_fn) : Prop := match f with Some g => near_impl u g | None => True end.
(** A transformer that looks neither at the positions of ASTs nor at the text. *)
Definition neutral (c : ctx) : ctx := mkCtx [] (c_slice c) sp0 0 [] Matched "" (c_tag c).
Definition far_tr (t : trans) : Prop := blind_tr t /\ forall n c l, t n c l = t n (neutral c) l.
Definition far_trs (tr : option (list trans)) : Prop := match tr with Some ts => Forall far_tr ts | None => True end.
Fixpoint near_exp (K : nat) (u : bytes) (e : pexp) : Prop :=
  match e with
  | ELight _ fn => near K u fn
  | EFlatGroup es | EGroup es | EFirst es | ELookAhead es | ELookAheadN es | ERepeat _ es => each (near_exp K u) es
  | ELookBehind _ _ _ es => u = [] /\ each (near_exp K u) es
  | ETrans e1 tr => near_exp K u e1 /\ Forall far_tr tr
  | EIndirect _ => True
  | EBase _ fn _ es tr => near_opt u fn /\ each (near_exp K u) es /\ far_trs tr
  end.

(** The leaf parsers of the library with what they look at: [reads b K p] if [p] looks at [K] bytes, and at what is before it
    only if [b]. *)
Definition far_case (m : mcase) : Prop := blind_if (case_if m) /\ Forall far_tr (case_let m).
Inductive library_reads : bool -> nat -> parser -> Prop :=
| lr_error : forall s, library_reads false 0 (lift (error_fn s))
| lr_unmatched : library_reads false 0 (lift unmatched_fn)
| lr_zero : forall l, library_reads false 0 (lift (zero_fn l))
| lr_match : forall n cases, Forall far_case cases -> library_reads false 0 (match_fn n cases)
| lr_start : library_reads true 0 (lift start_fn)
| lr_any : library_reads false 4 (lift any_fn)
| lr_end : library_reads false 1 (lift end_fn)
| lr_seq : forall s, library_reads false (length s) (lift (seq_fn s))
| lr_seqi : forall fold s, library_reads false (length s) (lift (seqi_fn fold s))
| lr_char : forall cls test, library_reads false 4 (lift (char_fn cls test))
| lr_class : forall cc, library_reads false (list_max (map (@length Z) cc)) (lift (char_class_fn cc))
| lr_classN : forall cc, library_reads false (Nat.max 4 (list_max (map (@length Z) cc))) (lift (char_classN_fn cc))
| lr_boundary : forall word, library_reads true 4 (lift (word_boundary_gen word)).
