(** Specification helpers: predicates over grammars ("every leaf satisfies L,
    every transformer satisfies T, ...") and contracts of user functions. *)
From Verif Require Export M_Grammar M_StrTrans M_Production.

(** What a class of grammars allows at each kind of node. *)
Record gspec := mkGS {
  g_leaf : string -> parser -> Prop;
  g_trans : trans -> Prop;
  g_behind : Z -> Z -> Prop;
  g_repeat : times -> list pexp -> Prop;
  g_indirect : nat -> Prop;
  g_base : string -> option impl_fn -> list prop -> option (list trans) -> Prop }.

Definition allP {A} (P : A -> Prop) (l : list A) : Prop := fold_right (fun x q => P x /\ q) True l.

Fixpoint gram (g : gspec) (e : pexp) {struct e} : Prop :=
  match e with
  | ELight cls fn => g_leaf g cls fn
  | EFlatGroup es | EGroup es | EFirst es | ELookAhead es | ELookAheadN es =>
      fold_right (fun x q => x /\ q) True (map (gram g) es)
  | ELookBehind _ mn mx es =>
      g_behind g mn mx /\ fold_right (fun x q => x /\ q) True (map (gram g) es)
  | ERepeat t es => g_repeat g t es /\ fold_right (fun x q => x /\ q) True (map (gram g) es)
  | ETrans e1 tr => gram g e1 /\ allP (g_trans g) tr
  | EIndirect k => g_indirect g k
  | EBase cls fn props es tr =>
      g_base g cls fn props tr /\ fold_right (fun x q => x /\ q) True (map (gram g) es)
  end.

Definition anyZ (_ _ : Z) : Prop := True.
Definition anyR (_ : times) (_ : list pexp) : Prop := True.
Definition anyI (_ : nat) : Prop := True.
Definition noBase (_ : string) (_ : option impl_fn) (_ : list prop) (_ : option (list trans)) : Prop := False.

(** More fuel never changes an answer. *)
Definition mono_parser (fn : parser) : Prop :=
  forall n m c, (n <= m)%nat -> fn n c = Fuel \/ fn m c = fn n c.
Definition mono_trans (t : trans) : Prop :=
  forall n m c l, (n <= m)%nat -> t n c l = Fuel \/ t m c l = t n c l.

(** Grammars whose leaves and transformers are fuel-monotone; everything else is
    unrestricted. *)
Definition mono_spec : gspec :=
  mkGS (fun _ fn => mono_parser fn) mono_trans anyZ anyR anyI
       (fun _ _ _ tr => match tr with None => True | Some l => allP mono_trans l end).
Definition mono_gram : pexp -> Prop := gram mono_spec.
