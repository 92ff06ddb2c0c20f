(** Specification of how deep parser calls nest (C80). *)
From Verif Require Export S_Rec M_Depth.

(** The height of a grammar, an Indirect being a leaf. *)
Fixpoint height (e : pexp) : nat :=
  let highest := fix highest (es : list pexp) : nat := match es with [] => 0%nat | e :: es => Nat.max (height e) (highest es) end in
  match e with
  | ELight _ _ | EIndirect _ => 1%nat
  | EFlatGroup es | EGroup es | EFirst es | ELookAhead es | ELookAheadN es | ELookBehind _ _ _ es | ERepeat _ es | EBase _ _ _ es _ => S (highest es)
  | ETrans e _ => S (height e)
  end.
Definition highest (es : list pexp) : nat := fold_right (fun e k => Nat.max (height e) k) 0%nat es.
(** No Indirect in it. *)
Fixpoint rule_free (e : pexp) : Prop :=
  let all := fix all (es : list pexp) : Prop := match es with [] => True | e :: es => rule_free e /\ all es end in
  match e with
  | ELight _ _ => True
  | EIndirect _ => False
  | EFlatGroup es | EGroup es | EFirst es | ELookAhead es | ELookAheadN es | ELookBehind _ _ _ es | ERepeat _ es | EBase _ _ _ es _ => all es
  | ETrans e _ => rule_free e
  end.
