(** How often tracers are told that a call begins (C77). *)
From Verif Require Export M_Count S_Tracer.
Definition befores (l : list event) : nat := length (filter (fun e => match e with EvBefore _ _ => true | _ => false end) l).
(** A grammar without Indirect and without calls of ProductionRule. *)
Fixpoint unruled (e : texp) : Prop :=
  match e with
  | TLight _ _ => True
  | TBase _ _ _ es _ tr => fold_right and True (map unruled es) /\
      match tr with Some ts => Forall (fun t => match t with TTPure _ => True | TTRule _ => False end) ts | None => True end
  | TBehind _ _ _ es | TTrace _ _ es => fold_right and True (map unruled es)
  | TInd _ => False
  end.
