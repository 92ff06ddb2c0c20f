(** Specification of grammars used by several goroutines (C70). *)
From Verif Require Export M_Shared S_Reuse S_Blur.

(** The variables hold the ASTs given to Prepend and Push, up to the position. *)
Definition sh_like (a : vars) (w : shared) : Prop := like a (sh_vars w).
(** All Prepend and Push values in the grammar own variables in [mine]. *)
Definition within (mine : nat -> Prop) (t : vtr) : Prop := match t with VPure _ => True | VPrepend j | VPush j => mine j end.
Fixpoint owned (mine : nat -> Prop) (e : vexp) : Prop :=
  match e with
  | VLight _ _ | VIndirect _ => True
  | VBase _ _ _ es tr => each (owned mine) es /\ match tr with Some ts => Forall (within mine) ts | None => True end
  | VBehind _ _ _ es => each (owned mine) es
  end.
(** The others assign to other variables only. *)
Definition elsewhere (mine : nat -> Prop) (others : nat -> list (nat * srcpos)) : Prop :=
  forall t j p, In (j, p) (others t) -> ~ mine j.
(** A grammar without Prepend and Push. *)
Definition no_vars : vexp -> Prop := owned (fun _ => False).
(** Nobody else is running. *)
Definition nobody : nat -> list (nat * srcpos) := fun _ => [].
