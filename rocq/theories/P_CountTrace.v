(** C77: the calls counted are those a tracer is told of. *)
From Verif Require Import S_CountTrace L_CountTrace P_Tracer.

(** Built with tracing on and run with tracers that only look, a grammar without Indirect and without ProductionRule makes as many
    calls of Before as it costs, unless it panics. *)
Theorem C77_traced : forall lost pts env env' e g b g' n c, (forall i, observer (pts i)) -> unruled e ->
  g_on g = true -> g_log g = [] -> build e g = (b, g') -> (forall w, run env' n (erase e) c <> Panic w) ->
  cost env' n (erase e) c = befores (g_log (fst (srun lost pts env n b g' c))).
Proof. intros. eapply cost_traced; eauto. eapply C42_everything_is_traced; eauto. Qed.
Print Assumptions C77_traced.
(** (a/b)*, then a look behind for ab, on abc. *)
Definition ab_star : texp :=
  let l z := TLight ":string:Seq" (lift (seq_fn [z])) in
  TBase ":base:FlatGroup" None [] [TBase ":base:Repeat" None [PTimes (mkTimes 0 (-1))] [TBase ":base:First" None [PThereExists] [l 97; l 98] [] None] [] None;
    TBehind false 1 2 [l 97; l 98]] [] None.
Example C77_traced_example : let g := g_set g_start true "/s" 0 in let b := fst (build ab_star g) in let g' := snd (build ab_star g) in
  unruled ab_star /\ (forall i, observer (look_only i)) /\ all_marked b /\
  cost no_indirect 9 (erase ab_star) (start [97; 98; 99]) = 15%nat /\
  match srun false look_only rules 9 b g' (start [97; 98; 99]) with (g1, Ok (o, None)) => c_st o = Matched /\ befores (g_log g1) = 15%nat | _ => False end.
Proof.
  cbv zeta. split; [cbn; tauto|]. split; [intros i; repeat split|]. split; [vm_compute; repeat split; discriminate|]. split; [vm_compute; reflexivity|]. vm_compute. repeat split.
Qed.
