(** C43: lazy initialisation of Indirect under concurrent calls. *)
From Verif Require Import L_Indirect.

(** Reads and writes of [parser] atomic: whatever the schedule, no goroutine calls a
    nil function, and a running call runs a parser that fn has returned. *)
Theorem C43_no_nil_call : forall sem s t, isteps sem false i_start s ->
  i_pc s t <> Crashed /\ forall c v, i_pc s t = Running c v -> (v < i_made s)%nat.
Proof.
  intros sem s t R. destruct (iinv_steps sem _ _ R (iinv_start sem)) as (_ & I2 & _). specialize (I2 t). split.
  - intros E. rewrite E in I2. exact I2.
  - intros c v E. rewrite E in I2. exact I2.
Qed.
Print Assumptions C43_no_nil_call.

(** If the parsers that fn returns all behave like [p], every finished call has the
    result of [p] (in the frame of LightBaseParser). *)
Theorem C43_schedule_independent : forall sem p s, (forall v c, sem v c = p c) -> isteps sem false i_start s ->
  forall c r, In (c, r) (i_hist s) -> r = Indirect p c.
Proof.
  intros sem p s H R c r Hin. destruct (iinv_steps sem _ _ R (iinv_start sem)) as (_ & _ & I3). rewrite Forall_forall in I3.
  destruct (I3 _ Hin) as (v & _ & E). simpl in E. rewrite E. unfold Indirect, light_base_parser. rewrite H. reflexivity.
Qed.
Print Assumptions C43_schedule_independent.

(** In general the result is that of one of the parsers fn has returned. *)
Theorem C43_result_of_some_instance : forall sem s, isteps sem false i_start s ->
  forall c r, In (c, r) (i_hist s) -> exists v, (v < i_made s)%nat /\ r = Indirect (sem v) c.
Proof.
  intros sem s R c r Hin. destruct (iinv_steps sem _ _ R (iinv_start sem)) as (_ & _ & I3). rewrite Forall_forall in I3. apply (I3 _ Hin).
Qed.
Print Assumptions C43_result_of_some_instance.

(** Once [parser] is set and no goroutine is between test and assignment, fn is never
    called again. *)
Theorem C43_built_once_set : forall sem s s', i_cell s <> None -> (forall t c, i_pc s t <> Build c) -> isteps sem false s s' ->
  i_made s' = i_made s.
Proof. intros sem s s' H1 H2 R. apply (settled_steps sem _ _ R). split; auto. Qed.
Print Assumptions C43_built_once_set.

(** No goroutine ever waits for another. *)
Theorem C43_no_waiting : forall sem s t, isteps sem false i_start s -> exists s', istep sem false s s' /\ i_pc s' t <> i_pc s t.
Proof. intros sem s t R. apply progress. apply (C43_no_nil_call sem s t R). Qed.
Print Assumptions C43_no_waiting.

(** Two goroutines that both find nil both call fn, and the first then runs the parser
    of the second. *)
Definition ctx0 (p : nat) : ctx := mkCtx [97; 98] None (mkSP p 0) 0 [] Matched "" VNil.
Example C43_two_builders : forall sem, exists s, isteps sem false i_start s /\ i_made s = 2%nat /\ i_pc s 0%nat = Running (ctx0 0) 1.
Proof.
  intros sem. eexists. split; [|split].
  - eapply iss_cons; [apply (is_call _ _ _ _ _ _ 0%nat (ctx0 0)); reflexivity|].
    eapply iss_cons; [apply (is_call _ _ _ _ _ _ 1%nat (ctx0 1)); reflexivity|].
    eapply iss_cons; [apply (is_nil _ _ _ _ _ 0%nat (ctx0 0)); reflexivity|].
    eapply iss_cons; [apply (is_nil _ _ _ _ _ 1%nat (ctx0 1)); reflexivity|].
    eapply iss_cons; [apply (is_build _ _ _ _ _ _ 0%nat (ctx0 0)); reflexivity|].
    eapply iss_cons; [apply (is_build _ _ _ _ _ _ 1%nat (ctx0 1)); reflexivity|].
    eapply iss_cons; [apply (is_store _ _ _ _ _ _ 0%nat (ctx0 0)); reflexivity|].
    eapply iss_cons; [apply (is_store _ _ _ _ _ _ 1%nat (ctx0 1)); reflexivity|].
    eapply iss_cons; [apply (is_load _ _ _ _ _ _ 0%nat (ctx0 0) true); reflexivity|]. apply iss_nil.
  - reflexivity.
  - reflexivity.
Qed.
(** The code has no synchronisation, and the Go memory model then allows the read in
    [return parser(ctx)] to return nil although the test has seen a parser. *)
Theorem C43_unsynchronised_refuted : forall sem, exists s, isteps sem true i_start s /\ i_pc s 1%nat = Crashed.
Proof.
  intros sem. eexists. split.
  - eapply iss_cons; [apply (is_call _ _ _ _ _ _ 0%nat (ctx0 0)); reflexivity|].
    eapply iss_cons; [apply (is_nil _ _ _ _ _ 0%nat (ctx0 0)); reflexivity|].
    eapply iss_cons; [apply (is_build _ _ _ _ _ _ 0%nat (ctx0 0)); reflexivity|].
    eapply iss_cons; [apply (is_store _ _ _ _ _ _ 0%nat (ctx0 0)); reflexivity|].
    eapply iss_cons; [apply (is_call _ _ _ _ _ _ 1%nat (ctx0 1)); reflexivity|].
    eapply iss_cons; [apply (is_set _ _ _ _ _ _ 1%nat (ctx0 1)); reflexivity|].
    eapply iss_cons; [apply (is_stale_crash _ _ _ _ _ _ 1%nat (ctx0 1)); reflexivity|]. apply iss_nil.
  - reflexivity.
Qed.
Print Assumptions C43_unsynchronised_refuted.
