(** C42: debug tracing. *)
From Verif Require Import L_Tracer.

(** With tracers that only look, every parse result (also panics, also the need for
    fuel) is that of the same grammar without tracing; where recover() returns nil for
    panic(nil), as long as that one does not panic with nil. *)
Theorem C42_transparent : forall lost pts env, (forall i, observer (pts i)) -> forall e b g n c, build e g_start = (b, g) ->
  (lost = true -> t_run env n e c <> Panic panic_nil) ->
  snd (srun lost pts env n b g c) = t_run env n e c.
Proof. intros lost pts env O e b g n c E NP. apply (transparent lost pts env O e g_start b g n c); auto. intros i b' X. discriminate. Qed.
Print Assumptions C42_transparent.
(** The grammar without tracing is one of M_Grammar (the subject of the other theorems)
    if the production rules in it use no Indirect. *)
Theorem C42_transparent_grammar : forall lost pts env, (forall i, observer (pts i)) -> forall e b g n c, build e g_start = (b, g) ->
  (forall k, closed_rules (env k)) -> closed_rules e ->
  (lost = true -> run (fun k => erase (env k)) n (erase e) c <> Panic panic_nil) ->
  snd (srun lost pts env n b g c) = run (fun k => erase (env k)) n (erase e) c.
Proof.
  intros lost pts env O e b g n c E H1 H2 NP. rewrite <- (closed_run env e H1 H2) in *. apply C42_transparent; auto.
Qed.
Print Assumptions C42_transparent_grammar.

(** For any tracers, also such that panic: the events of a call are properly nested; when
    the call panics, every open Before is closed by a Panic, which is given the context that
    Before has left, or, when it is After that panics, the one that After has left. *)
Theorem C42_nested_events : forall lost pts env n b g c, exists es,
  g_log (fst (srun lost pts env n b g c)) = g_log g ++ es /\
  match snd (srun lost pts env n b g c) with Ok _ => nested lost pts es | Panic w => crashed lost pts w es | Fuel => True end.
Proof.
  intros. destruct (neat_run lost pts env n b g c) as (es & L & N). exists es. split; auto.
  destruct (snd (srun lost pts env n b g c)); exact N.
Qed.
Print Assumptions C42_nested_events.

(** The events around a traced parser carry its argument and its result. *)
Theorem C42_events_report_the_call : forall lost pts env, (forall i, observer (pts i)) -> forall n b k g c g' o err,
  (lost = true -> o <> zero_ctx) -> top_mark b = Some k -> srun lost pts env n b g c = (g', Ok (o, err)) ->
  exists es, g_log g' = g_log g ++ EvBefore k c :: es ++ [EvAfter k o err] /\ nested lost pts es.
Proof. exact report. Qed.
Print Assumptions C42_events_report_the_call.

(** A tracer that panics in Before keeps the parser from running: the tracer is told of
    its own panic, and the call panics with what its method Panic makes of it. *)
Theorem C42_before_panics : forall lost pts env n b k g c c0 w, top_mark b = Some k ->
  tr_before (pts (m_tr k)) k c = (c0, Some w) -> (lost = true -> w <> panic_nil) ->
  snd (srun lost pts env n b g c) = Panic (match tr_panic (pts (m_tr k)) k c0 w with Some w' => w' | None => w end) /\
  g_log (fst (srun lost pts env n b g c)) = g_log g ++ [EvBefore k c; EvPanic k c0 w].
Proof. exact before_panics. Qed.
Print Assumptions C42_before_panics.
(** One that panics in After turns the result into a panic. *)
Theorem C42_after_panics : forall lost pts env n b k g c w, top_mark b = Some k ->
  (forall m c, tr_before (pts (m_tr k)) m c = (c, None)) -> (forall m c err, tr_after (pts (m_tr k)) m c err = (c, Some w)) ->
  (lost = true -> w <> panic_nil) ->
  match snd (srun lost pts env n b g c) with Ok (o, e) => lost = true /\ o = zero_ctx /\ e = None | _ => True end.
Proof. exact after_panics. Qed.
Print Assumptions C42_after_panics.

(** What was logged stays logged when a sequence fails: the state is the one the parser
    that failed has left, and the parsers behind it are not called ... *)
Theorem C42_failed_sequence : forall lost pts env n cls bs b rest g c g1 c1 g2 c2, (0 < n)%nat ->
  chain (srun lost pts env n) bs g (set_st (set_cls c cls) Matched) g1 c1 -> srun lost pts env n b g1 c1 = (g2, Ok (c2, None)) -> c_st c2 = Unmatched ->
  exists o, srun lost pts env n (BBase None cls None [] (bs ++ b :: rest) [] None) g c = (g2, Ok (o, None)) /\ c_st o = Unmatched.
Proof. exact failed_sequence. Qed.
Print Assumptions C42_failed_sequence.
(** ... and a choice keeps what the alternatives before the one that matches have logged. *)
Theorem C42_missed_alternatives : forall lost pts env n cls bs b rest g c g1 g2 c2, (0 < n)%nat ->
  misses (srun lost pts env n) bs g (set_st (set_cls c cls) Matched) g1 -> srun lost pts env n b g1 (set_st (set_cls c cls) Matched) = (g2, Ok (c2, None)) -> c_st c2 = Matched ->
  exists o, srun lost pts env n (BBase None cls None [PThereExists] (bs ++ b :: rest) [] None) g c = (g2, Ok (o, None)) /\ c_st o = Matched.
Proof. exact missed_choice. Qed.
Print Assumptions C42_missed_alternatives.
(** The rules and the check of every call of ProductionRule are those written in it. *)
Theorem C42_rules_in_place : forall ws : list (written sparser),
  s_trans (map shape_of ws) (flat_map args_of ws) =
  map (fun w => match w with
       | AsPure t => fun n c g l => (g, t n c l)
       | AsRule ls check => w_ProductionRule (map (fun l => mkWPrec (map (fun p (_ : nat) => p) (fst l)) (snd l)) ls) (fun _ => check)
       end) ws.
Proof. exact (fun ws => arrange_back _ _ _ ws). Qed.
Print Assumptions C42_rules_in_place.

(** Building a grammar restores the tracing configuration and calls no tracer. *)
Theorem C42_configuration_restored : forall e g b g', build e g = (b, g') ->
  g_on g' = g_on g /\ g_scope g' = g_scope g /\ g_tr g' = g_tr g /\ g_log g' = g_log g.
Proof. intros e g b g' E. destruct (build_ok _ _ _ _ E) as ((A1 & A2 & A3 & A4 & A5 & A6) & _). auto. Qed.
Print Assumptions C42_configuration_restored.

(** Tracking numbers are given in the order of construction, without repetition. *)
Theorem C42_tracking_numbers : forall e g b g', build e g = (b, g') ->
  map m_no (marks b) = seq (S (g_no g)) (g_no g' - g_no g).
Proof. intros e g b g' E. apply (build_marks e g b g' E). Qed.
Print Assumptions C42_tracking_numbers.

(** While tracing is on every parser is built traced ... *)
Theorem C42_everything_is_traced : forall e g b g', build e g = (b, g') -> g_on g = true -> all_marked b.
Proof. intros e g b g' E. apply (build_marks e g b g' E). Qed.
Print Assumptions C42_everything_is_traced.

(** ... and without DebugTrace no tracer is ever called. *)
Theorem C42_silent_when_off : forall lost pts env e b g n c, (forall k, untraced (env k)) -> untraced e -> build e g_start = (b, g) ->
  g_log (fst (srun lost pts env n b g c)) = [].
Proof.
  intros lost pts env e b g n c H1 H2 E. destruct (build_ok _ _ _ _ E) as ((A1 & A2 & A3 & A4 & A5 & A6 & A7) & _).
  destruct (build_marks _ _ _ _ E) as (_ & _ & M). destruct (calm_run lost pts env H1 n b (M eq_refl H2) g c) as [_ L].
  - split; [rewrite A1; reflexivity|]. rewrite A4. discriminate.
  - rewrite L, A5. reflexivity.
Qed.
Print Assumptions C42_silent_when_off.

(** ** Where the tracing falls short *)
Definition look_only : nat -> tracer := fun _ => mkTracer (fun _ c => (c, None)) (fun _ c _ => (c, None)) (fun _ _ _ => None).
Definition start (s : bytes) : ctx := mkCtx s None sp0 0 [] Matched "" VNil.
(** The grammar DebugTrace("s", pt)(First("a", Indirect(rule 0))), rule 0 = "b". *)
Definition rules : nat -> texp := fun _ => TLight ":string:Seq" (lift (seq_fn [98])).
Definition gram : texp := TTrace "s" 0 [TBase ":base:First" None [PThereExists] [TLight ":string:Seq" (lift (seq_fn [97])); TInd 0] [] None].
Definition names (l : list event) : list (string * nat) :=
  flat_map (fun e => match e with EvBefore m _ => [(("+" ++ m_cls m)%string, m_no m)] | EvAfter m _ _ => [(("-" ++ m_cls m)%string, m_no m)] | EvPanic m _ _ => [] end) l.

(** A rule behind Indirect is built when it is first used, after DebugTrace has
    restored the configuration: its parsers are not traced. *)
Theorem C42_indirect_rules_refuted : exists env e b g n c, untraced (env 0%nat) /\ build e g_start = (b, g) /\ all_marked b /\
  (exists o, snd (srun false look_only env n b g c) = Ok (o, None) /\ c_st o = Matched /\ c_pos o = 1%nat) /\
  names (g_log (fst (srun false look_only env n b g c))) =
    [("+:Base:DebugTrace", 4); ("+:base:First", 3); ("+:string:Seq", 1); ("-:string:Seq", 1);
     ("+:base:Indirect", 2); ("-:base:Indirect", 2); ("-:base:First", 3); ("-:Base:DebugTrace", 4)]%string%nat.
Proof.
  exists rules, gram. eexists _, _, 9%nat, (start [98]). split; [exact I|]. split; [reflexivity|].
  split; [vm_compute; repeat split; discriminate|]. split; [|vm_compute; reflexivity].
  eexists. split; [vm_compute; reflexivity|]. split; reflexivity.
Qed.
Print Assumptions C42_indirect_rules_refuted.

(** Tracers get a pointer to the context; one that writes through it changes the
    result: here by resetting the position before each parser. *)
Theorem C42_meddling_tracer_refuted : exists pts env e b g n c, build e g_start = (b, g) /\
  snd (srun false pts env n b g c) <> run (fun k => erase (env k)) n (erase e) c.
Proof.
  exists (fun _ => mkTracer (fun _ c => (set_pos c 0, None)) (fun _ c _ => (c, None)) (fun _ _ _ => None)), rules,
    (TTrace "s" 0 [TLight ":string:Seq" (lift (seq_fn [97])); TLight ":string:Seq" (lift (seq_fn [98]))]).
  eexists _, _, 9%nat, (start [97; 98]). split; [reflexivity|]. vm_compute. discriminate.
Qed.
Print Assumptions C42_meddling_tracer_refuted.

(** Where recover() returns nil for panic(nil), a traced parser that panics with nil ends
    in a match of nothing, with the zero context: the text is gone, too. *)
Theorem C42_panic_nil_refuted : exists env e n c, let b := fst (build e g_start) in let g := snd (build e g_start) in
  c_str c <> [] /\ t_run env n e c = Panic panic_nil /\
  match snd (srun true look_only env n b g c) with Ok (o, None) => c_st o = Matched /\ c_str o = [] | _ => False end /\
  names (g_log (fst (srun true look_only env n b g c))) = [("+:Base:DebugTrace", 2); ("+boom", 1); ("-:Base:DebugTrace", 2)]%string%nat.
Proof.
  exists rules, (TTrace "s" 0 [TLight "boom" (fun _ _ => Panic panic_nil)]), 9%nat, (start [97]).
  split; [discriminate|]. vm_compute. repeat split.
Qed.
Print Assumptions C42_panic_nil_refuted.

(** The hypotheses are met. *)
(** A tracer that panics: with "b" in Before, and with "p" when told of it. *)
Definition touchy : nat -> tracer := fun _ => mkTracer (fun _ c => (c, Some "b"%string)) (fun _ c _ => (c, None)) (fun _ _ _ => Some "p"%string).
Example C42_touchy : let '(b, g) := build gram g_start in
  top_mark b <> None /\ snd (srun true touchy rules 9 b g (start [97])) = Panic "p" /\ length (g_log (fst (srun true touchy rules 9 b g (start [97])))) = 2%nat.
Proof. vm_compute. repeat split. discriminate. Qed.
Definition late : nat -> tracer := fun _ => mkTracer (fun _ c => (c, None)) (fun _ c _ => (c, Some "a"%string)) (fun _ _ _ => None).
Example C42_late : let '(b, g) := build gram g_start in
  top_mark b <> None /\ snd (srun true late rules 9 b g (start [97])) = Panic "a" /\ crashed true late "a" (g_log (fst (srun true late rules 9 b g (start [97])))).
Proof.
  vm_compute. repeat split; [discriminate|]. apply (cr_in true late "a" [] _ _ [_; _; _; _; _]); [constructor| |reflexivity].
  apply (cr_in true late "a" [] _ _ [_; _; _]); [constructor| |reflexivity].  apply (cr_after true late "a" [] _ _ []); constructor.
Qed.
Example C42_look_only : forall i, observer (look_only i).
Proof. intros i. repeat split. Qed.
Example C42_run : let '(b, g) := build gram g_start in
  g_on g = false /\ g_no g = 4%nat /\ top_mark b = Some (mkMark "/s" 0 4 ":Base:DebugTrace") /\
  snd (srun false look_only rules 9 b g (start [98])) = run (fun k => erase (rules k)) 9 (erase gram) (start [98]) /\
  exists o, snd (srun false look_only rules 9 b g (start [98])) = Ok (o, None) /\ c_st o = Matched.
Proof. vm_compute. repeat split. eexists. split; reflexivity. Qed.
(** A panic inside two traced parsers. *)
Example C42_panic :
  let e := TTrace "s" 0 [TLight "boom" (fun _ _ => Panic "boom")] in
  let '(b, g) := build e g_start in
  let '(g', r) := srun false look_only rules 9 b g (start []) in
  r = Panic "boom" /\ length (g_log g') = 4%nat /\ crashed false look_only "boom" (g_log g').
Proof.
  cbv zeta. vm_compute. repeat split. apply (cr_in false look_only "boom" [] _ _ [_; _]); [constructor| |reflexivity]. apply (cr_in false look_only "boom" [] _ _ []); constructor. constructor.
Qed.
Example C42_untraced : untraced (TBase "g" None [] [TLight "l" (fun _ c => Ok (c, None)); TInd 3] [] None).
Proof. simpl. auto. Qed.
(** Production rules run traced, too: "aa", reduced to one AST by a rule for two. *)
Definition pair_rule : texp := TBase ":base:Trans" None [] [TBase ":base:FlatGroup" None [] [TLight ":object:Any" (lift obj_any_fn); TLight ":object:Any" (lift obj_any_fn)] [] None] []
  (Some [TTPure (fun _ _ l => tok (firstn 1 l))]).
Definition one_left : texp := TLight ":check" (fun _ c => Ok (set_st c (match c_slice c with Some sl => if Nat.eqb (length (sl_items sl)) 1 then Matched else Unmatched | None => Unmatched end), None)).
Definition reduce : texp := TTrace "s" 0 [TBase ":base:Trans" None [] [TLight ":string:Seq" (lift (seq_fn [97])); TLight ":string:Seq" (lift (seq_fn [97]))]
  [pair_rule; one_left] (Some [TTRule [(1%nat, false)]])].
Example C42_production : let b := fst (build reduce g_start) in let g := snd (build reduce g_start) in
  closed_rules reduce /\ (forall k, closed_rules (rules k)) /\ marks b <> [] /\
  names (g_log (fst (srun false look_only rules 9 b g (start [97; 97])))) =
    [("+:Base:DebugTrace", 9); ("+:base:Trans", 8); ("+:string:Seq", 1); ("-:string:Seq", 1); ("+:string:Seq", 2); ("-:string:Seq", 2);
     ("+:base:Trans", 6); ("+:base:FlatGroup", 5); ("+:object:Any", 3); ("-:object:Any", 3); ("+:object:Any", 4); ("-:object:Any", 4);
     ("-:base:FlatGroup", 5); ("-:base:Trans", 6); ("+:check", 7); ("-:check", 7); ("-:base:Trans", 8); ("-:Base:DebugTrace", 9)]%string%nat /\
  match snd (srun false look_only rules 9 b g (start [97; 97])) with Ok (o, None) => length (c_stack o) = 1%nat | _ => False end.
Proof.
  cbv zeta. split; [cbn; tauto|]. split; [exact (fun _ => I)|]. split; [vm_compute; discriminate|].
  split; vm_compute; reflexivity.
Qed.
(** "ab" where "ac" is expected: the events of "a" and of "c" stay. *)
Definition lit (x : Z) (no : nat) : bexp := BLight (Some (mkMark "/s" 0 no ":string:Seq")) ":string:Seq" (lift (seq_fn [x])).
Example C42_kept : let call := srun false look_only rules 9 in
  exists g1 c1 g2 c2, chain call [lit 97 1] g_start (start [97; 98]) g1 c1 /\ call (lit 99 2) g1 c1 = (g2, Ok (c2, None)) /\ c_st c2 = Unmatched /\
  names (g_log g2) = [("+:string:Seq", 1); ("-:string:Seq", 1); ("+:string:Seq", 2); ("-:string:Seq", 2)]%string%nat.
Proof.
  eexists _, _, _, _. split; [eapply ch_cons; [vm_compute; reflexivity|reflexivity|apply ch_nil]|]. split; [vm_compute; reflexivity|]. split; reflexivity.
Qed.
Example C42_missed : let call := srun false look_only rules 9 in
  exists g1 g2 c2, misses call [lit 99 1] g_start (start [97; 98]) g1 /\ call (lit 97 2) g1 (start [97; 98]) = (g2, Ok (c2, None)) /\ c_st c2 = Matched.
Proof.
  eexists _, _, _. split; [eapply mi_cons; [vm_compute; reflexivity|reflexivity|apply mi_nil]|]. split; [vm_compute; reflexivity|]. reflexivity.
Qed.
Example C42_two_calls : map shape_of [AsRule [([1; 2], true); ([3], false)] 4; AsPure Erase; AsRule [([5], true)] 6]
  = [TTRule [(2%nat, true); (1%nat, false)]; TTPure Erase; TTRule [(1%nat, true)]].
Proof. reflexivity. Qed.
