(** C66: using a grammar again.  The values returned by Prepend and Push keep a variable
    between calls, so a parse can depend on the parses before it. *)
From Verif Require Import L_Reuse.

(** When every Prepend and Push gets at least one AST whenever it is called, then in any
    state of the variables that earlier calls can have left behind a parse returns what
    it returns with fresh variables, also panics and errors. *)
Theorem C66_history_is_irrelevant : forall env a e, (forall k, fed (fun k => plain_exp a (env k)) a (env k)) ->
  fed (fun k => plain_exp a (env k)) a e -> forall v n c, like a v ->
  snd (v_run env n e v c) = run (fun k => plain_exp a (env k)) n (plain_exp a e) c.
Proof. intros env a e H G v n c L. apply (spoilt_exact _ _ (reuse env a H n e G v c L)). Qed.
Print Assumptions C66_history_is_irrelevant.

(** So the results of any number of parses with the same grammar value are those of
    parses with grammars built anew for each. *)
Theorem C66_session : forall env a e, (forall k, fed (fun k => plain_exp a (env k)) a (env k)) ->
  fed (fun k => plain_exp a (env k)) a e -> forall n cs,
  v_session env n e a cs = map (run (fun k => plain_exp a (env k)) n (plain_exp a e)) cs.
Proof. intros env a e H G n cs. apply (reuse_session env a H n e G cs a (like_refl a)). Qed.
Print Assumptions C66_session.

(** Without any condition: calls change nothing of a variable but the position. *)
Theorem C66_only_the_position_leaks : forall env a e n c v, like a v -> like a (fst (v_run env n e v c)).
Proof. exact (fun env a e n c v => run_stays env a n e v c). Qed.
Print Assumptions C66_only_the_position_leaks.

(** Where the condition can be read off: repetitions (at least once) and groups of one
    parser that feeds, and Seq. *)
Theorem C66_feeding : forall n s cls t p,
  feeds (run (fun _ => EUnmatched) n (ELight ":string:Seq" (lift (seq_fn s)))) /\
  (feeds p -> (1 <= t_min t)%Z -> feeds (base_parser cls None [PTimes t] [p] None n)) /\
  (feeds p -> feeds (base_parser cls None [] [p] None n)).
Proof.
  intros n s cls t p. split; [|split; [apply feeds_repeat|apply feeds_once]]. intros c o. cbn [run denote]. unfold light_base_parser, lift, seq_fn. cbv zeta.
  destruct c as [str sl sp len stk st ty tag]. cbn. destruct (_ <=? _)%nat; [destruct (bytes_eqb _ _)|]; cbn; intros X S; injection X as <-; cbn in *; try discriminate.
  rewrite app_length. cbn. lia.
Qed.
Print Assumptions C66_feeding.

(** ** Where it fails *)
Definition mark_ast : ast := mkAst 0 "end" TString (VStr []) sp0.
Definition the_vars : vars := fun _ => mark_ast.
Definition no_rules : nat -> vexp := fun _ => VLight ":base:Unmatched" (lift unmatched_fn).
Definition letter_a : vexp := VLight ":string:Seq" (lift (seq_fn [97])).
(** Trans(ZeroOrMoreTimes(Seq("a")), Push(mark)) *)
Definition some_as : vexp := VBase ":base:Trans" None [] [VBase ":base:Repeat" None [PTimes qtyZeroOrMoreTimes] [letter_a] None] (Some [VPush 0]).
Definition ends (r : out) : list (nat * nat * nat) :=
  match r with Ok (o, _) => map (fun a => (length (c_stack o), sp_pos (a_sp a), sp_len (a_sp a))) (skipn (length (c_stack o) - 1) (c_stack o)) | _ => [] end.
(** After a parse of "aaa" the parse of the empty text returns an AST at offset 2; with a
    grammar built anew it is at offset 0. *)
Theorem C66_second_parse_refuted : exists env a e n c1 c2,
  v_session env n e a [c1; c2] <> map (run (fun k => plain_exp a (env k)) n (plain_exp a e)) [c1; c2] /\
  length (c_str c2) = 0%nat /\ map ends (v_session env n e a [c1; c2]) = [[(4, 2, 1)]; [(1, 2, 1)]]%nat.
Proof.
  exists no_rules, the_vars, some_as, 9%nat, (new_string_ctx [97; 97; 97]), (new_string_ctx []).
  split; [vm_compute; discriminate|]. split; vm_compute; reflexivity.
Qed.
Print Assumptions C66_second_parse_refuted.

(** The hypotheses are met by Trans(OneOrMoreTimes(Seq("a")), Prepend(mark), Push(mark)). *)
Definition more_as : vexp := VBase ":base:Trans" None [] [VBase ":base:Repeat" None [PTimes qtyOneOrMoreTimes] [letter_a] None] (Some [VPrepend 1; VPush 0]).
Example C66_met : (forall k, fed (fun k => plain_exp the_vars (no_rules k)) the_vars (no_rules k)) /\
  fed (fun k => plain_exp the_vars (no_rules k)) the_vars more_as.
Proof.
  split; [exact (fun _ => I)|]. split; [cbn; tauto|]. intros _. split; [cbn; tauto|]. split; [reflexivity|]. intros n.
  change (feeds (base_parser ":base:Trans" None [] [base_parser ":base:Repeat" None [PTimes qtyOneOrMoreTimes]
    [run (fun _ => EUnmatched) n (ELight ":string:Seq" (lift (seq_fn [97])))] None n] None n)).
  apply feeds_once, feeds_repeat; [|cbn; lia]. apply (C66_feeding n [97] "" qtyOnce (fun c => Ok (c, None))).
Qed.
Example C66_sample :
  let rs := v_session no_rules 9 more_as the_vars [new_string_ctx [97; 97; 97]; new_string_ctx []; new_string_ctx [97; 98]] in
  rs = map (run (fun k => plain_exp the_vars (no_rules k)) 9 (plain_exp the_vars more_as)) [new_string_ctx [97; 97; 97]; new_string_ctx []; new_string_ctx [97; 98]] /\
  map (fun r => match r with Ok (o, _) => (c_st o, map (fun a => sp_pos (a_sp a)) (c_stack o)) | _ => (Errored, []) end) rs =
    [(Matched, [0; 0; 1; 2; 2]); (Unmatched, []); (Matched, [0; 0; 0])]%nat /\
  a_sp (fst (v_run no_rules 9 more_as the_vars (new_string_ctx [97; 97; 97])) 0%nat) = mkSP 2 1.
Proof. split; [|split]; vm_compute; reflexivity. Qed.
