(** C70: one grammar value can be used by several goroutines at the same time. *)
From Verif Require Import L_Shared.

(** Without Prepend and Push the others are not noticed at all. *)
Theorem C70_no_variables : forall env a e, (forall k, no_vars (env k)) -> no_vars e -> forall others n w c, sh_like a w ->
  snd (s_run others env n e w c) = run (fun k => plain_exp a (env k)) n (plain_exp a e) c.
Proof.
  intros env a e H G others n w c L.
  apply (spoilt_exact _ _ (own_run others (fun _ => False) a (fun _ _ _ _ X => X) env (fun k => no_vars_fed _ a _ (H k)) H n e (no_vars_fed _ a _ G) G w c L)).
Qed.
Print Assumptions C70_no_variables.
(** With Prepend and Push values that no other goroutine uses, the result is that of a grammar
    built anew, under the condition of C66. *)
Theorem C70_own_values : forall mine env a e, (forall k, fed (fun k => plain_exp a (env k)) a (env k)) -> fed (fun k => plain_exp a (env k)) a e ->
  (forall k, owned mine (env k)) -> owned mine e -> forall others n w c, elsewhere mine others -> sh_like a w ->
  snd (s_run others env n e w c) = run (fun k => plain_exp a (env k)) n (plain_exp a e) c.
Proof.
  intros mine env a e H G O P others n w c E L. apply (spoilt_exact _ _ (own_run others mine a E env H O n e G P w c L)).
Qed.
Print Assumptions C70_own_values.
(** With shared values the results are right but for positions of ASTs. *)
Theorem C70_shared_values : forall env a e, (forall k, blind_vexp (env k)) -> blind_vexp e -> forall others n w c d, sh_like a w -> csame c d ->
  osame (snd (s_run others env n e w c)) (run (fun k => plain_exp a (env k)) n (plain_exp a e) d) /\ sh_like a (fst (s_run others env n e w c)).
Proof. intros env a e B H others n w c d L K. apply (bsim_run shared (sh_like a) (s_trans others) a (s_trans_sim a others) env n e B H w c d L K). Qed.
Print Assumptions C70_shared_values.
(** If nobody else is running, this is the model of C66. *)
Theorem C70_alone : forall env n e w v c, (forall j, sh_vars w j = v j) ->
  snd (s_run nobody env n e w c) = snd (v_run env n e v c) /\ forall j, sh_vars (fst (s_run nobody env n e w c)) j = fst (v_run env n e v c) j.
Proof. exact alone. Qed.
Print Assumptions C70_alone.

(** ** Where it fails *)
Definition mark : ast := mkAst 0 "mark" TString (VStr []) sp0.
Definition marks : vars := fun _ => mark.
Definition no_env : nat -> vexp := fun _ => VLight ":base:Unmatched" (lift unmatched_fn).
Definition an_a : vexp := VLight ":string:Seq" (lift (seq_fn [97])).
(** Trans(OneOrMoreTimes(Seq("a")), Push(mark)) *)
Definition as_mark : vexp := VBase ":base:Trans" None [] [VBase ":base:Repeat" None [PTimes qtyOneOrMoreTimes] [an_a] None] (Some [VPush 0]).
Definition last_pos (r : out) : option nat := match r with Ok (o, None) => Some (sp_pos (a_sp (last (c_stack o) mark))) | _ => None end.
(** While one goroutine parses "a", another one parses "aaa" with the same value and assigns
    between the two accesses of the first: the mark in the first result is at offset 2, outside
    of the text.  The grammar meets the condition of C66. *)
Theorem C70_positions_refuted : exists env a e n c c' others p,
  fed (fun k => plain_exp a (env k)) a e /\ (forall k, blind_vexp (env k)) /\ blind_vexp e /\
  sh_vars (fst (s_run nobody env n e (mkSh a 0) c')) 0%nat = set_asp (a 0%nat) p /\
  (forall t x, In x (others t) -> x = (0%nat, p)) /\
  length (c_str c) = 1%nat /\
  last_pos (run (fun k => plain_exp a (env k)) n (plain_exp a e) c) = Some 0%nat /\
  last_pos (snd (s_run others env n e (mkSh a 0) c)) = Some 2%nat.
Proof.
  exists no_env, marks, as_mark, 9%nat, (new_string_ctx [97]), (new_string_ctx [97; 97; 97]), (fun t => match t with 1%nat => [(0%nat, mkSP 2 1)] | _ => [] end), (mkSP 2 1).
  split.
  { split; [cbn; tauto|]. intros _. split; [cbn; tauto|]. split; [reflexivity|]. intros n.
    change (feeds (base_parser ":base:Trans" None [] [base_parser ":base:Repeat" None [PTimes qtyOneOrMoreTimes]
      [run (fun _ => EUnmatched) n (ELight ":string:Seq" (lift (seq_fn [97])))] None n] None n)).
    apply feeds_once, feeds_repeat; [|cbn; lia]. intros c o. cbn [run denote]. unfold light_base_parser, lift, seq_fn. cbv zeta.
    destruct c as [str sl sp len stk st ty tag]. cbn. destruct (_ <=? _)%nat; [destruct (bytes_eqb _ _)|]; cbn; intros X S; injection X as <-; cbn in *; try discriminate.
    rewrite app_length. cbn. lia. }
  split; [intros k; apply leaf_blind; constructor|].
  split; [cbn; repeat split; auto; [apply leaf_blind; constructor|repeat constructor]|].
  split; [vm_compute; reflexivity|]. split.
  - intros [|[|t]] x; cbn; intros []; auto; contradiction.
  - vm_compute. auto.
Qed.
Print Assumptions C70_positions_refuted.

(** Own values: variable 0 belongs to this goroutine, the others assign to variable 1. *)
Example C70_own_met : owned (fun j => j = 0%nat) as_mark /\ elsewhere (fun j => j = 0%nat) (fun t => [(1%nat, mkSP t 1)]) /\ sh_like marks (mkSh marks 0) /\
  last_pos (snd (s_run (fun t => [(1%nat, mkSP t 1)]) no_env 9 as_mark (mkSh marks 0) (new_string_ctx [97; 97]))) = Some 1%nat.
Proof.
  repeat split.
  - constructor; [reflexivity|constructor].
  - intros t j p [X|[]] ->. discriminate.
  - exists sp0. reflexivity.
Qed.
Example C70_no_variables_met : no_vars an_a /\ (forall k, no_vars (no_env k)).
Proof. split; [exact I|exact (fun _ => I)]. Qed.
