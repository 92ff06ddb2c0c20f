(** C69: the positions of ASTs do not influence parsing. *)
From Verif Require Import L_BlurUse.

(** Grammars whose parts do not look at positions: on contexts that differ in positions of
    ASTs only, the results differ in positions of ASTs only. *)
Theorem C69_grammars : forall env e, (forall k, blind_exp (env k)) -> blind_exp e ->
  forall n c d, csame c d -> osame (run env n e c) (run env n e d).
Proof. exact run_blind. Qed.
Print Assumptions C69_grammars.
(** The parsers, the conditions of Match and the transformers of the library do not look at
    positions. *)
Theorem C69_leaves : forall p, library_leaf p -> blind p.
Proof. exact leaf_blind. Qed.
Print Assumptions C69_leaves.
Theorem C69_conditions : forall f, library_if f -> blind_if f.
Proof. exact if_blind_ok. Qed.
Print Assumptions C69_conditions.
Theorem C69_transformers : forall t, library_tr t -> blind_tr t.
Proof. exact tr_blind. Qed.
Print Assumptions C69_transformers.
(** So Prepend and Push values may be used again whatever the grammar (C66 has a condition):
    what earlier calls have left in them shows in positions at most. *)
Theorem C69_history : forall env a e, (forall k, blind_vexp (env k)) -> blind_vexp e ->
  forall v n c d, like a v -> csame c d -> osame (snd (v_run env n e v c)) (run (fun k => plain_exp a (env k)) n (plain_exp a e) d).
Proof. intros env a e B H v n c d L K. rewrite <- g_run_v. apply (bsim_run vars (like a) v_trans a (v_trans_sim a) env n e B H v c d L K). Qed.
Print Assumptions C69_history.

(** The tokens of extra/, the csv grammar and the grammars of formula and torpn are such grammars. *)
Theorem C69_uses : forall u,
  Forall blind_exp [BinaryNumberStr; OctalNumberStr; HexNumberStr; IntegerNumberStr; FloatNumberStr; NumericStr; AsciiIdentifierStr;
    UnicodeIdentifierStr u; UnicodeWordBoundary u; DateStr; DateTimeStr; TimeStr; document] /\
  forall divz prod, prod = formula_prod divz \/ prod = torpn_prod -> blind_exp (program prod) /\ forall k, blind_exp (grouped_env prod k).
Proof.
  intros u. pose proof (extra_blind u) as E. cbn [each] in E. split.
  - repeat (destruct E as [? E]; apply Forall_cons; [assumption|]). apply Forall_cons; [exact csv_blind|constructor].
  - intros z p [-> | ->]; apply formula_blind, rules_blind; auto with blindness.
Qed.
Print Assumptions C69_uses.

(** ** Where it fails *)
Definition seq_a : pexp := SSeq [97].
Definition a_at (p : nat) : ast := mkAst 0 ":string:Seq" TString (VStr [97]) (mkSP p 0).
(** FlatGroup(ZeroOrOnce(Erase(Seq("b"))), Group(Seq("a")), Match(1, TopIs(the group of "a" at 0))) *)
Definition ask_top : pexp := EFlatGroup [EZeroOrOnce [ETrans (SSeq [98]) [Erase]]; EGroup [seq_a]; EMatch 1 [mkCase (TopIs [VAsts [a_at 0]]) []]].
Definition status_of (r : out) : option status := match r with Ok (o, None) => Some (c_st o) | _ => None end.
(** TopIs compares the positions inside groups: the same group of "a" is found at the start
    of the text but not after "b". *)
Theorem C69_top_is_refuted : exists v c d n, csame c d /\
  status_of (run (fun _ => EUnmatched) n (EMatch 1 [mkCase (TopIs [v]) []]) c) = Some Matched /\
  status_of (run (fun _ => EUnmatched) n (EMatch 1 [mkCase (TopIs [v]) []]) d) = Some Unmatched.
Proof.
  exists (VAsts [a_at 0]), (set_stack (new_string_ctx []) [mkAst 0 ":base:Group" TListOfAst (VAsts [a_at 0]) sp0]),
    (set_stack (new_string_ctx []) [mkAst 0 ":base:Group" TListOfAst (VAsts [a_at 1]) sp0]), 1%nat.
  split; [repeat split|]. vm_compute. auto.
Qed.
Print Assumptions C69_top_is_refuted.
Example C69_top_is_text : map (fun s => status_of (run (fun _ => EUnmatched) 9 ask_top (new_string_ctx s))) [[97]; [98; 97]] = [Some Matched; Some Unmatched].
Proof. vm_compute. reflexivity. Qed.
(** AstSlice.ItemEquals leaves out the positions of the ASTs it compares and of the ASTs in
    lists, but not those in values of other types. *)
Theorem C69_item_equals_refuted : exists x y z, blur x = blur y /\ ast_equals x z = Some true /\ ast_equals y z = Some false.
Proof.
  exists (mkAst 0 ":object:Any" TAny (VAst (a_at 0)) sp0), (mkAst 0 ":object:Any" TAny (VAst (a_at 1)) sp0), (mkAst 0 ":object:Any" TAny (VAst (a_at 0)) sp0).
  vm_compute. auto.
Qed.
Print Assumptions C69_item_equals_refuted.

(** The hypotheses are met by a grammar with Group, Match, Push and Prepend, and by contexts whose
    stacks hold ASTs at different places. *)
Definition some_text : pexp := ETrans (EFlatGroup [EOneOrMore [seq_a]; EGroup [SAny]; EMatch 1 [mkCase (TopIsStr [[98]]) [Erase]; mkCase TopIsAny [Pop; Push (a_at 7)]]]) [Prepend (a_at 5); ChangeClassName "x"].
Example C69_met : blind_exp some_text /\ blind_exp EUnmatched /\
  csame (set_stack (new_string_ctx [97; 97; 98]) [a_at 1]) (set_stack (new_string_ctx [97; 97; 98]) [a_at 2]).
Proof.
  assert (L : forall p, library_leaf p -> blind p) by exact C69_leaves. assert (T : forall t, library_tr t -> blind_tr t) by exact C69_transformers.
  split; [|split; [apply L; constructor|repeat split]]. cbn. repeat split; auto.
  - apply L. constructor.
  - apply L. constructor.
  - apply L. constructor. repeat constructor; try (apply C69_conditions; constructor); apply T; constructor.
  - repeat constructor; apply T; constructor.
Qed.
Example C69_sample : map (fun c => match run (fun _ => EUnmatched) 9 some_text c with Ok (o, None) => Some (map (fun a => (a_cls a, sp_pos (a_sp a))) (c_stack o)) | _ => None end)
    [set_stack (new_string_ctx [97; 97; 98]) [a_at 1]; set_stack (new_string_ctx [97; 97; 98]) [a_at 2]] =
  [Some [(":string:Seq", 1%nat); ("x", 0%nat); (":string:Seq", 0%nat); (":string:Seq", 1%nat); (":string:Seq", 7%nat)];
   Some [(":string:Seq", 2%nat); ("x", 0%nat); (":string:Seq", 0%nat); (":string:Seq", 1%nat); (":string:Seq", 7%nat)]]%string.
Proof. vm_compute. reflexivity. Qed.
