(** The library's leaf parsers meet the contracts of C06-C11. *)
From Verif Require Export L_CoreInv L_Utf8.

(** Everything at once, for string leaves. *)
Definition tame (T : Prop) (sz : size) (calm : bool) (f : light_fn) : Prop := forall c,
  match f c with
  | Ok (o, e) => same_source c o /\ (c_st o = Errored -> e <> None) /\
      (in_bounds sz c -> in_bounds sz o) /\
      (c_st o = Matched -> (exists l, c_stack o = c_stack c ++ l /\ (T -> Forall typed l)) /\ (c_pos c <= c_pos o)%nat)
  | Panic _ => calm = true -> ~ in_bounds sz c
  | Fuel => False
  end.

Lemma decode_len' s r l : decode_rune s = (r, l) -> (l <= length s)%nat.
Proof. intros H. pose proof (decode_len s). rewrite H in *. auto. Qed.

Lemma nth_error_Some_len {A} (l : list A) i x : nth_error l i = Some x -> (i < length l)%nat.
Proof. intros H. apply nth_error_Some. congruence. Qed.

Ltac tame_facts :=
  repeat match goal with
  | H : decode_rune _ = _ |- _ => apply decode_len' in H; rewrite ?skipn_length in H
  | H : Nat.leb _ _ = true |- _ => apply Nat.leb_le in H
  | H : Nat.leb _ _ = false |- _ => apply Nat.leb_gt in H
  | H : Nat.eqb _ _ = true |- _ => apply Nat.eqb_eq in H
  | H : nth_error _ _ = Some _ |- _ =>
      let K := fresh in assert (K := H); apply nth_error_Some_len in K; clear H
  end.

Ltac tame_tac :=
  let c := fresh in intros c; destruct c as [str sl [pos len] q stk st0 cls0 tag]; cbn;
  repeat (leaf_split; cbn);
  unfold same_source, pushes, in_bounds, str_size, obj_size, c_pos in *; cbn in *; tame_facts;
  try solve [discriminate | exact I | lia
    | repeat split; try congruence; try lia; auto;
      try solve [eexists; split; [reflexivity|intros; try contradiction; repeat constructor; intros ?; cbn in *; eauto; try discriminate]];
      try solve [exists []; split; [symmetry; apply app_nil_r|auto]]].

Lemma tame_char T cls test : tame T str_size true (char_fn cls test).
Proof. unfold char_fn, with_rest, ret, push_str. tame_tac. Qed.
Lemma tame_any T : tame T str_size true any_fn.
Proof. unfold any_fn, with_rest, ret, push_str. tame_tac. Qed.
Lemma tame_end T : tame T str_size true end_fn.
Proof. unfold end_fn, ret. tame_tac. Qed.
Lemma tame_seq T s : tame T str_size true (seq_fn s).
Proof. unfold seq_fn, ret, push_str. tame_tac. Qed.
Lemma tame_seqi T fold s : tame T str_size true (seqi_fn fold s).
Proof. unfold seqi_fn, ret, push_str. tame_tac. Qed.
Lemma tame_classN T cc : tame T str_size true (char_classN_fn cc).
Proof. unfold char_classN_fn, with_rest, ret, push_str. tame_tac. Qed.
Lemma tame_class T cc : tame T str_size true (char_class_fn cc).
Proof.
  intros c. unfold char_class_fn, ret. rewrite char_class_loop_spec.
  destruct c as [str sl [pos len] q stk st cls tag]. cbn.
  destruct (find (has_prefix_at str pos) cc) as [s|] eqn:E; cbn.
  - apply find_some in E. destruct E as [_ E]. unfold has_prefix_at in E.
    apply andb_prop in E. destruct E as [E _]. apply Nat.leb_le in E.
    unfold same_source, pushes, in_bounds, str_size, c_pos in *; cbn.
    repeat split; try discriminate; try lia.
    eexists; split; [reflexivity|]. intros _. repeat constructor. intros _. simpl. eauto.
  - unfold same_source, pushes, in_bounds, str_size, c_pos in *; cbn. repeat split; auto; discriminate.
Qed.
Lemma tame_wb T word : tame T str_size true (word_boundary_gen word).
Proof. unfold word_boundary_gen, with_rest, ret. tame_tac. Qed.

Lemma tame_error T sz b msg : tame T sz b (error_fn msg).
Proof. unfold error_fn. tame_tac. Qed.
Lemma tame_unmatched T sz b : tame T sz b unmatched_fn.
Proof. unfold unmatched_fn. tame_tac. Qed.
Lemma tame_start T sz b : tame T sz b start_fn.
Proof. unfold start_fn. tame_tac. Qed.
Lemma tame_zero sz b ins : tame (Forall typed ins) sz b (zero_fn ins).
Proof. unfold zero_fn. tame_tac. all: repeat split; auto; try discriminate; eauto.
  eexists; split; [reflexivity|]. intros F. apply Forall_map. exact F. Qed.

Lemma tame_obj_any : tame False obj_size false obj_any_fn.
Proof. unfold obj_any_fn, with_slice, push_val. tame_tac. Qed.
Lemma tame_obj_end : tame False obj_size false obj_end_fn.
Proof. unfold obj_end_fn, with_slice. tame_tac. Qed.
Lemma tame_obj_seq seq : tame False obj_size false (obj_seq_fn seq).
Proof. unfold obj_seq_fn, with_slice, push_val. tame_tac. Qed.
Lemma tame_obj_class oc : tame False obj_size false (obj_class_fn oc).
Proof. unfold obj_class_fn, with_slice, push_val. tame_tac. Qed.
Lemma tame_obj_classN oc : tame False obj_size false (obj_classN_fn oc).
Proof. unfold obj_classN_fn, with_slice, push_val. tame_tac. Qed.
Lemma tame_obj_classFn f : tame False obj_size false (obj_classFn_fn f).
Proof. unfold obj_classFn_fn, with_slice, push_val. tame_tac. Qed.

Lemma base_tame (P : list ast -> Prop) (T : Prop) sz b cls fn :
  (T -> forall l, P l -> Forall typed l) -> base_leaf P cls fn -> exists f, fn = lift f /\ tame T sz b f.
Proof.
  intros HT. destruct 1; eexists; (split; [reflexivity|]); auto using tame_error, tame_unmatched, tame_start.
  intros c. pose proof (tame_zero sz b ins c) as Hz. destruct (zero_fn ins c) as [[o e]|w|]; auto.
  destruct Hz as (H1 & H2 & H3 & H4). split; [auto|split; [auto|split; [auto|]]]. intros Hm. destruct (H4 Hm) as [(l & E & F) G].
  split; auto. exists l. split; auto.
Qed.
Lemma string_tame (P : list ast -> Prop) (T : Prop) cls fn :
  (T -> forall l, P l -> Forall typed l) -> string_leaf P cls fn -> exists f, fn = lift f /\ tame T str_size true f.
Proof.
  intros HT. destruct 1; [eapply base_tame; eauto|..]; eexists; (split; [reflexivity|]);
    first [apply tame_any|apply tame_end|apply tame_seq|apply tame_seqi|apply tame_classN
          |apply tame_class|apply tame_wb|apply tame_char].
Qed.
Lemma object_tame P cls fn : object_leaf P cls fn -> exists f, fn = lift f /\ tame False obj_size false f.
Proof.
  destruct 1; [eapply base_tame; [|eassumption]; tauto|..]; eexists; (split; [reflexivity|]);
    auto using tame_obj_any, tame_obj_end, tame_obj_seq, tame_obj_class, tame_obj_classN, tame_obj_classFn.
Qed.

Lemma tame_source T sz b f : tame T sz b f -> source_leaf (lift f).
Proof. intros H n c o e E. specialize (H c). unfold lift in E. rewrite E in H. apply H. Qed.
Lemma tame_honest T sz b f : tame T sz b f -> honest_leaf (lift f).
Proof. intros H n c o _ E S. specialize (H c). unfold lift in E. rewrite E in H. apply H; auto. Qed.
Lemma tame_pos T sz b f : tame T sz b f -> pos_leaf sz (lift f).
Proof. intros H n c o e Hi E. specialize (H c). unfold lift in E. rewrite E in H.
  destruct H as (H1 & H2 & H3 & H4). split; [auto|split; [auto|]]. intros _ Hm. apply H4; auto. Qed.
Lemma tame_push T sz b f : tame T sz b f -> push_leaf (lift f).
Proof. intros H n c o E S. specialize (H c). unfold lift in E. rewrite E in H.
  destruct H as (_ & _ & _ & H). destruct (H S) as [(l & El & _) _]. exists l. auto. Qed.
Lemma tame_calm (T : Prop) sz f : T -> tame T sz true f -> calm_leaf sz (lift f).
Proof. intros HT H. split; [|split; [eapply tame_pos; eauto|]].
  - intros n c w Hi E. specialize (H c). unfold lift in E. rewrite E in H. apply H; auto.
  - intros n c o E S. specialize (H c). unfold lift in E. rewrite E in H.
    destruct H as (_ & _ & _ & H). destruct (H S) as [(l & El & Hl) _]. exists l. auto.
Qed.
Lemma tame_total T sz b f : tame T sz b f -> total_leaf (lift f).
Proof. intros H c. exists 0%nat. specialize (H c). unfold lift. intros E. rewrite E in H. auto. Qed.

Lemma lib_leaf_tame cls fn : lib_leaf cls fn -> exists sz b f, fn = lift f /\ tame False sz b f.
Proof. intros [H|H]; [apply (string_tame anyA False) in H; [|tauto]|apply object_tame in H]; destruct H as (f & ? & ?); eauto. Qed.

(** Library leaves as leaves of the contract classes. *)
Lemma lib_source T B e : gram (lib_spec lib_leaf T B) e -> gram source_spec e.
Proof. apply gram_weaken; simpl; unfold noBase, anyZ; auto; try tauto.
  intros cls fn H. apply lib_leaf_tame in H. destruct H as (sz & b & f & -> & H). eapply tame_source; eauto. Qed.
Lemma lib_honest T B e : gram (lib_spec lib_leaf T B) e -> gram honest_spec e.
Proof. apply gram_weaken; simpl; unfold noBase, anyZ; auto; try tauto.
  intros cls fn H. apply lib_leaf_tame in H. destruct H as (sz & b & f & -> & H). eapply tame_honest; eauto. Qed.
Lemma lib_push T B e : gram (lib_spec lib_leaf T B) e -> gram push_spec e.
Proof. apply gram_weaken; simpl; unfold noBase, anyZ; auto; try tauto.
  intros cls fn H. apply lib_leaf_tame in H. destruct H as (sz & b & f & -> & H). eapply tame_push; eauto. Qed.
Lemma string_pos T e : gram (lib_spec (string_leaf anyA) T forwardB) e -> gram (pos_spec str_size) e.
Proof. apply gram_weaken; simpl; unfold noBase; auto; try tauto.
  intros cls fn H. apply (string_tame anyA False) in H; [|tauto]. destruct H as (f & -> & H). eapply tame_pos; eauto. Qed.
Lemma object_pos T e : gram (lib_spec (object_leaf anyA) T forwardB) e -> gram (pos_spec obj_size) e.
Proof. apply gram_weaken; simpl; unfold noBase; auto; try tauto.
  intros cls fn H. apply object_tame in H. destruct H as (f & -> & H). eapply tame_pos; eauto. Qed.
Lemma string_calm e : gram (lib_spec (string_leaf (Forall typed)) calm_trans forwardB) e -> gram (calm_spec str_size) e.
Proof. apply gram_weaken; simpl; unfold noBase; auto; try tauto.
  intros cls fn H. apply (string_tame _ True) in H; [|auto]. destruct H as (f & -> & H). exact (tame_calm True _ _ I H). Qed.

(** Library transformers that meet the contract of C10. *)
Lemma typed_other op cls ty v sp : ty <> TString -> typed (mkAst op cls ty v sp).
Proof. intros H E. simpl in E. congruence. Qed.
Lemma typed_str op cls ty s sp : typed (mkAst op cls ty (VStr s) sp).
Proof. intros _. simpl. eauto. Qed.
Lemma calm_Erase : calm_trans Erase. Proof. intros n c l H. simpl. auto. Qed.
Lemma calm_TransformError s : calm_trans (TransformError s). Proof. intros n c l H. simpl. auto. Qed.
Lemma calm_Grouping : calm_trans GroupingTransform.
Proof. intros n c l H. simpl. repeat constructor. apply typed_other. discriminate. Qed.
Lemma calm_upd_first f : (forall a, typed a -> typed (f a)) -> calm_trans (fun _ _ l => tok (upd_first f l)).
Proof. intros Hf n c l H. simpl. destruct H; simpl; auto. Qed.
Lemma calm_SetOpCodeAndClassName op name : calm_trans (SetOpCodeAndClassName op name).
Proof. apply calm_upd_first. intros a H. exact H. Qed.
Lemma calm_SetOpCode op : calm_trans (SetOpCode op).
Proof. apply calm_upd_first. intros a H. exact H. Qed.
Lemma calm_ChangeClassName name : calm_trans (ChangeClassName name).
Proof. apply calm_upd_first. intros a H. exact H. Qed.
Lemma calm_SetValue ty v : (ty = TString -> exists s, v = VStr s) -> calm_trans (SetValue ty v).
Proof. intros Hv. apply calm_upd_first. intros a _. exact Hv. Qed.
Lemma calm_Prepend a : typed a -> calm_trans (Prepend a).
Proof. intros Ha n c l H. simpl. constructor; auto. destruct l; auto. Qed.
Lemma calm_Push a : typed a -> calm_trans (Push a).
Proof. intros Ha n c l H. simpl. apply Forall_app. split; auto. constructor; auto. destruct l; auto. Qed.
Lemma Forall_removelast {A} (P : A -> Prop) l : Forall P l -> Forall P (removelast l).
Proof. induction 1 as [|x l Hx Hl IH]; simpl; auto. destruct l; auto. Qed.
Lemma calm_Pop : calm_trans Pop.
Proof. intros n c l H. simpl. apply Forall_removelast; auto. Qed.
Lemma calm_Roll k : calm_trans (Roll k).
Proof. intros n c l H. unfold Roll. repeat match goal with |- context [if ?b then _ else _] => destruct b end; simpl; auto. Qed.

Lemma concat_loop_calm l : Forall typed l ->
  (exists s, concat_loop l = Ok (inr s)) \/ (exists e, concat_loop l = Ok (inl e)).
Proof.
  induction 1 as [|a l Ha Hl IH]; simpl; eauto. destruct (asttype_eqb (a_ty a) TString) eqn:E; eauto.
  assert (Et : a_ty a = TString) by (destruct (a_ty a); simpl in E; congruence). destruct (Ha Et) as [s ->]. simpl.
  destruct IH as [[t ->]|[e ->]]; eauto.
Qed.
Lemma concat_calm l : Forall typed l ->
  (exists op cls sp s, concat_asts l = Ok (inr [mkAst op cls TString (VStr s) sp])) \/ (exists e, concat_asts l = Ok (inl e)).
Proof.
  intros H. unfold concat_asts. destruct l as [|a l]; [left; do 4 eexists; reflexivity|].
  destruct (concat_loop_calm _ H) as [[s ->]|[e ->]]; [left; do 4 eexists; reflexivity|right; eexists; reflexivity].
Qed.
Lemma calm_Concat : calm_trans Concat.
Proof. intros n c l H. unfold Concat. destruct (concat_calm _ H) as [(op & cls & sp & s & ->)|[e ->]]; auto. repeat constructor. apply typed_str. Qed.
Lemma with_concat_calm l k : Forall typed l ->
  (forall op cls sp s, match k (mkAst op cls TString (VStr s) sp) s with Ok (inr l') => Forall typed l' | Panic _ => False | _ => True end) ->
  match with_concat l k with Ok (inr l') => Forall typed l' | Panic _ => False | _ => True end.
Proof.
  intros H Hk. unfold with_concat. destruct (concat_calm _ H) as [(op & cls & sp & s & ->)|[e ->]]; auto. simpl. apply Hk.
Qed.
Lemma calm_Trim : calm_trans Trim.
Proof. intros n c l H. apply with_concat_calm; auto. intros. repeat constructor. apply typed_str. Qed.
Lemma calm_TrimStart : calm_trans TrimStart.
Proof. intros n c l H. apply with_concat_calm; auto. intros. repeat constructor. apply typed_str. Qed.
Lemma calm_TrimEnd : calm_trans TrimEnd.
Proof. intros n c l H. apply with_concat_calm; auto. intros. repeat constructor. apply typed_str. Qed.
Lemma calm_ParseIntRadix base : calm_trans (ParseIntRadix base).
Proof.
  intros n c l H. apply with_concat_calm; auto. intros. destruct (parse_int s base); simpl; auto.
  repeat constructor. apply typed_other. discriminate.
Qed.
Lemma calm_ParseInt : calm_trans ParseInt. Proof. apply calm_ParseIntRadix. Qed.
Lemma calm_ParseFloat pf : calm_trans (ParseFloat pf).
Proof.
  intros n c l H. apply with_concat_calm; auto. intros. destruct (pf s); simpl; auto.
  repeat constructor. apply typed_other. discriminate.
Qed.

Lemma library_calm s op name a k base pf : typed a ->
  calm_trans Erase /\ calm_trans (TransformError s) /\ calm_trans GroupingTransform /\
  calm_trans (SetOpCodeAndClassName op name) /\ calm_trans (SetOpCode op) /\
  calm_trans (ChangeClassName name) /\ calm_trans (Prepend a) /\ calm_trans (Push a) /\
  calm_trans Pop /\ calm_trans (Roll k) /\ calm_trans Concat /\ calm_trans Trim /\
  calm_trans TrimStart /\ calm_trans TrimEnd /\ calm_trans (ParseIntRadix base) /\
  calm_trans (ParseFloat pf).
Proof.
  intros Ha. repeat split; auto using calm_Erase, calm_TransformError, calm_Grouping, calm_SetOpCodeAndClassName,
    calm_SetOpCode, calm_ChangeClassName, calm_Prepend, calm_Push, calm_Pop, calm_Roll, calm_Concat, calm_Trim,
    calm_TrimStart, calm_TrimEnd, calm_ParseIntRadix, calm_ParseFloat.
Qed.

Lemma mono_lift f : mono_parser (lift f).
Proof. intros n m c _. right. reflexivity. Qed.
Lemma string_total cls fn : string_leaf anyA cls fn -> pos_leaf str_size fn /\ total_leaf fn /\ mono_parser fn.
Proof.
  intros H. apply (string_tame anyA False) in H; [|tauto]. destruct H as (f & -> & H).
  split; [eapply tame_pos; eauto|split; [eapply tame_total; eauto|apply mono_lift]].
Qed.

Lemma one_seq env n e c c' : seq_runs (map (run env n) [e]) c c' -> run env n e c = Ok (c', None) /\ c_st c' = Matched.
Proof.
  intros H. inversion H as [|f fs c0 o c1 E Hm Hs]; subst. inversion Hs; subst. auto.
Qed.
Lemma char_consumes env n cls cls' test c o :
  run env n (ELight cls (lift (char_fn cls' test))) c = Ok (o, None) -> c_st o = Matched -> (c_pos c < c_pos o)%nat.
Proof.
  unfold run; cbn [denote]. unfold light_base_parser, lift, char_fn, with_rest, ret, push_str.
  destruct c as [str sl [pos len] q stk st cls0 tag]; cbn.
  repeat (leaf_split; cbn); intros E; inversion E; subst; cbn; intros; try discriminate.
  unfold c_pos. simpl. match goal with H : Nat.eqb _ 0 = false |- _ => apply Nat.eqb_neq in H end. lia.
Qed.

(** Decides [string_leaf]/[object_leaf]/[lib_leaf] goals about concrete leaves. *)
Ltac base_leaf_tac := first [apply bl_error | apply bl_unmatched | apply bl_start | apply bl_zero; repeat constructor].
Ltac string_leaf_tac := first [solve [apply sl_base; base_leaf_tac] | apply sl_any | apply sl_end | apply sl_seq
  | apply sl_seqi | apply sl_range | apply sl_rangeN | apply sl_class | apply sl_classN | apply sl_classfn
  | apply sl_ws | apply sl_wsn | apply sl_lb | apply sl_alpha | apply sl_number | apply sl_alnum | apply sl_bin
  | apply sl_oct | apply sl_hex | apply sl_wb | apply sl_uwb].
Ltac object_leaf_tac := first [solve [apply ol_base; base_leaf_tac] | apply ol_any | apply ol_end | apply ol_seq
  | apply ol_class | apply ol_classN | apply ol_classFn].
Ltac lib_tac := simpl; repeat match goal with
  | |- lib_leaf _ _ => first [left; string_leaf_tac | right; object_leaf_tac]
  | |- string_leaf _ _ _ => string_leaf_tac
  | |- object_leaf _ _ _ => object_leaf_tac
  | |- _ /\ _ => split
  | |- True => exact I
  | |- anyZ _ _ => exact I
  | |- anyR _ _ => exact I
  | |- anyI _ => exact I
  | |- anyT _ => exact I
  | |- anyA _ => exact I
  | |- forwardB _ _ => unfold forwardB; lia
  end.
