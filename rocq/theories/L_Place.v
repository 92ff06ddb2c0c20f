(** Both fields of the source positions left by a run (C44). *)
From Verif Require Import L_Text P_Core.
From Verif Require Export S_Place.

Lemma tiled_app s a l b : tiled s a l b -> forall l' c, tiled s b l' c -> tiled s a (l ++ l') c.
Proof.
  induction 1; simpl; intros; auto; [apply tiled_zero|eapply tiled_str|eapply tiled_group]; eauto.
Qed.

Lemma text_leaf_tiles w cls fn n cur o : text_leaf cls fn -> fn n (fresh w cur) = Ok (o, None) -> c_st o = Matched ->
  boundary (w_str w) (sp_pos cur) -> tiled (w_str w) cur (c_stack o) (c_sp o).
Proof.
  intros Hl E Hm Hb. destruct (text_leaf_moved w _ _ _ _ _ Hl E Hm Hb) as (A1 & A2 & A3).
  destruct cur as [p len]. cbn [sp_pos] in *.
  assert (S : (c_stack o = [] /\ c_sp o = mkSP p 0) \/
    exists v cls', c_stack o = [mkAst 0 cls' TString (VStr v) (mkSP p len)] /\ c_sp o = mkSP (p + length v) (length v)).
  { assert (K : forall cls f, lift (char_fn cls f) n (fresh w (mkSP p len)) = Ok (o, None) ->
      exists v cls', c_stack o = [mkAst 0 cls' TString (VStr v) (mkSP p len)] /\ c_sp o = mkSP (p + length v) (length v)).
    { unfold lift, char_fn, with_rest, ret, push_str, fresh. cbn. intros cls0 f E'. revert E'.
      destruct (Nat.leb _ _); [|discriminate]. destruct (decode_rune _) as [r l] eqn:D.
      destruct (Nat.eqb l 0) eqn:El; [intros E'; inversion E'; subst; discriminate|].
      destruct (f r); intros E'; inversion E'; subst; [|discriminate]. cbn in *. apply Nat.eqb_neq in El.
      destruct (boundary_char _ _ _ _ Hb D El) as (cs & t & Ec & Hc & ->). rewrite (encode_char _ _ Hc). eauto. }
    revert E. destruct Hl as [msg| | | | | |s Hs|fold s rs Hf Hs Hi|cc Hcc|cc|cls cls' test]; unfold lift, fresh; intros E.
    - discriminate.
    - inversion E; subst. discriminate.
    - left. unfold start_fn in E. cbn in E. destruct (Nat.eqb _ _); inversion E; subst; [auto|discriminate].
    - left. unfold end_fn, ret in E. cbn in E. destruct (Nat.eqb _ _); inversion E; subst; [auto|discriminate].
    - left. unfold word_boundary_fn, word_boundary_gen, with_rest, ret in E. cbn in E.
      repeat match type of E with
      | context [if ?b then _ else _] => destruct b
      | context [let '(_, _) := ?x in _] => destruct x
      end; inversion E; subst; first [discriminate Hm | split; reflexivity].
    - right. exact (K ":string:Any"%string (fun _ => true) E).
    - right. rewrite seq_fn_spec in E. unfold ret in E. cbn in E. destruct (has_prefix_at _ _ s); inversion E; subst; [|discriminate]. cbn. eauto.
    - right. rewrite seqi_fn_spec in E. unfold ret in E. cbn in E.
      destruct (Nat.leb _ _) eqn:El; [|simpl in E; inversion E; subst; discriminate]. simpl in E.
      destruct (equal_fold fold (length s) _ s) eqn:Ef; inversion E; subst; [|discriminate]. cbn. clear E.
      unfold c_pos in *. cbn in *. apply Nat.leb_le in El.
      exists (sub (w_str w) p (p + length s)). eexists. split; [reflexivity|].
      rewrite sub_length by lia. f_equal; lia.
    - right. unfold char_class_fn, ret in E. rewrite char_class_loop_spec in E. cbn in E. destruct (find _ cc) as [b|] eqn:F; inversion E; subst; [|discriminate]. cbn.
      apply find_some in F. destruct F as [_ F]. apply has_prefix_spec in F; [|exact (proj1 Hb)]. destruct F as [t F].
      unfold c_pos in F. cbn in F. rewrite F. replace (p + length b - p)%nat with (length b) by lia. rewrite firstn_len_app. eauto.
    - right. unfold char_classN_fn, ret in E. destruct (existsb _ cc); [inversion E; subst; discriminate|].
      exact (K ":string:CharClassN"%string (fun _ => true) E).
    - right. eapply K; eauto. }
  destruct S as [(S1 & S2)|(v & cls' & S1 & S2)]; rewrite S1, S2 in *; cbn [sp_pos] in *.
  - apply tiled_zero, tiled_nil.
  - assert (F : v = sub (w_str w) p (p + length v)).
    { remember (sub (w_str w) p (p + length v)) as z eqn:Ez. clear - A3.
      inversion A3 as [|op cl v' sp l0 s0 T|]; subst. inversion T; subst. symmetry. apply app_nil_r. }
    apply tiled_str with (t := skipn (p + length v) (w_str w)); [|constructor].
    rewrite F at 1. unfold sub. rewrite <- (firstn_skipn (p + length v - p) (skipn p (w_str w))) at 1. f_equal.
    rewrite skipn_skipn. f_equal. lia.
Qed.

Definition tiles (w : world) (a b : srcpos) (l : list ast) : Prop :=
  boundary (w_str w) (sp_pos a) -> boundary (w_str w) (sp_pos b) /\ tiled (w_str w) a l b.
Lemma tiles_kept w e cur cur' l : (forall k, gram place_spec (w_env w k)) -> gram place_spec e ->
  peg w e cur (RSucc cur' l) -> tiles w cur cur' l.
Proof.
  intros He Hg H. apply (peg_G w place_spec (tiles w)) with (e := e) (r := RSucc cur' l); auto.
  - intros a Hb. split; auto. constructor.
  - intros a b c l1 l2 H1 H2 Hb. destruct (H1 Hb) as (A1 & A2). destruct (H2 A1) as (B1 & B2).
    split; auto. eapply tiled_app; eauto.
  - intros cls fn n cur0 o Hl E Hm Hb. split.
    + apply (text_leaf_moved _ _ _ _ _ _ Hl E Hm Hb).
    + eapply text_leaf_tiles; eauto.
  - intros a b l1 H1 Hb. destruct (H1 Hb) as (A1 & A2). split; auto. eapply tiled_group; eauto. constructor.
  - intros t n c a b l1 l2 [].
Qed.
Lemma tiles_run env e n c o : (forall k, gram place_spec (env k)) -> gram place_spec e ->
  boundary (c_str c) (c_pos c) -> c_st c = Matched -> run env n e c = Ok (o, None) -> c_st o = Matched ->
  exists l, c_stack o = c_stack c ++ l /\ tiled (c_str c) (c_sp c) l (c_sp o).
Proof.
  intros He Hg Hb Hs E Hm. destruct (run_peg place_spec env e n c o) as (l & Hl & Hp); auto.
  - simpl. apply text_leaf_good.
  - simpl. tauto.
  - exists l. split; auto. apply (tiles_kept (mkW (c_str c) (c_slice c) (c_tag c) env) _ _ _ _ He Hg Hp Hb).
Qed.
