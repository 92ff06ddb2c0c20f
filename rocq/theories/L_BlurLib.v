(** Lemmas for C69: the parsers and transformers of the library do not look at positions. *)
From Verif Require Export L_Blur.

Ltac meet K := let Ks := fresh "Ks" in let Kl := fresh "Kl" in
  match type of K with csame ?c ?d => destruct c, d; destruct K as (? & Ks & ? & ? & Kl & ? & ? & ?); cbn in *; subst end.
Ltac same_out := repeat split; cbn; auto; try (apply lsame_app; [assumption|reflexivity]).

(** ** Leaf parsers *)
Lemma char_blind cls test : blind (lift (char_fn cls test)).
Proof.
  intros n c d K. meet K. unfold lift, char_fn, with_rest. cbn. unfold c_pos. cbn. destruct (_ <=? _)%nat; [|reflexivity].
  destruct (decode_rune _) as [ch k]. destruct (k =? 0)%nat; [cbn; same_out|]. destruct (test ch); cbn; same_out.
Qed.
Lemma class_blind cc : blind (lift (char_class_fn cc)).
Proof.
  intros n c d K. unfold lift, char_class_fn. cbn [osame ret]. split; auto. apply (csame_st _ _ Unmatched) in K. revert K. generalize (set_st c Unmatched), (set_st d Unmatched).
  clear. intros c d K. induction cc as [|s cc IH]; cbn [char_class_loop]; auto.
  assert (E : c_str c = c_str d) by (destruct K; auto). rewrite E, (c_pos_same _ _ K). destruct (has_prefix_at _ _ _); auto. meet K. same_out.
Qed.
Lemma classN_blind cc : blind (lift (char_classN_fn cc)).
Proof.
  intros n c d K. meet K. unfold lift, char_classN_fn, with_rest. cbn. unfold c_pos. cbn. destruct (existsb _ _); [cbn; same_out|].
  destruct (_ <=? _)%nat; [|reflexivity]. destruct (decode_rune _) as [ch k]. destruct (k =? 0)%nat; cbn; same_out.
Qed.
Lemma seq_blind s : blind (lift (seq_fn s)).
Proof.
  intros n c d K. meet K. unfold lift, seq_fn. cbn. unfold c_pos. cbn. destruct (_ <=? _)%nat; [|cbn; same_out].
  destruct (bytes_eqb _ _); cbn; same_out.
Qed.
Lemma seqi_blind fold s : blind (lift (seqi_fn fold s)).
Proof.
  intros n c d K. meet K. unfold lift, seqi_fn. cbn. unfold c_pos. cbn. destruct (_ <=? _)%nat; [|cbn; same_out].
  destruct (equal_fold _ _ _ _); cbn; same_out.
Qed.
Lemma any_blind : blind (lift any_fn).
Proof.
  intros n c d K. meet K. unfold lift, any_fn, with_rest. cbn. unfold c_pos. cbn. destruct (_ <=? _)%nat; [|reflexivity].
  destruct (decode_rune _) as [ch k]. destruct (k =? 0)%nat; cbn; same_out.
Qed.
Lemma end_blind : blind (lift end_fn).
Proof. intros n c d K. meet K. unfold lift, end_fn. cbn. unfold c_pos. cbn. destruct (_ =? _)%nat; cbn; same_out. Qed.
Lemma boundary_blind word : blind (lift (word_boundary_gen word)).
Proof.
  intros n c d K. meet K. unfold lift, word_boundary_gen, with_rest. cbn. unfold c_pos, c_len, set_len. cbn. destruct (_ <=? _)%nat; [|reflexivity].
  destruct (decode_rune _) as [ch k]. destruct (_ =? 0)%nat.
  { destruct (_ && _); cbn; same_out. }
  destruct (find_prev _ _) as [pch pk]. destruct (_ =? _)%nat.
  { destruct (_ && _); cbn; same_out. }
  destruct (_ && _); [|cbn; same_out]. destruct (_ || _); cbn; same_out.
Qed.
Lemma blur_set_asp l p : map blur (map (fun a => set_asp a p) l) = map blur l.
Proof. rewrite map_map. apply map_ext. intros []. reflexivity. Qed.
Lemma zero_blind l : blind (lift (zero_fn l)).
Proof. intros n c d K. meet K. cbn. same_out. Qed.
Lemma start_blind : blind (lift start_fn).
Proof. intros n c d K. meet K. unfold lift, start_fn. cbn. unfold c_pos. cbn. destruct (_ =? _)%nat; cbn; same_out. Qed.

Lemma run_trans_same n ts : Forall blind_tr ts -> forall c d l m, csame c d -> lsame l m -> tsame (run_trans n c ts l) (run_trans n d ts m).
Proof.
  induction 1 as [|t ts H F IH]; intros c d l m K L; cbn [run_trans]; [exact L|]. specialize (H n c d l m K L).
  destruct (t n c l) as [[e|l']|x|], (t n d m) as [[e'|m']|y|]; cbn in H; try contradiction; cbn; auto.
Qed.
Lemma match_blind n cases : Forall blind_case cases -> blind (match_fn n cases).
Proof.
  intros H fuel c d K. unfold match_fn. cbv zeta.
  assert (K1 : csame (set_st (set_len c 0) Unmatched) (set_st (set_len d 0) Unmatched)) by auto with blur.
  revert K1. generalize (set_st (set_len c 0) Unmatched), (set_st (set_len d 0) Unmatched). intros c1 d1 K1. rewrite (stack_len_same _ _ K), (stack_len_same _ _ K1).
  assert (E : find (fun cs => case_if cs (c_stack c1)) cases = find (fun cs => case_if cs (c_stack d1)) cases).
  { clear -H K1. induction H as [|x l [A _] F IH]; cbn; auto. rewrite (A _ _ (stack_same _ _ K1)), IH. reflexivity. }
  rewrite E. clear E. destruct (find (fun cs => case_if cs (c_stack d1)) cases) as [cs|] eqn:X; [|cbn; auto]. apply find_some in X as [X _]. rewrite Forall_forall in H. destruct (H _ X) as [_ T].
  destruct (_ || _); [exact eq_refl|]. set (k := Z.to_nat _).
  pose proof (run_trans_same fuel _ T c1 d1 _ _ K1 (lsame_skipn k _ _ (stack_same _ _ K1))) as R.
  destruct (run_trans fuel c1 _ _) as [[e|l]|x|], (run_trans fuel d1 _ _) as [[e'|m]|y|]; cbn in R; try contradiction; cbn; subst; auto with blur.
  split; auto. auto 7 with blur.
Qed.

(** ** Objects *)
Lemma nth_same l m i : map blur_v l = map blur_v m ->
  match nth_error l i, nth_error m i with Some x, Some y => vsame x y | None, None => True | _, _ => False end.
Proof.
  revert m i. induction l as [|x l IH]; intros [|y m] i H; try discriminate; destruct i; cbn; auto; injection H as A B; auto.
  apply (IH m i B).
Qed.
Lemma push_val_same cls ty c d v w k : csame c d -> vsame v w -> csame (push_val cls ty c v k) (push_val cls ty d w k).
Proof.
  intros K E. meet K. same_out. apply lsame_app; auto. unfold lsame. cbn. rewrite E. reflexivity.
Qed.
Lemma with_slice_same c d k k' : csame c d -> (forall s t, sl_same (Some s) (Some t) -> osame (k s) (k' t)) -> osame (with_slice c k) (with_slice d k').
Proof.
  intros K H. unfold with_slice. destruct K as (_ & S & _). destruct (c_slice c), (c_slice d); try contradiction; [auto|exact eq_refl].
Qed.
Lemma oany_blind : blind (lift obj_any_fn).
Proof.
  intros n c d K. unfold lift, obj_any_fn. cbv zeta. pose proof (csame_st _ _ Unmatched K) as K1. apply with_slice_same; auto. intros s t (A & _).
  rewrite (c_pos_same _ _ K1). pose proof (nth_same _ _ (c_pos (set_st d Unmatched)) A) as N.
  destruct (nth_error (sl_items s) _), (nth_error (sl_items t) _); try contradiction; cbn [osame]; split; auto. apply push_val_same; auto.
Qed.
Lemma oend_blind : blind (lift obj_end_fn).
Proof.
  intros n c d K. unfold lift, obj_end_fn. cbv zeta. pose proof (csame_st _ _ Unmatched K) as K1. apply with_slice_same; auto. intros s t (A & _).
  rewrite (c_pos_same _ _ K1). assert (E : length (sl_items s) = length (sl_items t)) by (rewrite <- (map_length blur_v (sl_items s)), A, map_length; auto). rewrite E.
  destruct (_ =? _)%nat; cbn; auto with blur.
Qed.
Lemma oclassfn_blind f : blind_item f -> blind (lift (obj_classFn_fn f)).
Proof.
  intros H n c d K. unfold lift, obj_classFn_fn. cbv zeta. pose proof (csame_st _ _ Unmatched K) as K1. apply with_slice_same; auto. intros s t (A & _).
  rewrite (c_pos_same _ _ K1). pose proof (nth_same _ _ (c_pos (set_st d Unmatched)) A) as N.
  destruct (nth_error (sl_items s) _), (nth_error (sl_items t) _); try contradiction; [|cbn; auto]. rewrite (H _ _ N). destruct (f _); cbn [osame]; split; auto. apply push_val_same; auto.
Qed.
Lemma leaf_blind p : library_leaf p -> blind p.
Proof.
  destruct 1; auto using char_blind, class_blind, classN_blind, seq_blind, seqi_blind, any_blind, end_blind, boundary_blind, zero_blind, start_blind,
    match_blind, oany_blind, oend_blind, oclassfn_blind.
  - intros n c d K. cbn. auto with blur.
  - intros n c d K. cbn. auto with blur.
Qed.

(** ** Conditions of Match *)
Lemma top_same l m : lsame l m -> match top_val l, top_val m with Some x, Some y => vsame x y | None, None => True | _, _ => False end.
Proof.
  intros H. destruct l as [|a l], m as [|b m]; try discriminate; [exact I|]. cbn [top_val]. injection H as A B.
  revert a b m A B. induction l as [|x l IH]; intros a b [|y m] A B; try discriminate.
  - cbn. destruct a, b. cbn in *. congruence.
  - injection B as B C. assert (L : forall z (u : list ast) w, last (z :: u) w = last u z) by (clear; intros z u; revert z; induction u; intros; auto; cbn in *; destruct u; auto).
    rewrite !L. apply IH; auto.
Qed.
Lemma vsame_cases v w : vsame v w -> v = w \/ (exists a b c d, v = VCons a b /\ w = VCons c d) \/ (exists l m, v = VAsts l /\ w = VAsts m) \/
  (exists a b, v = VAst a /\ w = VAst b) \/ (exists l m, v = VSlice l /\ w = VSlice m /\ map blur_v l = map blur_v m).
Proof.
  unfold vsame. destruct v, w; cbn; intros H; try discriminate; auto 10; try (left; congruence).
  - right. left. eauto 8.
  - right. right. left. eauto.
  - right. right. right. left. eauto.
  - right. right. right. right. injection H as H. eauto.
Qed.
Ltac if_blind := let l := fresh in let m := fresh in let H := fresh in intros l m H; apply top_same in H;
  destruct (top_val l), (top_val m); try contradiction; auto; apply vsame_cases in H as [->|[(?&?&?&?&->&->)|[(?&?&->&->)|[(?&?&->&->)|(?&?&->&->&?)]]]]; reflexivity.
Fixpoint deep_bare (x : value) : bare x -> forall v w, vsame v w -> deep_eqb v x = deep_eqb w x.
Proof.
  intros B v w H. destruct x as [| | | | | | |a b|l|a|l| | | |]; cbn in B; try contradiction;
    try (apply vsame_cases in H as [->|[(?&?&?&?&->&->)|[(?&?&->&->)|[(?&?&->&->)|(?&?&->&->&?)]]]]; reflexivity).
  apply vsame_cases in H as [->|[(?&?&?&?&->&->)|[(?&?&->&->)|[(?&?&->&->)|(p&q&->&->&E)]]]]; try reflexivity. cbn [deep_eqb].
  revert l B p q E. fix F 1. intros [|x l] B p q E; destruct p as [|y p], q as [|z q]; try discriminate; try reflexivity.
  injection E as E1 E2. cbn in B. destruct B as [B1 B2]. cbn. rewrite (deep_bare x B1 y z E1). f_equal. apply (F l B2 p q E2).
Qed.
Lemma if_blind_ok f : library_if f -> blind_if f.
Proof.
  destruct 1 as [v|v|v|v|v|v|v H|]; try (unfold TopIsRune, TopIsInt, TopIsUint, TopIsFloat, TopIsBool, TopIsStr; if_blind).
  - intros l m E. apply top_same in E. unfold TopIs. destruct (top_val l), (top_val m); try contradiction; auto.
    induction H as [|x v B F IH]; cbn; auto. rewrite IH, (deep_bare x B _ _ E). reflexivity.
Qed.

(** ** Transformers *)
Lemma blur_parts a b : blur a = blur b -> a_op a = a_op b /\ a_cls a = a_cls b /\ a_ty a = a_ty b /\ vsame (a_val a) (a_val b).
Proof. destruct a, b. cbn. intros H. injection H. unfold vsame. auto. Qed.
Lemma lsame_cases l m : lsame l m -> (l = [] /\ m = []) \/ exists a b l' m', l = a :: l' /\ m = b :: m' /\ blur a = blur b /\ lsame l' m'.
Proof. destruct l, m; intros H; try discriminate; auto. injection H as A B. right. repeat eexists; auto. Qed.
Lemma concat_loop_same l m : lsame l m -> concat_loop l = concat_loop m.
Proof.
  revert m. induction l as [|a l IH]; intros [|b m] H; try discriminate; auto. injection H as A B. cbn [concat_loop].
  destruct (blur_parts _ _ A) as (_ & _ & -> & V). destruct (asttype_eqb _ _); auto. rewrite (IH m B).
  apply vsame_cases in V as [->|[(?&?&?&?&->&->)|[(?&?&->&->)|[(?&?&->&->)|(?&?&->&->&?)]]]]; reflexivity.
Qed.
Lemma concat_same l m : lsame l m -> tsame (concat_asts l) (concat_asts m).
Proof.
  intros H. pose proof (concat_loop_same _ _ H) as C. apply lsame_cases in H as [(-> & ->)|(a & b & l' & m' & -> & -> & A & B)]; [exact eq_refl|].
  unfold concat_asts. rewrite C. clear C. destruct (concat_loop (b :: m')) as [[e|s]|x|]; cbn; auto. unfold lsame. cbn. destruct (blur_parts _ _ A) as (_ & -> & _). reflexivity.
Qed.
Lemma with_concat_same l m k : lsame l m -> (forall a b s, blur a = blur b -> tsame (k a s) (k b s)) -> tsame (with_concat l k) (with_concat m k).
Proof.
  intros H K. apply concat_same in H. unfold with_concat. destruct (concat_asts l) as [[e|r]|x|], (concat_asts m) as [[f|t]|y|]; cbn in H; try contradiction; cbn; auto.
  apply lsame_cases in H as [(-> & ->)|(a & b & l' & m' & -> & -> & A & B)]; [exact eq_refl|]. destruct (blur_parts _ _ A) as (_ & _ & _ & V).
  apply vsame_cases in V as [->|[(?&?&?&?&->&->)|[(?&?&->&->)|[(?&?&->&->)|(?&?&->&->&?)]]]]; try exact eq_refl.
  destruct (as_str _); [auto|exact eq_refl].
Qed.
Lemma set_val_same a b ty v : blur a = blur b -> blur (set_val a ty v) = blur (set_val b ty v).
Proof. intros H. destruct (blur_parts _ _ H) as (A & B & _). unfold set_val. rewrite A, B. reflexivity. Qed.
Lemma upd_same f l m : (forall a b, blur a = blur b -> blur (f a) = blur (f b)) -> lsame l m -> lsame (upd_first f l) (upd_first f m).
Proof.
  intros F H. apply lsame_cases in H as [(-> & ->)|(a & b & l' & m' & -> & -> & A & B)]; [exact eq_refl|]. unfold lsame in *. cbn. rewrite (F _ _ A), B. reflexivity.
Qed.
Lemma parts_blur op cls ty v w p q : vsame v w -> blur (mkAst op cls ty v p) = blur (mkAst op cls ty w q).
Proof. intros H. cbn. rewrite H. reflexivity. Qed.
Lemma set_all_same s t l m : (forall v w, vsame v w -> option_map blur_v (s v) = option_map blur_v (t w)) -> lsame l m ->
  option_map (map blur_v) (set_all s l) = option_map (map blur_v) (set_all t m).
Proof.
  intros H. revert m. induction l as [|a l IH]; intros [|b m] E; try discriminate; auto. injection E as A B. cbn [set_all].
  destruct (blur_parts _ _ A) as (_ & _ & _ & V). specialize (H _ _ V). specialize (IH m B).
  destruct (s (a_val a)), (t (a_val b)); try discriminate; auto. destruct (set_all s l), (set_all t m); try discriminate; auto. cbn in *. congruence.
Qed.
Lemma slice_blind : blind_tr ToSlice.
Proof.
  intros n c d l m (_ & S & _) H. unfold ToSlice. destruct (c_slice c) as [s|], (c_slice d) as [t|]; try contradiction; [|exact eq_refl]. destruct S as (_ & B & C).
  pose proof (set_all_same _ _ _ _ B H) as E.
  apply lsame_cases in H as [(-> & ->)|(a & b & l' & m' & -> & -> & A & H)].
  - cbn. unfold lsame. cbn. rewrite (C [] [] eq_refl). reflexivity.
  - destruct (set_all (sl_set s) (a :: l')), (set_all (sl_set t) (b :: m')); try discriminate; [|exact eq_refl]. injection E as E.
    cbn. unfold lsame. cbn. destruct (blur_parts _ _ A) as (_ & -> & _). rewrite (C _ _ E). reflexivity.
Qed.
Lemma blur_set a p : blur (set_asp a p) = blur a.
Proof. destruct a. reflexivity. Qed.
Lemma prepend_blind a : blind_tr (Prepend a).
Proof.
  intros n c d l m _ H. unfold Prepend, prepend_step. cbn. unfold lsame in *. cbn [map]. f_equal; auto.
  apply lsame_cases in H as [(-> & ->)|(x & b & l' & m' & -> & -> & _)]; rewrite ?blur_set; reflexivity.
Qed.
Lemma push_blind a : blind_tr (Push a).
Proof.
  intros n c d l m _ H. unfold Push, push_step. cbn. apply lsame_app; auto. unfold lsame. cbn [map]. f_equal.
  apply lsame_cases in H as [(-> & ->)|(x & b & l' & m' & -> & -> & _)]; rewrite ?blur_set; reflexivity.
Qed.
Lemma blur_removelast l : map blur (removelast l) = removelast (map blur l).
Proof. induction l as [|a l IH]; auto. destruct l; auto. cbn [map removelast] in *. rewrite IH. reflexivity. Qed.
Lemma set_index_len w i v : (length w <= i)%nat -> M_Trans.set_index w i v = None.
Proof. intros H. unfold M_Trans.set_index. destruct (Nat.ltb_spec i (length w)); [lia|reflexivity]. Qed.
Lemma exchange_panics n c l : (2 <= length l)%nat -> Exchange n c l = Panic "index out of range".
Proof.
  intros H. unfold Exchange. cbv zeta. destruct (Nat.leb_spec 2 (length l)); [|lia].
  destruct (nth_error l (length l - 1)); auto. destruct (nth_error l (length l - 2)); auto. rewrite set_index_len; auto. rewrite firstn_length. lia.
Qed.
Lemma exchange_blind : blind_tr Exchange.
Proof.
  intros n c d l m _ H. destruct (le_lt_dec 2 (length l)) as [G|G].
  - rewrite !exchange_panics; auto; [exact eq_refl|]. rewrite <- (lsame_length _ _ H). exact G.
  - unfold Exchange. rewrite <- (lsame_length _ _ H). destruct (Nat.leb_spec 2 (length l)); [lia|exact H].
Qed.
Lemma roll_blind k : blind_tr (Roll k).
Proof. intros n c d l m _ H. unfold Roll. rewrite (lsame_length _ _ H). destruct (0 <=? k), (_ <? _); exact H. Qed.
Ltac first_val := let n := fresh in let c := fresh in let d := fresh in let l := fresh in let m := fresh in let H := fresh in intros n c d l m _ H;
  apply lsame_cases in H as [(-> & ->)|(a & b & l' & m' & -> & -> & A & _)]; [exact eq_refl|]; destruct a, b; cbn in A; injection A as -> -> -> A; 
  apply vsame_cases in A as [->|[(?&?&?&?&->&->)|[(?&?&->&->)|[(?&?&->&->)|(?&?&->&->&?)]]]]; cbn; auto;
  match goal with |- context [match ?v with _ => _ end] => destruct v; reflexivity end.

(** ProductionRule *)
Lemma unAst_blur l : map blur (unAst l) = unAst (map blur_v l).
Proof. induction l as [|v l IH]; auto. destruct v; cbn; auto. rewrite IH. reflexivity. Qed.
Lemma ast_slice_same l m : lsame l m -> sl_same (Some (ast_slice l)) (Some (ast_slice m)).
Proof.
  intros H. cbn. repeat split.
  - rewrite !map_map. cbn. rewrite <- !(map_map blur VAst). unfold lsame in H. congruence.
  - intros v w E. apply vsame_cases in E as E'. destruct E' as [->|[(?&?&?&?&->&->)|[(?&?&->&->)|[(?&?&->&->)|(?&?&->&->&?)]]]]; auto. unfold vsame in E. cbn in *. congruence.
  - intros p q E. unfold vsame. cbn. rewrite !unAst_blur, E. reflexivity.
Qed.
Lemma obj_same l m t : lsame l m -> csame (new_object_ctx (ast_slice l) t) (new_object_ctx (ast_slice m) t).
Proof. intros H. unfold csame. cbn [c_slice new_object_ctx c_str c_sp c_qty c_stack c_st c_cls c_tag]. repeat (split; [try reflexivity; apply ast_slice_same; auto|]). reflexivity. Qed.
Definition ssame (x y : scan) : Prop :=
  match x, y with
  | SErr e, SErr f => e = f | SBad p, SBad q => p = q | SFuel, SFuel => True | SHit l, SHit m => lsame l m | SNone, SNone => True | _, _ => False end.
Lemma rules_same n rs c d l m p : Forall blind rs -> csame c d -> lsame l m -> ssame (try_rules n rs c l p) (try_rules n rs d m p).
Proof.
  intros H K L. induction H as [|r rs B F IH]; cbn [try_rules]; [exact I|]. specialize (B n _ _ (csame_pos _ _ p K)).
  destruct (r n (set_pos c p)) as [[o e]|x|], (r n (set_pos d p)) as [[o' e']|y|]; cbn in B; try contradiction; try (cbn; auto; fail).
  destruct B as [B ->]. destruct e'; [exact eq_refl|]. rewrite (st_same _ _ B), (c_pos_same _ _ B), (lsame_length _ _ L). destruct (c_st o'); auto.
  destruct (_ && _); cbn; auto. auto 6 with blur.
Qed.
Lemma positions_same n pr c d l m : blind_prec pr -> csame c d -> lsame l m -> forall k i, ssame (try_positions n pr c l i k) (try_positions n pr d m i k).
Proof.
  intros H K L. induction k as [|k IH]; intros i; cbn [try_positions]; [exact I|]. cbv zeta. rewrite (lsame_length _ _ L).
  set (p := if pr_rtol pr then _ else _). pose proof (rules_same n _ _ _ _ _ p H K L) as R.
  destruct (try_rules n _ c l p), (try_rules n _ d m p); cbn in R; try contradiction; auto.
Qed.
Lemma precedences_same n prs t l m : Forall blind_prec prs -> lsame l m -> ssame (try_precedences n prs t l) (try_precedences n prs t m).
Proof.
  intros H L. induction H as [|pr prs B F IH]; cbn [try_precedences]; [exact I|]. cbv zeta. rewrite (lsame_length _ _ L).
  pose proof (positions_same n pr _ _ _ _ B (obj_same _ _ t L) L (S (length m)) 0%nat) as R.
  destruct (try_positions n pr _ l 0 _), (try_positions n pr _ m 0 _); cbn in R; try contradiction; auto.
Qed.
Lemma prod_blind prs check : Forall blind_prec prs -> blind check -> blind_tr (ProductionRule prs check).
Proof.
  intros H C n c d l m (_ & _ & _ & _ & _ & _ & _ & T) L. unfold ProductionRule. rewrite T. generalize n at 2 4. intros k. clear c T. revert l m L.
  induction k as [|k IH]; intros l m L; cbn [production_loop]; [exact I|]. cbv zeta.
  pose proof (precedences_same n prs (c_tag d) l m H L) as R.
  destruct (try_precedences n prs (c_tag d) l) as [e|x| |a|], (try_precedences n prs (c_tag d) m) as [e'|x'| |a'|]; cbn in R; try contradiction; try (cbn; auto; fail).
  - specialize (C n _ _ (obj_same _ _ (c_tag d) R)).
    destruct (check n (new_object_ctx (ast_slice a) _)) as [[o e]|x|], (check n (new_object_ctx (ast_slice a') _)) as [[o' e']|y|]; cbn in C; try contradiction; try (cbn; auto; fail).
    destruct C as [C ->]. destruct e'; [apply IH; auto|]. rewrite (st_same _ _ C). destruct (c_st o'); cbn; auto.
  - specialize (C n _ _ (obj_same _ _ (c_tag d) L)).
    destruct (check n (new_object_ctx (ast_slice l) _)) as [[o e]|x|], (check n (new_object_ctx (ast_slice m) _)) as [[o' e']|y|]; cbn in C; try contradiction; try (cbn; auto; fail).
    destruct C as [C ->]. destruct e'; [exact eq_refl|]. rewrite (st_same _ _ C). destruct (c_st o'); cbn; auto.
Qed.

Lemma blur_rev l : map blur (rev l) = rev (map blur l).
Proof. apply map_rev. Qed.
Lemma pad_blind : blind_tr pad9.
Proof.
  intros n c d l m _ H. unfold pad9. assert (R : lsame (rev l) (rev m)) by (unfold lsame in *; rewrite !blur_rev, H; reflexivity).
  apply lsame_cases in R as [(-> & ->)|(a & b & l' & m' & -> & -> & A & _)]; [exact eq_refl|]. destruct (blur_parts _ _ A) as (_ & _ & _ & V).
  apply vsame_cases in V as [->|[(?&?&?&?&->&->)|[(?&?&->&->)|[(?&?&->&->)|(?&?&->&->&?)]]]]; try exact eq_refl. destruct (a_val b); exact eq_refl.
Qed.
Lemma last_text_same l m : lsame l m -> last_text l = last_text m.
Proof.
  intros H. apply top_same in H. destruct l as [|a l], m as [|b m]; cbn [top_val] in H; try contradiction; auto. cbn [last_text].
  apply vsame_cases in H as [->|[(?&?&?&?&->&->)|[(?&?&->&->)|[(?&?&->&->)|(?&?&->&->&?)]]]]; reflexivity.
Qed.
Lemma time_blind strict mk cls layout pre post : blind_tr (time_trans strict mk cls layout pre post).
Proof.
  intros n c d l m _ H. unfold time_trans. rewrite (last_text_same _ _ H). destruct (last_text m); cbn; auto. destruct (time_parse _ _ _); exact eq_refl.
Qed.

Lemma tr_blind t : library_tr t -> blind_tr t.
Proof.
  destruct 1; auto using slice_blind, prepend_blind, push_blind, exchange_blind, roll_blind, prod_blind, pad_blind, time_blind.
  - intros n c d l m _ H. exact eq_refl.
  - intros n c d l m _ H. exact eq_refl.
  - intros n c d l m _ H. cbn. unfold lsame in *. cbn. rewrite H. exact eq_refl.
  - intros n c d l m _ H. apply upd_same; auto. intros a b A. destruct (blur_parts _ _ A) as (_ & _ & -> & V). apply parts_blur. exact V.
  - intros n c d l m _ H. apply upd_same; auto. intros a b A. destruct (blur_parts _ _ A) as (_ & -> & -> & V). apply parts_blur. exact V.
  - intros n c d l m _ H. apply upd_same; auto. intros a b A. destruct (blur_parts _ _ A) as (-> & _ & -> & V). apply parts_blur. exact V.
  - intros n c d l m _ H. apply upd_same; auto. intros a b A. destruct (blur_parts _ _ A) as (-> & -> & _ & _). reflexivity.
  - intros n c d l m _ H. cbn. unfold lsame in *. rewrite !blur_removelast, H. exact eq_refl.
  - intros n c d l m _ H. apply concat_same. exact H.
  - intros n c d l m _ H. apply with_concat_same; auto. intros a b s A. cbn. unfold lsame. cbn [map]. f_equal. destruct (blur_parts _ _ A) as (_ & _ & -> & _). apply set_val_same; auto.
  - intros n c d l m _ H. apply with_concat_same; auto. intros a b s A. cbn. unfold lsame. cbn [map]. f_equal. destruct (blur_parts _ _ A) as (_ & _ & -> & _). apply set_val_same; auto.
  - intros n c d l m _ H. apply with_concat_same; auto. intros a b s A. cbn. unfold lsame. cbn [map]. f_equal. destruct (blur_parts _ _ A) as (_ & _ & -> & _). apply set_val_same; auto.
  - intros n c d l m _ H. apply with_concat_same; auto. intros a b' s A. destruct (parse_int _ _); cbn; auto. unfold lsame. cbn [map]. f_equal. apply set_val_same; auto.
  - intros n c d l m _ H. apply with_concat_same; auto. intros a b' [|x s] A; [exact eq_refl|]. destruct (parse_uint _ _); cbn; auto. unfold lsame. cbn [map]. f_equal. apply set_val_same; auto.
  - intros n c d l m _ H. apply with_concat_same; auto. intros a b' s A. destruct (pf _); cbn; auto. unfold lsame. cbn [map]. f_equal. apply set_val_same; auto.
  - first_val.
  - first_val.
  - first_val.
  - first_val.
Qed.
