From Verif Require Export S_Match.
From Verif Require Import L_Obj.

Lemma same_float_iff x y : SFeqb x y = true <-> same_float x y.
Proof.
  rewrite SFeqb_spec. split.
  - destruct x, y; try contradiction; intros H; try constructor.
    + subst. constructor.
    + destruct H as (-> & -> & ->). constructor.
  - destruct 1; auto.
Qed.
Lemma list_eqb_iff {A} (f : A -> A -> bool) (R : A -> A -> Prop) l : Forall (fun x => forall y, f x y = true <-> R x y) l ->
  forall l', list_eqb f l l' = true <-> Forall2 R l l'.
Proof.
  induction 1 as [|x l Hx Hl IH]; intros [|y l']; cbn; try (split; [discriminate|intros H; inversion H]).
  - split; auto.
  - rewrite andb_true_iff, Hx, IH. split; [intros [? ?]; constructor; auto|intros H; inversion H; auto].
Qed.
Lemma Forall2_eq {A} (l l' : list A) : Forall2 eq l l' <-> l = l'.
Proof. split; [induction 1; congruence|intros ->; induction l'; constructor; auto]. Qed.

Lemma deep_iff : (forall v w, deep_eqb v w = true <-> deep_same v w) /\ (forall a b, deep_eqb_ast a b = true <-> ast_same a b).
Proof.
  apply ast_value_ind.
  1-7: intros; destruct w; cbn [deep_eqb]; try (split; [discriminate|intros H; inversion H; fail]).
  - split; constructor.
  - rewrite Z.eqb_eq. split; [intros ->; constructor|intros H; inversion H; auto].
  - rewrite Z.eqb_eq. split; [intros ->; constructor|intros H; inversion H; auto].
  - rewrite Z.eqb_eq. split; [intros ->; constructor|intros H; inversion H; auto].
  - rewrite same_float_iff. split; [constructor; auto|intros H; inversion H; auto].
  - rewrite Bool.eqb_true_iff. split; [intros ->; constructor|intros H; inversion H; auto].
  - rewrite bytes_eqb_iff. split; [intros ->; constructor|intros H; inversion H; auto].
  - intros a d Ha Hd w. destruct w; cbn [deep_eqb]; try (split; [discriminate|intros H; inversion H; fail]).
    rewrite andb_true_iff, Ha, Hd. split; [intros [? ?]; constructor; auto|intros H; inversion H; auto].
  - intros l Hl w. destruct w; cbn [deep_eqb]; try (split; [discriminate|intros H; inversion H; fail]).
    rewrite (list_eqb_iff _ ast_same) by exact Hl. split; [constructor; auto|intros H; inversion H; auto].
  - intros a Ha w. destruct w; cbn [deep_eqb]; try (split; [discriminate|intros H; inversion H; fail]).
    rewrite Ha. split; [constructor; auto|intros H; inversion H; auto].
  - intros l Hl w. destruct w; cbn [deep_eqb]; try (split; [discriminate|intros H; inversion H; fail]).
    rewrite (list_eqb_iff _ deep_same) by exact Hl. split; [constructor; auto|intros H; inversion H; auto].
  - intros l w. destruct w; cbn [deep_eqb]; try (split; [discriminate|intros H; inversion H; fail]).
    rewrite (list_eqb_iff _ eq) by (apply Forall_all; intros; apply bytes_eqb_iff). rewrite Forall2_eq.
    split; [intros ->; constructor|intros H; inversion H; auto].
  - intros l w. destruct w; cbn [deep_eqb]; try (split; [discriminate|intros H; inversion H; fail]).
    rewrite (list_eqb_iff _ eq); [|apply Forall_all; intros; rewrite (list_eqb_iff _ eq) by (apply Forall_all; intros; apply bytes_eqb_iff); apply Forall2_eq].
    rewrite Forall2_eq. split; [intros ->; constructor|intros H; inversion H; auto].
  - intros n w. destruct w; cbn [deep_eqb]; split; try discriminate; intros H; inversion H.
  - intros n w. destruct w; cbn [deep_eqb]; try (split; [discriminate|intros H; inversion H; fail]).
    rewrite Nat.eqb_eq. split; [intros ->; constructor|intros H; inversion H; auto].
  - intros o cls ty v p Hv [o' cls' ty' v' p']. cbn [deep_eqb_ast].
    rewrite !andb_true_iff, Z.eqb_eq, String.eqb_eq, asttype_eqb_eq, sp_eqb_eq, Hv.
    split; [intros ((((-> & ->) & ->) & H) & ->); constructor; auto|intros H; inversion H; subst; auto 10].
Qed.

Lemma top_val_iff l v : top_val l = Some v <-> top_value l v.
Proof.
  destruct l as [|a l] using rev_ind.
  - split; [discriminate|]. intros (l & b & H & _). destruct l; discriminate.
  - assert (E : top_val (l ++ [a]) = Some (a_val a)).
    { destruct l as [|b l]; [reflexivity|]. cbn. f_equal. f_equal. rewrite last_last. reflexivity. }
    rewrite E. split.
    + intros [= <-]. exists l, a. auto.
    + intros (l' & b & H & <-). apply app_inj_tail in H. destruct H as [_ ->]. reflexivity.
Qed.
Lemma existsb_iff {A} (f : A -> A -> bool) (R : A -> A -> Prop) x l : (forall y, f x y = true <-> R x y) ->
  existsb (f x) l = true <-> exists y, In y l /\ R x y.
Proof. intros H. rewrite existsb_exists. split; intros (y & H1 & H2); exists y; rewrite ?H in *; firstorder. Qed.

Lemma top_is {X} (mk : X -> value) (test : value -> bool) (f : X -> X -> bool) (R : X -> X -> Prop) v l (b : bool) :
  (b = true <-> exists w, top_val l = Some w /\ test w = true) ->
  (forall w, test w = true <-> exists x, w = mk x /\ existsb (f x) v = true) ->
  (forall x y, f x y = true <-> R x y) ->
  b = true <-> exists x y, top_value l (mk x) /\ In y v /\ R x y.
Proof.
  intros Hb Ht Hf. rewrite Hb. split.
  - intros (w & E & T). apply Ht in T. destruct T as (x & -> & T). apply (existsb_iff f R) in T; [|apply Hf].
    destruct T as (y & T1 & T2). exists x, y. rewrite <- top_val_iff. auto.
  - intros (x & y & T & H1 & H2). apply top_val_iff in T. eexists. split; [exact T|]. apply Ht. eexists. split; [reflexivity|].
    apply (existsb_iff f R); [apply Hf|]. exists y. auto.
Qed.
Ltac top_tac mk f R v l test :=
  apply (top_is mk test f R v l); [| |intros x y];
  [ unfold TopIsRune, TopIsInt, TopIsUint, TopIsFloat, TopIsBool, TopIsStr; destruct (top_val l) as [w|]; [|split; [discriminate|intros (w & E & _); discriminate E]];
    split; [intros H; exists w; split; [reflexivity|exact H]|intros (w' & E & H); injection E as <-; exact H]
  | intros w; cbv beta; destruct w; split; try discriminate; try (intros (x & E & H); try discriminate E; injection E as <-; exact H);
    intros H; eexists; split; [reflexivity|exact H] |].
Lemma top_rune : forall v l, TopIsRune v l = true <-> exists x y, top_value l (VRune x) /\ In y v /\ x = y.
Proof. intros v l. top_tac VRune Z.eqb (@eq Z) v l (fun w => match w with VRune s => existsb (Z.eqb s) v | _ => false end). apply Z.eqb_eq. Qed.
Lemma top_int : forall v l, TopIsInt v l = true <-> exists x y, top_value l (VInt x) /\ In y v /\ x = y.
Proof. intros v l. top_tac VInt Z.eqb (@eq Z) v l (fun w => match w with VInt s => existsb (Z.eqb s) v | _ => false end). apply Z.eqb_eq. Qed.
Lemma top_uint : forall v l, TopIsUint v l = true <-> exists x y, top_value l (VUint x) /\ In y v /\ x = y.
Proof. intros v l. top_tac VUint Z.eqb (@eq Z) v l (fun w => match w with VUint s => existsb (Z.eqb s) v | _ => false end). apply Z.eqb_eq. Qed.
Lemma top_float : forall v l, TopIsFloat v l = true <-> exists x y, top_value l (VFloat x) /\ In y v /\ same_float x y.
Proof. intros v l. top_tac VFloat SFeqb same_float v l (fun w => match w with VFloat s => existsb (SFeqb s) v | _ => false end). apply same_float_iff. Qed.
Lemma top_bool : forall v l, TopIsBool v l = true <-> exists x y, top_value l (VBool x) /\ In y v /\ x = y.
Proof. intros v l. top_tac VBool Bool.eqb (@eq bool) v l (fun w => match w with VBool s => existsb (Bool.eqb s) v | _ => false end). apply Bool.eqb_true_iff. Qed.
Lemma top_str : forall v l, TopIsStr v l = true <-> exists x y, top_value l (VStr x) /\ In y v /\ x = y.
Proof. intros v l. top_tac VStr bytes_eqb (@eq bytes) v l (fun w => match w with VStr s => existsb (bytes_eqb s) v | _ => false end). apply bytes_eqb_iff. Qed.
Lemma top_deep v l : TopIs v l = true <-> exists x y, top_value l x /\ In y v /\ deep_same x y.
Proof.
  unfold TopIs. destruct (top_val l) as [w|] eqn:E.
  - rewrite (existsb_iff _ deep_same) by apply deep_iff. split.
    + intros (y & H1 & H2). exists w, y. rewrite <- top_val_iff. auto.
    + intros (x & y & H & H1 & H2). apply top_val_iff in H. exists y. split; [auto|congruence].
  - split; [discriminate|]. intros (x & y & H & _). apply top_val_iff in H. congruence.
Qed.

Lemma chosen_find cases st cs : chosen cases st cs -> find (fun x => case_if x st) cases = Some cs.
Proof.
  intros (pre & post & -> & H & F). induction F as [|x pre Hx _ IH]; cbn; [rewrite H; reflexivity|]. rewrite Hx. exact IH.
Qed.
Lemma find_chosen cases st : match find (fun x => case_if x st) cases with
  | Some cs => chosen cases st cs
  | None => Forall (fun x => case_if x st = false) cases
  end.
Proof.
  induction cases as [|x cases IH]; cbn; [constructor|]. destruct (case_if x st) eqn:E.
  - exists [], cases. auto.
  - destruct (find (fun x => case_if x st) cases) as [cs|].
    + destruct IH as (pre & post & -> & H & F). exists (x :: pre), post. auto.
    + constructor; auto.
Qed.

(** The run of Match with the status and class name LightBaseParser adds. *)
Definition match_result (c : ctx) (st : status) (q : nat) (stack : list ast) : ctx :=
  mkCtx (c_str c) (c_slice c) (mkSP (c_pos c) 0) q stack st "Match" (c_tag c).
Lemma run_match env n m cases c :
  run env n (EMatch m cases) c =
  match find (fun cs => case_if cs (c_stack c)) cases with
  | None => Ok (match_result c Unmatched (c_qty c) (c_stack c), None)
  | Some cs =>
      if (Z.of_nat (length (c_stack c)) - m <? 0) || (Z.of_nat (length (c_stack c)) <? Z.of_nat (length (c_stack c)) - m)
      then Panic "slice bounds out of range"
      else
        let k := Z.to_nat (Z.of_nat (length (c_stack c)) - m) in
        match run_trans n (in_match c) (case_let cs) (skipn k (c_stack c)) with
        | Panic w => Panic w
        | Fuel => Fuel
        | Ok (inl e) => Ok (match_result c Errored (c_qty c) (c_stack c), Some e)
        | Ok (inr asts) => Ok (match_result c Matched 1 (firstn k (c_stack c) ++ asts), None)
        end
  end.
Proof.
  destruct c as [str sl [pos len] q stk st cls tag]. unfold run, EMatch. cbn [denote]. unfold light_base_parser, match_fn, in_match. cbn.
  destruct (find (fun cs => case_if cs stk) cases) as [cs|]; [|reflexivity].
  destruct ((Z.of_nat (length stk) - m <? 0) || (Z.of_nat (length stk) <? Z.of_nat (length stk) - m)); [reflexivity|].
  destruct (run_trans n _ (case_let cs) _) as [[e|asts]|w|]; reflexivity.
Qed.
