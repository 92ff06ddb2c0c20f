(** Proofs about the object parsers, AST equality and production rules. *)
From Verif Require Export S_Obj L_Leaf.

(** ** C26 *)
Lemma item_or_end c sl : c_slice c = Some sl ->
  (exists v, item_at c sl v) \/ (no_item c sl /\ nth_error (sl_items sl) (c_pos c) = None).
Proof.
  intros H. destruct (nth_error (sl_items sl) (c_pos c)) as [v|] eqn:E; [left; exists v; split; auto|].
  right. split; auto. apply nth_error_None in E. auto.
Qed.
Lemma item_not_end c sl v : item_at c sl v -> ~ no_item c sl.
Proof. intros [_ H] N. apply nth_error_None in N. congruence. Qed.
Ltac obj_run := unfold run, OAny, OEnd, OSeq, OClass, OClassN, OClassFn; cbn [denote]; unfold light_base_parser, lift.
Lemma obj_any_ok env n c sl : c_slice c = Some sl ->
  exists o, run env n OAny c = Ok (o, None) /\
    ((exists v, item_at c sl v /\ takes_item ":object:Any" TAny v c o) \/ (no_item c sl /\ takes_no_item c o)).
Proof.
  intros Hs. obj_run. unfold obj_any_fn, with_slice; cbv zeta.
  change (c_slice (set_st c Unmatched)) with (c_slice c). change (c_pos (set_st c Unmatched)) with (c_pos c). rewrite Hs.
  destruct (item_or_end c sl Hs) as [[v Hv]|[Hv Hn]].
  - destruct Hv as [Hv1 Hv2]. rewrite Hv2. eexists. split; [reflexivity|]. left. exists v. split; [split; auto|]. repeat split.
  - rewrite Hn. eexists. split; [reflexivity|]. right. split; auto. repeat split.
Qed.
Lemma obj_end_ok env n c sl : c_slice c = Some sl ->
  exists o, run env n OEnd c = Ok (o, None) /\ c_stack o = c_stack c /\ c_pos o = c_pos c /\
    ((c_pos c = length (sl_items sl) /\ c_st o = Matched) \/ (c_pos c <> length (sl_items sl) /\ c_st o = Unmatched)).
Proof.
  intros Hs. obj_run. unfold obj_end_fn, with_slice; cbv zeta.
  change (c_slice (set_st c Unmatched)) with (c_slice c). change (c_pos (set_st c Unmatched)) with (c_pos c). rewrite Hs.
  destruct (Nat.eqb_spec (c_pos c) (length (sl_items sl))); eexists; (split; [reflexivity|]); repeat split; auto.
Qed.
Lemma obj_mem_spec sl w oc : comparable sl w oc ->
  exists b, obj_mem sl w oc = Some b /\ (b = true <-> is_one_of sl w oc).
Proof.
  unfold is_one_of. induction 1 as [|s oc Hs Hoc IH]; simpl.
  - exists false. split; auto. split; [discriminate|]. intros H. inversion H.
  - destruct (sl_eq sl w s) as [[|]|] eqn:E; [| |congruence].
    + exists true. split; auto. split; auto.
    + destruct IH as (b & -> & Hb). exists b. split; auto. rewrite Hb. split; [auto|].
      intros H. inversion H; subst; auto. congruence.
Qed.
Lemma obj_class_ok env n oc c sl : c_slice c = Some sl -> (forall v, item_at c sl v -> comparable sl v oc) ->
  exists o, run env n (OClass oc) c = Ok (o, None) /\
    ((exists v, item_at c sl v /\ is_one_of sl v oc /\ takes_item ":object:ObjClass" TAny v c o) \/
     ((no_item c sl \/ exists v, item_at c sl v /\ ~ is_one_of sl v oc) /\ takes_no_item c o)).
Proof.
  intros Hs Hc. obj_run. unfold obj_class_fn, with_slice; cbv zeta.
  change (c_slice (set_st c Unmatched)) with (c_slice c). change (c_pos (set_st c Unmatched)) with (c_pos c). rewrite Hs.
  destruct (item_or_end c sl Hs) as [[v Hv]|[Hv Hn]].
  - destruct (obj_mem_spec sl v oc (Hc v Hv)) as (b & Hb & Hi). pose proof Hv as [_ Hv2]. rewrite Hv2, Hb. destruct b.
    + eexists. split; [reflexivity|]. left. exists v. split; auto. split; [apply Hi; auto|]. repeat split.
    + eexists. split; [reflexivity|]. right. split; [|repeat split]. right. exists v. split; auto. rewrite <- Hi. discriminate.
  - rewrite Hn. eexists. split; [reflexivity|]. right. split; auto. repeat split.
Qed.
Lemma obj_classN_ok env n oc c sl : c_slice c = Some sl -> (forall v, item_at c sl v -> comparable sl v oc) ->
  exists o, run env n (OClassN oc) c = Ok (o, None) /\
    ((exists v, item_at c sl v /\ ~ is_one_of sl v oc /\ takes_item ":object:ObjClassN" TString v c o) \/
     ((no_item c sl \/ exists v, item_at c sl v /\ is_one_of sl v oc) /\ takes_no_item c o)).
Proof.
  intros Hs Hc. obj_run. unfold obj_classN_fn, with_slice; cbv zeta.
  change (c_slice (set_st c Unmatched)) with (c_slice c). change (c_pos (set_st c Unmatched)) with (c_pos c). rewrite Hs.
  destruct (item_or_end c sl Hs) as [[v Hv]|[Hv Hn]].
  - destruct (obj_mem_spec sl v oc (Hc v Hv)) as (b & Hb & Hi). pose proof Hv as [_ Hv2]. rewrite Hv2, Hb. destruct b.
    + eexists. split; [reflexivity|]. right. split; [|repeat split]. right. exists v. split; auto. apply Hi. auto.
    + eexists. split; [reflexivity|]. left. exists v. split; auto. split; [rewrite <- Hi; discriminate|]. repeat split.
  - rewrite Hn. eexists. split; [reflexivity|]. right. split; auto. repeat split.
Qed.
Lemma obj_classFn_ok env n f c sl : c_slice c = Some sl ->
  exists o, run env n (OClassFn f) c = Ok (o, None) /\
    ((exists v, item_at c sl v /\ f v = true /\ takes_item ":object:ObjClassFn" TAny v c o) \/
     ((no_item c sl \/ exists v, item_at c sl v /\ f v = false) /\ takes_no_item c o)).
Proof.
  intros Hs. obj_run. unfold obj_classFn_fn, with_slice; cbv zeta.
  change (c_slice (set_st c Unmatched)) with (c_slice c). change (c_pos (set_st c Unmatched)) with (c_pos c). rewrite Hs.
  destruct (item_or_end c sl Hs) as [[v Hv]|[Hv Hn]].
  - pose proof Hv as [_ Hv2]. rewrite Hv2. destruct (f v) eqn:E.
    + eexists. split; [reflexivity|]. left. exists v. split; auto. split; auto. repeat split.
    + eexists. split; [reflexivity|]. right. split; [eauto|]. repeat split.
  - rewrite Hn. eexists. split; [reflexivity|]. right. split; auto. repeat split.
Qed.
(** What Seq really does: it takes as many elements as it has arguments. *)
Lemma obj_seq_ok env n seq c sl : c_slice c = Some sl -> (forall x y, In y seq -> sl_eq sl x y <> None) ->
  exists o, run env n (OSeq seq) c = Ok (o, None) /\
    (((c_pos c + length seq <= length (sl_items sl))%nat /\ c_st o = Matched /\
       c_sp o = mkSP (c_pos c + length seq) (length seq) /\
       c_stack o = c_stack c ++ [mkAst 0 ":object:Seq" TListOfAny
          (sl_mk sl (firstn (length seq) (skipn (c_pos c) (sl_items sl)))) (c_sp c)]) \/
     ((length (sl_items sl) < c_pos c + length seq)%nat /\ takes_no_item c o)).
Proof.
  intros Hs Hc. obj_run. unfold obj_seq_fn, with_slice; cbv zeta.
  change (c_slice (set_st c Unmatched)) with (c_slice c). change (c_pos (set_st c Unmatched)) with (c_pos c). rewrite Hs.
  destruct (Nat.leb_spec (c_pos c + length seq) (length (sl_items sl))) as [L|L].
  - assert (T : forall w, obj_seq_loop sl w seq = true).
    { clear - Hc. induction seq as [|y seq IH]; intros [|x w]; simpl; auto.
      destruct (sl_eq sl x y) as [[|]|] eqn:E; auto; [|exfalso; apply (Hc x y); simpl; auto].
      apply IH. intros; apply Hc; simpl; auto. }
    rewrite T. eexists. split; [reflexivity|]. left. split; auto. split; [reflexivity|]. split; [reflexivity|].
    cbn. unfold sub. replace (c_pos c + length seq - c_pos c)%nat with (length seq) by lia. reflexivity.
  - eexists. split; [reflexivity|]. right. split; auto. repeat split.
Qed.

(** ** C27 *)
(** Induction over values and ASTs with their nested lists. *)
Section AstInd.
Variables (P : value -> Prop) (Q : ast -> Prop).
Hypothesis Hnil : P VNil.
Hypothesis Hrune : forall r, P (VRune r).
Hypothesis Hint : forall z, P (VInt z).
Hypothesis Huint : forall z, P (VUint z).
Hypothesis Hfloat : forall f, P (VFloat f).
Hypothesis Hbool : forall b, P (VBool b).
Hypothesis Hstr : forall s, P (VStr s).
Hypothesis Hcons : forall a d, Q a -> Q d -> P (VCons a d).
Hypothesis Hasts : forall l, Forall Q l -> P (VAsts l).
Hypothesis Hast : forall a, Q a -> P (VAst a).
Hypothesis Hslice : forall l, Forall P l -> P (VSlice l).
Hypothesis Hstrs : forall l, P (VStrs l).
Hypothesis Hstrss : forall l, P (VStrss l).
Hypothesis Hfunc : forall n, P (VFunc n).
Hypothesis Hother : forall n, P (VOther n).
Hypothesis Hmk : forall o cls ty v p, P v -> Q (mkAst o cls ty v p).
Fixpoint value_ind2 (v : value) : P v :=
  match v with
  | VNil => Hnil | VRune r => Hrune r | VInt z => Hint z | VUint z => Huint z | VFloat f => Hfloat f
  | VBool b => Hbool b | VStr s => Hstr s
  | VCons a d => Hcons a d (ast_ind2 a) (ast_ind2 d)
  | VAsts l => Hasts l ((fix go l : Forall Q l := match l with [] => Forall_nil _ | a :: l' => Forall_cons a (ast_ind2 a) (go l') end) l)
  | VAst a => Hast a (ast_ind2 a)
  | VSlice l => Hslice l ((fix go l : Forall P l := match l with [] => Forall_nil _ | a :: l' => Forall_cons a (value_ind2 a) (go l') end) l)
  | VStrs l => Hstrs l | VStrss l => Hstrss l | VFunc n => Hfunc n | VOther n => Hother n
  end
with ast_ind2 (a : ast) : Q a :=
  match a with mkAst o cls ty v p => Hmk o cls ty v p (value_ind2 v) end.
Lemma ast_value_ind : (forall v, P v) /\ (forall a, Q a).
Proof. split; [exact value_ind2|exact ast_ind2]. Qed.
End AstInd.

Lemma list_eqb_sym {A} (f : A -> A -> bool) l : (Forall (fun x => forall y, f x y = f y x) l) -> forall l', list_eqb f l l' = list_eqb f l' l.
Proof. induction 1 as [|x l Hx Hl IH]; intros [|y l']; simpl; auto. rewrite Hx, IH. auto. Qed.
Lemma list_eqb_trans {A} (f : A -> A -> bool) l : (Forall (fun x => forall y z, f x y = true -> f y z = true -> f x z = true) l) ->
  forall l' l'', list_eqb f l l' = true -> list_eqb f l' l'' = true -> list_eqb f l l'' = true.
Proof.
  induction 1 as [|x l Hx Hl IH]; intros [|y l'] [|z l'']; simpl; auto; try discriminate.
  rewrite !andb_true_iff. intros [H1 H2] [H3 H4]. split; eauto.
Qed.
Lemma list_eqb_refl {A} (f : A -> A -> bool) l : Forall (fun x => f x x = true) l -> list_eqb f l l = true.
Proof. induction 1; simpl; auto. rewrite H, IHForall. auto. Qed.
Lemma Forall_all {A} (P : A -> Prop) l : (forall x, P x) -> Forall P l.
Proof. intros H. apply Forall_forall. auto. Qed.

Lemma bytes_eqb_iff a : forall b, bytes_eqb a b = true <-> a = b.
Proof.
  induction a as [|x a IH]; intros [|y b]; simpl; try (split; [discriminate|congruence]); [tauto|].
  rewrite andb_true_iff, Z.eqb_eq, IH. split; [intros [-> ->]; auto|intros E; inversion E; auto].
Qed.
Lemma bool_iff_eq a b : (a = true <-> b = true) -> a = b.
Proof. destruct a, b; intuition congruence. Qed.
Lemma bytes_eqb_sym a b : bytes_eqb a b = bytes_eqb b a.
Proof. apply bool_iff_eq. rewrite !bytes_eqb_iff. split; auto. Qed.
Lemma bytes_eqb_trans a b c : bytes_eqb a b = true -> bytes_eqb b c = true -> bytes_eqb a c = true.
Proof. rewrite !bytes_eqb_iff. congruence. Qed.
Lemma asttype_eqb_eq a b : asttype_eqb a b = true <-> a = b.
Proof. split; [destruct a, b; simpl; congruence|intros ->; destruct b; reflexivity]. Qed.
Lemma asttype_eqb_sym a b : asttype_eqb a b = asttype_eqb b a.
Proof. destruct a, b; reflexivity. Qed.
Lemma sp_eqb_eq a b : sp_eqb a b = true <-> a = b.
Proof.
  destruct a, b. unfold sp_eqb. simpl. rewrite andb_true_iff, !Nat.eqb_eq. split; [intros [-> ->]; auto|intros E; inversion E; auto].
Qed.
Lemma sp_eqb_sym a b : sp_eqb a b = sp_eqb b a.
Proof. apply bool_iff_eq. rewrite !sp_eqb_eq. split; auto. Qed.
Lemma SFeqb_spec x y : SFeqb x y = true <->
  match x, y with
  | S754_zero _, S754_zero _ => True
  | S754_infinity a, S754_infinity b => a = b
  | S754_finite a m e, S754_finite b m' e' => a = b /\ m = m' /\ e = e'
  | _, _ => False
  end.
Proof.
  unfold SFeqb, SFcompare. destruct x as [a|a| |a m e], y as [b|b| |b m' e']; try destruct a; try destruct b; simpl;
    try (split; [discriminate|tauto]); try (split; [tauto|auto]; fail); try (split; auto; fail).
  all: try (split; [discriminate|intros; congruence]).
  all: try (split; [discriminate|intros [? ?]; congruence]).
  all: change (Pos.compare_cont Eq m m') with (Pos.compare m m').
  all: destruct (Z.compare_spec e e') as [->|?|?]; try (split; [discriminate|intros (_ & _ & ->); lia]).
  all: destruct (Pos.compare_spec m m') as [->|?|?]; simpl; try (split; [discriminate|intros (_ & -> & _); lia]); split; auto.
Qed.
Lemma SFeqb_sym x y : SFeqb x y = SFeqb y x.
Proof. apply bool_iff_eq. rewrite !SFeqb_spec. destruct x, y; intuition. Qed.
Lemma SFeqb_trans x y z : SFeqb x y = true -> SFeqb y z = true -> SFeqb x z = true.
Proof. rewrite !SFeqb_spec. destruct x, y, z; intuition congruence. Qed.
Lemma SFeqb_refl x : x <> S754_nan -> SFeqb x x = true.
Proof. rewrite SFeqb_spec. destruct x; auto. Qed.

Lemma deep_sym : (forall v w, deep_eqb v w = deep_eqb w v) /\ (forall a b, deep_eqb_ast a b = deep_eqb_ast b a).
Proof.
  apply ast_value_ind; intros; try (destruct w; simpl; auto; fail);
    try (destruct w; simpl; auto; first [apply Z.eqb_sym|apply Nat.eqb_sym|apply SFeqb_sym|apply bytes_eqb_sym|idtac]).
  - destruct b, b0; auto.
  - rewrite H, H0. auto.
  - apply list_eqb_sym. auto.
  - apply list_eqb_sym. auto.
  - apply list_eqb_sym. apply Forall_all. intros. apply bytes_eqb_sym.
  - apply list_eqb_sym. apply Forall_all. intros. apply list_eqb_sym. apply Forall_all. intros. apply bytes_eqb_sym.
  - destruct b as [o' cls' ty' v' p']. simpl. rewrite (Z.eqb_sym o), (String.eqb_sym cls), (asttype_eqb_sym ty), H, (sp_eqb_sym p). auto.
Qed.
Lemma deep_trans : (forall v w u, deep_eqb v w = true -> deep_eqb w u = true -> deep_eqb v u = true) /\
  (forall a b c, deep_eqb_ast a b = true -> deep_eqb_ast b c = true -> deep_eqb_ast a c = true).
Proof.
  apply ast_value_ind; intros;
    try (destruct w; try discriminate; destruct u; try discriminate; simpl in *; auto;
         rewrite ?Z.eqb_eq, ?Nat.eqb_eq in *; try congruence; eauto using SFeqb_trans, bytes_eqb_trans).
  - destruct b, b0, b1; auto.
  - rewrite andb_true_iff in *. destruct H1, H2. split; eauto.
  - eapply list_eqb_trans; [|eauto|eauto]. auto.
  - eapply list_eqb_trans; [|eauto|eauto]. auto.
  - eapply list_eqb_trans; [|eauto|eauto]. apply Forall_all. intros. eapply bytes_eqb_trans; eauto.
  - eapply list_eqb_trans; [|eauto|eauto]. apply Forall_all. intros x y z. apply list_eqb_trans. apply Forall_all. intros. eapply bytes_eqb_trans; eauto.
  - destruct b as [o' cls' ty' v' p'], c as [o'' cls'' ty'' v'' p'']. simpl in *.
    rewrite !andb_true_iff, !Z.eqb_eq, !String.eqb_eq, !asttype_eqb_eq, !sp_eqb_eq in *.
    decompose [and] H0. decompose [and] H1. repeat split; try congruence. eauto.
Qed.
Lemma deep_refl : (forall v, plain_value v -> deep_eqb v v = true) /\ (forall a, plain_value (a_val a) -> deep_eqb_ast a a = true).
Proof.
  apply ast_value_ind; intros; simpl; auto; try apply Z.eqb_refl; try apply Nat.eqb_refl;
    try match goal with |- context [sp_eqb] => fail 1 | H : plain_value _ |- _ => inversion H; subst; clear H end.
  - apply SFeqb_refl. auto.
  - destruct b; auto.
  - apply bytes_eqb_iff. auto.
  - rewrite H, H0; auto.
  - apply list_eqb_refl. rewrite Forall_forall in *. auto.
  - auto.
  - apply list_eqb_refl. rewrite Forall_forall in *. auto.
  - apply list_eqb_refl. apply Forall_all. intros. apply bytes_eqb_iff. auto.
  - apply list_eqb_refl. apply Forall_all. intros. apply list_eqb_refl. apply Forall_all. intros. apply bytes_eqb_iff. auto.
  - rewrite Z.eqb_refl, String.eqb_refl; simpl;
    replace (asttype_eqb ty ty) with true by (symmetry; apply asttype_eqb_eq; auto);
    replace (sp_eqb p p) with true by (symmetry; apply sp_eqb_eq; auto); rewrite andb_true_r; simpl; apply H; auto.
Qed.

Definition subs (v : value) (Q : ast -> Prop) : Prop :=
  match v with VCons a d => Q a /\ Q d | VAsts l => Forall Q l | _ => True end.
Lemma ast_tree_ind (Q : ast -> Prop) : (forall o cls ty v p, subs v Q -> Q (mkAst o cls ty v p)) -> forall a, Q a.
Proof.
  intros H. apply (proj2 (ast_value_ind (fun v => subs v Q) Q I (fun _ => I) (fun _ => I) (fun _ => I) (fun _ => I) (fun _ => I) (fun _ => I)
    (fun a d Ha Hd => conj Ha Hd) (fun l Hl => Hl) (fun _ _ => I) (fun _ _ => I) (fun _ => I) (fun _ => I) (fun _ => I) (fun _ => I)
    (fun o cls ty v p Hv => H o cls ty v p Hv))).
Qed.

Lemma eq_loop_sym l : Forall (fun x => forall y, ast_equals x y = ast_equals y x) l -> forall l', eq_loop ast_equals l l' = eq_loop ast_equals l' l.
Proof. induction 1 as [|x l Hx Hl IH]; intros [|y l']; simpl; auto. rewrite Hx, IH. auto. Qed.
Lemma equals_sym a : forall b, ast_equals a b = ast_equals b a.
Proof.
  induction a as [o cls ty v p Hv] using ast_tree_ind. intros [o' cls' ty' v' p']. cbn [ast_equals].
  rewrite (String.eqb_sym cls cls'), (asttype_eqb_sym ty ty').
  destruct (String.eqb cls' cls && asttype_eqb ty' ty) eqn:E; auto. apply andb_true_iff in E. destruct E as [_ E].
  apply asttype_eqb_eq in E. subst ty'. destruct ty; try (f_equal; apply (proj1 deep_sym)).
  - destruct v, v'; auto. simpl in Hv. destruct Hv as [H1 H2]. rewrite H1, H2. auto.
  - destruct v, v'; auto. simpl in Hv. rewrite (Nat.eqb_sym (length l)). destruct (Nat.eqb _ _); auto. apply eq_loop_sym. auto.
Qed.
Lemma and_then_true a b : and_then a b = Some true <-> a = Some true /\ b = Some true.
Proof. destruct a as [[|]|]; simpl; intuition congruence. Qed.
Lemma eq_loop_true l : forall l', length l = length l' -> (eq_loop ast_equals l l' = Some true <-> Forall2 (fun x y => ast_equals x y = Some true) l l').
Proof.
  induction l as [|x l IH]; intros [|y l'] Hl; simpl in *; try discriminate.
  - split; auto.
  - rewrite and_then_true, IH by lia. split; [intros []; constructor; auto|intros H; inversion H; auto].
Qed.
Lemma equals_true a b : ast_equals a b = Some true <->
  a_cls a = a_cls b /\ a_ty a = a_ty b /\
  match a_ty a with
  | TAstCons => match a_val a, a_val b with
                | VCons x y, VCons x' y' => ast_equals x x' = Some true /\ ast_equals y y' = Some true
                | _, _ => False end
  | TListOfAst => match a_val a, a_val b with
                | VAsts l, VAsts l' => Forall2 (fun x y => ast_equals x y = Some true) l l'
                | _, _ => False end
  | _ => deep_eqb (a_val a) (a_val b) = true
  end.
Proof.
  destruct a as [o cls ty v p], b as [o' cls' ty' v' p']. cbn [ast_equals a_cls a_ty a_val].
  destruct (String.eqb cls cls') eqn:E1; simpl.
  2:{ apply String.eqb_neq in E1. split; [discriminate|tauto]. }
  apply String.eqb_eq in E1. destruct (asttype_eqb ty ty') eqn:E2.
  2:{ split; [discriminate|]. intros (_ & -> & _). assert (asttype_eqb ty' ty' = true) by (apply asttype_eqb_eq; auto). congruence. }
  apply asttype_eqb_eq in E2. subst cls' ty'.
  assert (D : Some (deep_eqb v v') = Some true <-> cls = cls /\ ty = ty /\ deep_eqb v v' = true).
  { split; [intros H; inversion H; auto|intros (_ & _ & ->); auto]. }
  destruct ty; try exact D.
  - destruct v, v'; try (split; [discriminate|tauto]). rewrite and_then_true. tauto.
  - destruct v as [| | | | | | | |l| | | | | |], v' as [| | | | | | | |l'| | | | | |]; try (split; [discriminate|tauto]).
    destruct (Nat.eqb (length l) (length l')) eqn:L.
    + apply Nat.eqb_eq in L. rewrite eq_loop_true by auto. tauto.
    + apply Nat.eqb_neq in L. split; [discriminate|]. intros (_ & _ & H). exfalso. apply L. eapply Forall2_len; eauto.
Qed.
Lemma Forall2_trans' {A} (R : A -> A -> Prop) l : Forall (fun x => forall y z, R x y -> R y z -> R x z) l ->
  forall l' l'', Forall2 R l l' -> Forall2 R l' l'' -> Forall2 R l l''.
Proof.
  induction 1 as [|x l Hx Hl IH]; intros l' l'' H1 H2; inversion H1; subst; inversion H2; subst; constructor; eauto.
Qed.
Lemma equals_trans a : forall b c, ast_equals a b = Some true -> ast_equals b c = Some true -> ast_equals a c = Some true.
Proof.
  induction a as [o cls ty v p Hv] using ast_tree_ind. intros b c H1 H2. rewrite equals_true in *.
  destruct H1 as (A1 & A2 & A3), H2 as (B1 & B2 & B3). split; [congruence|]. split; [congruence|].
  cbn [a_ty a_val a_cls] in *. subst ty. destruct (a_ty b).
  all: try (eapply (proj1 deep_trans); eauto; fail).
  - destruct v, (a_val b); try tauto. destruct (a_val c); try tauto. simpl in Hv. destruct Hv as [V1 V2], A3, B3. split; eauto.
  - destruct v, (a_val b); try tauto. destruct (a_val c); try tauto. simpl in Hv. eapply Forall2_trans'; eauto.
Qed.
Lemma equals_refl a : well_tagged a -> ast_equals a a = Some true.
Proof.
  induction a as [o cls ty v p Hv] using ast_tree_ind. intros W. rewrite equals_true. cbn [a_ty a_val a_cls]. split; auto. split; auto.
  inversion W; subst.
  - simpl in Hv. destruct Hv. split; auto.
  - simpl in Hv. match goal with H : Forall well_tagged _ |- _ => revert H end. clear -Hv. induction Hv; intros H1; constructor; inversion H1; auto.
  - destruct ty; try congruence; apply (proj1 deep_refl); auto.
Qed.
Lemma alike_refl a : alike a a.
Proof. destruct a. constructor. Qed.
Lemma alike_equals a : forall a' b b', alike a a' -> alike b b' -> ast_equals a b = ast_equals a' b'.
Proof.
  assert (L : forall a a', alike a a' -> forall b, ast_equals a b = ast_equals a' b).
  { clear. induction a as [o cls ty v p Hv] using ast_tree_ind. intros a' H [ob clsb tyb vb pb]. inversion H; subst.
    - reflexivity.
    - simpl in Hv. destruct Hv as [V1 V2]. cbn [ast_equals]. destruct (String.eqb cls clsb && asttype_eqb TAstCons tyb); auto.
      destruct vb; auto. f_equal; [apply V1|apply V2]; auto.
    - simpl in Hv. cbn [ast_equals]. destruct (String.eqb cls clsb && asttype_eqb TListOfAst tyb); auto. destruct vb; auto.
      match goal with F : Forall2 alike ?l ?l' |- _ => rewrite (Forall2_len _ _ _ F); rename F into HF end.
      destruct (Nat.eqb _ _); auto. revert l0 Hv. induction HF as [|x y l l' Hx HF IH]; intros m Hv; simpl; auto.
      destruct m; auto. inversion Hv; subst. f_equal; auto. apply IH; auto. econstructor. eauto. }
  intros a' b b' Ha Hb. rewrite (L a a' Ha), (equals_sym a'), (L b b' Hb). apply equals_sym.
Qed.

(** ** C28: production rules *)
Definition ev (P : nat -> Prop) : Prop := exists n0, forall n, (n0 <= n)%nat -> P n.
Lemma ev_and P Q : ev P -> ev Q -> ev (fun n => P n /\ Q n).
Proof. intros [a Ha] [b Hb]. exists (Nat.max a b). intros n H. split; [apply Ha|apply Hb]; lia. Qed.
Lemma ev_imp (P Q : nat -> Prop) : (forall n, P n -> Q n) -> ev P -> ev Q.
Proof. intros H [a Ha]. exists a. auto. Qed.
Lemma ev_bounded (P : nat -> nat -> Prop) k : (forall i, (i < k)%nat -> ev (P i)) -> ev (fun n => forall i, (i < k)%nat -> P i n).
Proof.
  induction k; intros H. { exists 0%nat. intros. lia. }
  destruct (ev_and _ _ (IHk (fun i Hi => H i ltac:(lia))) (H k ltac:(lia))) as [a Ha].
  exists a. intros n Hn i Hi. destruct (Ha n Hn) as [A B]. destruct (Nat.eq_dec i k); [subst; auto|apply A; lia].
Qed.
Lemma gives_ev f c o err : mono_parser f -> gives f c o err -> ev (fun n => f n c = Ok (o, err)).
Proof.
  intros M [a Ha]. exists a. intros n Hn. destruct (M a n c Hn) as [E|E]; congruence.
Qed.
Lemma set_pos_at tag asts p : set_pos (new_object_ctx (ast_slice asts) tag) p = at_pos tag asts p.
Proof. reflexivity. Qed.
Definition Astc tag asts := new_object_ctx (ast_slice asts) tag.
Lemma try_rules_out n tag asts p : (p <= length asts)%nat -> forall rules,
  match try_rules n rules (Astc tag asts) asts p with
  | SNone => Forall (misses tag asts p) rules
  | SHit asts' => exists r1 rule r2, rules = r1 ++ rule :: r2 /\ Forall (misses tag asts p) r1 /\ hits tag asts p rule asts'
  | SErr e => exists r1 rule r2, rules = r1 ++ rule :: r2 /\ Forall (misses tag asts p) r1 /\ fails tag asts p rule e
  | _ => True
  end.
Proof.
  intros Hp. induction rules as [|rule rules IH]; simpl; auto. unfold Astc at 1. rewrite set_pos_at.
  destruct (rule n (at_pos tag asts p)) as [[o [e|]]|w|] eqn:E; auto.
  { exists [], rule, rules. split; auto. split; auto. exists o. exists n. auto. }
  destruct (c_st o) eqn:Es.
  - destruct (Nat.leb_spec p (length asts)); simpl; auto. destruct (Nat.leb_spec (c_pos o) (length asts)); auto.
    exists [], rule, rules. split; auto. split; auto. exists o. split; [exists n; auto|]. auto.
  - assert (Hm : misses tag asts p rule) by (exists o; split; [exists n; auto|congruence]).
    destruct (try_rules n rules (Astc tag asts) asts p); auto.
    + destruct IH as (r1 & r & r2 & -> & A & B). exists (rule :: r1), r, r2. auto.
    + destruct IH as (r1 & r & r2 & -> & A & B). exists (rule :: r1), r, r2. auto.
  - assert (Hm : misses tag asts p rule) by (exists o; split; [exists n; auto|congruence]).
    destruct (try_rules n rules (Astc tag asts) asts p); auto.
    + destruct IH as (r1 & r & r2 & -> & A & B). exists (rule :: r1), r, r2. auto.
    + destruct IH as (r1 & r & r2 & -> & A & B). exists (rule :: r1), r, r2. auto.
Qed.
Definition pos_of (pr : precedence) (len i : nat) : nat := if pr_rtol pr then (len - i)%nat else i.
Definition level_event tag pr asts (E : nat -> parser -> Prop) (i : nat) : Prop :=
  exists j r1 rule r2, (i <= j <= length asts)%nat /\
    (forall h, (i <= h < j)%nat -> quiet tag asts pr (pos_of pr (length asts) h)) /\
    pr_rules pr = r1 ++ rule :: r2 /\ Forall (misses tag asts (pos_of pr (length asts) j)) r1 /\ E (pos_of pr (length asts) j) rule.
Lemma pos_of_le pr len i : (i <= len)%nat -> (pos_of pr len i <= len)%nat.
Proof. unfold pos_of. destruct (pr_rtol pr); lia. Qed.
Lemma try_positions_out n pr tag asts : forall k i, (i + k <= S (length asts))%nat ->
  match try_positions n pr (Astc tag asts) asts i k with
  | SNone => forall h, (i <= h < i + k)%nat -> quiet tag asts pr (pos_of pr (length asts) h)
  | SHit asts' => level_event tag pr asts (fun p rule => hits tag asts p rule asts') i
  | SErr e => level_event tag pr asts (fun p rule => fails tag asts p rule e) i
  | _ => True
  end.
Proof.
  induction k as [|k IH]; intros i Hi; simpl. { intros; lia. }
  fold (pos_of pr (length asts) i).
  pose proof (try_rules_out n tag asts (pos_of pr (length asts) i) (pos_of_le pr (length asts) i ltac:(lia)) (pr_rules pr)) as H.
  destruct (try_rules n (pr_rules pr) (Astc tag asts) asts (pos_of pr (length asts) i)); auto.
  - destruct H as (r1 & r & r2 & A & B & D). exists i, r1, r, r2. repeat split; auto; intros; lia.
  - destruct H as (r1 & r & r2 & A & B & D). exists i, r1, r, r2. repeat split; auto; intros; lia.
  - specialize (IH (S i) ltac:(lia)). destruct (try_positions n pr (Astc tag asts) asts (S i) k); auto.
    + destruct IH as (j & r1 & r & r2 & A & B & D). exists j, r1, r, r2. split; [lia|]. split; auto.
      intros h Hh. destruct (Nat.eq_dec h i); [subst; exact H|apply B; lia].
    + destruct IH as (j & r1 & r & r2 & A & B & D). exists j, r1, r, r2. split; [lia|]. split; auto.
      intros h Hh. destruct (Nat.eq_dec h i); [subst; exact H|apply B; lia].
    + intros h Hh. destruct (Nat.eq_dec h i); [subst; exact H|apply IH; lia].
Qed.
Lemma pos_of_inv pr len q : (q <= len)%nat -> exists h, (h <= len)%nat /\ q = pos_of pr len h.
Proof.
  intros H. unfold pos_of. destruct (pr_rtol pr); [exists (len - q)%nat|exists q]; split; lia.
Qed.
Lemma scanned_iff pr len h j : (h <= len)%nat -> (j <= len)%nat -> (scanned_before pr (pos_of pr len h) (pos_of pr len j) <-> (h < j)%nat).
Proof. unfold scanned_before, pos_of. destruct (pr_rtol pr); lia. Qed.
Lemma level_first tag before pr after asts E :
  Forall (fun q => forall i, (i <= length asts)%nat -> quiet tag asts q i) before ->
  level_event tag pr asts E 0 -> first_event tag (before ++ pr :: after) asts E.
Proof.
  intros Hb (j & r1 & rule & r2 & Hj & Hq & Hr & Hm & HE).
  exists before, pr, after, (pos_of pr (length asts) j), r1, rule, r2. repeat split; auto.
  - apply pos_of_le. lia.
  - intros q Hql Hs. destruct (pos_of_inv pr (length asts) q Hql) as (h & Hh & ->).
    apply scanned_iff in Hs; try lia. apply Hq. lia.
Qed.
Lemma first_event_cons tag pr prs asts E :
  (forall i, (i <= length asts)%nat -> quiet tag asts pr i) -> first_event tag prs asts E -> first_event tag (pr :: prs) asts E.
Proof.
  intros Hq (b & pr' & a & p & r1 & r & r2 & -> & H). exists (pr :: b), pr', a, p, r1, r, r2. split; auto.
  destruct H as (Hb & H). split; [constructor; auto|auto].
Qed.
Lemma try_precedences_out n tag asts : forall prs,
  match try_precedences n prs tag asts with
  | SNone => normal_form tag prs asts
  | SHit asts' => rewrites tag prs asts asts'
  | SErr e => raises tag prs asts e
  | _ => True
  end.
Proof.
  induction prs as [|pr prs IH]; cbn [try_precedences]; [constructor|].
  pose proof (try_positions_out n pr tag asts (S (length asts)) 0 (le_n _)) as H. fold (Astc tag asts).
  destruct (try_positions n pr (Astc tag asts) asts 0 (S (length asts))); auto.
  - apply (level_first tag [] pr prs); auto.
  - apply (level_first tag [] pr prs); auto.
  - assert (Hq : forall i, (i <= length asts)%nat -> quiet tag asts pr i).
    { intros i Hi. destruct (pos_of_inv pr (length asts) i Hi) as (h & Hh & ->). apply H. lia. }
    destruct (try_precedences n prs tag asts); auto.
    + apply first_event_cons; auto.
    + apply first_event_cons; auto.
    + constructor; auto.
Qed.
Lemma check_accepted n tag check asts o : check n (Astc tag asts) = Ok (o, None) -> c_st o = Matched -> accepted tag check asts.
Proof. intros. exists o. split; auto. exists n. auto. Qed.
Lemma check_rejected n tag check asts o err : check n (Astc tag asts) = Ok (o, err) -> err <> None \/ c_st o <> Matched -> rejected tag check asts.
Proof. intros. exists o, err. split; auto. exists n. auto. Qed.
Lemma production_sound n prs check tag : forall k asts r, production_loop n k prs check tag asts = Ok r -> reduces tag prs check asts r.
Proof.
  induction k as [|k IH]; intros asts r H; cbn [production_loop] in H; [discriminate|].
  pose proof (try_precedences_out n tag asts prs) as T.
  destruct (try_precedences n prs tag asts) as [e|w| |asts'|].
  - inversion H. apply red_error. auto.
  - discriminate.
  - discriminate.
  - fold (Astc tag asts') in H. destruct (check n (Astc tag asts')) as [[o [e|]]|w|] eqn:E; try discriminate.
    + eapply red_again; eauto. eapply check_rejected; eauto. left. congruence.
    + destruct (c_st o) eqn:Es.
      * inversion H. apply red_accept; auto. eapply check_accepted; eauto.
      * eapply red_again; eauto. eapply check_rejected; eauto. right. congruence.
      * eapply red_again; eauto. eapply check_rejected; eauto. right. congruence.
  - fold (Astc tag asts) in H. destruct (check n (Astc tag asts)) as [[o [e|]]|w|] eqn:E; try discriminate.
    + inversion H. apply red_stuck; auto. eapply check_rejected; eauto. left. congruence.
    + destruct (c_st o) eqn:Es; inversion H.
      * apply red_normal; auto. eapply check_accepted; eauto.
      * apply red_stuck; auto. eapply check_rejected; eauto. right. congruence.
      * apply red_stuck; auto. eapply check_rejected; eauto. right. congruence.
Qed.

(** Completeness. *)
Lemma misses_ev tag asts p rules rest : allP mono_parser rules -> Forall (misses tag asts p) rules ->
  ev (fun n => try_rules n (rules ++ rest) (Astc tag asts) asts p = try_rules n rest (Astc tag asts) asts p).
Proof.
  intros M H. induction H as [|rule rules (o & Hg & Hs) Hr IH]; simpl. { exists 0%nat; auto. }
  simpl in M. destruct M as [M1 M]. pose proof (ev_and _ _ (gives_ev _ _ _ _ M1 Hg) (IH M)) as V.
  eapply ev_imp; [|exact V]. intros n [A B]. unfold Astc at 1. rewrite set_pos_at, A, B. destruct (c_st o); congruence.
Qed.
Lemma quiet_ev tag asts pr p : mono_prec pr -> quiet tag asts pr p ->
  ev (fun n => try_rules n (pr_rules pr) (Astc tag asts) asts p = SNone).
Proof.
  intros M H. pose proof (misses_ev tag asts p (pr_rules pr) [] M H) as V. rewrite app_nil_r in V. exact V.
Qed.
Lemma level_quiet_ev tag asts pr : mono_prec pr -> (forall i, (i <= length asts)%nat -> quiet tag asts pr i) ->
  ev (fun n => try_positions n pr (Astc tag asts) asts 0 (S (length asts)) = SNone).
Proof.
  intros M H.
  assert (V : ev (fun n => forall i, (i < S (length asts))%nat -> try_rules n (pr_rules pr) (Astc tag asts) asts (pos_of pr (length asts) i) = SNone)).
  { apply ev_bounded. intros i Hi. apply quiet_ev; auto. apply H. apply pos_of_le. lia. }
  eapply ev_imp; [|exact V]. intros n Hn. clear - Hn.
  assert (G : forall k i, (i + k <= S (length asts))%nat -> try_positions n pr (Astc tag asts) asts i k = SNone).
  { induction k; intros i Hi; simpl; auto. fold (pos_of pr (length asts) i). rewrite Hn by lia. apply IHk. lia. }
  apply G. lia.
Qed.
Lemma level_event_ev tag asts pr p r1 rule r2 s :
  mono_prec pr -> (p <= length asts)%nat ->
  (forall q, (q <= length asts)%nat -> scanned_before pr q p -> quiet tag asts pr q) ->
  pr_rules pr = r1 ++ rule :: r2 -> Forall (misses tag asts p) r1 ->
  ev (fun n => try_rules n (rule :: r2) (Astc tag asts) asts p = s) -> s <> SNone ->
  ev (fun n => try_positions n pr (Astc tag asts) asts 0 (S (length asts)) = s).
Proof.
  intros M Hp Hq Hr Hm He Hs. destruct (pos_of_inv pr (length asts) p Hp) as (j & Hj & ->).
  assert (V : ev (fun n => forall i, (i < j)%nat -> try_rules n (pr_rules pr) (Astc tag asts) asts (pos_of pr (length asts) i) = SNone)).
  { apply ev_bounded. intros i Hi. apply quiet_ev; auto. apply Hq. apply pos_of_le. lia. apply scanned_iff; lia. }
  assert (M1 : allP mono_parser r1).
  { unfold mono_prec in M. rewrite Hr in M. clear - M. induction r1; simpl in *; tauto. }
  eapply ev_imp; [|exact (ev_and _ _ V (ev_and _ _ He (misses_ev _ _ _ r1 (rule :: r2) M1 Hm)))].
  intros n (A & B & D). rewrite <- Hr, B in D. clear - A D Hj Hs.
  assert (G : forall k i, (i <= j)%nat -> (j < i + k)%nat -> try_positions n pr (Astc tag asts) asts i k = s).
  { induction k; intros i H1 H2; simpl; [lia|]. fold (pos_of pr (length asts) i). destruct (Nat.eq_dec i j).
    - subst i. rewrite D. destruct s; congruence.
    - rewrite A by lia. apply IHk; lia. }
  apply G; lia.
Qed.
Lemma precs_quiet_ev tag asts prs rest : allP mono_prec prs ->
  Forall (fun q => forall i, (i <= length asts)%nat -> quiet tag asts q i) prs ->
  ev (fun n => try_precedences n (prs ++ rest) tag asts = try_precedences n rest tag asts).
Proof.
  intros M H. induction H as [|pr prs Hq H IH]; [exists 0%nat; auto|]. simpl in M. destruct M as [M1 M].
  eapply ev_imp; [|exact (ev_and _ _ (level_quiet_ev tag asts pr M1 Hq) (IH M))].
  intros n [A B]. cbn [app try_precedences]. fold (Astc tag asts). rewrite A. exact B.
Qed.
Lemma event_ev tag prs asts (E : nat -> parser -> Prop) s : allP mono_prec prs -> s <> SNone ->
  (forall p rule r2, (p <= length asts)%nat -> mono_parser rule -> E p rule -> ev (fun n => try_rules n (rule :: r2) (Astc tag asts) asts p = s)) ->
  first_event tag prs asts E -> ev (fun n => try_precedences n prs tag asts = s).
Proof.
  intros M Hs HE (b & pr & a & p & r1 & rule & r2 & -> & Hb & Hp & Hq & Hr & Hm & H).
  assert (Mb : allP mono_prec b) by (clear - M; induction b; simpl in *; tauto).
  assert (Mp : mono_prec pr) by (clear - M; induction b; simpl in *; tauto).
  assert (Mr : mono_parser rule) by (unfold mono_prec in Mp; rewrite Hr in Mp; clear - Mp; induction r1; simpl in *; tauto).
  pose proof (level_event_ev tag asts pr p r1 rule r2 s Mp Hp Hq Hr Hm (HE p rule r2 Hp Mr H) Hs) as V.
  eapply ev_imp; [|exact (ev_and _ _ V (precs_quiet_ev tag asts b (pr :: a) Mb Hb))].
  intros n [A B]. rewrite B. cbn [try_precedences]. fold (Astc tag asts). rewrite A. destruct s; congruence.
Qed.
Lemma rewrites_ev tag prs asts asts' : allP mono_prec prs -> rewrites tag prs asts asts' ->
  ev (fun n => try_precedences n prs tag asts = SHit asts').
Proof.
  intros M H. eapply event_ev; eauto; [discriminate|]. cbv beta.
  intros p rule r2 Hp Mr (o & Hg & Hst & Hl & ->). eapply ev_imp; [|exact (gives_ev _ _ _ _ Mr Hg)].
  intros n Hn. cbn [try_rules]. unfold Astc. rewrite set_pos_at, Hn, Hst.
  replace (Nat.leb p (length asts)) with true by (symmetry; apply Nat.leb_le; auto).
  replace (Nat.leb (c_pos o) (length asts)) with true by (symmetry; apply Nat.leb_le; auto). reflexivity.
Qed.
Lemma raises_ev tag prs asts e : allP mono_prec prs -> raises tag prs asts e ->
  ev (fun n => try_precedences n prs tag asts = SErr e).
Proof.
  intros M H. eapply event_ev; eauto; [discriminate|]. cbv beta.
  intros p rule r2 Hp Mr (o & Hg). eapply ev_imp; [|exact (gives_ev _ _ _ _ Mr Hg)].
  intros n Hn. cbn [try_rules]. unfold Astc. rewrite set_pos_at, Hn. reflexivity.
Qed.
Lemma normal_ev tag prs asts : allP mono_prec prs -> normal_form tag prs asts ->
  ev (fun n => try_precedences n prs tag asts = SNone).
Proof. intros M H. pose proof (precs_quiet_ev tag asts prs [] M H) as V. rewrite app_nil_r in V. exact V. Qed.
Lemma accepted_ev tag check asts : mono_parser check -> accepted tag check asts ->
  ev (fun n => exists o, check n (Astc tag asts) = Ok (o, None) /\ c_st o = Matched).
Proof. intros M (o & Hg & Hs). eapply ev_imp; [|exact (gives_ev _ _ _ _ M Hg)]. intros n Hn. exists o. auto. Qed.
Lemma rejected_ev tag check asts : mono_parser check -> rejected tag check asts ->
  ev (fun n => exists o err, check n (Astc tag asts) = Ok (o, err) /\ (err <> None \/ c_st o <> Matched)).
Proof. intros M (o & err & Hg & Hs). eapply ev_imp; [|exact (gives_ev _ _ _ _ M Hg)]. intros n Hn. exists o, err. auto. Qed.
Lemma production_complete prs check tag : allP mono_prec prs -> mono_parser check ->
  forall asts r, reduces tag prs check asts r ->
  exists n0, forall n k, (n0 <= n)%nat -> (n0 <= k)%nat -> production_loop n k prs check tag asts = Ok r.
Proof.
  intros Mp Mc asts r H. induction H as [asts asts' Hr Ha|asts asts' r Hr Hj _ IH|asts e He|asts Hn Ha|asts Hn Hj].
  - destruct (ev_and _ _ (rewrites_ev _ _ _ _ Mp Hr) (accepted_ev _ _ _ Mc Ha)) as [a V]. exists (S a). intros n k Hn Hk.
    destruct k; [lia|]. destruct (V n ltac:(lia)) as (A & o & B & D). cbn [production_loop]. rewrite A. fold (Astc tag asts'). rewrite B, D. reflexivity.
  - destruct (ev_and _ _ (rewrites_ev _ _ _ _ Mp Hr) (rejected_ev _ _ _ Mc Hj)) as [a V]. destruct IH as [b W]. exists (S (Nat.max a b)). intros n k Hn Hk.
    destruct k; [lia|]. destruct (V n ltac:(lia)) as (A & o & err & B & D). cbn [production_loop]. rewrite A. fold (Astc tag asts'). rewrite B.
    destruct err; [apply W; lia|]. destruct (c_st o); try (apply W; lia). destruct D; congruence.
  - destruct (raises_ev _ _ _ _ Mp He) as [a V]. exists (S a). intros n k Hn Hk. destruct k; [lia|]. cbn [production_loop]. rewrite V by lia. reflexivity.
  - destruct (ev_and _ _ (normal_ev _ _ _ Mp Hn) (accepted_ev _ _ _ Mc Ha)) as [a V]. exists (S a). intros n k Hn' Hk.
    destruct k; [lia|]. destruct (V n ltac:(lia)) as (A & o & B & D). cbn [production_loop]. rewrite A. fold (Astc tag asts). rewrite B, D. reflexivity.
  - destruct (ev_and _ _ (normal_ev _ _ _ Mp Hn) (rejected_ev _ _ _ Mc Hj)) as [a V]. exists (S a). intros n k Hn' Hk.
    destruct k; [lia|]. destruct (V n ltac:(lia)) as (A & o & err & B & D). cbn [production_loop]. rewrite A. fold (Astc tag asts). rewrite B.
    destruct err; [reflexivity|]. destruct (c_st o); try reflexivity. destruct D; congruence.
Qed.
Lemma production_iff prs check c asts r : allP mono_prec prs -> mono_parser check ->
  ((exists n, ProductionRule prs check n c asts = Ok r) <-> reduces (c_tag c) prs check asts r).
Proof.
  intros Mp Mc. split.
  - intros [n H]. eapply production_sound; eauto.
  - intros H. destruct (production_complete prs check (c_tag c) Mp Mc asts r H) as [n0 V]. exists n0. apply V; auto.
Qed.
Lemma reduces_det prs check c asts r r' : allP mono_prec prs -> mono_parser check ->
  reduces (c_tag c) prs check asts r -> reduces (c_tag c) prs check asts r' -> r = r'.
Proof.
  intros Mp Mc H1 H2. destruct (production_complete prs check (c_tag c) Mp Mc _ _ H1) as [n1 V1].
  destruct (production_complete prs check (c_tag c) Mp Mc _ _ H2) as [n2 V2].
  specialize (V1 (Nat.max n1 n2) (Nat.max n1 n2) ltac:(lia) ltac:(lia)).
  specialize (V2 (Nat.max n1 n2) (Nat.max n1 n2) ltac:(lia) ltac:(lia)). congruence.
Qed.
Lemma reduces_checked tag prs check asts r : reduces tag prs check asts (inr r) -> accepted tag check r.
Proof. intros H. remember (inr r) as x eqn:E. induction H; inversion E; subst; auto. Qed.

(** ** C29 *)
Definition settled (len : nat) (s : scan) : Prop :=
  match s with SBad _ | SFuel => False | SHit l => (length l < len)%nat | _ => True end.
Lemma try_rules_settles tag asts p rules : (p <= length asts)%nat -> allP mono_parser rules -> Forall (shrinks tag) rules ->
  exists s, settled (length asts) s /\ ev (fun n => try_rules n rules (Astc tag asts) asts p = s).
Proof.
  intros Hp. induction rules as [|rule rules IH]; intros M S. { exists SNone. split; [exact I|]. exists 0%nat. auto. }
  simpl in M. destruct M as [M1 M]. inversion S as [|x l S1 S2]; subst. destruct (IH M S2) as (s & Hs & V).
  destruct (S1 asts p Hp) as (o & err & Hg & Hx). pose proof (gives_ev _ _ _ _ M1 Hg) as Vg.
  destruct err as [e|].
  { exists (SErr e). split; [exact I|]. eapply ev_imp; [|exact Vg]. intros n Hn. cbn [try_rules]. unfold Astc. rewrite set_pos_at, Hn. auto. }
  destruct (c_st o) eqn:Es.
  - destruct (Hx eq_refl eq_refl) as [Hb Hl]. exists (SHit (firstn p asts ++ c_stack o ++ skipn (c_pos o) asts)). split.
    + simpl. rewrite !app_length, skipn_length, firstn_length. lia.
    + eapply ev_imp; [|exact Vg]. intros n Hn. cbn [try_rules]. unfold Astc. rewrite set_pos_at, Hn, Es.
      replace (Nat.leb p (length asts)) with true by (symmetry; apply Nat.leb_le; lia).
      replace (Nat.leb (c_pos o) (length asts)) with true by (symmetry; apply Nat.leb_le; lia). reflexivity.
  - exists s. split; auto. eapply ev_imp; [|exact (ev_and _ _ Vg V)]. intros n [A B]. cbn [try_rules]. unfold Astc at 1. rewrite set_pos_at, A, Es. auto.
  - exists s. split; auto. eapply ev_imp; [|exact (ev_and _ _ Vg V)]. intros n [A B]. cbn [try_rules]. unfold Astc at 1. rewrite set_pos_at, A, Es. auto.
Qed.
Lemma try_positions_settles tag asts pr : mono_prec pr -> Forall (shrinks tag) (pr_rules pr) -> forall k i, (i + k <= S (length asts))%nat ->
  exists s, settled (length asts) s /\ ev (fun n => try_positions n pr (Astc tag asts) asts i k = s).
Proof.
  intros M S. induction k; intros i Hi. { exists SNone. split; [exact I|]. exists 0%nat. auto. }
  destruct (try_rules_settles tag asts (pos_of pr (length asts) i) (pr_rules pr) (pos_of_le pr (length asts) i ltac:(lia)) M S) as (s & Hs & V).
  destruct (IHk (1 + i)%nat ltac:(lia)) as (s' & Hs' & V').
  exists (match s with SNone => s' | _ => s end). split; [destruct s; auto|].
  eapply ev_imp; [|exact (ev_and _ _ V V')]. intros n [A B]. cbn [try_positions]. fold (pos_of pr (length asts) i).
  rewrite A. destruct s; auto.
Qed.
Lemma try_precedences_settles tag asts prs : allP mono_prec prs -> Forall (fun pr => Forall (shrinks tag) (pr_rules pr)) prs ->
  exists s, settled (length asts) s /\ ev (fun n => try_precedences n prs tag asts = s).
Proof.
  induction prs as [|pr prs IH]; intros M S. { exists SNone. split; [exact I|]. exists 0%nat. auto. }
  simpl in M. destruct M as [M1 M]. inversion S as [|x l S1 S2]; subst. destruct (IH M S2) as (s' & Hs' & V').
  destruct (try_positions_settles tag asts pr M1 S1 (1 + length asts)%nat 0%nat (le_n _)) as (s & Hs & V).
  exists (match s with SNone => s' | _ => s end). split; [destruct s; auto|].
  eapply ev_imp; [|exact (ev_and _ _ V V')]. intros n [A B]. cbn [try_precedences]. fold (Astc tag asts).
  change (Datatypes.S (length asts)) with (1 + length asts)%nat. rewrite A. destruct s; auto.
Qed.
Lemma production_terminates prs check tag : allP mono_prec prs -> mono_parser check ->
  Forall (fun pr => Forall (shrinks tag) (pr_rules pr)) prs -> returns_always tag check ->
  forall len asts, (length asts <= len)%nat -> exists r, ev (fun n => forall k, (length asts < k)%nat -> production_loop n k prs check tag asts = Ok r).
Proof.
  intros Mp Mc S Rc. induction len as [len IH] using lt_wf_ind. intros asts Hl.
  destruct (try_precedences_settles tag asts prs Mp S) as (s & Hs & V).
  destruct s as [e|w| |asts'|]; try (destruct Hs; fail).
  - exists (inl e). eapply ev_imp; [|exact V]. intros n A k Hk. destruct k; [lia|]. cbn [production_loop]. rewrite A. reflexivity.
  - simpl in Hs. destruct (Rc asts') as (o & err & Hg). pose proof (gives_ev _ _ _ _ Mc Hg) as Vc.
    destruct (IH (length asts') ltac:(lia) asts' (le_n _)) as (r & Vr).
    exists (match err, c_st o with None, Matched => inr asts' | _, _ => r end).
    eapply ev_imp; [|exact (ev_and _ _ V (ev_and _ _ Vc Vr))]. intros n (A & B & D) k Hk. destruct k; [lia|].
    cbn [production_loop]. rewrite A, B. destruct err; [apply D; lia|]. destruct (c_st o); try reflexivity; apply D; lia.
  - destruct (Rc asts) as (o & err & Hg). pose proof (gives_ev _ _ _ _ Mc Hg) as Vc.
    exists (match err, c_st o with None, Matched => inr asts | _, _ => inl prod_err end).
    eapply ev_imp; [|exact (ev_and _ _ V Vc)]. intros n (A & B) k Hk. destruct k; [lia|].
    cbn [production_loop]. rewrite A, B. destruct err; [reflexivity|]. destruct (c_st o); reflexivity.
Qed.
Lemma production_returns prs check c asts : allP mono_prec prs -> mono_parser check ->
  Forall (fun pr => Forall (shrinks (c_tag c)) (pr_rules pr)) prs -> returns_always (c_tag c) check ->
  exists n r, ProductionRule prs check n c asts = Ok r.
Proof.
  intros Mp Mc S R. destruct (production_terminates prs check (c_tag c) Mp Mc S R _ asts (le_n _)) as (r & a & V).
  exists (Nat.max a (1 + length asts))%nat, r. apply V; lia.
Qed.

(** ** Rules written as grammars, seen through their PEG semantics *)
Definition ow (asts : list ast) (tag : value) (env : nat -> pexp) : world := mkW [] (Some (ast_slice asts)) tag env.
Lemma rule_peg env e asts tag p r : (forall k, peg_gram (env k)) -> peg_gram e -> peg (ow asts tag env) e (mkSP p 0) r ->
  exists o err, gives (fun n => run env n e) (at_pos tag asts p) o err /\ returns [] o err r.
Proof.
  intros He Hg H. destruct (proj1 (peg_adequate (ow asts tag env) e (at_pos tag asts p) He Hg
    (conj eq_refl (conj eq_refl eq_refl)) eq_refl r) H) as (n & o & err & E & R).
  exists o, err. split; auto. exists n. exact E.
Qed.
Lemma shrinks_peg env e tag : (forall k, peg_gram (env k)) -> peg_gram e ->
  (forall asts p, (p <= length asts)%nat -> exists r, peg (ow asts tag env) e (mkSP p 0) r /\
     match r with RSucc cur l => (p <= sp_pos cur <= length asts)%nat /\ (length l < sp_pos cur - p)%nat | _ => True end) ->
  shrinks tag (fun n => run env n e).
Proof.
  intros He Hg H asts p Hp. destruct (H asts p Hp) as (r & Hr & Hx).
  destruct (rule_peg env e asts tag p r He Hg Hr) as (o & err & G & R). exists o, err. split; auto.
  intros -> Hs. destruct r as [cur l| |cur x]; simpl in R.
  - destruct R as (_ & _ & R1 & R2). unfold c_pos. rewrite R1, R2. auto.
  - destruct R. congruence.
  - destruct R. discriminate.
Qed.
Lemma returns_peg env e tag : (forall k, peg_gram (env k)) -> peg_gram e ->
  (forall asts, exists r, peg (ow asts tag env) e sp0 r) -> returns_always tag (fun n => run env n e).
Proof.
  intros He Hg H asts. destruct (H asts) as (r & Hr). destruct (rule_peg env e asts tag 0 r He Hg Hr) as (o & err & G & _).
  exists o, err. exact G.
Qed.
Lemma leaf_peg w e c r : peg_env w -> peg_gram e -> in_world w c -> c_st c = Matched -> c_stack c = [] ->
  (exists n o err, run (w_env w) n e c = Ok (o, err) /\ returns [] o err r) -> peg w e (c_sp c) r.
Proof.
  intros He Hg Hw Hs Hst H. apply (peg_adequate w e c He Hg Hw Hs r). rewrite Hst. exact H.
Qed.
Lemma classFn_peg env f asts tag cur : (forall k, peg_gram (env k)) ->
  peg (ow asts tag env) (OClassFn f) cur
    match nth_error asts (sp_pos cur) with
    | Some a => if f (VAst a) then RSucc (mkSP (sp_pos cur + 1) 1) [mkAst 0 ":object:ObjClassFn" TAny (VAst a) cur] else RFail
    | None => RFail
    end.
Proof.
  intros He. apply (leaf_peg (ow asts tag env) (OClassFn f) (set_sp (new_object_ctx (ast_slice asts) tag) cur)); auto;
    [unfold OClassFn; gram_tac|repeat split|].
  destruct (obj_classFn_ok env 0 f (set_sp (new_object_ctx (ast_slice asts) tag) cur) (ast_slice asts) eq_refl) as (o & Ho & H).
  exists 0%nat, o, None. split; auto. unfold item_at, no_item in H. cbn [ast_slice sl_items] in H. rewrite map_length in H.
  change (c_pos (set_sp (new_object_ctx (ast_slice asts) tag) cur)) with (sp_pos cur) in H.
  destruct (nth_error asts (sp_pos cur)) as [a|] eqn:E.
  - assert (E' : nth_error (map VAst asts) (sp_pos cur) = Some (VAst a)) by (apply map_nth_error; auto).
    assert (Hl : (sp_pos cur < length asts)%nat) by (apply nth_error_Some; congruence).
    destruct H as [(v & (_ & Hv) & Hf & T)|[[H|(v & (_ & Hv) & Hf)] T]].
    + rewrite E' in Hv. inversion Hv; subst. rewrite Hf. destruct T as (T1 & T2 & T3). repeat split; auto.
    + lia.
    + rewrite E' in Hv. inversion Hv; subst. rewrite Hf. destruct T as (T1 & T2 & T3). split; auto.
  - assert (Hl : (length asts <= sp_pos cur)%nat) by (apply nth_error_None; auto).
    destruct H as [(v & (_ & Hv) & Hf & T)|[_ T]].
    + exfalso. assert (N : nth_error (map VAst asts) (sp_pos cur) = None) by (apply nth_error_None; rewrite map_length; auto). congruence.
    + destruct T as (T1 & T2 & T3). split; auto.
Qed.
Lemma oend_peg env asts tag cur : (forall k, peg_gram (env k)) ->
  peg (ow asts tag env) OEnd cur (if Nat.eqb (sp_pos cur) (length asts) then RSucc (mkSP (sp_pos cur) 0) [] else RFail).
Proof.
  intros He. apply (leaf_peg (ow asts tag env) OEnd (set_sp (new_object_ctx (ast_slice asts) tag) cur)); auto;
    [unfold OEnd; gram_tac|repeat split|].
  exists 0%nat. unfold run, OEnd. cbn [denote]. unfold light_base_parser, lift, obj_end_fn, with_slice. cbn [c_slice set_st set_sp new_object_ctx ast_slice sl_items].
  rewrite map_length. change (c_pos _) with (sp_pos cur). destruct (Nat.eqb (sp_pos cur) (length asts)); eexists _, None; (split; [reflexivity|]); repeat split.
Qed.
