(** Formulas as flat chains of factors, and the tree that precedence gives them. *)
From Verif Require Export S_Formula.

Definition is_mul (o : fop) : bool := match o with OMul | ODiv => true | _ => false end.
Lemma mul_iff o : multiplicative o <-> is_mul o = true.
Proof. unfold multiplicative. destruct o; simpl; intuition congruence. Qed.
Lemma add_iff o : additive o <-> is_mul o = false.
Proof. unfold additive. destruct o; simpl; intuition congruence. Qed.

(** The factors after the first, with their operators. *)
Inductive tailT : bytes -> list (fop * arith) -> Prop :=
| tl_nil : tailT [] []
| tl_cons : forall o b t f u l, gap b -> factorT t f -> tailT u l -> tailT ([op_byte o] ++ b ++ t ++ u) ((o, f) :: l).

Definition close (p : option (fop * arith)) (c : arith) : arith :=
  match p with None => c | Some (o, a) => FBin o a c end.
Fixpoint ptree (p : option (fop * arith)) (c : arith) (l : list (fop * arith)) : arith :=
  match l with
  | [] => close p c
  | (o, x) :: l' => if is_mul o then ptree p (FBin o c x) l' else ptree (Some (o, close p c)) x l'
  end.
Fixpoint mfold (c : arith) (l : list (fop * arith)) : arith :=
  match l with [] => c | (o, x) :: l' => mfold (FBin o c x) l' end.
Definition all_mul (l : list (fop * arith)) : Prop := Forall (fun x => is_mul (fst x) = true) l.
Definition all_add (l : list (fop * arith)) : Prop := Forall (fun x => is_mul (fst x) = false) l.

Lemma ptree_mul l : all_mul l -> forall p c, ptree p c l = close p (mfold c l).
Proof. induction 1 as [|[o x] l H1 H IH]; intros p c; simpl in *; auto. rewrite H1. apply IH. Qed.
Lemma ptree_app l1 o g l2 : is_mul o = false -> forall p c, ptree p c (l1 ++ (o, g) :: l2) = ptree (Some (o, ptree p c l1)) g l2.
Proof.
  intros Ho. induction l1 as [|[o1 x] l1 IH]; intros p c; simpl; [rewrite Ho; auto|]. destruct (is_mul o1); apply IH.
Qed.
Lemma mfold_app l1 o g : forall c, mfold c (l1 ++ [(o, g)]) = FBin o (mfold c l1) g.
Proof. induction l1 as [|[o1 x] l1 IH]; intros c; simpl; auto. Qed.
Lemma tail_app u l : tailT u l -> forall v m, tailT v m -> tailT (u ++ v) (l ++ m).
Proof. induction 1; intros v m T; simpl app; auto. rewrite <- !app_assoc. cbn [app]. apply (tl_cons o b t f (u ++ v)); auto. Qed.

Lemma term_chain t f : termT t f -> exists t0 f0 u l, t = t0 ++ u /\ factorT t0 f0 /\ tailT u l /\ all_mul l /\ f = mfold f0 l.
Proof.
  induction 1 as [t f H|t f o b u g Ho H (t0 & f0 & v & l & -> & F & T & M & ->) Hb Hu].
  - exists t, f, [], []. rewrite app_nil_r. split; [auto|]. split; auto. split; [constructor|]. split; [constructor|auto].
  - exists t0, f0, (v ++ [op_byte o] ++ b ++ u ++ []), (l ++ [(o, g)]). rewrite app_nil_r, <- app_assoc. split; [auto|]. split; auto.
    split; [apply tail_app; auto; rewrite <- (app_nil_r u); apply (tl_cons o b u g [] []); auto; constructor|].
    split; [apply Forall_app; split; auto; constructor; [apply mul_iff; auto|constructor]|]. symmetry. apply mfold_app.
Qed.
Lemma expr_chain t f : exprT t f -> exists t0 f0 u l, t = t0 ++ u /\ factorT t0 f0 /\ tailT u l /\ f = ptree None f0 l.
Proof.
  induction 1 as [t f H|t f o b u g Ho H (t0 & f0 & v & l & -> & F & T & ->) Hb Hu].
  - destruct (term_chain t f H) as (t0 & f0 & u & l & -> & F & T & M & ->). exists t0, f0, u, l. split; auto. split; auto. split; auto. rewrite ptree_mul; auto.
  - destruct (term_chain u g Hu) as (t1 & f1 & u1 & l1 & -> & F1 & T1 & M1 & ->).
    exists t0, f0, (v ++ [op_byte o] ++ b ++ t1 ++ u1), (l ++ (o, f1) :: l1). rewrite <- app_assoc. split; auto. split; auto.
    split; [apply tail_app; auto; apply tl_cons; auto|]. rewrite (ptree_app l o f1 l1) by (apply add_iff; exact Ho). rewrite (ptree_mul l1 M1). reflexivity.
Qed.
Lemma chain_expr_gen u l : tailT u l -> forall t f,
  (forall a, termT t a -> exprT (t ++ u) (ptree None a l)) /\
  (forall s e o b a, exprT s e -> is_mul o = false -> gap b -> termT t a -> f = FBin o e a ->
     exprT (s ++ [op_byte o] ++ b ++ t ++ u) (ptree (Some (o, e)) a l)).
Proof.
  induction 1 as [|o b t1 f1 u l Hb Hf T IH]; intros t f.
  - split.
    + intros a Ha. rewrite app_nil_r. apply et_term. auto.
    + intros s e o b a He Ho Hb Ha _. rewrite app_nil_r. apply et_bin; auto. apply add_iff. auto.
  - destruct (is_mul o) eqn:Eo.
    + split.
      * intros a Ha. destruct (IH (t ++ [op_byte o] ++ b ++ t1) f) as [A _]. cbn [ptree]. rewrite Eo.
        replace (t ++ [op_byte o] ++ b ++ t1 ++ u) with ((t ++ [op_byte o] ++ b ++ t1) ++ u) by (rewrite <- !app_assoc; auto).
        apply A. apply tt_bin; auto. apply mul_iff. auto.
      * intros s e o' b' a He Ho' Hb' Ha _. destruct (IH (t ++ [op_byte o] ++ b ++ t1) (FBin o' e (FBin o a f1))) as [_ A]. cbn [ptree]. rewrite Eo.
        replace (s ++ [op_byte o'] ++ b' ++ t ++ [op_byte o] ++ b ++ t1 ++ u) with (s ++ [op_byte o'] ++ b' ++ (t ++ [op_byte o] ++ b ++ t1) ++ u) by (rewrite <- !app_assoc; auto).
        apply A; auto. apply tt_bin; auto. apply mul_iff. auto.
    + split.
      * intros a Ha. destruct (IH t1 (FBin o a f1)) as [_ A]. cbn [ptree]. rewrite Eo. cbn [close].
        apply (A t a o b f1); auto. { apply et_term. auto. } apply tt_factor. auto.
      * intros s e o' b' a He Ho' Hb' Ha _. destruct (IH t1 (FBin o (FBin o' e a) f1)) as [_ A]. cbn [ptree]. rewrite Eo. cbn [close].
        replace (s ++ [op_byte o'] ++ b' ++ t ++ [op_byte o] ++ b ++ t1 ++ u) with ((s ++ [op_byte o'] ++ b' ++ t) ++ [op_byte o] ++ b ++ t1 ++ u) by (rewrite <- !app_assoc; auto).
        apply (A (s ++ [op_byte o'] ++ b' ++ t) (FBin o' e a) o b f1); auto.
        -- apply et_bin; auto. apply add_iff. auto.
        -- apply tt_factor. auto.
Qed.
Lemma chain_expr t0 f0 u l : factorT t0 f0 -> tailT u l -> exprT (t0 ++ u) (ptree None f0 l).
Proof. intros F T. destruct (chain_expr_gen u l T t0 f0) as [A _]. apply A. apply tt_factor. auto. Qed.

(** The reductions that precedence allows. *)
Lemma ptree_leftmost_mul l1 o' x o y l2 : is_mul o = true -> forall p c,
  ptree p c (l1 ++ (o', x) :: (o, y) :: l2) = ptree p c (l1 ++ (o', if is_mul o' then x else FBin o x y) :: if is_mul o' then (o, y) :: l2 else l2).
Proof.
  intros Ho. induction l1 as [|[o1 z] l1 IH]; intros p c; simpl.
  - destruct (is_mul o'); simpl; auto. rewrite Ho. auto.
  - destruct (is_mul o1); apply IH.
Qed.
Lemma ptree_leftmost_add o y l c : is_mul o = false -> all_add l -> ptree None c ((o, y) :: l) = ptree None (FBin o c y) l.
Proof.
  intros Ho H. simpl. rewrite Ho. destruct H as [|[o1 z] l H1 H]; simpl in *; auto. rewrite H1. auto.
Qed.
(** A property that a part passes on to the whole. *)
Definition spreads (bad : arith -> Prop) : Prop :=
  (forall f, bad f -> bad (FNeg f)) /\ (forall o f g, bad f \/ bad g -> bad (FBin o f g)).
Lemma spreads_tree bad : spreads bad -> forall l p c,
  (match p with Some (_, a) => bad a | None => False end) \/ bad c \/ Exists (fun x => bad (snd x)) l -> bad (ptree p c l).
Proof.
  intros [S1 S2]. induction l as [|[o x] l IH]; intros p c H; simpl.
  - destruct p as [[o a]|]; simpl in *.
    + apply S2. destruct H as [H|[H|H]]; auto. inversion H.
    + destruct H as [[]|[H|H]]; auto. inversion H.
  - destruct (is_mul o).
    + apply IH. destruct H as [H|[H|H]]; auto. inversion H; subst; auto.
    + apply IH. destruct H as [H|[H|H]].
      * left. destruct p as [[o1 a]|]; simpl in *; [apply S2; auto|destruct H].
      * left. destruct p as [[o1 a]|]; simpl in *; [apply S2; auto|auto].
      * inversion H; subst; auto.
Qed.
Definition negs (k : nat) (f : arith) : arith := Nat.iter k FNeg f.
