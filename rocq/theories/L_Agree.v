(** The two formula examples read texts alike, and every program of the stack machine is the answer to a text (C82). *)
From Verif Require Export L_FormulaRead S_Agree.
From Verif Require L_Marshal L_Float.
Local Notation never := (fun _ : arith => False).
Local Notation dz := divides_by_zero.

(** ** Without stopping *)
Lemma unstopped stops :
  (forall s num r, primary_at stops s num r -> r <> Zero -> primary_at never s num r) /\
  (forall s r, expression_at stops s r -> r <> Zero -> expression_at never s r) /\
  (forall num s r, others_at stops num s r -> r <> Zero -> others_at never num s r).
Proof.
  apply (reading_mut stops (fun s num r => r <> Zero -> primary_at never s num r) (fun s r => r <> Zero -> expression_at never s r) (fun num s r => r <> Zero -> others_at never num s r)).
  - intros. eapply pm_number; eauto.
  - intros. eapply pm_range; eauto.
  - intros t b u r r' Hw _ IH K N. eapply pm_group; [exact Hw| |exact K]. apply IH. intros ->. inversion K; subst. auto.
  - intros. eapply xp_none; eauto.
  - intros s k u num r S' _ IH F N. eapply xp_failed; eauto.
  - intros s k u num f q r r' S' _ IH _ IHo C N. eapply (xp_chain _ s k u num f q r r' S'); [apply IH; discriminate|apply IHo|].
    + intros ->. inversion C; subst. auto.
    + inversion C; subst; [constructor; auto|contradiction|constructor; auto].
  - intros. constructor. auto.
  - intros. eapply ot_none; eauto.
  - intros num o t b u k v m r Hw O' _ IH F N. eapply ot_failed; eauto. apply IH. intros ->. auto.
  - intros num o t b u k v m f q r Hw O' _ IH _ IHo N. eapply ot_more; eauto; [apply IH; discriminate|apply IHo]. intros ->. auto.
Qed.
(** ** Without divisions by zero *)
Lemma products_dz f l t : products f l t -> forall o g, In (o, g) l -> dz g -> dz t.
Proof.
  induction 1 as [|l t o g M P IH]; intros o' g' I D; [contradiction|]. apply in_app_iff in I. destruct I as [I|[E|[]]]; [apply dz_left; eauto|]. injection E as -> ->. apply dz_right. exact D.
Qed.
Lemma products_first f l t : products f l t -> dz f -> dz t.
Proof. induction 1 as [|l t o g M P IH]; intros D; auto. apply dz_left. auto. Qed.
Lemma sums_dz f l t : sums f l t -> (forall o g, In (o, g) l -> dz g -> dz t) /\ (dz f -> dz t).
Proof.
  induction 1 as [l t P|l t o g m u A S' [IH1 IH2] P]; [split; [eapply products_dz; eauto|eapply products_first; eauto]|]. split; [|intros D; apply dz_left; auto].
  intros o' g' I D. apply in_app_iff in I. destruct I as [I|[E|I]]; [apply dz_left; eauto| |].
  - injection E as -> ->. apply dz_right. eapply products_first; eauto.
  - apply dz_right. eapply products_dz; eauto.
Qed.
Lemma negated_dz k f : dz f -> dz (negated k f).
Proof. induction k; intros D; auto. apply dz_neg. auto. Qed.
Lemma computed :
  (forall s num r, primary_at never s num r -> forall f q, r = Got f q -> ~ dz f -> primary_at dz s num r) /\
  (forall s r, expression_at never s r -> forall f q, r = Got f q -> ~ dz f -> expression_at dz s r) /\
  (forall num s r, others_at never num s r -> forall l q, r = Got l q -> (forall o g, In (o, g) l -> ~ dz g) -> others_at dz num s r).
Proof.
  apply (reading_mut never (fun s num r => forall f q, r = Got f q -> ~ dz f -> primary_at dz s num r) (fun s r => forall f q, r = Got f q -> ~ dz f -> expression_at dz s r)
    (fun num s r => forall l q, r = Got l q -> (forall o g, In (o, g) l -> ~ dz g) -> others_at dz num s r)); try discriminate.
  - intros. eapply pm_number; eauto.
  - intros t b u r r' Hw _ IH K f q -> N. inversion K as [f0 v b0 q0 Hv|f0 q0 Nb|r0 F]; subst; [|destruct F]. eapply pm_group; eauto.
  - intros s k u num r S' _ IH F f q -> N. destruct F.
  - intros s k u num f q r r' S' _ IH _ IHo C f1 q1 -> N. inversion C as [l t q0 Su Nt| |r0 F E]; subst; [|exfalso; destruct r; destruct F; discriminate].
    destruct (sums_dz _ _ _ Su) as [D1 D2]. eapply xp_chain; [exact S'| | |constructor; [exact Su|exact N]].
    + eapply IH; eauto. intros D. apply N, D2, negated_dz, D.
    + eapply IHo; eauto.
  - intros. constructor. auto.
  - intros num o t b u k v m r Hw O' _ IH F l q E. destruct r; [destruct F| |]; discriminate.
  - intros num o t b u k v m f q r Hw O' _ IH _ IHo l q1 E N. destruct r as [l0 q0| |]; [|discriminate|discriminate]. cbn in E. injection E as <- <-. eapply ot_more; eauto.
    + eapply IH; eauto. intros D. apply (N o (negated k f)); [left; reflexivity|apply negated_dz, D].
    + eapply IHo; eauto. intros o' g I. apply (N o' g). right. exact I.
Qed.
Lemma evals_or_dz f : (exists v, evals f v) \/ dz f.
Proof.
  induction f as [z|f IH|o f IHf g IHg]; [left; exists z; constructor| |].
  - destruct IH as [[v E]|D]; [left; eexists; eapply ev_neg; [exact E|apply to_int64_wraps]|right; apply dz_neg; exact D].
  - destruct IHf as [[x E]|D]; [|right; apply dz_left; exact D]. destruct IHg as [[y E']|D]; [|right; apply dz_right; exact D].
    destruct o; [left; eexists; eapply ev_add; eauto; apply to_int64_wraps|left; eexists; eapply ev_sub; eauto; apply to_int64_wraps|left; eexists; eapply ev_mul; eauto; apply to_int64_wraps|].
    destruct (Z.eq_dec y 0) as [->|N]; [right; apply dz_here; exact E'|]. left. eexists. eapply ev_div; eauto; [apply quot_trunc; exact N|apply to_int64_wraps].
Qed.
(** ** The answers *)
Notation formula_answers s r := (finally (fun n => formula_Parse n s) r).
Lemma read_once s f g : Forall is_byte s -> read_as s f -> read_as s g -> f = g.
Proof.
  intros Hb (b & u & W & X) (b' & u' & W' & X'). destruct (whole_func _ _ _ _ _ W W') as [<- <-]. pose proof (expression_func _ _ _ _ (whole_bytes _ _ _ Hb W) X X') as E. injection E as ->. reflexivity.
Qed.
Lemma torpn_read s l : Forall is_byte s -> (torpn_answers s (inr (inr l)) <-> exists f, read_as s f /\ postfix f l).
Proof.
  intros Hb. destruct (torpn_gives s Hb) as (a & R & G). split.
  - intros H. destruct a as [x|x p q|]; simpl in G; [|destruct G as (lc & _ & G)|]; pose proof (finally_det _ _ _ H G) as E; inversion E; subst. inversion R; subst. eexists; split; [eexists; eexists; eauto|assumption].
  - intros (f & (b & u & W & X) & P). assert (R' : reading never postfix s (Value l)) by (eapply rd_value; eauto).
    rewrite (reading_func never postfix s _ _ postfix_det Hb R R') in G. exact G.
Qed.
Lemma formula_read s f : Forall is_byte s -> read_as s f ->
  (forall v, formula_answers s (Ok (inr v)) <-> evals f v) /\ (formula_answers s (Panic "integer divide by zero") <-> dz f) /\ (forall e, ~ formula_answers s (Ok (inl e))).
Proof.
  intros Hb (b & u & W & X). destruct (formula_gives s Hb) as (a & R & G).
  assert (U : forall r, expression_at dz u r -> r <> Zero -> r = Got f []).
  { intros r Hr N. eapply expression_func; [eapply whole_bytes; eauto| |exact X]. apply (proj1 (proj2 (unstopped dz))); auto. }
  assert (K : (exists v, a = Value v /\ evals f v) \/ (a = Crash /\ dz f)).
  { inversion R as [b' u' f' x Hw X' Y E|b' u' f' q Hw X' N E|b' u' e p q Hw X' Es E|b' u' Hw X' E]; subst a; destruct (whole_func _ _ _ _ _ W Hw) as [<- <-].
    - left. specialize (U _ X' ltac:(discriminate)). injection U as ->. eauto.
    - specialize (U _ X' ltac:(discriminate)). injection U as -> ->. contradiction.
    - specialize (U _ X' ltac:(discriminate)). discriminate.
    - right. split; [reflexivity|]. destruct (evals_or_dz f) as [[v E]|D]; [exfalso|exact D].
      assert (Nd : ~ dz f) by (intros D; eapply evals_no_div; eauto). pose proof (proj1 (proj2 computed) _ _ X _ _ eq_refl Nd) as Xd.
      pose proof (expression_func _ _ _ _ (whole_bytes _ _ _ Hb W) X' Xd). discriminate. }
  destruct K as [(v & -> & E)|[-> D]]; cbn in G.
  - split; [|split].
    + intros v'. split; [intros H; pose proof (finally_det _ _ _ H G) as Q; injection Q as ->; exact E|intros E'; rewrite (evals_det _ _ _ E' E); exact G].
    + split; [intros H; pose proof (finally_det _ _ _ H G); discriminate|intros D; exfalso; eapply evals_no_div; eauto].
    + intros e H. pose proof (finally_det _ _ _ H G). discriminate.
  - split; [|split].
    + intros v. split; [intros H; pose proof (finally_det _ _ _ H G); discriminate|intros E; exfalso; eapply evals_no_div; eauto].
    + split; [intros _; exact D|intros _; exact G].
    + intros e H. pose proof (finally_det _ _ _ H G). discriminate.
Qed.
(** ** Texts for programs *)
Fixpoint show (f : arith) : bytes :=
  match f with
  | FLit z => M_Marshal.FormatUint z
  | FNeg g => [40; 45] ++ show g ++ [41]
  | FBin o g h => [40] ++ show g ++ [op_byte o] ++ show h ++ [41]
  end.
Definition small (z : Z) : Prop := 0 <= z < 2 ^ 63.
Lemma canonical_literal c z : S_Marshal.canonical c z -> literal c z.
Proof.
  intros [N H]. assert (F : Forall dec_digit c) by (apply L_Float.numeral_digits in N; tauto).
  assert (Es : strip c = c). { clear -F. induction F as [|b c Hb F IH]; [reflexivity|]. cbn. unfold dec_digit in Hb. destruct (Z.eqb_spec b 95); [lia|]. cbn. f_equal. exact IH. }
  exists c. split; [left; reflexivity|]. split; [|rewrite Es; exact N]. destruct H as [->|(d & r & -> & Hd)]; [left; exists []; auto|]. right. exists d, r. inversion F as [|? ? Fd Fr]; subst. unfold dec_digit in Fd.
  split; [reflexivity|]. split; [lia|]. eapply Forall_impl; [|exact Fr]. auto.
Qed.
Lemma show_atom f : literals small f -> atomT (show f) f.
Proof.
  induction f as [z|f IH|o f IHf g IHg]; cbn [literals show]; intros L.
  - rewrite <- (app_nil_r (M_Marshal.FormatUint z)). apply at_lit; [|constructor]. apply canonical_literal, L_Marshal.uint_canonical. unfold small in L. lia.
  - apply (at_paren [] ([45] ++ [] ++ show f) (FNeg f) []); [constructor| |constructor]. apply et_term, tt_factor, ft_neg; [constructor|]. apply ft_atom. auto.
  - destruct L as [L1 L2]. replace ([40] ++ show f ++ [op_byte o] ++ show g ++ [41]) with ([40] ++ [] ++ (show f ++ [op_byte o] ++ [] ++ show g) ++ [41] ++ []) by (cbn; rewrite <- !app_assoc; reflexivity).
    apply at_paren; [constructor| |constructor]. assert (M : additive o \/ multiplicative o) by (destruct o; [left; left|left; right|right; left|right; right]; reflexivity). destruct M as [M|M].
    + apply et_bin; [exact M|apply et_term, tt_factor, ft_atom; auto|constructor|apply tt_factor, ft_atom; auto].
    + apply et_term, tt_bin; [exact M|apply tt_factor, ft_atom; auto|constructor|apply ft_atom; auto].
Qed.
Lemma show_bytes f : literals small f -> Forall is_byte (show f).
Proof.
  induction f as [z|f IH|o f IHf g IHg]; cbn [literals show]; intros L.
  - assert (C : S_Marshal.canonical (M_Marshal.FormatUint z) z) by (apply L_Marshal.uint_canonical; unfold small in L; lia). apply L_Marshal.canonical_graphic in C. destruct C as [_ C]. eapply Forall_impl; [|exact C]. unfold is_byte. simpl. intros; lia.
  - apply Forall_app. split; [repeat constructor; unfold is_byte; lia|]. apply Forall_app. split; [auto|repeat constructor; unfold is_byte; lia].
  - destruct L as [L1 L2]. repeat (apply Forall_app; split); auto; repeat constructor; unfold is_byte; try (destruct o; cbn; lia); lia.
Qed.
Definition num_tree (z : Z) : arith := if z <? 0 then FNeg (FLit (- z)) else FLit z.
Definition sound (f : arith) : Prop := literals small f /\ plainly_signed f.
Inductive pile : list arith -> list value -> Prop :=
| pl_nil : pile [] []
| pl_more : forall fs l f m, pile fs l -> postfix f m -> pile (f :: fs) (l ++ m).
Lemma num_tree_ok z : - 2 ^ 63 < z < 2 ^ 63 -> postfix (num_tree z) [VInt z] /\ sound (num_tree z).
Proof.
  intros H. unfold num_tree, sound. destruct (Z.ltb_spec z 0).
  - split; [|cbn; unfold small; split; [lia|split; [auto|intros C; inversion C]]]. constructor. eapply sg_neg; [constructor|]. replace (- - z) with z by lia. apply wraps_self. unfold int64. lia.
  - split; [constructor; constructor|cbn; unfold small; split; [lia|auto]].
Qed.
Lemma piled d l d' : stacks d l d' -> numbers (fun z => - 2 ^ 63 < z < 2 ^ 63) l -> forall fs l0, length fs = d -> pile fs l0 -> Forall sound fs ->
  exists fs', length fs' = d' /\ pile fs' (l0 ++ l) /\ Forall sound fs'.
Proof.
  induction 1 as [d|d z l d' H IH|d o l d' H IH]; intros N fs l0 L P F.
  - exists fs. rewrite app_nil_r. auto.
  - assert (Hz : - 2 ^ 63 < z < 2 ^ 63) by (apply N; left; reflexivity). destruct (num_tree_ok z Hz) as [Pz Sz].
    destruct (IH (fun x I => N x (or_intror I)) (num_tree z :: fs) (l0 ++ [VInt z])) as (fs' & L' & P' & F'); [cbn; congruence|constructor; auto|constructor; auto|].
    exists fs'. rewrite <- app_assoc in P'. auto.
  - destruct fs as [|g [|f fs]]; try discriminate. inversion P as [|? l1 ? m P1 Pg]; subst. inversion P1 as [|? l2 ? m2 P2 Pf]; subst. inversion F as [|? ? [G1 G2] F1]; subst. inversion F1 as [|? ? [G3 G4] F2]; subst.
    destruct (IH (fun x I => N x (or_intror I)) (FBin o f g :: fs) (l2 ++ (m2 ++ m ++ [VStr [op_byte o]]))) as (fs' & L' & P' & F'); [cbn in *; congruence|constructor; [auto|constructor; auto]| |].
    + constructor; [|exact F2]. split; cbn; auto.
    + exists fs'. split; [exact L'|]. split; [|exact F']. rewrite <- !app_assoc in P'. rewrite <- !app_assoc. exact P'.
Qed.
Lemma every_program l : stacks 0 l 1 -> numbers (fun z => - 2 ^ 63 < z < 2 ^ 63) l -> exists f, postfix f l /\ sound f.
Proof.
  intros H N. destruct (piled 0 l 1 H N [] [] eq_refl pl_nil (Forall_nil _)) as (fs & L & P & F). destruct fs as [|f [|? ?]]; try discriminate. cbn [app] in P. inversion P as [|? l1 ? m P1 Pf E]; subst. inversion P1; subst.
  inversion F; subst. exists f. split; [assumption|assumption].
Qed.
Lemma sound_literals f : literals small f -> literals (fun z => z < 2 ^ 63) f.
Proof. induction f; cbn; unfold small; intuition. Qed.
(** The answers that stand for programs *)
Lemma postfix_stacks f l : postfix f l -> plainly_signed f -> forall d, stacks d l (Datatypes.S d).
Proof.
  intros H P. assert (X : forall d m d', stacks (Datatypes.S d) m d' -> stacks d (l ++ m) d'); [|intros d; rewrite <- (app_nil_r l); apply X; constructor].
  revert P. induction H as [f z S'|f l C H IH|o f g l m H1 IH1 H2 IH2]; cbn; intros P d m' d' M.
  - constructor. exact M.
  - destruct P as [_ P]. contradiction.
  - destruct P as [P1 P2]. rewrite <- !app_assoc. apply IH1; auto. apply IH2; auto. cbn. constructor. exact M.
Qed.
(** ** The smallest number *)
Definition open64 (z : Z) : Prop := - 2 ^ 63 < z < 2 ^ 63.
Lemma negated_open k f : (forall z, signed f z -> open64 z) -> forall z, signed (negated k f) z -> open64 z.
Proof.
  intros H. induction k as [|k IH]; cbn; auto. intros z S'. inversion S' as [|? x ? Sx W]; subst. specialize (IH x Sx). unfold open64 in IH.
  assert (z = - x) by (eapply wraps_det; [exact W|]; apply wraps_self; unfold int64; lia). unfold open64. lia.
Qed.
Lemma readings_open :
  (forall s num r, primary_at never s num r -> forall f q z, r = Got f q -> ~ begins [45] s -> signed f z -> open64 z) /\
  (forall s r, expression_at never s r -> forall f q z, r = Got f q -> signed f z -> open64 z) /\
  (forall num s r, others_at never num s r -> True).
Proof.
  apply (reading_mut never (fun s num r => forall f q z, r = Got f q -> ~ begins [45] s -> signed f z -> open64 z) (fun s r => forall f q z, r = Got f q -> signed f z -> open64 z) (fun _ _ _ => True)); try discriminate; auto.
  - intros s w q z (t & b & -> & _ & (g & d & -> & Sg & Sh) & _) I Hz f q' z' E N S'. injection E as <- <-. inversion S'; subst z'. unfold open64, int64 in *.
    assert (0 <= z); [|lia]. destruct I as [I|[(u & _ & I)|(u & Eu & I)]]; try (eapply L_Float.numeral10_nonneg; exact I). exfalso. destruct (int_run d Sh) as (c & r & -> & Hc & _). unfold dec_digit in Hc.
    destruct Sg as [Sg|[Sg|Sg]]; subst g; cbn in Eu.
    + destruct (Z.eqb_spec c 95); [lia|]. cbn in Eu. injection Eu as Ec _. lia.
    + discriminate.
    + apply N. exists ((c :: r) ++ t). reflexivity.
  - intros t b u r r' Hw _ IH K f q z -> _ S'. inversion K as [f0 v b0 q0 Hv|f0 q0 Nb|r0 F]; subst; [|destruct F]. eapply IH; eauto.
  - intros s k u num r S' _ IH F f q z -> _. destruct F.
  - intros s k u num f q r r' S' _ IH _ _ C f1 q1 z -> Sg. inversion C as [l t q0 Su Nt| |r0 F E]; subst; [|exfalso; destruct r; destruct F; discriminate].
    assert (X : forall z, signed (negated k f) z -> open64 z) by (apply negated_open; intros y Sy; eapply IH; eauto; eapply signs_no_minus; eauto).
    inversion Su as [l0 t0 P|]; subst; [|inversion Sg]. inversion P; subst; [auto|inversion Sg].
Qed.
Lemma number_signed f z : postfix f [VInt z] -> signed f z.
Proof.
  intros P. remember [VInt z] as k eqn:Ek. destruct P as [f y S'|f l C Q|o f g l m Q1 Q2]; [injection Ek as ->; exact S'| |]; exfalso.
  - apply (f_equal (fun k => last k (VInt 0))) in Ek. rewrite last_last in Ek. discriminate.
  - apply (f_equal (fun k => last k (VInt 0))) in Ek. rewrite app_assoc, last_last in Ek. discriminate.
Qed.
Lemma no_smallest s : Forall is_byte s -> ~ torpn_answers s (inr (inr [VInt (- 2 ^ 63)])).
Proof.
  intros Hb H. apply torpn_read in H; [|exact Hb]. destruct H as (f & (b & u & _ & X) & P).
  pose proof (number_signed _ _ P) as S'.
  pose proof (proj1 (proj2 readings_open) _ _ X _ _ _ eq_refl S') as Z. unfold open64 in Z. lia.
Qed.
(** ** A sign before a parenthesis spoils the program *)
Fixpoint weight (l : list value) : Z := match l with [] => 0 | VInt _ :: r => 1 + weight r | _ :: r => weight r - 1 end.
Lemma weight_app l m : weight (l ++ m) = weight l + weight m.
Proof. induction l as [|x l IH]; cbn [app weight]; [lia|]. rewrite IH. destruct x; lia. Qed.
Lemma stacks_weight d l d' : stacks d l d' -> Z.of_nat d' = Z.of_nat d + weight l.
Proof. induction 1; cbn [weight]; lia. Qed.
Lemma machine_stacks l st st' : machine l st st' -> stacks (length st) l (length st').
Proof. induction 1; cbn [length] in *; constructor; auto. Qed.
Lemma postfix_weight f l : postfix f l -> weight l <= 1 /\ (weight l = 1 -> plainly_signed f).
Proof.
  induction 1 as [f z S'|f l C H [IH1 IH2]|o f g l m H [IH1 IH2] H' [IH3 IH4]].
  - split; [cbn; lia|]. intros _. clear -S'. induction S' as [|f x r S' IH W]; cbn; auto. split; auto. eapply signed_simple; eauto.
  - rewrite weight_app. cbn. split; [lia|]. intros. lia.
  - rewrite !weight_app. cbn. split; [lia|]. intros. split; [apply IH2|apply IH4]; lia.
Qed.
Lemma stacks_plain f l : postfix f l -> stacks 0 l 1 -> plainly_signed f.
Proof. intros P H. apply (proj2 (postfix_weight f l P)). apply stacks_weight in H. lia. Qed.
