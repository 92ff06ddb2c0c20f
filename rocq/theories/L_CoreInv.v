(** Proofs for C07-C10: instances of the generic invariant. *)
From Verif Require Export L_Inv.

Lemma ss_refl c : same_source c c. Proof. repeat split. Qed.
Lemma ss_trans a b c : same_source a b -> same_source b c -> same_source a c.
Proof. unfold same_source. intros (A1 & A2 & A3) (B1 & B2 & B3). repeat split; congruence. Qed.
Lemma ss_bounds sz a b : same_source a b -> sz (c_str b) (c_slice b) = sz (c_str a) (c_slice a) :> nat.
Proof. intros (A1 & A2 & _). congruence. Qed.

Ltac inv_tac :=
  simpl; unfold same_source, pushes, in_bounds, c_pos, anyZ in *; simpl; intros;
  repeat match goal with
  | H : _ /\ _ |- _ => destruct H
  | H : exists _, _ |- _ => destruct H
  end; subst; try solve [auto | repeat split; simpl in *; auto; try congruence; try lia; eauto].

Lemma okt_True (J : inv) t : PP J = True -> (forall l, OKL J l) -> okt J t.
Proof. intros H1 H2 n c l _. destruct (t n c l) as [[e|l']|w|]; auto. rewrite H1. auto. Qed.
Lemma allP_okt_True (J : inv) ts : (PP J = True) -> (forall l, OKL J l) -> allP (okt J) ts.
Proof.
  intros H1 H2. apply allP_Forall, Forall_forall. intros t _ n c l _. destruct (t n c l) as [[e|l']|w|]; auto. rewrite H1. auto.
Qed.

(** ** C07 *)
Definition source_inv : inv.
Proof.
  refine (mkInv (fun _ => True) same_source same_source True anyZ (fun _ => True)
    _ _ _ _ _ _ _ _ _ _ _ _ _ _ _ _); inv_tac.
Defined.

Lemma source_weaken e : gram source_spec e -> gram (inv_spec source_inv) e.
Proof.
  apply gram_weaken; simpl; auto.
  - intros _ fn H n c _. unfold okr. specialize (H n c). destruct (fn n c) as [[o e1]|w|]; simpl; auto.
    specialize (H o e1 eq_refl). auto.
  - intros t _. apply okt_True; [reflexivity|intros; exact I].
  - intros _ fn _ tr H. split; [|destruct tr as [ts|]; auto; apply allP_okt_True; [reflexivity|intros; exact I]].
    destruct fn as [f|]; simpl in *; auto. intros num b c _. unfold okr. specialize (H num b c).
    destruct (f num b c) as [[o e1]|w|]; simpl; auto. specialize (H o e1 eq_refl). auto.
Qed.

Lemma source_kept env e n c o err :
  (forall k, gram source_spec (env k)) -> gram source_spec e ->
  run env n e c = Ok (o, err) -> same_source c o.
Proof.
  intros He Hg Hr. pose proof (run_inv source_inv env e (fun k => source_weaken _ (He k)) (source_weaken _ Hg) n c I) as H.
  rewrite Hr in H. apply H.
Qed.

(** ** C08 *)
Definition pos_inv (sz : size) : inv.
Proof.
  refine (mkInv (in_bounds sz) (fun c o => same_source c o /\ in_bounds sz o /\ (c_pos c <= c_pos o)%nat)
    (fun c o => same_source c o /\ in_bounds sz o) True (fun mn _ => 0 <= mn) (fun _ => True)
    _ _ _ _ _ _ _ _ _ _ _ _ _ _ _ _); inv_tac.
Defined.

Lemma pos_weaken sz e : gram (pos_spec sz) e -> gram (inv_spec (pos_inv sz)) e.
Proof.
  apply gram_weaken; simpl; auto.
  - intros _ fn H n c Hi. unfold okr. specialize (H n c). destruct (fn n c) as [[o e1]|w|]; simpl; auto.
    destruct (H o e1 Hi eq_refl) as (H1 & H2 & H3). simpl. auto.
  - intros t _. apply okt_True; [reflexivity|intros; exact I].
  - intros _ fn _ tr ->. split; simpl; auto. destruct tr as [ts|]; auto. apply allP_okt_True; [reflexivity|intros; exact I].
Qed.

Lemma pos_kept sz env e n c o err :
  (forall k, gram (pos_spec sz) (env k)) -> gram (pos_spec sz) e -> in_bounds sz c ->
  run env n e c = Ok (o, err) ->
  in_bounds sz o /\ (err = None -> c_st o = Matched -> (c_pos c <= c_pos o)%nat).
Proof.
  intros He Hg Hi Hr. pose proof (run_inv (pos_inv sz) env e (fun k => pos_weaken _ _ (He k)) (pos_weaken _ _ Hg) n c Hi) as H.
  rewrite Hr in H. simpl in H. destruct H as [H1 [H2 H3]]. split; auto. intros He1 Hm. apply H1; auto.
Qed.

(** ** C09 *)
Lemma firstn_len_app {A} (s l : list A) : firstn (length s) (s ++ l) = s.
Proof. rewrite firstn_app, Nat.sub_diag, firstn_all. simpl. apply app_nil_r. Qed.

Definition push_inv : inv.
Proof.
  refine (mkInv (fun _ => True) pushes (fun _ _ => True) True anyZ (fun _ => True)
    _ _ _ _ _ _ _ _ _ _ _ _ _ _ _ _); inv_tac.
  - exists []. rewrite app_nil_r. reflexivity.
  - exists (x0 ++ x). rewrite app_assoc. congruence.
  - exists l. match goal with H : c_stack _ = _ ++ _ |- _ => rewrite H end. rewrite firstn_len_app. reflexivity.
Defined.

Lemma push_weaken e : gram push_spec e -> gram (inv_spec push_inv) e.
Proof.
  apply gram_weaken; simpl; auto.
  - intros _ fn H n c Hi. unfold okr. specialize (H n c). destruct (fn n c) as [[o e1]|w|]; simpl; auto.
    split; auto. intros Hm ->. apply H; auto.
  - intros t _. apply okt_True; [reflexivity|intros; exact I].
  - intros _ fn _ tr H. split; [|destruct tr as [ts|]; auto; apply allP_okt_True; [reflexivity|intros; exact I]].
    destruct fn as [f|]; simpl in *; auto. intros num b c _. unfold okr. specialize (H num b c).
    destruct (f num b c) as [[o e1]|w|]; simpl; auto. split; auto. intros Hm ->. apply H; auto.
Qed.

Lemma push_kept env e n c o :
  (forall k, gram push_spec (env k)) -> gram push_spec e ->
  run env n e c = Ok (o, None) -> c_st o = Matched -> pushes c o.
Proof.
  intros He Hg Hr Hm. pose proof (run_inv push_inv env e (fun k => push_weaken _ (He k)) (push_weaken _ Hg) n c I) as H.
  rewrite Hr in H. apply H; auto.
Qed.

(** ** C10 *)
Definition calm_inv (sz : size) : inv.
Proof.
  refine (mkInv (in_bounds sz)
    (fun c o => same_source c o /\ in_bounds sz o /\ (c_pos c <= c_pos o)%nat /\ typed_push c o)
    (fun c o => same_source c o /\ in_bounds sz o) False (fun mn _ => 0 <= mn) (Forall typed)
    _ _ _ _ _ _ _ _ _ _ _ _ _ _ _ _); unfold typed_push; inv_tac.
  - repeat split; auto. exists []. rewrite app_nil_r. auto.
  - repeat split; auto; try congruence; try lia. exists (x0 ++ x). rewrite app_assoc. split; [congruence|].
    apply Forall_app. auto.
  - constructor; auto. intros E. discriminate.
  - match goal with H : c_stack _ = _ ++ _ |- _ => rewrite H end. rewrite skipn_app, Nat.sub_diag, skipn_all. auto.
  - repeat split; auto; try congruence. exists l. match goal with H : c_stack _ = _ ++ _ |- _ => rewrite H end. rewrite firstn_len_app. auto.
  - left. match goal with H : c_stack _ = _ ++ _ |- _ => rewrite H end. rewrite app_length. lia.
Defined.

Lemma calm_weaken sz e : gram (calm_spec sz) e -> gram (inv_spec (calm_inv sz)) e.
Proof.
  apply gram_weaken; simpl; auto.
  - intros _ fn (H1 & H2 & H3) n c Hi. unfold okr. specialize (H1 n c). specialize (H2 n c). specialize (H3 n c).
    destruct (fn n c) as [[o e1]|w|]; simpl; auto.
    + destruct (H2 o e1 Hi eq_refl) as (G1 & G2 & G3). simpl. split; auto. intros Hm ->. auto 6.
    + apply (H1 w Hi eq_refl).
  - unfold noBase. tauto.
Qed.

Lemma calm_kept sz env e n c why :
  (forall k, gram (calm_spec sz) (env k)) -> gram (calm_spec sz) e -> in_bounds sz c ->
  run env n e c <> Panic why.
Proof.
  intros He Hg Hi Hr. pose proof (run_inv (calm_inv sz) env e (fun k => calm_weaken _ _ (He k)) (calm_weaken _ _ Hg) n c Hi) as H.
  rewrite Hr in H. exact H.
Qed.
