(** Induction over grammars; fuel monotonicity. *)
From Verif Require Export S_Gram.

Lemma pexp_ind' (P : pexp -> Prop)
  (HL : forall cls fn, P (ELight cls fn))
  (HF : forall es, Forall P es -> P (EFlatGroup es))
  (HG : forall es, Forall P es -> P (EGroup es))
  (HFi : forall es, Forall P es -> P (EFirst es))
  (HA : forall es, Forall P es -> P (ELookAhead es))
  (HAN : forall es, Forall P es -> P (ELookAheadN es))
  (HB : forall neg mn mx es, Forall P es -> P (ELookBehind neg mn mx es))
  (HR : forall t es, Forall P es -> P (ERepeat t es))
  (HT : forall e tr, P e -> P (ETrans e tr))
  (HI : forall k, P (EIndirect k))
  (HBa : forall cls fn props es tr, Forall P es -> P (EBase cls fn props es tr)) :
  forall e, P e.
Proof.
  fix IH 1. intros e.
  assert (HH : forall es : list pexp, Forall P es).
  { fix IHl 1. intros [|x l]; constructor; [apply IH | apply IHl]. }
  destruct e; [apply HL|apply HF|apply HG|apply HFi|apply HA|apply HAN|apply HB|apply HR|apply HT|apply HI|apply HBa];
    try apply HH. apply IH.
Qed.

Lemma fold_and_Forall {A} (f : A -> Prop) l :
  fold_right (fun x q => x /\ q) True (map f l) <-> Forall f l.
Proof. induction l; simpl; split; intros H; auto.
  - constructor; tauto. - inversion H; subst; tauto. Qed.
Lemma allP_Forall {A} (f : A -> Prop) l : allP f l <-> Forall f l.
Proof. induction l; simpl; split; intros H; auto.
  - constructor; tauto. - inversion H; subst; split; [auto|]. apply IHl; auto. Qed.

Lemma Forall_mp {A} (P Q : A -> Prop) l : Forall (fun x => P x -> Q x) l -> Forall P l -> Forall Q l.
Proof. induction 1; intros H1; inversion H1; constructor; auto. Qed.

Lemma Forall2_len {A B} (R : A -> B -> Prop) l l' : Forall2 R l l' -> length l = length l'.
Proof. induction 1; simpl; congruence. Qed.

Definition le_out {A} (a b : res A) : Prop := a = Fuel \/ b = a.

Lemma le_refl {A} (a : res A) : le_out a a. Proof. right; reflexivity. Qed.
#[export] Hint Resolve le_refl : core.

Definition le_fn (f g : ctx -> out) := forall c, le_out (f c) (g c).

Lemma light_mono cls f g : le_fn f g -> le_fn (light_base_parser cls f) (light_base_parser cls g).
Proof. intros H c. unfold light_base_parser. destruct (H c) as [E|E]; rewrite E; [left|right]; reflexivity. Qed.

Definition le_cres (a b : cres) := a = CReturn Fuel \/ b = a.
Definition le_pres (a b : pres) := a = PReturn Fuel \/ b = a.

Lemma children_mono ex saved cs cs' : Forall2 le_fn cs cs' ->
  forall o num, le_cres (children_loop ex saved cs o num) (children_loop ex saved cs' o num).
Proof.
  induction 1 as [|f g cs cs' Hfg _ IH]; intros o num; simpl; [right; reflexivity|].
  destruct (Hfg o) as [E|E]; rewrite E; [left; reflexivity|].
  destruct (f o) as [[o1 err]|w|]; try (right; reflexivity).
  destruct (c_st (fix_status o1 err)); try (right; reflexivity); destruct ex; try (right; reflexivity); apply IH.
Qed.

Lemma parent_mono q ex fn bottom cs cs' : Forall2 le_fn cs cs' ->
  forall n m o count, (n <= m)%nat ->
  le_pres (parent_loop n q ex fn bottom cs o count) (parent_loop m q ex fn bottom cs' o count).
Proof.
  intros Hcs. assert (Hlen : length cs = length cs') by (eapply Forall2_len; eauto).
  induction n; intros m o count Hnm.
  - destruct m; simpl; destruct (more q count); (left; reflexivity) || (right; reflexivity).
  - destruct m; [lia|]. simpl. destruct (more q count); [|right; reflexivity].
    destruct (children_mono ex o _ _ Hcs o 0) as [E|E]; rewrite E; [left; reflexivity|].
    destruct (children_loop ex o cs o 0); try (right; reflexivity).
    rewrite <- Hlen. destruct (ex && Nat.ltb 0 (length cs) && Nat.eqb num 0); [right; reflexivity|].
    destruct (call_fn fn (Z.of_nat num) bottom (set_qty c count)) as [[o2 err]|w|]; try (right; reflexivity).
    destruct (c_st o2); try (right; reflexivity). apply IHn; lia.
Qed.

Lemma run_trans_mono c tr : allP mono_trans tr -> forall n m l, (n <= m)%nat ->
  le_out (run_trans n c tr l) (run_trans m c tr l).
Proof.
  induction tr as [|t tr IH]; simpl; intros H n m l Hnm; [auto|]. destruct H as [Ht H].
  destruct (Ht n m c l Hnm) as [E|E]; rewrite E; [left; reflexivity|].
  destruct (t n c l) as [[e|l']|w|]; auto.
Qed.

Lemma base_mono cls fn props cs cs' tr n m : (n <= m)%nat -> Forall2 le_fn cs cs' ->
  (match tr with None => True | Some l => allP mono_trans l end) ->
  le_fn (base_parser cls fn props cs tr n) (base_parser cls fn props cs' tr m).
Proof.
  intros Hnm Hcs Htr c. unfold base_parser.
  destruct (parent_mono (f_qty (flags_of props)) (f_ex (flags_of props)) fn
     (length (c_stack (set_cls c cls))) cs cs' Hcs n m (set_st (set_cls c cls) Matched) 0 Hnm) as [E|E]; rewrite E; [left; reflexivity|].
  destruct (parent_loop n _ _ _ _ _ _ _) as [r|o count]; [right; reflexivity|].
  destruct (c_st (after_loop (flags_of props) o count)); try (right; reflexivity).
  destruct (call_fn _ _ _ _) as [[o2 err]|w|]; try (right; reflexivity).
  destruct (c_st o2); try (right; reflexivity).
  destruct tr as [ts|]; [|right; reflexivity].
  match goal with |- context [if ?b then _ else _] => destruct b end; [right; reflexivity|].
  match goal with |- context [run_trans n ?cc ts ?ll] => destruct (run_trans_mono cc ts Htr n m ll Hnm) as [E2|E2] end; rewrite E2; [left|right]; reflexivity.
Qed.

Lemma behind_mono neg p p' : le_fn p p' -> forall k c i,
  le_out (look_behind_loop neg p c i k) (look_behind_loop neg p' c i k).
Proof.
  intros H. induction k; intros c i; simpl; [auto|].
  destruct (Z.of_nat (c_pos c) - i <? 0); [apply IHk|].
  destruct (H (set_pos c (Z.to_nat (Z.of_nat (c_pos c) - i)))) as [E|E]; rewrite E; [left; reflexivity|].
  destruct (p _) as [[o [e|]]|w|]; try (right; reflexivity).
  destruct (c_st o); try apply IHk. right; reflexivity.
Qed.

Lemma Forall2_map {A B C} (R : B -> C -> Prop) (f : A -> B) (g : A -> C) l :
  Forall (fun x => R (f x) (g x)) l -> Forall2 R (map f l) (map g l).
Proof. induction 1; simpl; constructor; auto. Qed.

Lemma denote_mono e : mono_gram e -> forall rho rho' n m, (n <= m)%nat ->
  (forall k, le_fn (rho k) (rho' k)) -> le_fn (denote rho n e) (denote rho' m e).
Proof.
  induction e using pexp_ind'; intros Hg rho rho' nn m Hnm Hrho; unfold mono_gram in *; simpl in Hg |- *;
    try rewrite fold_and_Forall in Hg;
    try (apply base_mono; [assumption| |simpl; auto];
      apply Forall2_map; eapply Forall_impl; [|eapply Forall_mp; [exact H|exact Hg]];
      simpl; intros a Ha; apply Ha; assumption).
  - apply light_mono. intros c. apply Hg; assumption.
  - apply base_mono; [assumption| |simpl].
    + apply Forall2_map; eapply Forall_impl; [|eapply Forall_mp; [exact H|exact Hg]].
      simpl; intros a Ha; apply Ha; assumption.
    + split; auto. intros ? ? ? ? ?; right; reflexivity.
  - destruct Hg as [_ Hg]. intros c. unfold look_behind_base. apply behind_mono.
    apply base_mono; [assumption| |simpl; auto].
    apply Forall2_map; eapply Forall_impl; [|eapply Forall_mp; [exact H|exact Hg]].
    simpl; intros a Ha; apply Ha; assumption.
  - destruct Hg as [_ Hg]. apply base_mono; [assumption| |simpl; auto].
    apply Forall2_map; eapply Forall_impl; [|eapply Forall_mp; [exact H|exact Hg]].
    simpl; intros a Ha; apply Ha; assumption.
  - destruct Hg as [Hg1 Hg2]. apply base_mono; [assumption| |].
    + constructor; [apply IHe; assumption|constructor].
    + destruct tr; simpl in *; auto.
  - apply light_mono. apply Hrho.
  - destruct Hg as [Hg1 Hg]. apply base_mono; [assumption| |assumption].
    apply Forall2_map; eapply Forall_impl; [|eapply Forall_mp; [exact H|exact Hg]].
    simpl; intros a Ha; apply Ha; assumption.
Qed.

Lemma run_env_mono env : (forall k, mono_gram (env k)) -> forall n m k, (n <= m)%nat ->
  le_fn (run_env env n k) (run_env env m k).
Proof.
  intros He. induction n; intros m k Hnm c; [left; reflexivity|].
  destruct m; [lia|]. simpl. apply denote_mono; auto; [lia|]. intros k'. apply IHn. lia.
Qed.

Lemma run_mono env e n m : (forall k, mono_gram (env k)) -> mono_gram e -> (n <= m)%nat ->
  le_fn (run env n e) (run env m e).
Proof. intros. apply denote_mono; auto. intros k. apply run_env_mono; auto. Qed.

(** Two runs that both answer give the same answer. *)
Lemma run_det env e n m c : (forall k, mono_gram (env k)) -> mono_gram e ->
  run env n e c <> Fuel -> run env m e c <> Fuel -> run env n e c = run env m e c.
Proof.
  intros He Hg Hn Hm. destruct (Nat.le_ge_cases n m) as [L|L].
  - destruct (run_mono env e n m He Hg L c) as [E|E]; congruence.
  - destruct (run_mono env e m n He Hg L c) as [E|E]; congruence.
Qed.
