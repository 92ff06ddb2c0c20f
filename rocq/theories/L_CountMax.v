(** Upper bounds for the number of calls. *)
From Verif Require Export S_Count L_Count L_CoreInv L_Rec.

Lemma frugal_pos sz eat refs e : gram (frugal sz eat refs) e -> gram (pos_spec sz) e.
Proof. apply gram_weaken; cbn; auto; unfold anyZ, anyR, anyI, noBase; tauto. Qed.

Lemma one_round a b d : (d <= b -> d <= S a * b)%nat.
Proof. cbn [Nat.mul]. generalize (a * b)%nat. lia. Qed.

Section Max.
Variables (w : world) (sz : size) (eat refs : nat -> Prop) (rho : nat -> nat).
Let N := sz (w_str w) (w_slice w).
Hypothesis Hpeg : peg_env w.
Hypothesis Hfru : forall k, gram (frugal sz eat refs) (w_env w k).
Hypothesis Heat : forall k, eat k -> eats sz eat (w_env w k).
Hypothesis Hrho : forall k, refs k -> (most rho N (w_env w k) <= rho k)%nat.

Lemma max_pos k : gram (pos_spec sz) (w_env w k).
Proof. apply frugal_pos with eat refs. auto. Qed.
Lemma peg_runs e cur r : peg_gram e -> peg w e cur r -> exists n o err, run (w_env w) n e (fresh w cur) = Ok (o, err) /\ returns [] o err r /\ in_world w o.
Proof.
  intros Hg H. apply (peg_complete_all w Hpeg) in H. destruct (H Hg) as (n0 & K).
  destruct (K n0 (le_n _) (fresh w cur)) as (o & err & R & Q & I); [repeat split|reflexivity|]. eauto 8.
Qed.
Lemma peg_in e cur cur1 l : peg_gram e -> gram (pos_spec sz) e -> (sp_pos cur <= N)%nat -> peg w e cur (RSucc cur1 l) ->
  (sp_pos cur <= sp_pos cur1 <= N)%nat /\ (eats sz eat e -> (sp_pos cur < sp_pos cur1)%nat).
Proof.
  intros Hg He L H. destruct (peg_runs e cur _ Hg H) as (n & o & err & R & (-> & Hst & <- & _) & (E1 & E2 & _)).
  assert (B : in_bounds sz (fresh w cur)) by exact L.
  destruct (pos_kept sz (w_env w) e n _ _ _ max_pos He B R) as (B1 & B2). specialize (B2 eq_refl Hst).
  unfold in_bounds in B1. rewrite E1, E2 in B1. split; [split; [exact B2|exact B1]|].
  intros Ee. exact (eats_run sz eat (w_env w) max_pos Heat n e Ee He _ _ B R Hst).
Qed.
Lemma pegs_in es : Forall peg_gram es -> Forall (gram (pos_spec sz)) es -> forall cur cur1 l, (sp_pos cur <= N)%nat -> pegs w es cur (RSucc cur1 l) ->
  (sp_pos cur <= sp_pos cur1 <= N)%nat /\ ((exists e, In e es /\ eats sz eat e) -> (sp_pos cur < sp_pos cur1)%nat).
Proof.
  induction es as [|e es IH]; intros G1 G2 cur cur1 l L H; inversion H; subst.
  - split; [lia|]. intros (e & [] & _).
  - inversion G1; inversion G2; subst.
    match goal with P : peg w e _ _, Q : pegs w es _ _ |- _ => destruct (peg_in e _ _ _ ltac:(assumption) ltac:(assumption) L P) as [A1 A2];
      destruct (IH ltac:(assumption) ltac:(assumption) _ _ _ (proj2 A1) Q) as [B1 B2] end.
    split; [lia|]. intros (e0 & [->|I] & E); [specialize (A2 E); lia|]. specialize (B2 (ex_intro _ e0 (conj I E))). lia.
Qed.
Lemma behind_in cur : (sp_pos cur <= N)%nat -> forall k i, (0 <= i)%Z -> (length (behind cur i k) <= k)%nat /\ Forall (fun p => (sp_pos p <= N)%nat) (behind cur i k).
Proof.
  intros L. induction k as [|k IH]; intros i Hi; cbn [behind]; [split; [cbn; lia|constructor]|].
  destruct (IH (i + 1)%Z ltac:(lia)) as [A B]. cbv zeta. destruct (Z.ltb_spec (Z.of_nat (sp_pos cur) - i) 0); [split; [lia|auto]|].
  split; [cbn [length]; lia|]. constructor; auto. cbn. lia.
Qed.
Notation sum es := (list_sum (map (most rho N) es)).
Notation G1 := (fun es => Forall peg_gram es).
Notation G2 := (fun es => Forall (gram (frugal sz eat refs)) es).
Lemma pos_all es : Forall (gram (frugal sz eat refs)) es -> Forall (gram (pos_spec sz)) es.
Proof. apply Forall_impl. intros e. apply frugal_pos. Qed.

Lemma pegk_most_all :
  (forall e cur r d, pegk w e cur r d -> peg_gram e -> gram (frugal sz eat refs) e -> (sp_pos cur <= N)%nat -> (d <= most rho N e)%nat) /\
  (forall es cur r d, pegks w es cur r d -> G1 es -> G2 es -> (sp_pos cur <= N)%nat -> (d <= sum es)%nat) /\
  (forall es cur r d, pegkc w es cur r d -> G1 es -> G2 es -> (sp_pos cur <= N)%nat -> (d <= sum es)%nat) /\
  (forall t es k cur q d, pegkr w t es k cur q d -> G1 es -> G2 es -> (t_max t < 0 -> exists e, In e es /\ eats sz eat e) -> (sp_pos cur <= N)%nat ->
     (d <= (if (t_max t <? 0)%Z then S (N - sp_pos cur) else Z.to_nat (t_max t) - k) * sum es)%nat) /\
  (forall es ps r d, pegkb w es ps r d -> G1 es -> G2 es -> Forall (fun p => (sp_pos p <= N)%nat) ps -> (d <= length ps * S (sum es))%nat).
Proof.
  apply (pegk_mutind w (fun e cur r d _ => peg_gram e -> gram (frugal sz eat refs) e -> (sp_pos cur <= N)%nat -> (d <= most rho N e)%nat)
    (fun es cur r d _ => G1 es -> G2 es -> (sp_pos cur <= N)%nat -> (d <= sum es)%nat) (fun es cur r d _ => G1 es -> G2 es -> (sp_pos cur <= N)%nat -> (d <= sum es)%nat)
    (fun t es k cur q d _ => G1 es -> G2 es -> (t_max t < 0 -> exists e, In e es /\ eats sz eat e) -> (sp_pos cur <= N)%nat ->
       (d <= (if (t_max t <? 0)%Z then S (N - sp_pos cur) else Z.to_nat (t_max t) - k) * sum es)%nat)
    (fun es ps r d _ => G1 es -> G2 es -> Forall (fun p => (sp_pos p <= N)%nat) ps -> (d <= length ps * S (sum es))%nat)).
  - intros. cbn. lia.
  - intros es cur r d _ IH Hg Hf L. unfold peg_gram in Hg. simpl in Hg, Hf. rewrite fold_and_Forall in Hg, Hf. cbn [most]. specialize (IH Hg Hf L). lia.
  - intros es cur r d _ IH Hg Hf L. unfold peg_gram in Hg. simpl in Hg, Hf. rewrite fold_and_Forall in Hg, Hf. cbn [most]. specialize (IH Hg Hf L). lia.
  - intros. cbn. lia.
  - intros e es cur r d _ IH Hg Hf L. unfold peg_gram in Hg. simpl in Hg, Hf. rewrite fold_and_Forall in Hg, Hf. cbn [most].
    specialize (IH (Forall_cons _ (proj1 Hg) (proj2 Hg)) (Forall_cons _ (proj1 Hf) (proj2 Hf)) L). lia.
  - intros es cur r d _ IH Hg Hf L. unfold peg_gram in Hg. simpl in Hg, Hf. rewrite fold_and_Forall in Hg, Hf. cbn [most]. specialize (IH Hg Hf L). lia.
  - intros es cur r d _ IH Hg Hf L. unfold peg_gram in Hg. simpl in Hg, Hf. rewrite fold_and_Forall in Hg, Hf. cbn [most]. specialize (IH Hg Hf L). lia.
  - intros neg mn mx es cur r d _ IH Hg Hf L. unfold peg_gram in Hg. simpl in Hg, Hf. rewrite fold_and_Forall in Hg, Hf. cbn [most].
    destruct Hg as [_ Hg]. destruct Hf as [Hmn Hf]. destruct (behind_in cur L (Z.to_nat (mx - mn + 1)) mn Hmn) as [B1 B2].
    specialize (IH Hg Hf B2). etransitivity; [exact IH|]. apply Nat.mul_le_mono_r. exact B1.
  - intros t es cur q d _ IH Hg Hf L. unfold peg_gram in Hg. simpl in Hg, Hf. rewrite fold_and_Forall in Hg, Hf. cbn [most].
    destruct Hg as [_ Hg]. destruct Hf as [Ht Hf]. specialize (IH Hg Hf Ht L). apply le_n_S. etransitivity; [exact IH|].
    apply Nat.mul_le_mono_r. destruct (t_max t <? 0)%Z; lia.
  - intros e tr cur r r' d x _ IH _ X Hg Hf L. apply weighs_no in X. unfold peg_gram in Hg. simpl in Hg, Hf. cbn [most]. specialize (IH (proj1 Hg) (proj1 Hf) L). lia.
  - intros k cur r d _ IH Hg Hf L. simpl in Hf. cbn [most]. specialize (IH (Hpeg k) (Hfru k) L). specialize (Hrho k Hf). lia.
  - intros. cbn. lia.
  - intros e es cur cur1 l d r d2 H1 IH1 _ IH2 A B L. inversion A; inversion B; subst.
    destruct (peg_in e _ _ _ ltac:(assumption) (frugal_pos _ _ _ _ ltac:(eassumption)) L (pegk_peg _ _ _ _ _ H1)) as [[_ L1] _].
    specialize (IH1 ltac:(assumption) ltac:(assumption) L). specialize (IH2 ltac:(assumption) ltac:(assumption) L1). unfold list_sum in *. cbn [map fold_right]. lia.
  - intros e es cur d _ IH A B L. inversion A; inversion B; subst. specialize (IH ltac:(assumption) ltac:(assumption) L). unfold list_sum in *. cbn [map fold_right]. lia.
  - intros e es cur cur1 x d _ IH A B L. inversion A; inversion B; subst. specialize (IH ltac:(assumption) ltac:(assumption) L). unfold list_sum in *. cbn [map fold_right]. lia.
  - intros. cbn. lia.
  - intros e es cur cur1 l d _ IH A B L. inversion A; inversion B; subst. specialize (IH ltac:(assumption) ltac:(assumption) L). unfold list_sum in *. cbn [map fold_right]. lia.
  - intros e es cur cur1 x d _ IH A B L. inversion A; inversion B; subst. specialize (IH ltac:(assumption) ltac:(assumption) L). unfold list_sum in *. cbn [map fold_right]. lia.
  - intros e es cur r d d2 _ IH _ IH2 A B L. inversion A; inversion B; subst. specialize (IH ltac:(assumption) ltac:(assumption) L).
    specialize (IH2 ltac:(assumption) ltac:(assumption) L). unfold list_sum in *. cbn [map fold_right]. lia.
  - intros. lia.
  - intros t es k cur d Hk _ IH A B Ht L. specialize (IH A B L). destruct (Z.ltb_spec (t_max t) 0); [apply one_round; exact IH|].
    replace (Z.to_nat (t_max t) - k)%nat with (S (Z.to_nat (t_max t) - k - 1)) by lia. apply one_round. exact IH.
  - intros t es k cur cur1 x d Hk _ IH A B Ht L. specialize (IH A B L). destruct (Z.ltb_spec (t_max t) 0); [apply one_round; exact IH|].
    replace (Z.to_nat (t_max t) - k)%nat with (S (Z.to_nat (t_max t) - k - 1)) by lia. apply one_round. exact IH.
  - intros t es k cur cur1 l q d d2 Hk H1 IH1 _ IH2 A B Ht L. specialize (IH1 A B L).
    destruct (pegs_in es A (pos_all es B) cur cur1 l L (pegks_pegs _ _ _ _ _ H1)) as [[L0 L1] S1]. specialize (IH2 A B Ht L1).
    destruct (Z.ltb_spec (t_max t) 0) as [Z0|Z0].
    + specialize (S1 (Ht Z0)). assert ((S (N - sp_pos cur1)) * sum es <= (N - sp_pos cur) * sum es)%nat by (apply Nat.mul_le_mono_r; lia). cbn [Nat.mul] in *. lia.
    + replace (Z.to_nat (t_max t) - k)%nat with (S (Z.to_nat (t_max t) - S k)) by lia. cbn [Nat.mul]. lia.
  - intros. cbn. lia.
  - intros es p ps cur1 l d _ IH A B L. inversion L; subst. specialize (IH A B ltac:(assumption)). cbn [length]. lia.
  - intros es p ps cur1 x d _ IH A B L. inversion L; subst. specialize (IH A B ltac:(assumption)). cbn [length]. lia.
  - intros es p ps r d d2 _ IH _ IH2 A B L. inversion L; subst. specialize (IH A B ltac:(assumption)). specialize (IH2 A B ltac:(assumption)). cbn [length]. lia.
Qed.
End Max.

Lemma cost_most sz eat refs rho env n e c o err :
  (forall k, peg_gram (env k)) -> (forall k, gram (frugal sz eat refs) (env k)) -> (forall k, eat k -> eats sz eat (env k)) ->
  (forall k, refs k -> (most rho (sz (c_str c) (c_slice c)) (env k) <= rho k)%nat) ->
  peg_gram e -> gram (frugal sz eat refs) e -> in_bounds sz c -> c_st c = Matched -> run env n e c = Ok (o, err) ->
  (cost env n e c <= most rho (sz (c_str c) (c_slice c)) e)%nat.
Proof.
  intros H1 H2 H3 H4 H5 H6 B Hst R. destruct (cost_counts env e n c o err H1 H5 Hst R) as (r & P & _).
  exact (proj1 (pegk_most_all (mkW (c_str c) (c_slice c) (c_tag c) env) sz eat refs rho H1 H2 H3 H4) e _ _ _ P H5 H6 B).
Qed.

(** ** Rules without recursion: a polynomial *)
Fixpoint rule_most (env : nat -> pexp) (N f k : nat) : nat :=
  match f with O => O | S f' => most (rule_most env N f') N (env k) end.
Lemma most_ext sz eat K rho rho' N e : (forall j, (j < K)%nat -> rho j = rho' j) -> gram (frugal sz eat (fun j => (j < K)%nat)) e -> most rho N e = most rho' N e.
Proof.
  intros Hr. induction e using pexp_ind'; intros Hg; simpl in Hg; try rewrite fold_and_Forall in Hg; cbn [most]; auto;
  try (assert (E : map (most rho N) es = map (most rho' N) es) by
         (apply map_ext_in; intros x I; eapply Forall_forall in H; [|exact I]; apply H; try destruct Hg as [_ Hg]; eapply Forall_forall in Hg; eauto);
       rewrite E; reflexivity).
  - rewrite IHe; tauto.
Qed.
Definition poly (f : nat -> nat) : Prop := exists C D, forall N, (f N <= C * S N ^ D)%nat.
Lemma poly_const a : poly (fun _ => a).
Proof. exists a, 0%nat. intros N. cbn. lia. Qed.
Lemma poly_le f g : (forall N, f N <= g N)%nat -> poly g -> poly f.
Proof. intros H (C & D & P). exists C, D. intros N. etransitivity; [apply H|apply P]. Qed.
Lemma poly_add f g : poly f -> poly g -> poly (fun N => f N + g N)%nat.
Proof.
  intros (C & D & P) (C' & D' & P'). exists (C + C')%nat, (D + D')%nat. intros N. specialize (P N). specialize (P' N).
  assert (S N ^ D <= S N ^ (D + D'))%nat by (apply Nat.pow_le_mono_r; lia).
  assert (S N ^ D' <= S N ^ (D + D'))%nat by (apply Nat.pow_le_mono_r; lia).
  rewrite Nat.mul_add_distr_r. apply Nat.add_le_mono.
  - apply Nat.le_trans with (1 := P). apply Nat.mul_le_mono_l. assumption.
  - apply Nat.le_trans with (1 := P'). apply Nat.mul_le_mono_l. assumption.
Qed.
Lemma poly_mul f g : poly f -> poly g -> poly (fun N => f N * g N)%nat.
Proof.
  intros (C & D & P) (C' & D' & P'). exists (C * C')%nat, (D + D')%nat. intros N. specialize (P N). specialize (P' N).
  rewrite Nat.pow_add_r, Nat.mul_shuffle1.
  apply Nat.mul_le_mono; assumption.
Qed.
Lemma poly_succ f : poly f -> poly (fun N => S (f N)).
Proof. intros P. apply (poly_add (fun _ => 1%nat) f (poly_const 1) P). Qed.
Lemma poly_sum (F : pexp -> nat -> nat) es : Forall (fun e => poly (F e)) es -> poly (fun N => list_sum (map (fun e => F e N) es)).
Proof.
  induction 1 as [|e es He _ IH]; [apply (poly_const 0)|]. apply (poly_add (F e) (fun N => list_sum (map (fun e => F e N) es)) He IH).
Qed.
Lemma poly_most sz eat K (rho : nat -> nat -> nat) e : (forall j, (j < K)%nat -> poly (fun N => rho N j)) ->
  gram (frugal sz eat (fun j => (j < K)%nat)) e -> poly (fun N => most (rho N) N e).
Proof.
  intros Hr. induction e using pexp_ind'; intros Hg; simpl in Hg; try rewrite fold_and_Forall in Hg; cbn [most];
  try (assert (E : poly (fun N => list_sum (map (most (rho N) N) es))) by
         (apply (poly_sum (fun e N => most (rho N) N e)); apply Forall_forall; intros x I; eapply Forall_forall in H; [|exact I]; apply H;
          try destruct Hg as [_ Hg]; eapply Forall_forall in Hg; eauto));
  try (apply poly_succ; exact E).
  - apply poly_const.
  - apply (poly_mul (fun _ => Z.to_nat (mx - mn + 1))); [apply poly_const|apply poly_succ; exact E].
  - apply poly_succ. apply poly_mul; [|exact E]. destruct (t_max t <? 0)%Z; [|apply poly_const]. exists 1%nat, 1%nat. intros N. cbn. lia.
  - apply poly_succ. apply IHe. tauto.
  - apply poly_succ. apply Hr. exact Hg.
  - apply poly_const.
Qed.
Lemma frugal_more sz eat (p q : nat -> Prop) e : (forall k, p k -> q k) -> gram (frugal sz eat p) e -> gram (frugal sz eat q) e.
Proof. intros H. apply gram_weaken; cbn; auto. Qed.
Lemma rule_most_fuel sz eat env N : tiered sz eat env -> forall k f, (k < f)%nat -> rule_most env N f k = rule_most env N (S k) k.
Proof.
  intros [_ T]. induction k as [k IH] using (well_founded_induction lt_wf). intros f Hf. destruct f as [|f]; [lia|]. cbn [rule_most].
  apply most_ext with sz eat k; [|apply T]. intros j Hj. rewrite (IH j Hj f), (IH j Hj k); auto; lia.
Qed.
Lemma rule_most_fix sz eat env N : tiered sz eat env -> forall k, most (fun j => rule_most env N (S j) j) N (env k) = rule_most env N (S k) k.
Proof.
  intros T k. cbn [rule_most]. apply most_ext with sz eat k; [|apply T]. intros j Hj. symmetry. apply (rule_most_fuel sz eat env N T); lia.
Qed.
Lemma rule_most_poly sz eat env : tiered sz eat env -> forall k, poly (fun N => rule_most env N (S k) k).
Proof.
  intros T. induction k as [k IH] using (well_founded_induction lt_wf). 
  apply poly_le with (fun N => most (fun j => rule_most env N (S j) j) N (env k)).
  - intros N. rewrite (rule_most_fix sz eat env N T). lia.
  - apply (poly_most sz eat k (fun N j => rule_most env N (S j) j)); [exact IH|apply T].
Qed.
Lemma cost_poly sz eat env K e : tiered sz eat env -> peg_gram e -> gram (frugal sz eat (fun j => (j < K)%nat)) e ->
  exists C D, forall n c o err, in_bounds sz c -> c_st c = Matched -> run env n e c = Ok (o, err) ->
    (cost env n e c <= C * S (sz (c_str c) (c_slice c)) ^ D)%nat.
Proof.
  intros T Hg Hf. destruct (poly_most sz eat K (fun N j => rule_most env N (S j) j) e) as (C & D & P); auto.
  - intros j _. apply (rule_most_poly sz eat env T).
  - exists C, D. intros n c o err B Hst R. etransitivity; [|apply P].
    apply (cost_most sz eat (fun _ => True)) with o err; auto.
    + intros k. apply T.
    + intros k. eapply frugal_more; [|apply T]. auto.
    + apply T.
    + intros k _. rewrite (rule_most_fix sz eat env _ T). lia.
    + eapply frugal_more; [|exact Hf]. auto.
Qed.

(** The conditions of [frugal] from those on positions and those on repetitions. *)
Definition rep_spec (sz : size) (eat refs : nat -> Prop) : gspec :=
  mkGS (fun _ _ => True) (fun _ => True) anyZ (fun t es => t_max t < 0 -> exists e, In e es /\ eats sz eat e) refs noBase.
Lemma frugal_of sz eat refs e : gram (pos_spec sz) e -> gram (rep_spec sz eat refs) e -> gram (frugal sz eat refs) e.
Proof.
  induction e using pexp_ind'; intros H1 H2; simpl in *; try rewrite fold_and_Forall in *; try tauto;
  try (apply Forall_forall; intros x I; eapply Forall_forall in H; [|exact I]; apply H; [eapply Forall_forall in H1; eauto|eapply Forall_forall in H2; eauto]);
  (split; [tauto|]; destruct H1 as [_ H1], H2 as [_ H2]; apply Forall_forall; intros x I; eapply Forall_forall in H; [|exact I]; apply H; [eapply Forall_forall in H1; eauto|eapply Forall_forall in H2; eauto]).
Qed.
