(** The number of parser calls of production rules. *)
From Verif Require Export S_CountRule L_CountMax L_CountMin L_Obj.

(** ** What has been counted before does not matter *)
Definition shift (f : wfn nat) : Prop := forall k c, f k c = ((k + fst (f 0 c))%nat, snd (f 0%nat c)).
Lemma shift_at f : shift f -> forall k c k1 r, f k c = (k1, r) -> exists d, k1 = (k + d)%nat /\ forall j, f j c = ((j + d)%nat, r).
Proof.
  intros H k c k1 r E. exists (fst (f 0%nat c)). rewrite H in E. injection E as <- <-. split; [reflexivity|]. intros j. apply H.
Qed.
Lemma shift_fst f : shift f -> forall k c, fst (f k c) = (k + fst (f 0 c))%nat.
Proof. intros H k c. rewrite H. reflexivity. Qed.
Lemma shift_tick f : shift f -> shift (tick f).
Proof. intros H k c. unfold tick. rewrite (H (S k)), (H 1%nat). cbn [fst snd]. f_equal. lia. Qed.
Lemma shift_light cls f : shift f -> shift (w_light cls f).
Proof. intros H k c. unfold w_light. rewrite (H k). destruct (f 0%nat c) as [d [[o e]|x|]]; reflexivity. Qed.
Lemma shift_children ex sv ps : Forall shift ps -> forall k o num,
  w_children ex sv ps k o num = ((k + fst (w_children ex sv ps 0%nat o num))%nat, snd (w_children ex sv ps 0%nat o num)).
Proof.
  induction 1 as [|p ps H F IH]; intros k o num; cbn [w_children]; [cbn; f_equal; lia|].
  rewrite (H k). destruct (p 0%nat o) as [d [[o1 e]|x|]]; cbn [fst snd]; auto. cbv zeta.
  destruct (c_st (fix_status o1 e)); auto; destruct ex; auto; rewrite (IH (k + d)%nat), (IH d); cbn [fst snd]; f_equal; lia.
Qed.
Lemma shift_parent q ex fn bottom ps : Forall shift ps -> forall fuel k o count,
  w_parent fuel q ex fn bottom ps k o count = ((k + fst (w_parent fuel q ex fn bottom ps 0%nat o count))%nat, snd (w_parent fuel q ex fn bottom ps 0%nat o count)).
Proof.
  intros F. induction fuel as [|fuel IH]; intros k o count; cbn [w_parent]; destruct (more q count); try (cbn; f_equal; lia).
  rewrite (shift_children ex o ps F k). destruct (w_children ex o ps 0%nat o 0) as [d [r|c|o1 num]]; cbn [fst snd]; auto.
  destruct (ex && _ && _); auto. destruct (call_fn fn _ bottom _) as [[o2 err]|x|]; auto. destruct (c_st o2); auto.
  rewrite (IH (k + d)%nat), (IH d). cbn [fst snd]. f_equal; lia.
Qed.
Definition tshift (t : wtrans nat) : Prop := forall n c k l, t n c k l = ((k + fst (t n c 0 l))%nat, snd (t n c 0%nat l)).
Lemma shift_run_trans n c ts : Forall tshift ts -> forall k l, w_run_trans n c ts k l = ((k + fst (w_run_trans n c ts 0 l))%nat, snd (w_run_trans n c ts 0%nat l)).
Proof.
  induction 1 as [|t ts H F IH]; intros k l; cbn [w_run_trans]; [cbn; f_equal; lia|]. rewrite (H n c k).
  destruct (t n c 0%nat l) as [d [[e|r]|x|]]; cbn [fst snd]; auto. rewrite (IH (k + d)%nat), (IH d). cbn [fst snd]. f_equal; lia.
Qed.
Lemma shift_base cls fn props ps tr n : Forall shift ps -> (forall ts, tr = Some ts -> Forall tshift ts) -> shift (w_base cls fn props ps tr n).
Proof.
  intros F T k c. unfold w_base. cbv zeta.
  rewrite (shift_parent _ _ _ _ _ F n k). destruct (w_parent n _ _ _ _ _ 0%nat _ _) as [d [r|o count]]; cbn [fst snd]; auto.
  destruct (c_st (after_loop _ o count)); auto. destruct (call_fn fn (-1) _ _) as [[o2 err]|x|]; auto. destruct (c_st o2); auto.
  destruct tr as [ts|]; auto. destruct (_ <? _)%nat; auto. rewrite (shift_run_trans n _ ts (T ts eq_refl) (k + d)%nat), (shift_run_trans n _ ts (T ts eq_refl) d).
  destruct (w_run_trans n _ ts 0%nat _) as [d2 [[e|r]|x|]]; cbn [fst snd]; f_equal; lia.
Qed.
Lemma shift_behind neg p c : shift p -> forall k i w, w_behind_loop neg p w c i k = ((w + fst (w_behind_loop neg p 0 c i k))%nat, snd (w_behind_loop neg p 0%nat c i k)).
Proof.
  intros H. induction k as [|k IH]; intros i w; cbn [w_behind_loop]; [cbn; f_equal; lia|]. cbv zeta. destruct (_ <? 0); [apply IH|].
  rewrite (H w). destruct (p 0%nat _) as [d [[o [e|]]|x|]]; cbn [fst snd]; auto.
  destruct (c_st o); auto; [destruct neg; auto|..]; rewrite (IH _ (w + d)%nat), (IH _ d); cbn [fst snd]; f_equal; lia.
Qed.
Lemma no_effect_shift ts : Forall tshift (map no_effect ts).
Proof. induction ts; constructor; auto. intros n c k l. unfold no_effect. cbn. f_equal. lia. Qed.
Lemma no_effect_shifts tr ts : option_map (map no_effect) tr = Some ts -> Forall tshift ts.
Proof. destruct tr; cbn; intros E; inversion E. apply no_effect_shift. Qed.
Lemma kdenote_shift e : forall rho n, (forall j, shift (rho j)) -> shift (kdenote rho n e).
Proof.
  induction e using pexp_ind'; intros rho nn Hr;
    try (assert (Hcs : Forall shift (map (kdenote rho nn) es)) by (clear -H Hr; induction H; cbn; constructor; auto));
    cbn [kdenote]; try apply shift_tick; try (apply shift_base; [assumption|discriminate]).
  - intros k c. cbn. f_equal. lia.
  - apply shift_base; auto. intros ts E. injection E as <-. apply (no_effect_shift [GroupingTransform]).
  - intros k c. apply (shift_behind neg _ c). apply shift_tick. apply shift_base; [assumption|discriminate].
  - apply shift_base; [constructor; auto|]. intros ts E. eapply no_effect_shifts. exact E.
  - apply shift_light. auto.
  - apply shift_base; auto. intros ts E. eapply no_effect_shifts. exact E.
Qed.
Lemma krun_shift env n e : shift (krun env n e).
Proof.
  unfold krun. apply kdenote_shift. induction n as [|n IH]; intros j k c; cbn [krun_env]; [cbn; f_equal; lia|]. exact (kdenote_shift (env j) _ n IH k c).
Qed.
Lemma krun_at env n e k c : krun env n e k c = ((k + cost env n e c)%nat, run env n e c).
Proof. rewrite krun_shift. f_equal. apply krun_same. Qed.

(** ** The same answers *)
Section Table.
Variables (env : nat -> pexp) (check : pexp).
Definition w_table (prs : prod_table) := map (fun l => mkWPrec (map (fun e n => krun env n e) (fst l)) (snd l)) prs.
Definition p_table (prs : prod_table) := map (fun l : list pexp * bool => mkPrec (map (fun e n => run env n e) (fst l)) (snd l)) prs.
Lemma rules_sim n es : rules_esim nat any_nat no_panic n (map (fun e m => krun env m e) es) (map (fun e m => run env m e) es).
Proof. induction es; constructor; auto. apply csim_eq. intros k c. apply krun_same. Qed.
Lemma table_sim n prs : Forall2 (prec_esim nat any_nat no_panic n) (w_table prs) (p_table prs).
Proof. induction prs as [|[es b] prs IH]; constructor; auto. split; [apply rules_sim|reflexivity]. Qed.
Lemma kprod_same prs n c k l : snd (kprod env prs check n c k l) = table_prod env prs check n c l.
Proof.
  unfold kprod, table_prod, w_ProductionRule, ProductionRule.
  destruct (esim_production nat any_nat no_panic n (w_table prs) (p_table prs) (fun m => krun env m check) (fun m => run env m check) (c_tag c)
              (table_sim n prs) (proj2 (csim_eq _ _) (krun_same env n check)) n k l I) as [(x & [] & _)|[E _]]. exact E.
Qed.

Lemma rules_shift n es astc l p : forall k, w_try_rules n (map (fun e m => krun env m e) es) astc k l p =
  ((k + fst (w_try_rules n (map (fun e m => krun env m e) es) astc 0 l p))%nat, snd (w_try_rules n (map (fun e m => krun env m e) es) astc 0%nat l p)).
Proof.
  induction es as [|e es IH]; intros k; cbn [map w_try_rules]; [cbn; f_equal; lia|]. rewrite (krun_shift env n e k).
  destruct (krun env n e 0%nat _) as [d [[o [x|]]|x|]]; cbn [fst snd]; auto.
  destruct (c_st o); [destruct (_ && _); auto|..]; rewrite (IH (k + d)%nat), (IH d); cbn [fst snd]; f_equal; lia.
Qed.
Lemma positions_shift n es b astc l : forall j i k, let f k := w_try_positions n (mkWPrec (map (fun e m => krun env m e) es) b) astc k l i j in
  f k = ((k + fst (f 0))%nat, snd (f 0%nat)).
Proof.
  induction j as [|j IH]; intros i k; cbn [w_try_positions wpr_rules wpr_rtol]; cbv zeta; [cbn; f_equal; lia|].
  rewrite rules_shift. destruct (w_try_rules n _ astc 0%nat l _) as [d [x|x| |x|]]; cbn [fst snd]; auto.
  cbv zeta in IH. rewrite (IH (S i) (k + d)%nat), (IH (S i) d). cbn [fst snd]. f_equal; lia.
Qed.
Lemma precedences_shift n prs t l : forall k, w_try_precedences n (w_table prs) t k l =
  ((k + fst (w_try_precedences n (w_table prs) t 0 l))%nat, snd (w_try_precedences n (w_table prs) t 0%nat l)).
Proof.
  induction prs as [|[es b] prs IH]; intros k; [cbn; f_equal; lia|].
  change (w_table ((es, b) :: prs)) with (mkWPrec (map (fun e n => krun env n e) es) b :: w_table prs). cbn [w_try_precedences]. cbv zeta.
  pose proof (positions_shift n es b (new_object_ctx (ast_slice l) t) l (S (length l)) 0%nat k) as P. cbv zeta in P. rewrite P.
  destruct (w_try_positions n _ _ 0%nat l 0 _) as [d [x|x| |x|]]; cbn [fst snd]; auto. rewrite (IH (k + d)%nat), (IH d). cbn [fst snd]. f_equal; lia.
Qed.
Lemma production_shift n prs t : forall j k l, let f k := w_production n j (w_table prs) (fun m => krun env m check) t k l in
  f k = ((k + fst (f 0))%nat, snd (f 0%nat)).
Proof.
  induction j as [|j IH]; intros k l; cbn [w_production]; cbv zeta; [cbn; f_equal; lia|]. rewrite precedences_shift.
  destruct (w_try_precedences n (w_table prs) t 0%nat l) as [d [x|x| |l1|]]; cbn [fst snd]; auto.
  - rewrite (krun_shift env n check (k + d)%nat), (krun_shift env n check d). destruct (krun env n check 0%nat _) as [d2 [[o [x|]]|x|]]; cbn [fst snd];
      try (f_equal; lia); [|destruct (c_st o); try (cbn [fst snd]; f_equal; lia)];
      cbv zeta in IH; rewrite (IH (k + d + d2)%nat), (IH (d + d2)%nat); cbn [fst snd]; f_equal; lia.
  - rewrite (krun_shift env n check (k + d)%nat), (krun_shift env n check d). destruct (krun env n check 0%nat _) as [d2 [[o [x|]]|x|]]; cbn [fst snd];
      try (f_equal; lia). destruct (c_st o); cbn [fst snd]; f_equal; lia.
Qed.
Lemma kprod_at prs n c k l : kprod env prs check n c k l = ((k + prod_cost env prs check n c l)%nat, table_prod env prs check n c l).
Proof.
  rewrite <- (kprod_same prs n c 0%nat l). exact (production_shift n prs (c_tag c) n k l).
Qed.

(** ** The bound *)
Variables (tag : value) (K : nat) (prs : prod_table).
Notation rules_of := (flat_map fst).
Hypothesis HK : forall e, e = check \/ In e (rules_of prs) -> rule_calls env tag K e.
Hypothesis Hs : forall e, In e (rules_of prs) -> shortens env tag e.
Definition scan_ok (r : scan) : Prop := match r with SBad _ | SFuel => False | _ => True end.
Definition shorter (asts : list ast) (r : scan) : Prop := match r with SHit l => (length l < length asts)%nat | _ => True end.
Lemma rules_most n asts p es : (p <= length asts)%nat -> (forall e, In e es -> In e (rules_of prs)) -> forall k,
  let r := w_try_rules n (map (fun e m => krun env m e) es) (new_object_ctx (ast_slice asts) tag) k asts p in
  scan_ok (snd r) -> (fst r <= k + K * length es)%nat /\ shorter asts (snd r).
Proof.
  intros Hp. induction es as [|e es IH]; intros Hin k; cbn [map w_try_rules]; cbv zeta; [cbn; intros _; split; [lia|exact I]|].
  change (set_pos (new_object_ctx (ast_slice asts) tag) p) with (at_pos tag asts p). rewrite krun_at.
  assert (In e (rules_of prs)) as He by (apply Hin; left; reflexivity).
  destruct (run env n e (at_pos tag asts p)) as [[o [x|]]|x|] eqn:E; cbn [fst snd scan_ok]; try tauto.
  - intros _. specialize (HK e (or_intror He) n asts p o _ Hp E). cbn [length]. split; [rewrite Nat.mul_succ_r; lia|exact I].
  - pose proof (HK e (or_intror He) n asts p o _ Hp E) as A. 
    assert (N : c_st o <> Matched -> let r := w_try_rules n (map (fun e m => krun env m e) es) (new_object_ctx (ast_slice asts) tag) (k + cost env n e (at_pos tag asts p))%nat asts p in
      scan_ok (snd r) -> (fst r <= k + K * S (length es))%nat /\ shorter asts (snd r)).
    { intros _. cbv zeta. intros B. destruct (IH (fun e' I => Hin e' (or_intror I)) _ B) as [C D]. split; [|exact D]. rewrite Nat.mul_succ_r. lia. }
    cbn [length]. destruct (c_st o) eqn:S1; try (apply N; discriminate).
    destruct (Nat.leb_spec p (length asts)); [|lia]. destruct (Nat.leb_spec (c_pos o) (length asts)); cbn [andb fst snd scan_ok]; [|tauto].
    intros _. pose proof (Hs e He n asts p o Hp E S1) as L. split; [rewrite Nat.mul_succ_r; clear -A; lia|]. cbn [shorter].
    rewrite !app_length, skipn_length, firstn_length. lia.
Qed.
Lemma positions_most n asts es b : (forall e, In e es -> In e (rules_of prs)) -> forall j i k, (i + j <= S (length asts))%nat ->
  let r := w_try_positions n (mkWPrec (map (fun e m => krun env m e) es) b) (new_object_ctx (ast_slice asts) tag) k asts i j in
  scan_ok (snd r) -> (fst r <= k + K * (length es * j))%nat /\ shorter asts (snd r).
Proof.
  intros Hin. induction j as [|j IH]; intros i k Hj; cbn [w_try_positions wpr_rules wpr_rtol]; cbv zeta; [cbn; intros _; split; [lia|exact I]|].
  set (p := if b then (length asts - i)%nat else i). assert (Hp : (p <= length asts)%nat) by (subst p; destruct b; lia).
  pose proof (rules_most n asts p es Hp Hin k) as R. cbv zeta in R.
  destruct (w_try_rules n _ _ k asts p) as [k1 r]. cbn [fst snd] in R.
  assert (X : (K * (length es * S j) = K * (length es * j) + K * length es)%nat) by (rewrite Nat.mul_succ_r, Nat.mul_add_distr_l; reflexivity).
  destruct r; cbn [fst snd scan_ok] in *; try tauto; intros B; try (destruct (R I) as [R1 R2]; split; [rewrite X; lia|exact R2]).
  destruct (R I) as [R1 _]. specialize (IH (S i) k1 ltac:(lia)). cbv zeta in IH. destruct (IH B) as [C D]. split; [rewrite X; lia|exact D].
Qed.
Lemma precedences_most n asts l : (forall e, In e (rules_of l) -> In e (rules_of prs)) -> forall k,
  let r := w_try_precedences n (w_table l) tag k asts in
  scan_ok (snd r) -> (fst r <= k + K * (width l * S (length asts)))%nat /\ shorter asts (snd r).
Proof.
  induction l as [|[es b] l IH]; intros Hin k; [cbn; intros _; split; [lia|exact I]|].
  change (w_table ((es, b) :: l)) with (mkWPrec (map (fun e n => krun env n e) es) b :: w_table l). cbn [w_try_precedences]. cbv zeta.
  pose proof (positions_most n asts es b (fun e I => Hin e (in_or_app _ _ _ (or_introl I))) (S (length asts)) 0%nat k (Nat.le_refl _)) as R. cbv zeta in R.
  destruct (w_try_positions n _ _ k asts 0 _) as [k1 r]. cbn [fst snd] in R.
  assert (X : (K * (width ((es, b) :: l) * S (length asts)) = K * (length es * S (length asts)) + K * (width l * S (length asts)))%nat).
  { unfold width. cbn [flat_map fst]. rewrite app_length, Nat.mul_add_distr_r, Nat.mul_add_distr_l. reflexivity. }
  destruct r; cbn [fst snd scan_ok] in *; try tauto; intros B; try (destruct (R I) as [R1 R2]; split; [rewrite X; lia|exact R2]).
  destruct (R I) as [R1 _]. specialize (IH (fun e I => Hin e (in_or_app _ _ _ (or_intror I))) k1). cbv zeta in IH. destruct (IH B) as [C D].
  split; [rewrite X; lia|exact D].
Qed.
(** One round costs at most [K * (R * (m + 1) + 1)]. *)
Definition round_most (m : nat) : nat := (K * (width prs * S m + 1))%nat.
Fixpoint rounds_most (m : nat) : nat := match m with O => round_most 0 | S m' => round_most m + rounds_most m' end.
Lemma rounds_mono a b : (a <= b)%nat -> (rounds_most a <= rounds_most b)%nat.
Proof. induction 1; auto. cbn [rounds_most]. lia. Qed.
Lemma round_mono a b : (a <= b)%nat -> (round_most a <= round_most b)%nat.
Proof. intros H. unfold round_most. apply Nat.mul_le_mono_l. apply Nat.add_le_mono_r. apply Nat.mul_le_mono_l. lia. Qed.
Lemma production_most n : forall j k asts,
  let r := w_production n j (w_table prs) (fun m => krun env m check) tag k asts in
  (exists a, snd r = Ok a) -> (fst r <= k + rounds_most (length asts))%nat.
Proof.
  induction j as [|j IH]; intros k asts; cbn [w_production]; cbv zeta; [intros [a E]; discriminate|].
  pose proof (precedences_most n asts prs (fun _ I => I) k) as R. cbv zeta in R.
  destruct (w_try_precedences n (w_table prs) tag k asts) as [k1 r]. cbn [fst snd] in R.
  assert (G : (k1 <= k + K * (width prs * S (length asts)) -> forall a o err, run env n check (new_object_ctx (ast_slice a) tag) = Ok (o, err) ->
    k1 + cost env n check (new_object_ctx (ast_slice a) tag) <= k + round_most (length asts))%nat).
  { intros A a o err E. pose proof (HK check (or_introl eq_refl) n a 0%nat o err ltac:(lia) E) as C. change (at_pos tag a 0) with (new_object_ctx (ast_slice a) tag) in C.
    unfold round_most. rewrite Nat.mul_add_distr_l. lia. }
  assert (M : (round_most (length asts) <= rounds_most (length asts))%nat) by (destruct asts; cbn [length rounds_most]; lia).
  destruct r as [e|x| |asts1|]; cbn [fst snd scan_ok] in *; intros [a E]; try discriminate.
  - destruct (R I) as [R1 _]. unfold round_most in M. rewrite Nat.mul_add_distr_l in M. lia.
  - destruct (R I) as [R1 R2]. cbn [shorter] in R2. specialize (G R1 asts1). rewrite krun_at in *.
    destruct (run env n check (new_object_ctx (ast_slice asts1) tag)) as [[o err]|x|] eqn:C; try discriminate. specialize (G o err eq_refl).
    assert (X : forall k2, (k2 <= k + round_most (length asts))%nat -> (exists a, snd (w_production n j (w_table prs) (fun m => krun env m check) tag k2 asts1) = Ok a) ->
      (fst (w_production n j (w_table prs) (fun m => krun env m check) tag k2 asts1) <= k + rounds_most (length asts))%nat).
    { intros k2 L A. specialize (IH k2 asts1 A). cbv zeta in IH. pose proof (rounds_mono (length asts1) (length asts - 1) ltac:(lia)).
      destruct (length asts) as [|m] eqn:Em; [lia|]. cbn [rounds_most]. replace (S m - 1)%nat with m in * by lia. lia. }
    destruct err as [x|]; [apply X; eauto|]. destruct (c_st o); try (apply X; eauto). cbn [fst]. lia.
  - destruct (R I) as [R1 _]. specialize (G R1 asts). rewrite krun_at in *.
    destruct (run env n check (new_object_ctx (ast_slice asts) tag)) as [[o err]|x|] eqn:C; try discriminate. specialize (G o err eq_refl).
    destruct err as [x|]; [cbn [fst]; lia|]. destruct (c_st o); cbn [fst]; lia.
Qed.
Lemma rounds_closed m : (2 * rounds_most m = K * (width prs * (m + 1) * (m + 2) + 2 * (m + 1)))%nat.
Proof.
  induction m as [|m IH]; cbn [rounds_most]; unfold round_most in *; [|rewrite Nat.mul_add_distr_l, IH]; clear; generalize (width prs); intros R; nia.
Qed.
End Table.
