(** The formula example computes the value of the formula. *)
From Verif Require Export L_FormulaParse.

(** ** Values *)
Lemma wraps_det z r r' : wraps z r -> wraps z r' -> r = r'.
Proof. unfold wraps, int64. intros [H (k & E)] [H' (k' & E')]. nia. Qed.
Lemma to_int64_wraps z : wraps z (to_int64 z).
Proof.
  unfold to_int64, wraps, int64. change two64 with (2 ^ 64). change two63 with (2 ^ 63). cbv zeta.
  pose proof (Z.mod_pos_bound z (2 ^ 64) eq_refl) as B. pose proof (Z.div_mod z (2 ^ 64) ltac:(discriminate)) as D.
  destruct (Z.ltb_spec (z mod 2 ^ 64) (2 ^ 63)).
  - split; [lia|]. exists (z / 2 ^ 64). lia.
  - split; [lia|]. exists (z / 2 ^ 64 + 1). lia.
Qed.
Lemma wraps_self z : int64 z -> wraps z z.
Proof. intros H. split; auto. exists 0. lia. Qed.
Lemma quot_trunc x y : y <> 0 -> trunc_quot x y (Z.quot x y).
Proof.
  intros H. exists (Z.rem x y). split; [apply Z.quot_rem'|]. split; [apply Z.rem_bound_abs; auto|]. pose proof (Z.rem_sign_mul x y H). nia.
Qed.
Lemma small_multiple y k d : y * k = d -> Z.abs d < Z.abs y -> k = 0.
Proof. intros <- H. rewrite Z.abs_mul in H. destruct (Z.eq_dec k 0); auto. assert (1 <= Z.abs k) by lia. nia. Qed.
Lemma trunc_det x y q q' : trunc_quot x y q -> trunc_quot x y q' -> q = q'.
Proof.
  intros (m & E & B & S1) (m' & E' & B' & S2).
  destruct (Z.eq_dec x 0) as [->|X].
  - assert (q = 0) by (apply (small_multiple y q (- m)); lia). assert (q' = 0) by (apply (small_multiple y q' (- m')); lia). congruence.
  - assert (q - q' = 0); [|lia]. apply (small_multiple y _ (m' - m)); [lia|]. assert (0 < x \/ x < 0) as [X'|X'] by lia.
    + assert (0 <= m) by nia. assert (0 <= m') by nia. lia.
    + assert (m <= 0) by nia. assert (m' <= 0) by nia. lia.
Qed.
Lemma evals_det f : forall x y, evals f x -> evals f y -> x = y.
Proof.
  induction f as [z|f IH|o f IHf g IHg]; intros x y H H'; inversion H; subst; inversion H'; subst; auto;
    repeat match goal with
    | A : evals f ?a, B : evals f ?b |- _ => pose proof (IHf _ _ A B); clear B
    | A : evals g ?a, B : evals g ?b |- _ => pose proof (IHg _ _ A B); clear B
    | A : evals f ?a, B : evals f ?b |- _ => pose proof (IH _ _ A B); clear B
    end; subst; try (eapply wraps_det; eassumption).
  match goal with A : trunc_quot _ _ ?a, B : trunc_quot _ _ ?b |- _ => pose proof (trunc_det _ _ _ _ A B); subst end.
  eapply wraps_det; eassumption.
Qed.
Lemma evals_no_div f : divides_by_zero f -> forall x, ~ evals f x.
Proof.
  induction 1; intros x E; inversion E; subst; try (eapply IHdivides_by_zero; eassumption).
  match goal with A : evals g 0, B : evals g ?y |- _ => pose proof (evals_det g _ _ A B) end. congruence.
Qed.
Lemma div_spreads : spreads divides_by_zero.
Proof. split; [intros; apply dz_neg; auto|]. intros o f g [H|H]; [apply dz_left|apply dz_right]; auto. Qed.
Lemma exact_evals f x : exact f x -> evals f x.
Proof.
  induction 1; try (econstructor; eauto; apply wraps_self; auto; fail). eapply ev_div; eauto; [apply quot_trunc; auto|apply wraps_self; auto].
Qed.

(** ** The production rules *)
Definition valued (a : ast) (f : arith) : Prop := a_cls a = "Number"%string /\ exists z, a_val a = VInt z /\ evals f z.
Definition e0 : gerr := EUser 0.
Definition checked : trans := formula_prod (terr e0).
Lemma op_star : op_byte OMul = 42. Proof. reflexivity. Qed.
Lemma negate_ok n c u a f : istk valued TUn u -> valued a f -> exists a', negate n c [u; a] = tok [a'] /\ valued a' (FNeg f).
Proof.
  intros [_ V] [C (z & Vz & E)]. unfold negate, str_of, int_of. simpl. rewrite V, Vz. simpl. eexists. split; [reflexivity|].
  split; [reflexivity|]. eexists. split; [reflexivity|]. econstructor; [exact E|apply to_int64_wraps].
Qed.
Lemma mulDiv_ok o : is_mul o = true -> bin_ok valued divides_by_zero e0 (mulDiv (terr e0)) o.
Proof.
  intros Ho c a s b f g [_ (x & Vx & Ex)] [_ V] [_ (y & Vy & Ey)]. destruct o; try discriminate.
  - left. eexists. split; [intros n; unfold mulDiv, str_of, int_of; simpl; rewrite V, Vx, Vy; simpl; reflexivity|].
    split; [reflexivity|]. eexists. split; [reflexivity|]. eapply ev_mul; eauto. apply to_int64_wraps.
  - destruct (Z.eqb_spec y 0) as [->|Hy].
    + right. split; [|apply dz_here; auto]. intros n. unfold mulDiv, str_of, int_of. simpl. rewrite V, Vx, Vy. reflexivity.
    + left. eexists. split.
      { intros n. unfold mulDiv, str_of, int_of. simpl. rewrite V, Vx, Vy. simpl. apply Z.eqb_neq in Hy. rewrite Hy. reflexivity. }
      split; [reflexivity|]. eexists. split; [reflexivity|]. eapply ev_div; eauto; [apply quot_trunc; auto|apply to_int64_wraps].
Qed.
Lemma addSub_ok o : is_mul o = false -> bin_ok valued divides_by_zero e0 addSub o.
Proof.
  intros Ho c a s b f g [_ (x & Vx & Ex)] [_ V] [_ (y & Vy & Ey)]. left. destruct o; try discriminate;
    (eexists; split; [intros n; unfold addSub, str_of, int_of; simpl; rewrite V, Vx, Vy; simpl; reflexivity|];
     split; [reflexivity|]; eexists; split; [reflexivity|]); [eapply ev_add|eapply ev_sub]; eauto; apply to_int64_wraps.
Qed.
Lemma negate_good : good_trans negate. Proof. unfold negate, str_of, int_of. const_tac. Qed.
Lemma addSub_good : good_trans addSub. Proof. unfold addSub, str_of, int_of. const_tac. Qed.
Lemma mulDiv_good d : d = terr e0 \/ d = div_panic -> good_trans (mulDiv d).
Proof. intros [-> | ->]; unfold mulDiv, str_of, int_of, div_panic; const_tac. Qed.
Lemma valued_cls a f : valued a f -> a_cls a <> "UnaryOperator"%string /\ a_cls a <> "BinaryOperator"%string.
Proof. intros [-> _]. split; discriminate. Qed.
Lemma checked_ok : prod_ok valued divides_by_zero e0 checked.
Proof.
  apply rules_ok; [exact valued_cls|exact div_spreads|exact negate_ok|exact mulDiv_ok|exact addSub_ok|exact negate_good|apply mulDiv_good; auto|exact addSub_good].
Qed.
Lemma checked_good : good_trans checked.
Proof. apply rules_good; [exact negate_good|apply mulDiv_good; auto|exact addSub_good]. Qed.
Lemma formula_good : good_trans (formula_prod div_panic).
Proof. apply rules_good; [exact negate_good|apply mulDiv_good; auto|exact addSub_good]. Qed.

(** ** The error in place of the panic *)
Definition w0 : string := "integer divide by zero".
Notation tsim0 := (tsim e0 w0).
Notation esim0 := (esim e0 w0).
Lemma same_trans t : (forall n c l, t n c l <> Ok (inl e0)) -> tsim0 t t.
Proof. intros H n c l. left. auto. Qed.
Local Ltac no_e0 := repeat match goal with
  | |- context [match ?x with _ => _ end] => destruct x
  end; try discriminate.
Lemma concat_s : tsim0 Concat Concat.
Proof.
  assert (L : forall l, concat_loop l <> Ok (inl e0)).
  { induction l as [|a l IH]; cbn [concat_loop]; [discriminate|]. no_e0; unfold e0 in *; congruence. }
  apply same_trans. intros n c l. unfold Concat, concat_asts. destruct l as [|a l]; [discriminate|].
  pose proof (L (a :: l)) as La. destruct (concat_loop (a :: l)) as [[e|t]|w|]; try discriminate. intros K. inversion K; subst. apply La. reflexivity.
Qed.
Lemma erase_s : tsim0 Erase Erase.
Proof. apply same_trans. intros n c l. unfold Erase, tok. no_e0. Qed.
Lemma class_s k : tsim0 (ChangeClassName k) (ChangeClassName k).
Proof. apply same_trans. intros n c l. unfold ChangeClassName, tok. no_e0. Qed.
Lemma number_s : tsim0 parseNumber parseNumber.
Proof. apply same_trans. intros n c l. unfold parseNumber, tok, terr, e0. no_e0. Qed.
Lemma unwrap_s : tsim0 unwrapOperandItem unwrapOperandItem.
Proof. apply same_trans. intros n c l. unfold unwrapOperandItem, tok. no_e0. Qed.
Lemma negate_s : tsim0 negate negate.
Proof. apply same_trans. intros n c l. unfold negate, bind, str_of, int_of, tok. no_e0. Qed.
Lemma addSub_s : tsim0 addSub addSub.
Proof. apply same_trans. intros n c l. unfold addSub, bind, str_of, int_of, tok. no_e0. Qed.
Lemma mulDiv_s : tsim0 (mulDiv (terr e0)) (mulDiv div_panic).
Proof.
  intros n c l. unfold mulDiv, bind. destruct (str_of l 1) as [op|w|]; [|left; split; [auto|discriminate]..].
  destruct (int_of l 0) as [x|w|]; [|left; split; [auto|discriminate]..]. destruct (int_of l 2) as [y|w|]; [|left; split; [auto|discriminate]..].
  destruct (bytes_eqb op (bs "*")); [left; split; [auto|discriminate]|]. destruct (bytes_eqb op (bs "/")); [|left; split; [auto|discriminate]].
  destruct (y =? 0); [right; auto|left; split; [auto|discriminate]].
Qed.

Section Sim.
Variables (rho rho' : nat -> ctx -> out) (n : nat).
Ltac leaf_s := apply sim_leaf; intros c o; unfold lift, whitespace_fn, number_fn, char_range_fn, char_fn, word_boundary_fn, word_boundary_gen,
  char_class_fn, start_fn, end_fn, error_fn, obj_any_fn, obj_end_fn, op_class_fn, obj_classFn_fn, with_slice, with_rest, ret, push_val, e0; cbv zeta; no_e0.
Ltac sim_tac := repeat match goal with
  | |- esim _ _ _ _ _ (EFlatGroup _) _ => apply sim_flat
  | |- esim _ _ _ _ _ (EFirst _) _ => apply sim_first
  | |- esim _ _ _ _ _ (ERepeat _ _) _ => apply sim_repeat
  | |- esim _ _ _ _ _ (ETrans _ _) _ => apply sim_trans
  | |- esim _ _ _ _ _ (EIndirect _) _ => apply sim_indirect; solve [auto]
  | |- esim _ _ _ _ _ (ELight _ _) _ => solve [leaf_s]
  | |- Forall2 _ [] _ => constructor
  | |- Forall2 _ (_ :: _) _ => constructor
  | |- tsim _ _ _ _ => solve [auto using concat_s, erase_s, class_s, number_s, unwrap_s, negate_s, addSub_s, mulDiv_s]
  end.
Lemma unary_s : esim0 rho rho' n (unary_rule negate) (unary_rule negate).
Proof. unfold unary_rule, isOperator, anyOperand, OAny. sim_tac. Qed.
Lemma binary_s ops t t' : tsim0 t t' -> esim0 rho rho' n (binary_rule ops t) (binary_rule ops t').
Proof. intros H. unfold binary_rule, isOperator, anyOperand, OAny. sim_tac. Qed.
Lemma program_s t t' : tsim0 t t' -> (forall k, swap_fn e0 w0 (rho k) (rho' k)) -> esim0 rho rho' n (program t) (program t').
Proof. intros H Hr. formula_unfold. sim_tac. Qed.
Lemma grouped_s t t' k : tsim0 t t' -> (forall k, swap_fn e0 w0 (rho k) (rho' k)) -> esim0 rho rho' n (grouped_env t k) (grouped_env t' k).
Proof. intros H Hr. formula_unfold. sim_tac. Qed.
End Sim.
Lemma no_rules_s n k : swap_fn e0 w0 (run_env no_rules n k) (run_env no_rules n k).
Proof. apply swap_run_env. intros rho rho' m j _. unfold no_rules, EUnmatched. apply sim_leaf. intros c o. unfold lift, unmatched_fn. discriminate. Qed.
Lemma prod_s : tsim0 checked (formula_prod div_panic).
Proof.
  apply swap_production; [discriminate|]. unfold precedences, level.
  repeat (constructor; [split; [cbn [pr_rules]; constructor; [|constructor]; intros n; unfold run|reflexivity]|]); [| | |constructor].
  - apply unary_s.
  - apply binary_s. apply mulDiv_s.
  - apply binary_s. apply addSub_s.
Qed.
Lemma run_s n s : swap e0 w0 (run (grouped_env checked) n (program checked) (new_string_ctx s))
  (run (grouped_env (formula_prod div_panic)) n (program (formula_prod div_panic)) (new_string_ctx s)).
Proof.
  apply program_s; [apply prod_s|]. intros k. apply swap_run_env. intros rho rho' m j H. apply grouped_s; auto using prod_s.
Qed.

(** ** Parse *)
Definition checked_Parse (n : nat) (s : bytes) := parse_with checked int_answer n s.
Lemma parse_s n s r : checked_Parse n s = Ok r ->
  (exists lc, r = inl (mkPE (Some e0) lc) /\ formula_Parse n s = Panic w0) \/
  ((forall lc, r <> inl (mkPE (Some e0) lc)) /\ formula_Parse n s = Ok r).
Proof.
  unfold checked_Parse, formula_Parse, parse_with. destruct (run_s n s) as [[E N]|[[o E] E']].
  - rewrite <- E. destruct (run (grouped_env checked) n (program checked) (new_string_ctx s)) as [[o [e|]]|w|]; try discriminate.
    + unfold parse_fail. destruct (GetLineAndColPosition s (c_pos o) 4) as [lc|w|]; try discriminate. intros H. right. split; auto.
      intros lc' K. inversion H; subst. inversion H1; subst. eapply N; reflexivity.
    + intros H. right. split; auto. intros lc' ->. destruct (c_st o); [destruct (c_stack o) as [|a l]; [discriminate|]; destruct (int_answer a); discriminate|..];
        unfold parse_fail in H; destruct (GetLineAndColPosition s (c_pos o) 4); discriminate.
  - rewrite E, E'. unfold parse_fail. destruct (GetLineAndColPosition s (c_pos o) 4) as [lc|w|]; try discriminate. intros H. left. exists lc.
    inversion H. auto.
Qed.
Lemma finally_ok s r : finally (fun n => checked_Parse n s) (Ok r) -> (forall lc, r <> inl (mkPE (Some e0) lc)) -> finally (fun n => formula_Parse n s) (Ok r).
Proof. intros (n0 & H) N. exists n0. intros n Hn. destruct (parse_s n s r (H n Hn)) as [(lc & -> & _)|[_ E]]; [exfalso; eapply N; reflexivity|exact E]. Qed.
Lemma finally_panic s lc : finally (fun n => checked_Parse n s) (Ok (inl (mkPE (Some e0) lc))) -> finally (fun n => formula_Parse n s) (Panic w0).
Proof. intros (n0 & H). exists n0. intros n Hn. destruct (parse_s n s _ (H n Hn)) as [(lc' & _ & E)|[N _]]; [exact E|exfalso; eapply N; reflexivity]. Qed.
Lemma lit_v z : 0 <= z < 2 ^ 63 -> valued (num z) (FLit z).
Proof. intros H. split; [reflexivity|]. exists z. split; [reflexivity|constructor]. Qed.
Lemma neg_lit_v z : 0 <= z <= 2 ^ 63 -> valued (num (- z)) (FNeg (FLit z)).
Proof. intros H. split; [reflexivity|]. exists (- z). split; [reflexivity|]. econstructor; [constructor|]. apply wraps_self. unfold int64. lia. Qed.
Lemma e0_text t : e0 <> EText t. Proof. discriminate. Qed.
Lemma e0_num a b c : e0 <> ENum a b c. Proof. discriminate. Qed.
Definition f_complete s := program_complete valued divides_by_zero e0 checked (f_world checked s) checked_ok div_spreads lit_v neg_lit_v e0_num eq_refl.
Definition f_total s := program_total valued divides_by_zero e0 checked (f_world checked s) checked_ok lit_v neg_lit_v e0_text e0_num eq_refl.

Lemma formula_value s f v : Forall is_byte s -> formula s f -> literals in64 f -> evals f v -> finally (fun n => formula_Parse n s) (Ok (inr v)).
Proof.
  intros Hb F L E. destruct (f_complete s s f sp0 eq_refl Hb eq_refl F L) as [(cur & a & P & _ & z & Va & Ez)|(cur & P & B)].
  - apply finally_ok; [|discriminate]. rewrite (evals_det f v z E Ez). eapply parse_good; [exact checked_good|exact P|]. unfold int_answer. rewrite Va. reflexivity.
  - exfalso. eapply evals_no_div; eauto.
Qed.
Lemma formula_zero s f : Forall is_byte s -> formula s f -> literals in64 f -> divides_by_zero f -> finally (fun n => formula_Parse n s) (Panic w0).
Proof.
  intros Hb F L E. destruct (f_complete s s f sp0 eq_refl Hb eq_refl F L) as [(cur & a & P & _ & z & Va & Ez)|(cur & P & B)].
  - exfalso. eapply evals_no_div; eauto.
  - destruct (parse_raised checked checked_good int_answer s cur e0 P) as (lc & _ & H). eapply finally_panic. exact H.
Qed.
(** Every text falls in one of three classes. *)
Lemma formula_total s : Forall is_byte s ->
  (exists v f, finally (fun n => formula_Parse n s) (Ok (inr v)) /\ formula s f /\ literals max64 f /\ evals f v) \/
  (exists x lc, finally (fun n => formula_Parse n s) (Ok (inl (mkPE x lc))) /\ explains s x lc) \/
  (finally (fun n => formula_Parse n s) (Panic w0) /\ exists p t q f, s = p ++ t ++ q /\ exprT t f /\ divides_by_zero f).
Proof.
  intros Hb. destruct (f_total s s sp0 eq_refl Hb eq_refl) as [(cur & a & f & P & F & L & _ & z & Va & Ez)|[[P Pf]|(cur & e & P & Fe)]].
  - left. exists z, f. split; auto. apply finally_ok; [|discriminate]. eapply parse_good; [exact checked_good|exact P|]. unfold int_answer. rewrite Va. reflexivity.
  - right. left. destruct (parse_unmatched checked checked_good int_answer s P) as (lc & El & H). eexists None, lc. split; [apply finally_ok; [exact H|discriminate]|apply explains_fail; auto].
  - destruct (parse_raised checked checked_good int_answer s cur e P) as (lc & El & H).
    assert (D : e = e0 \/ e <> e0). { unfold e0. destruct e as [?|?|?|u]; try (right; discriminate). destruct u; [left|right]; congruence. }
    destruct D as [->|D].
    + right. right. split; [eapply finally_panic; exact H|]. apply (proj1 Fe). reflexivity.
    + right. left. exists (Some e), lc. split; [apply finally_ok; [exact H|]; intros lc' K; inversion K; congruence|]. eapply explains_raised; [exact El|apply (proj2 Fe); exact D].
Qed.
Lemma finally_det {A} (f : nat -> A) r r' : finally f r -> finally f r' -> r = r'.
Proof. intros (n & H) (n' & H'). rewrite <- (H (Nat.max n n') ltac:(lia)). apply H'. lia. Qed.
Lemma formula_answer s v n : Forall is_byte s -> formula_Parse n s = Ok (inr v) -> exists f, formula s f /\ literals max64 f /\ evals f v.
Proof.
  intros Hb E. apply parse_stable in E; [|exact formula_good|discriminate].
  change (finally (fun m => formula_Parse m s) (Ok (inr v))) in E.
  destruct (formula_total s Hb) as [(v' & f & H & R)|[(x & lc & H & _)|[H _]]]; pose proof (finally_det _ _ _ E H) as K; inversion K; subst. eauto.
Qed.

Lemma formula_explains s x lc n : Forall is_byte s -> formula_Parse n s = Ok (inl (mkPE x lc)) -> explains s x lc.
Proof.
  intros Hb E. apply parse_stable in E; [|exact formula_good|discriminate].
  change (finally (fun m => formula_Parse m s) (Ok (inl (mkPE x lc)))) in E.
  destruct (formula_total s Hb) as [(v' & f & H & R)|[(x' & lc' & H & Ex)|[H _]]]; pose proof (finally_det _ _ _ E H) as K; inversion K; subst. exact Ex.
Qed.

(** Literals written with digits only, for the examples. *)
Lemma lit_digits d r : 49 <= d <= 57 -> Forall dec_digit r -> literal (d :: r) (positional 10 (map (fun b => b - 48) (d :: r))).
Proof.
  intros Hd Hr. exists (d :: r). split; [left; reflexivity|]. split.
  - right. exists d, r. split; [reflexivity|]. split; auto. eapply Forall_impl; [|exact Hr]. auto.
  - assert (Dd : Forall dec_digit (d :: r)) by (constructor; [unfold dec_digit; lia|auto]).
    assert (Es : strip (d :: r) = d :: r).
    { clear Hd Hr. induction Dd as [|x l Hx _ IH]; [reflexivity|]. rewrite strip_cons; [f_equal; exact IH|unfold dec_digit in Hx; lia]. }
    rewrite Es. split; [discriminate|]. eexists. split; [|reflexivity].
    clear Hd Hr Es. induction Dd as [|x l Hx _ IH]; [constructor|]. cbn [map]. constructor; [|exact IH]. unfold dec_digit in Hx.
    replace x with (48 + (x - 48)) at 1 by lia. constructor; lia.
Qed.
Definition plain (w : bytes) : bool := match w with [] => false | d :: r => (49 <=? d) && (d <=? 57) && forallb (fun b => (48 <=? b) && (b <=? 57)) r end.
Lemma lit_plain w z : plain w = true -> z = positional 10 (map (fun b => b - 48) w) -> literal w z.
Proof.
  intros H ->. destruct w as [|d r]; [discriminate|]. simpl in H. apply andb_true_iff in H as [H R]. apply andb_true_iff in H as [H1 H2].
  apply lit_digits; [lia|]. apply Forall_forall. intros x Hx. rewrite forallb_forall in R. specialize (R x Hx). apply andb_true_iff in R. unfold dec_digit. lia.
Qed.
Lemma byte_list s : forallb (fun b => (0 <=? b) && (b <? 256)) s = true -> Forall is_byte s.
Proof. intros H. apply Forall_forall. intros x Hx. rewrite forallb_forall in H. specialize (H x Hx). apply andb_true_iff in H. unfold is_byte. lia. Qed.
