(** C88: parts of a formula with the same value can be exchanged. *)
From Verif Require Import L_Exchange.
From Verif Require S_Marshal L_Marshal.
Local Notation dz := divides_by_zero.
Local Notation never := (fun _ : arith => False).

Lemma around_grouped s q p : p ++ grouped s ++ q = around s q p.
Proof. unfold grouped, around. cbn. rewrite <- app_assoc. reflexivity. Qed.
Lemma around_bytes s q p : Forall is_byte p -> Forall is_byte s -> Forall is_byte q -> Forall is_byte (around s q p).
Proof. intros Hp Hs Hq. unfold around. apply Forall_app. split; [exact Hp|]. constructor; [unfold is_byte; lia|]. apply Forall_app. split; [exact Hs|]. constructor; [unfold is_byte; lia|exact Hq]. Qed.
Lemma value_reading s v : Forall is_byte s -> formula_answers s (Ok (inr v)) -> exists f, evals f v /\ exists b u, whole_gap s b u /\ expression_at dz u (Got f []).
Proof.
  intros Hb H. destruct (formula_gives s Hb) as (a & R & G). destruct a as [x|x p q|]; simpl in G; [|destruct G as (lc & _ & G)|]; pose proof (finally_det _ _ _ H G) as E; inversion E; subst.
  inversion R as [b u f y W X Y| | |]; subst. exists f. split; [exact Y|]. exists b, u. auto.
Qed.
(** The two answers: the same, or the same error at the same place before the exchanged part
    or equally far from the end behind it. *)
Definition same_place (z y : bytes) (lc lc' : linecol) : Prop :=
  exists p1 q1 p2 q2, z = p1 ++ q1 /\ y = p2 ++ q2 /\ (p1 = p2 \/ q1 = q2) /\ GetLineAndColPosition z (length p1) 4 = Ok lc /\ GetLineAndColPosition y (length p2) 4 = Ok lc'.
Lemma exchange_formula p q s t v : Forall is_byte p -> Forall is_byte q -> Forall is_byte s -> Forall is_byte t -> formula_answers s (Ok (inr v)) -> formula_answers t (Ok (inr v)) ->
  exists a a', reading dz evals (around s q p) a /\ finally_answers formula_Parse (fun v => v) w0 (around s q p) a /\ finally_answers formula_Parse (fun v => v) w0 (around t q p) a' /\
  match a with
  | Failure e p1 q1 => exists p2 q2, a' = Failure e p2 q2 /\ around s q p = p1 ++ q1 /\ around t q p = p2 ++ q2 /\ (p1 = p2 \/ q1 = q2)
  | _ => a' = a
  end.
Proof.
  intros Hp Hq Hs Ht As At. destruct (value_reading s v Hs As) as (f1 & E1 & R1), (value_reading t v Ht At) as (f2 & E2 & R2).
  destruct (formula_gives _ (around_bytes s q p Hp Hs Hq)) as (a & R & G). destruct (formula_gives _ (around_bytes t q p Hp Ht Hq)) as (a2 & R' & G').
  assert (St : forall f g, twin f1 f2 f g -> dz f <-> dz g).
  { intros f g T. split; [apply (twin_dz f1 f2 v E1 E2 f g T)|]. intros D. destruct (evals_or_dz f) as [(w & Ew)|Z]; [exfalso|exact Z]. exact (evals_no_div g D w (twin_evals f1 f2 v E1 E2 f g T w Ew)). }
  destruct (exchange dz s t q f1 f2 St Hs Hq R1 R2 evals p a (twin_evals f1 f2 v E1 E2) R) as (a' & Ra & M).
  rewrite (reading_func _ evals _ _ _ evals_det (around_bytes t q p Hp Ht Hq) R' Ra) in G'. exists a, a'. auto.
Qed.
(** Two texts that have the same value alone can be exchanged between parentheses wherever
    the parentheses stand in a text, even if the text is no formula: the value or the panic
    of the whole is the same, *)
Theorem C88_value : forall p q s t v, Forall is_byte p -> Forall is_byte q -> Forall is_byte s -> Forall is_byte t -> formula_answers s (Ok (inr v)) -> formula_answers t (Ok (inr v)) ->
  (forall w, formula_answers (p ++ grouped s ++ q) (Ok (inr w)) <-> formula_answers (p ++ grouped t ++ q) (Ok (inr w))) /\
  (formula_answers (p ++ grouped s ++ q) (Panic "integer divide by zero") <-> formula_answers (p ++ grouped t ++ q) (Panic "integer divide by zero")).
Proof.
  assert (K : forall p q s t v, Forall is_byte p -> Forall is_byte q -> Forall is_byte s -> Forall is_byte t -> formula_answers s (Ok (inr v)) -> formula_answers t (Ok (inr v)) ->
    (forall w, formula_answers (p ++ grouped s ++ q) (Ok (inr w)) -> formula_answers (p ++ grouped t ++ q) (Ok (inr w))) /\
    (formula_answers (p ++ grouped s ++ q) (Panic "integer divide by zero") -> formula_answers (p ++ grouped t ++ q) (Panic "integer divide by zero"))).
  { intros p q s t v Hp Hq Hs Ht As At. rewrite !around_grouped. destruct (exchange_formula p q s t v Hp Hq Hs Ht As At) as (a & a' & _ & G & G' & M).
    destruct a as [x|x p1 q1|]; simpl in G; [|destruct G as (lc & _ & G)|]; (split; [intros w H|intros H]); pose proof (finally_det _ _ _ H G) as E; inversion E; subst; exact G'. }
  intros p q s t v Hp Hq Hs Ht As At. destruct (K p q s t v Hp Hq Hs Ht As At) as [A B], (K p q t s v Hp Hq Ht Hs At As) as [A' B']. split; [intros w|]; split; auto.
Qed.
Print Assumptions C88_value.
(** and an error is the same error, at the same place if it is before the part, and equally
    far from the end if it is behind it. *)
Theorem C88_error : forall p q s t v e lc, Forall is_byte p -> Forall is_byte q -> Forall is_byte s -> Forall is_byte t -> formula_answers s (Ok (inr v)) -> formula_answers t (Ok (inr v)) ->
  formula_answers (p ++ grouped s ++ q) (Ok (inl (mkPE e lc))) -> exists lc', formula_answers (p ++ grouped t ++ q) (Ok (inl (mkPE e lc'))) /\ same_place (p ++ grouped s ++ q) (p ++ grouped t ++ q) lc lc'.
Proof.
  intros p q s t v e lc Hp Hq Hs Ht As At H. rewrite !around_grouped in *. destruct (exchange_formula p q s t v Hp Hq Hs Ht As At) as (a & a' & _ & G & G' & M).
  destruct a as [x|x p1 q1|]; simpl in G; [|destruct G as (lc0 & L & G)|]; pose proof (finally_det _ _ _ H G) as E; inversion E; subst.
  destruct M as (p2 & q2 & -> & E1 & E2 & K). simpl in G'. destruct G' as (lc' & L' & G'). exists lc'. split; [exact G'|]. exists p1, q1, p2, q2. auto.
Qed.
Print Assumptions C88_error.
(** So every part in parentheses can be replaced by its value. *)
Lemma text_value v c : S_Marshal.int_text v c -> - 2 ^ 63 < v < 2 ^ 63 -> Forall is_byte c /\ formula_answers c (Ok (inr v)).
Proof.
  assert (B : forall d z, S_Marshal.canonical d z -> Forall is_byte d).
  { intros d z C. apply L_Marshal.canonical_graphic in C as [_ F]. eapply Forall_impl; [|exact F]. unfold is_byte. cbn. intros; lia. }
  intros [[Hv C]|[Hv (d & -> & C)]] Hr.
  - split; [eapply B; exact C|]. apply (formula_value c (FLit v) v); [eapply B; exact C| |exact (proj2 Hr)|constructor]. exists [], c. split; [reflexivity|]. split; [constructor|]. apply et_term, tt_factor, ft_atom. rewrite <- (app_nil_r c). apply at_lit; [apply canonical_literal; exact C|constructor].
  - assert (Bc : Forall is_byte (45 :: d)) by (constructor; [unfold is_byte; lia|eapply B; exact C]). split; [exact Bc|]. apply (formula_value (45 :: d) (FNeg (FLit (- v))) v); [exact Bc| |change (- v < 2 ^ 63); clear -Hr; lia|econstructor; [constructor|]].
    + exists [], (45 :: d). split; [reflexivity|]. split; [constructor|]. apply et_term, tt_factor. apply (ft_neg [] d); [constructor|]. apply ft_atom. rewrite <- (app_nil_r d). apply at_lit; [apply canonical_literal; exact C|constructor].
    + replace (- - v) with v by lia. apply wraps_self. unfold int64. lia.
Qed.
Theorem C88_computed : forall p q s c v, Forall is_byte p -> Forall is_byte q -> Forall is_byte s -> formula_answers s (Ok (inr v)) -> S_Marshal.int_text v c -> - 2 ^ 63 < v < 2 ^ 63 ->
  forall w, formula_answers (p ++ grouped s ++ q) (Ok (inr w)) <-> formula_answers (p ++ grouped c ++ q) (Ok (inr w)).
Proof.
  intros p q s c v Hp Hq Hs As T Hv. destruct (text_value v c T Hv) as [Hc Ac]. apply (C88_value p q s c v Hp Hq Hs Hc As Ac).
Qed.
Print Assumptions C88_computed.
(** The same for torpn.Parse and texts with the same answer. *)
Lemma exchange_torpn p q s t l : Forall is_byte p -> Forall is_byte q -> Forall is_byte s -> Forall is_byte t -> torpn_answers s (inr (inr l)) -> torpn_answers t (inr (inr l)) ->
  exists a a', reading never postfix (around s q p) a /\ finally_answers torpn_Parse inr EmptyString (around s q p) a /\ finally_answers torpn_Parse inr EmptyString (around t q p) a' /\
  match a with
  | Failure e p1 q1 => exists p2 q2, a' = Failure e p2 q2 /\ around s q p = p1 ++ q1 /\ around t q p = p2 ++ q2 /\ (p1 = p2 \/ q1 = q2)
  | _ => a' = a
  end.
Proof.
  intros Hp Hq Hs Ht As At. apply torpn_read in As as (f1 & R1 & P1); [|exact Hs]. apply torpn_read in At as (f2 & R2 & P2); [|exact Ht].
  destruct (torpn_gives _ (around_bytes s q p Hp Hs Hq)) as (a & R & G). destruct (torpn_gives _ (around_bytes t q p Hp Ht Hq)) as (a2 & R' & G').
  destruct (exchange never s t q f1 f2 ltac:(tauto) Hs Hq R1 R2 postfix p a (twin_postfix f1 f2 l P1 P2) R) as (a' & Ra & M).
  rewrite (reading_func _ postfix _ _ _ postfix_det (around_bytes t q p Hp Ht Hq) R' Ra) in G'. exists a, a'. auto.
Qed.
Theorem C88_torpn : forall p q s t l, Forall is_byte p -> Forall is_byte q -> Forall is_byte s -> Forall is_byte t -> torpn_answers s (inr (inr l)) -> torpn_answers t (inr (inr l)) ->
  (forall m, torpn_answers (p ++ grouped s ++ q) (inr (inr m)) <-> torpn_answers (p ++ grouped t ++ q) (inr (inr m))) /\
  forall e lc, torpn_answers (p ++ grouped s ++ q) (inl (mkPE e lc)) -> exists lc', torpn_answers (p ++ grouped t ++ q) (inl (mkPE e lc')) /\ same_place (p ++ grouped s ++ q) (p ++ grouped t ++ q) lc lc'.
Proof.
  assert (K : forall p q s t l, Forall is_byte p -> Forall is_byte q -> Forall is_byte s -> Forall is_byte t -> torpn_answers s (inr (inr l)) -> torpn_answers t (inr (inr l)) ->
    (forall m, torpn_answers (p ++ grouped s ++ q) (inr (inr m)) -> torpn_answers (p ++ grouped t ++ q) (inr (inr m))) /\
    forall e lc, torpn_answers (p ++ grouped s ++ q) (inl (mkPE e lc)) -> exists lc', torpn_answers (p ++ grouped t ++ q) (inl (mkPE e lc')) /\ same_place (p ++ grouped s ++ q) (p ++ grouped t ++ q) lc lc').
  { intros p q s t l Hp Hq Hs Ht As At. rewrite !around_grouped. destruct (exchange_torpn p q s t l Hp Hq Hs Ht As At) as (a & a' & _ & G & G' & M). split.
    - intros m H. destruct a as [x|x p1 q1|]; simpl in G; [|destruct G as (lc & _ & G)|]; pose proof (finally_det _ _ _ H G) as E; inversion E; subst. exact G'.
    - intros e lc H. destruct a as [x|x p1 q1|]; simpl in G; [|destruct G as (lc0 & L & G)|]; pose proof (finally_det _ _ _ H G) as E; inversion E; subst.
      destruct M as (p2 & q2 & -> & E1 & E2 & K). simpl in G'. destruct G' as (lc' & L' & G'). exists lc'. split; [exact G'|]. exists p1, q1, p2, q2. auto. }
  intros p q s t l Hp Hq Hs Ht As At. destruct (K p q s t l Hp Hq Hs Ht As At) as [A B], (K p q t s l Hp Hq Ht Hs At As) as [A' B']. split; [intros m; split; auto|exact B].
Qed.
Print Assumptions C88_torpn.

Ltac by_formula := apply (parse_stable (formula_prod div_panic) formula_good int_answer 60%nat); [vm_compute; reflexivity|discriminate].
Ltac by_torpn := apply (parse_stable torpn_prod torpn_good rpn_answer 60%nat); [vm_compute; reflexivity|discriminate].
(** Texts that have the same value only between parentheses cannot be exchanged. *)
Theorem C88_inside_refuted : formula_answers (grouped (bs "1)+(2")) (Ok (inr 3)) /\ formula_answers (grouped (bs "3")) (Ok (inr 3)) /\
  formula_answers (bs "2*" ++ grouped (bs "1)+(2") ++ []) (Ok (inr 4)) /\ formula_answers (bs "2*" ++ grouped (bs "3") ++ []) (Ok (inr 6)).
Proof. repeat split; by_formula. Qed.
Print Assumptions C88_inside_refuted.
(** And for torpn.Parse it is not enough that the value is the same. *)
Theorem C88_postfix_refuted : formula_answers (bs "1+2") (Ok (inr 3)) /\ formula_answers (bs "3") (Ok (inr 3)) /\
  torpn_answers (grouped (bs "1+2")) (inr (inr [VInt 1; VInt 2; VStr (bs "+")])) /\ torpn_answers (grouped (bs "3")) (inr (inr [VInt 3])).
Proof. split; [by_formula|]. split; [by_formula|]. split; by_torpn. Qed.
Print Assumptions C88_postfix_refuted.

Example C88_value_example : formula_answers (bs " 7 - 2 ") (Ok (inr 5)) /\ formula_answers (bs "0--5") (Ok (inr 5)) /\ formula_answers (bs "10/-" ++ grouped (bs " 7 - 2 ") ++ bs " *2-1") (Ok (inr (- 5))) /\
  formula_answers (bs "10/-" ++ grouped (bs "0--5") ++ bs " *2-1") (Ok (inr (- 5))).
Proof. repeat split; by_formula. Qed.
Example C88_error_example : formula_answers (bs "1+1") (Ok (inr 2)) /\ exists lc lc', formula_answers (bs "3*" ++ grouped (bs "1+1") ++ bs "+x") (Ok (inl (mkPE (Some (EText "Error in the expression after the binary operator")) lc))) /\
  formula_answers (bs "3*" ++ grouped (bs "2") ++ bs "+x") (Ok (inl (mkPE (Some (EText "Error in the expression after the binary operator")) lc'))) /\ lc <> lc'.
Proof. split; [by_formula|]. eexists. eexists. split; [by_formula|]. split; [by_formula|discriminate]. Qed.
Example C88_computed_example : S_Marshal.int_text (- 12) (bs "-12") /\ formula_answers (bs "1-" ++ grouped (bs "3*-4") ++ []) (Ok (inr 13)) /\ formula_answers (bs "1-" ++ grouped (bs "-12") ++ []) (Ok (inr 13)).
Proof. split; [apply (L_Marshal.int_canonical (- 12)); lia|]. split; by_formula. Qed.
Example C88_torpn_example : torpn_answers (bs "(1)+2") (inr (inr [VInt 1; VInt 2; VStr (bs "+")])) /\ torpn_answers (bs "1_ + (2)") (inr (inr [VInt 1; VInt 2; VStr (bs "+")])).
Proof. split; by_torpn. Qed.
