(** C60: the functions offered to JavaScript. *)
From Verif Require Import M_Wasm S_Float S_Formula L_Float L_Formula L_CsvBack.
From Verif Require P_Csv.

(** An array of arrays of strings. *)
Definition js_table (rows : list (list bytes)) : jsval := JArray (map (fun r => JArray (map JString r)) rows).

(** ** parseCsv *)
(** The result is the table if the text is one, and otherwise an empty array. *)
Theorem C60_csv : forall s more a, Forall is_byte s -> read_csv s a ->
  finally (fun n => parseCsv n (AString s :: more)) (Ok (js_table match a with Table rows => rows | _ => [] end)) /\
  finally (fun n => parseCsvWithTinyGo n s) (Ok match a with Table rows => rows | _ => [] end).
Proof.
  intros s more a Hb R. destruct (P_Csv.C37_csv_reading s Hb) as (a' & R' & U & H). rewrite <- (U a R) in H.
  unfold parseCsv, parseCsvWithTinyGo, js_table. cbn [js_src js_String].
  destruct a as [rows| |].
  - destruct H as [n0 H]. split; exists n0; intros n Hn; rewrite (H n Hn); reflexivity.
  - destruct H as (lc & [n0 H] & _). split; exists n0; intros n Hn; rewrite (H n Hn); reflexivity.
  - destruct H as (lc & [n0 H] & _). split; exists n0; intros n Hn; rewrite (H n Hn); reflexivity.
Qed.
Print Assumptions C60_csv.
(** So an error cannot be told from an empty table. *)
Theorem C60_csv_failure_refuted : exists s t r, read_csv s Unclosed /\ read_csv t (Table []) /\
  finally (fun n => parseCsv n [AString s]) r /\ finally (fun n => parseCsv n [AString t]) r.
Proof.
  assert (X : forall s a b, Forall is_byte s -> read_csv s a -> read_csv s b -> a = b).
  { intros s a b Hb A B. destruct (P_Csv.C37_csv_reading s Hb) as (c & _ & U & _). rewrite (U a A), (U b B). reflexivity. }
  assert (Y : forall s k, Forall is_byte s -> (exists n, match Parse n s with Ok (inr []) => k = Table [] | Ok (inl (mkCE (Some _) _)) => k = Unclosed | _ => False end) -> read_csv s k).
  { intros s k Hb [n H]. destruct (P_Csv.C37_csv_reading s Hb) as (c & R & _ & A).
    assert (Z : forall r, (exists n0, forall n, (n0 <= n)%nat -> Parse n s = Ok r) -> Parse n s = Ok r).
    { intros r [n0 H0]. destruct (Parse n s) as [r'|w|] eqn:E; try contradiction. pose proof (parse_stable n (max n n0) s r' ltac:(lia) E) as S1. rewrite (H0 (max n n0) ltac:(lia)) in S1. congruence. }
    destruct c as [rows| |].
    - apply Z in A. rewrite A in H. destruct rows; [subst; exact R|contradiction].
    - destruct A as (lc & A & _). apply Z in A. rewrite A in H. subst. exact R.
    - destruct A as (lc & A & _). apply Z in A. rewrite A in H. contradiction. }
  assert (B1 : Forall is_byte (34 :: bs "a")) by (repeat constructor; unfold is_byte; lia).
  assert (R1 : read_csv (34 :: bs "a") Unclosed) by (apply (Y _ Unclosed B1); exists 60%nat; vm_compute; reflexivity).
  assert (R2 : read_csv [] (Table [])) by (apply (Y [] (Table []) (Forall_nil _)); exists 60%nat; vm_compute; reflexivity).
  exists (34 :: bs "a"), []. eexists. split; [exact R1|]. split; [exact R2|].
  split; [apply (C60_csv _ [] _ B1 R1)|apply (C60_csv _ [] _ (Forall_nil _) R2)].
Qed.
Print Assumptions C60_csv_failure_refuted.

(** ** parseFormula *)
Lemma js_int_rounds z : int64 z -> exists x, js_int z = Ok (JNumber x) /\ rounded z 1 x /\ (z <> 0 -> negative x = (z <? 0)).
Proof.
  intros Hz. unfold js_int. pose proof (decimal_rounds (z <? 0) (Z.abs z) 0 0 ltac:(lia)) as F. cbn [Z.sub Z.opp Z.add] in F. change (0 - 0) with 0 in F.
  assert (N : numer (z <? 0) (Z.abs z) 0 0 = z).
  { unfold numer. change (10 ^ Z.max (0 - 0) 0) with 1. destruct (Z.ltb_spec z 0); lia. }
  assert (D : denom 0 0 = 1) by reflexivity.
  destruct F as [(x & E & R & Ng & _)|[E T]]; rewrite N, D in *.
  - rewrite E. exists x. split; [reflexivity|]. split; [exact R|auto].
  - exfalso. unfold too_large in T. unfold int64 in Hz. change ((2 ^ 54 - 1) * 2 ^ 970 * 1) with ((2 ^ 54 - 1) * 2 ^ 906 * 2 ^ 64) in T.
    assert (2 ^ 64 <= (2 ^ 54 - 1) * 2 ^ 906 * 2 ^ 64) by (vm_compute; discriminate). change (2 ^ 63) with 9223372036854775808 in Hz. change (2 ^ 64) with 18446744073709551616 in *. lia.
Qed.
(** Integers up to 2^53 are numbers of JavaScript. *)
Lemma small_exact z x : Z.abs z <= 2 ^ 53 -> rounded z 1 x -> units x = z * 2 ^ 1074.
Proof.
  intros Hz (_ & _ & N & _).
  assert (Y : exists y, finite_double y /\ units y = z * 2 ^ 1074).
  { destruct z as [|p|p].
    - exists (S754_zero false). split; reflexivity || exact I.
    - destruct (Z.eq_dec (Z.pos p) (2 ^ 53)) as [E|E].
      + exists (S754_finite false (2 ^ 52) 1). split; [split; [reflexivity|lia]|]. rewrite E. reflexivity.
      + exists (S754_finite false p 0). split; [split; lia|]. cbn [units]. change (0 + 1074) with 1074. lia.
    - destruct (Z.eq_dec (Z.pos p) (2 ^ 53)) as [E|E].
      + exists (S754_finite true (2 ^ 52) 1). split; [split; [reflexivity|lia]|]. replace (Z.neg p) with (- 2 ^ 53) by lia. reflexivity.
      + exists (S754_finite true p 0). split; [split; lia|]. cbn [units]. change (0 + 1074) with 1074. lia. }
  destruct Y as (y & Fy & Ey). specialize (N y Fy). unfold distance in N. rewrite Ey, !Z.mul_1_r, Z.sub_diag in N. cbn [Z.abs] in N. lia.
Qed.
Lemma wrap_int64 z : int64 (to_int64 z).
Proof.
  unfold int64, to_int64. pose proof (Z.mod_pos_bound z two64 ltac:(reflexivity)) as B. unfold two64, two63 in *. change (2 ^ 63) with 9223372036854775808.
  destruct (_ <? _) eqn:E; lia.
Qed.
Scheme atom_m := Minimality for atomT Sort Prop with factor_m := Minimality for factorT Sort Prop
  with term_m := Minimality for termT Sort Prop with expr_m := Minimality for exprT Sort Prop.
Lemma literals_nonneg t f : exprT t f -> literals (fun z => 0 <= z) f.
Proof.
  revert t f. apply (expr_m (fun _ => literals (fun z => 0 <= z)) (fun _ => literals (fun z => 0 <= z)) (fun _ => literals (fun z => 0 <= z)) (fun _ => literals (fun z => 0 <= z))); cbn [literals]; auto.
  intros w b z (d & _ & _ & N) _. eapply numeral_nonneg; [|exact N]. lia.
Qed.
Lemma value_int64 f v : literals (fun z => 0 <= z) f -> literals (fun z => z < 2 ^ 63) f -> evals f v -> int64 v.
Proof.
  intros L0 L1 E. destruct E as [z|f x r _ [W _]|f g x y r _ _ [W _]|f g x y r _ _ [W _]|f g x y r _ _ [W _]|f g x y q r _ _ _ _ [W _]]; try exact W.
  cbn [literals] in *. unfold int64. lia.
Qed.
(** The result is the value of the formula, rounded to the nearest number of JavaScript;
    the value itself as long as it is not beyond 2^53. *)
Theorem C60_formula : forall s f v more, Forall is_byte s -> formula s f -> literals (fun z => z < 2 ^ 63) f -> evals f v ->
  exists x, finally (fun n => parseFormula n (AString s :: more)) (Ok (JNumber x)) /\ rounded v 1 x /\
    (Z.abs v <= 2 ^ 53 -> units x = v * 2 ^ 1074).
Proof.
  intros s f v more Hb F L E.
  assert (I : int64 v). { destruct F as (b & t & _ & _ & T). eapply value_int64; eauto. eapply literals_nonneg; eauto. }
  destruct (js_int_rounds v I) as (x & Ex & R & _). exists x. split; [|split; [exact R|intros; apply small_exact; auto]].
  destruct (formula_value s f v Hb F L E) as [n0 H]. exists n0. intros n Hn. unfold parseFormula. cbn [js_src js_String]. rewrite (H n Hn). exact Ex.
Qed.
Print Assumptions C60_formula.
(** Whatever Parse rejects gives 0. *)
Theorem C60_formula_failure : forall s e more, finally (fun n => formula_Parse n s) (Ok (inl e)) ->
  finally (fun n => parseFormula n (AString s :: more)) (Ok (JNumber (S754_zero false))).
Proof. intros s e more [n0 H]. exists n0. intros n Hn. unfold parseFormula. cbn [js_src js_String]. rewrite (H n Hn). reflexivity. Qed.
Print Assumptions C60_formula_failure.
Lemma formula_stable n s r : formula_Parse n s = r -> r <> Fuel -> finally (fun n => formula_Parse n s) r.
Proof. apply (L_FormulaParse.parse_stable (formula_prod div_panic) formula_good int_answer). Qed.
Lemma answer_stable n s r : formula_Parse n s = Ok r -> forall x, js_int (match r with inr v => v | inl _ => 0 end) = x -> finally (fun n => parseFormula n [AString s]) x.
Proof. intros H x Ex. destruct (formula_stable n s (Ok r) H ltac:(discriminate)) as [n0 K]. exists n0. intros m Hm. unfold parseFormula. cbn [js_src js_String]. rewrite (K m Hm). exact Ex. Qed.
(** Different values may give the same number, an error gives the number of a value, and
    so does a number passed for a text. *)
Theorem C60_formula_refuted :
  (exists x, finally (fun n => parseFormula n [AString (bs "9007199254740992")]) x /\ finally (fun n => parseFormula n [AString (bs "9007199254740993")]) x) /\
  (exists x, finally (fun n => parseFormula n [AString (bs "0")]) x /\ finally (fun n => parseFormula n [AString (bs "1+")]) x /\
     finally (fun n => parseFormula n [ANumber (bs "42")]) x).
Proof.
  split.
  - exists (Ok (JNumber (S754_finite false 4503599627370496 1))). split; eapply (answer_stable 60%nat); vm_compute; reflexivity.
  - exists (Ok (JNumber (S754_zero false))). split; [|split].
    + eapply (answer_stable 60%nat); vm_compute; reflexivity.
    + eapply (answer_stable 60%nat); vm_compute; reflexivity.
    + change [ANumber (bs "42")] with [ANumber (bs "42")].
      assert (E : exists e, formula_Parse 60 (bs "<number: 42>") = Ok (inl e)) by (eexists; vm_compute; reflexivity). destruct E as [e E].
      destruct (formula_stable _ _ _ E ltac:(discriminate)) as [n0 K]. exists n0. intros m Hm. unfold parseFormula. cbn [js_src]. change (js_String (ANumber (bs "42"))) with (bs "<number: 42>").
      rewrite (K m Hm). reflexivity.
Qed.
Print Assumptions C60_formula_refuted.
(** A division by zero is a panic, which ends the Go program. *)
Theorem C60_division_refuted : forall s f more, Forall is_byte s -> formula s f -> literals (fun z => z < 2 ^ 63) f -> divides_by_zero f ->
  finally (fun n => parseFormula n (AString s :: more)) (Panic "integer divide by zero").
Proof.
  intros s f more Hb F L D. destruct (formula_zero s f Hb F L D) as [n0 H]. exists n0. intros n Hn. unfold parseFormula. cbn [js_src js_String]. rewrite (H n Hn). reflexivity.
Qed.
Print Assumptions C60_division_refuted.
(** Without an argument the text is empty. *)
Theorem C60_no_argument : finally (fun n => parseCsv n []) (Ok (JArray [])) /\ finally (fun n => parseFormula n []) (Ok (JNumber (S754_zero false))).
Proof.
  split.
  - exists 60%nat. intros n Hn. unfold parseCsv. cbn [js_src]. assert (E : Parse 60 [] = Ok (inr [])) by (vm_compute; reflexivity). rewrite (parse_stable 60 n [] _ Hn E). reflexivity.
  - assert (E : exists e, formula_Parse 60 [] = Ok (inl e)) by (eexists; vm_compute; reflexivity). destruct E as [e E].
    destruct (formula_stable _ _ _ E ltac:(discriminate)) as [n0 K]. exists n0. intros m Hm. unfold parseFormula. cbn [js_src]. rewrite (K m Hm). reflexivity.
Qed.
Print Assumptions C60_no_argument.
Example C60_example : parseFormula 80 [AString (bs "-(1 + 2) * 3")] = Ok (JNumber (S754_finite true 5066549580791808 (-49))) /\
  parseCsv 80 [AString (bs "a,b" ++ [10] ++ bs "c")] = Ok (js_table [[bs "a"; bs "b"]; [bs "c"]]) /\
  parseCsv 80 [ANumber (bs "1")] = Ok (js_table [[bs "<number: 1>"]]).
Proof. repeat split; vm_compute; reflexivity. Qed.
