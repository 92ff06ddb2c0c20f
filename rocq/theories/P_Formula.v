(** C38 and C39: the formula example.  [finally f r] is: with enough fuel, and then
    always, [f] returns [r]. *)
From Verif Require Import L_Formula.

(** ** C38 *)
(** A formula with literals below 2^63 whose evaluation in wrapping 64-bit arithmetic
    does not divide by zero is answered with its value. *)
Theorem C38_formula_value : forall s f v, Forall is_byte s -> formula s f -> literals (fun z => z < 2 ^ 63) f -> evals f v ->
  finally (fun n => formula_Parse n s) (Ok (inr v)).
Proof. exact formula_value. Qed.
Print Assumptions C38_formula_value.

(** In particular the integer value, where nothing overflows. *)
Theorem C38_exact_value : forall s f v, Forall is_byte s -> formula s f -> literals (fun z => z < 2 ^ 63) f -> exact f v ->
  finally (fun n => formula_Parse n s) (Ok (inr v)).
Proof. intros s f v Hb F L E. apply (formula_value s f v Hb F L (exact_evals f v E)). Qed.
Print Assumptions C38_exact_value.

(** Whatever is answered with a value is a formula and the value is the right one. *)
Theorem C38_only_formulas : forall s v n, Forall is_byte s -> formula_Parse n s = Ok (inr v) ->
  exists f, formula s f /\ literals (fun z => z <= 2 ^ 63) f /\ evals f v.
Proof. intros s v n. exact (formula_answer s v n). Qed.
Print Assumptions C38_only_formulas.

(** The smallest int64 cannot be written as a formula of its own. *)
Definition min_text : bytes := bs "-9223372036854775808".
Lemma min_formula : formula min_text (FNeg (FLit (2 ^ 63))) /\ exact (FNeg (FLit (2 ^ 63))) (- 2 ^ 63).
Proof.
  split.
  - exists [], min_text. split; [reflexivity|]. split; [constructor|]. apply et_term, tt_factor.
    change min_text with ([45] ++ [] ++ (bs "9223372036854775808" ++ [])). apply ft_neg; [constructor|]. apply ft_atom, at_lit; [|constructor].
    apply lit_plain; vm_compute; reflexivity.
  - apply ex_neg; [constructor|]. unfold int64. lia.
Qed.
Theorem C38_smallest_refuted : exists s f v, Forall is_byte s /\ formula s f /\ exact f v /\
  exists e, finally (fun n => formula_Parse n s) (Ok (inl e)).
Proof.
  exists min_text, (FNeg (FLit (2 ^ 63))), (- 2 ^ 63). split; [apply byte_list; reflexivity|]. destruct min_formula as [F E]. split; [exact F|]. split; [exact E|].
  eexists. apply (parse_stable (formula_prod div_panic) formula_good int_answer 60%nat); [vm_compute; reflexivity|discriminate].
Qed.
Print Assumptions C38_smallest_refuted.

(** A formula with every operator, negative literals, nesting and space. *)
Definition sample : bytes := bs " 20 - -3*( 4+ 5 )/ -(2) - 1".
Definition sample_tree : arith :=
  FBin OSub (FBin OSub (FLit 20) (FBin ODiv (FBin OMul (FNeg (FLit 3)) (FBin OAdd (FLit 4) (FLit 5))) (FNeg (FLit 2)))) (FLit 1).
Ltac digit_lit := apply lit_plain; vm_compute; reflexivity.
Ltac one_space := change [32] with ([32] ++ []); apply gap_more; [unfold space_char; simpl; tauto|constructor].
Example C38_sample : formula sample sample_tree /\ literals (fun z => z < 2 ^ 63) sample_tree /\ exact sample_tree 6 /\ formula_Parse 60 sample = Ok (inr 6).
Proof.
  split; [|split; [|split]].
  - exists [32], (((bs "20" ++ [32]) ++ [45] ++ [32] ++ ((([45] ++ [] ++ (bs "3" ++ [])) ++ [42] ++ [] ++ ([40] ++ [32] ++ ((bs "4" ++ []) ++ [43] ++ [32] ++ (bs "5" ++ [32])) ++ [41] ++ []))
        ++ [47] ++ [32] ++ ([45] ++ [] ++ ([40] ++ [] ++ (bs "2" ++ []) ++ [41] ++ [32])))) ++ [45] ++ [32] ++ (bs "1" ++ [])).
    split; [reflexivity|]. split; [one_space|].
    apply (et_bin _ _ OSub); [right; reflexivity| |one_space|apply tt_factor, ft_atom, at_lit; [digit_lit|constructor]].
    apply (et_bin _ _ OSub); [right; reflexivity|apply et_term, tt_factor, ft_atom, at_lit; [digit_lit|one_space]|one_space|].
    apply (tt_bin _ _ ODiv); [right; reflexivity| |one_space|].
    + apply (tt_bin _ _ OMul); [left; reflexivity|apply tt_factor, ft_neg; [constructor|apply ft_atom, at_lit; [digit_lit|constructor]]|constructor|].
      apply ft_atom, at_paren; [one_space| |constructor].
      apply (et_bin _ _ OAdd); [left; reflexivity|apply et_term, tt_factor, ft_atom, at_lit; [digit_lit|constructor]|one_space|apply tt_factor, ft_atom, at_lit; [digit_lit|one_space]].
    + apply ft_neg; [constructor|]. apply ft_atom, at_paren; [constructor| |one_space]. apply et_term, tt_factor, ft_atom, at_lit; [digit_lit|constructor].
  - simpl. repeat split; lia.
  - change 6 with (20 - Z.quot ((- (3)) * (4 + 5)) (- (2)) - 1).
    repeat first [apply ex_sub|apply ex_div|apply ex_mul|apply ex_add|apply ex_neg|apply ex_lit]; unfold int64; simpl; lia.
  - vm_compute. reflexivity.
Qed.

(** ** C39 *)
(** Parse panics on a formula that divides by zero. *)
Theorem C39_divides : forall s f, Forall is_byte s -> formula s f -> literals (fun z => z < 2 ^ 63) f -> divides_by_zero f ->
  finally (fun n => formula_Parse n s) (Panic "integer divide by zero").
Proof. exact formula_zero. Qed.
Print Assumptions C39_divides.

(** That is the only failure: every text is answered with a value or an error, or some
    part of it is an expression that divides by zero and Parse panics for that reason. *)
Theorem C39_total_but_for_division : forall s, Forall is_byte s ->
  (exists r, finally (fun n => formula_Parse n s) (Ok r)) \/
  (finally (fun n => formula_Parse n s) (Panic "integer divide by zero") /\
   exists p t q f, s = p ++ t ++ q /\ exprT t f /\ divides_by_zero f).
Proof.
  intros s Hb. destruct (formula_total s Hb) as [(v & f & H & _)|[(x & lc & H & _)|H]]; [left; eauto|left; eauto|right; exact H].
Qed.
Print Assumptions C39_total_but_for_division.

(** The panic happens, and also on texts that are not formulas. *)
Lemma div_formula : formula (bs "1/0") (FBin ODiv (FLit 1) (FLit 0)).
Proof.
  exists [], ((bs "1" ++ []) ++ [47] ++ [] ++ (bs "0" ++ [])). split; [reflexivity|]. split; [constructor|]. apply et_term.
  apply (tt_bin _ _ ODiv); [right; reflexivity|apply tt_factor, ft_atom, at_lit; [digit_lit|constructor]|constructor|apply ft_atom, at_lit; [|constructor]].
  exists [48]. split; [left; reflexivity|]. split; [left; exists []; auto|]. split; [discriminate|]. exists [0]. split; [|reflexivity].
  constructor; [|constructor]. change 48 with (48 + 0). constructor; lia.
Qed.
Theorem C39_total_refuted :
  finally (fun n => formula_Parse n (bs "1/0")) (Panic "integer divide by zero") /\
  finally (fun n => formula_Parse n (bs "(1/0")) (Panic "integer divide by zero").
Proof.
  split; apply (parse_stable (formula_prod div_panic) formula_good int_answer 60%nat); try discriminate; vm_compute; reflexivity.
Qed.
Print Assumptions C39_total_refuted.
Example C39_divides_example : formula (bs "1/0") (FBin ODiv (FLit 1) (FLit 0)) /\ literals (fun z => z < 2 ^ 63) (FBin ODiv (FLit 1) (FLit 0)) /\
  divides_by_zero (FBin ODiv (FLit 1) (FLit 0)).
Proof. split; [exact div_formula|]. split; [simpl; lia|]. apply dz_here. constructor. Qed.
Example C39_error_example : exists lc, formula_Parse 60 (bs "1 + (2 * ") = Ok (inl (mkPE (Some (EText "Error in the expression after the binary operator")) lc)).
Proof. eexists. vm_compute. reflexivity. Qed.
