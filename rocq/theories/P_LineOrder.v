(** Property theorems for the order of line and column positions: C90. *)
From Verif Require Import L_LineOrder.

Lemma prefix_split (src : bytes) p q : (p < q)%nat -> (q <= length src)%nat ->
  exists t, t <> [] /\ firstn q src = firstn p src ++ t /\ length t = (q - p)%nat /\ forall b, t = [b] -> nth_error src p = Some b.
Proof.
  intros L Q. exists (firstn (q - p) (skipn p src)). assert (E : length (firstn (q - p) (skipn p src)) = (q - p)%nat) by (rewrite firstn_length, skipn_length; lia).
  split; [intros X; rewrite X in E; cbn in E; lia|]. split; [|split; [exact E|]].
  - rewrite <- (firstn_skipn p (firstn q src)) at 1. rewrite firstn_firstn, Nat.min_l by lia. f_equal. rewrite skipn_firstn_comm. reflexivity.
  - intros b X. rewrite <- (firstn_skipn p src) at 1. rewrite nth_error_app2; rewrite firstn_length, Nat.min_l by lia; [|lia]. rewrite Nat.sub_diag. destruct (skipn p src); [rewrite firstn_nil in X; discriminate|]. destruct (q - p)%nat; [discriminate|]. cbn in X. injection X as -> _. reflexivity.
Qed.
(** A later position has a later line, or the same line and a later column; only the two
    positions before and behind the LF of a CRLF have the same line and column. *)
Theorem C90_order : forall src p q tab tab' a b, (p < q)%nat ->
  GetLineAndColPosition src p tab = Ok a -> GetLineAndColPosition src q tab' = Ok b ->
  ((lc_line a < lc_line b)%nat \/ (lc_line a = lc_line b /\ (lc_col a < lc_col b)%nat)) \/
  ((1 <= p)%nat /\ q = (p + 1)%nat /\ nth_error src (p - 1) = Some 13 /\ nth_error src p = Some 10 /\
   lc_line a = lc_line b /\ lc_col a = 1%nat /\ lc_col b = 1%nat).
Proof.
  intros src p q tab tab' a b L A B. apply reported in A as (Lp & -> & ->). apply reported in B as (Lq & -> & ->). destruct (prefix_split src p q L Lq) as (t & N & -> & Lt & Hb).
  destruct (order_app (firstn p src) t N) as [E|((u & Eu) & -> & (E1 & E2))]; [left; exact E|right]. cbn in Lt. specialize (Hb 10 eq_refl).
  assert (P : p = (length u + 1)%nat) by (rewrite <- (firstn_length_le src Lp), Eu, app_length; cbn; lia). split; [lia|]. split; [lia|]. split.
  - rewrite <- (firstn_skipn p src). rewrite Eu, <- app_assoc. rewrite nth_error_app2 by lia. replace (p - 1 - length u)%nat with 0%nat by lia. reflexivity.
  - split; [exact Hb|]. split; [exact E1|]. rewrite <- E2. assert (C : col_of (places (firstn p src) first_place) = 1%nat); [|auto]. apply cr_first. rewrite Eu, places_app. destruct (places u first_place) as [[l c] cr]. reflexivity.
Qed.
Print Assumptions C90_order.

(** So line and column determine the position, up to the one inside of CRLF. *)
Theorem C90_determined : forall src p q tab tab' a b,
  GetLineAndColPosition src p tab = Ok a -> GetLineAndColPosition src q tab' = Ok b ->
  lc_line a = lc_line b -> lc_col a = lc_col b ->
  (forall r, (1 <= r)%nat -> nth_error src (r - 1) = Some 13 -> nth_error src r = Some 10 -> p <> r /\ q <> r) -> p = q.
Proof.
  intros src p q tab tab' a b A B EL EC H. destruct (Nat.lt_trichotomy p q) as [L|[L|L]]; [|exact L|]; exfalso.
  - destruct (C90_order _ _ _ _ _ _ _ L A B) as [X|(P1 & _ & X & Y & _)]; [lia|]. exact (proj1 (H p P1 X Y) eq_refl).
  - destruct (C90_order _ _ _ _ _ _ _ L B A) as [X|(P1 & _ & X & Y & _)]; [lia|]. exact (proj2 (H q P1 X Y) eq_refl).
Qed.
Print Assumptions C90_determined.

(** Inside of CRLF it does not. *)
Theorem C90_crlf_refuted : ~ (forall src p q tab a b, GetLineAndColPosition src p tab = Ok a -> GetLineAndColPosition src q tab = Ok b ->
  lc_line a = lc_line b -> lc_col a = lc_col b -> p = q).
Proof. intros H. specialize (H [13; 10] 1%nat 2%nat 4 _ _ eq_refl eq_refl eq_refl eq_refl). discriminate. Qed.
Print Assumptions C90_crlf_refuted.

(** What is behind the position does not matter for line and column. *)
Theorem C90_before : forall src src' p tab tab' a b, firstn p src = firstn p src' ->
  GetLineAndColPosition src p tab = Ok a -> GetLineAndColPosition src' p tab' = Ok b ->
  lc_line a = lc_line b /\ lc_col a = lc_col b.
Proof. intros src src' p tab tab' a b E A B. apply reported in A as (_ & -> & ->). apply reported in B as (_ & -> & ->). rewrite E. auto. Qed.
Print Assumptions C90_before.

(** A text inside of another: with [a] the place where it starts and [b] a place in it read
    alone, the lines add up, and the columns on the first line, unless CRLF is cut. *)
Theorem C90_embedded : forall pre src post p tab tab1 tab2 a b,
  GetLineAndColPosition pre (length pre) tab = Ok a -> GetLineAndColPosition src p tab1 = Ok b -> 0 <= tab2 ->
  (forall u v, pre = u ++ [13] -> src <> 10 :: v) ->
  exists c, GetLineAndColPosition (pre ++ src ++ post) (length pre + p) tab2 = Ok c /\
    (lc_line c + 1 = lc_line a + lc_line b)%nat /\
    (lc_line b = 1%nat -> (lc_col c + 1 = lc_col a + lc_col b)%nat) /\ (lc_line b <> 1%nat -> lc_col c = lc_col b).
Proof.
  intros pre src post p tab tab1 tab2 a b A B T H. apply reported in A as (_ & -> & ->). apply reported in B as (Lp & -> & ->). rewrite firstn_all.
  assert (exists c, GetLineAndColPosition (pre ++ src ++ post) (length pre + p) tab2 = Ok c) as (c & Ec).
  { unfold GetLineAndColPosition. destruct (Nat.ltb_spec (length (pre ++ src ++ post)) (length pre + p)); [rewrite !app_length in *; lia|]. destruct (Z.ltb_spec tab2 0); [lia|]. eexists. reflexivity. }
  exists c. split; [exact Ec|]. apply reported in Ec as (_ & -> & ->). replace (firstn (length pre + p) (pre ++ src ++ post)) with (pre ++ firstn p src).
  2:{ rewrite firstn_app_2. f_equal. rewrite firstn_app. replace (p - length src)%nat with 0%nat by lia. cbn. rewrite app_nil_r. reflexivity. }
  rewrite places_app. pose proof (line_first pre) as [F _]. pose proof (after_cr_last pre) as K. destruct (places pre first_place) as [[l c0] cr]. change (line_of (l, c0, cr)) with l in *. change (col_of (l, c0, cr)) with c0 in *. change (after_cr (l, c0, cr)) with cr in K.
  destruct (places_shift (firstn p src) l c0 cr) as (X & X1 & X2 & X3 & _).
  { intros -> t E. destruct (K eq_refl) as (u & Eu). destruct p; [discriminate|]. destruct src as [|z src]; [discriminate|]. cbn in E. injection E as -> _. exact (H u src Eu eq_refl). }
  rewrite X, X3. split; [lia|]. destruct (Nat.eqb_spec (line_of (places (firstn p src) first_place)) 1); split; lia.
Qed.
Print Assumptions C90_embedded.
(** If it is cut, the line is one less than the sum says. *)
Theorem C90_cut_refuted : ~ (forall pre src p tab a b c,
  GetLineAndColPosition pre (length pre) tab = Ok a -> GetLineAndColPosition src p tab = Ok b ->
  GetLineAndColPosition (pre ++ src) (length pre + p) tab = Ok c -> (lc_line c + 1 = lc_line a + lc_line b)%nat).
Proof. intros H. specialize (H [13] [10] 1%nat 4 _ _ _ eq_refl eq_refl eq_refl). discriminate. Qed.
Print Assumptions C90_cut_refuted.

(** "a", CRLF, "bc" at "c" is line 2, column 2; behind "x", LF, "yz" it is line 3, column 2,
    and the "a" line 2, column 3. *)
Example C90_example : exists a b c d,
  GetLineAndColPosition (bs "x" ++ [10] ++ bs "yz") 4 4 = Ok a /\ GetLineAndColPosition (bs "a" ++ [13; 10] ++ bs "bc") 4 4 = Ok b /\
  (lc_line a, lc_col a) = (2, 3)%nat /\ (lc_line b, lc_col b) = (2, 2)%nat /\
  GetLineAndColPosition ((bs "x" ++ [10] ++ bs "yz") ++ (bs "a" ++ [13; 10] ++ bs "bc") ++ bs "!") 8 4 = Ok c /\ (lc_line c, lc_col c) = (3, 2)%nat /\
  GetLineAndColPosition ((bs "x" ++ [10] ++ bs "yz") ++ (bs "a" ++ [13; 10] ++ bs "bc") ++ bs "!") 4 4 = Ok d /\ (lc_line d, lc_col d) = (2, 3)%nat.
Proof. do 4 eexists. repeat split. Qed.
