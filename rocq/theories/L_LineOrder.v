(** Lines and columns byte by byte (C90). *)
From Verif Require Export M_LineCol.

(** Line, column, and whether the byte before is CR. *)
Definition place := (nat * nat * bool)%type.
Definition place_step (p : place) (b : Z) : place :=
  let '(l, c, cr) := p in
  if b =? 13 then (Datatypes.S l, 1%nat, true) else if b =? 10 then (if cr then l else Datatypes.S l, 1%nat, false) else (l, Datatypes.S c, false).
Definition places (s : bytes) (p : place) : place := fold_left place_step s p.
Definition first_place : place := (1%nat, 1%nat, false).
Definition line_of (p : place) : nat := fst (fst p).
Definition col_of (p : place) : nat := snd (fst p).
Definition after_cr (p : place) : bool := snd p.

Lemma scan_places n : forall s i st, (length s < n)%nat ->
  ss_line (scan s i st) = line_of (places s (ss_line st, ss_col st, false)) /\ ss_col (scan s i st) = col_of (places s (ss_line st, ss_col st, false)).
Proof.
  induction n as [|n IH]; intros s i st L; [lia|]. destruct s as [|b s]; [split; reflexivity|]. cbn [scan]. unfold places. cbn [fold_left place_step]. cbn [length] in L. destruct (Z.eqb_spec b 13) as [->|N13].
  - destruct s as [|b2 s]; [cbn; split; [lia|reflexivity]|]. cbn [fold_left place_step]. destruct (Z.eqb_spec b2 10) as [->|N10].
    + cbn [length] in L. cbn [Z.eqb Pos.eqb]. destruct (IH s (i + 2)%nat (mkSS (ss_idx st) (i + 2) (ss_line st + 1) 1 0) ltac:(lia)) as [A B]. cbn [ss_line ss_col] in A, B. unfold places in A, B. rewrite A, B. replace (ss_line st + 1)%nat with (Datatypes.S (ss_line st)) by lia. auto.
    + destruct (IH (b2 :: s) (i + 1)%nat (mkSS (ss_idx st) (i + 1) (ss_line st + 1) 1 0) ltac:(lia)) as [A B]. cbn [ss_line ss_col] in A, B. unfold places in A, B. rewrite A, B. cbn [fold_left place_step]. destruct (Z.eqb_spec b2 10); [contradiction|]. replace (ss_line st + 1)%nat with (Datatypes.S (ss_line st)) by lia. auto.
  - destruct (Z.eqb_spec b 10) as [->|N10].
    + destruct (IH s (i + 1)%nat (mkSS (ss_idx st) (i + 1) (ss_line st + 1) 1 0) ltac:(lia)) as [A B]. cbn [ss_line ss_col] in A, B. unfold places in A, B. rewrite A, B. replace (ss_line st + 1)%nat with (Datatypes.S (ss_line st)) by lia. auto.
    + destruct (Z.eqb_spec b 9).
      * destruct (IH s (i + 1)%nat (mkSS (ss_prev st) (ss_idx st) (ss_line st) (ss_col st + 1) (ss_tabs st + 1)) ltac:(lia)) as [A B]. cbn [ss_line ss_col] in A, B. unfold places in A, B. rewrite A, B. replace (ss_col st + 1)%nat with (Datatypes.S (ss_col st)) by lia. auto.
      * destruct (IH s (i + 1)%nat (mkSS (ss_prev st) (ss_idx st) (ss_line st) (ss_col st + 1) (ss_tabs st)) ltac:(lia)) as [A B]. cbn [ss_line ss_col] in A, B. unfold places in A, B. rewrite A, B. replace (ss_col st + 1)%nat with (Datatypes.S (ss_col st)) by lia. auto.
Qed.
Lemma reported src pos tab lc : GetLineAndColPosition src pos tab = Ok lc ->
  (pos <= length src)%nat /\ lc_line lc = line_of (places (firstn pos src) first_place) /\ lc_col lc = col_of (places (firstn pos src) first_place).
Proof.
  unfold GetLineAndColPosition. destruct (Nat.ltb_spec (length src) pos) as [G|G]; [discriminate|]. destruct (tab <? 0); [discriminate|]. intros E. injection E as <-. cbn [lc_line lc_col].
  destruct (scan_places (Datatypes.S (length (firstn pos src))) (firstn pos src) 0 (mkSS 0 0 1 1 0) (Nat.lt_succ_diag_r _)) as [A B]. auto.
Qed.
(** ** Order *)
Definition earlier (p q : place) : Prop := (line_of p < line_of q)%nat \/ (line_of p = line_of q /\ (col_of p < col_of q)%nat).
Definition alike_place (p q : place) : Prop := line_of p = line_of q /\ col_of p = col_of q.
Lemma step_order p b : (after_cr p = true -> col_of p = 1%nat) -> (earlier p (place_step p b) \/ (after_cr p = true /\ b = 10 /\ alike_place p (place_step p b))) /\ (after_cr (place_step p b) = true -> col_of (place_step p b) = 1%nat).
Proof.
  destruct p as [[l c] cr]. unfold earlier, alike_place, line_of, col_of, after_cr. cbn [fst snd place_step]. intros H. destruct (Z.eqb_spec b 13); [cbn; split; [left; left; lia|auto]|]. destruct (Z.eqb_spec b 10); [|cbn; split; [left; right; lia|discriminate]].
  destruct cr; cbn; (split; [|discriminate]); [right; rewrite (H eq_refl); auto|left; left; lia].
Qed.
Lemma places_app s t p : places (s ++ t) p = places t (places s p).
Proof. unfold places. apply fold_left_app. Qed.
Lemma cr_first s : after_cr (places s first_place) = true -> col_of (places s first_place) = 1%nat.
Proof.
  induction s as [|b s IH] using rev_ind; [discriminate|]. rewrite places_app. apply (step_order (places s first_place) b IH).
Qed.
Lemma after_cr_last s : after_cr (places s first_place) = true -> exists t, s = t ++ [13].
Proof.
  destruct s as [|b s] using rev_ind; [discriminate|]. rewrite places_app. unfold places at 1. cbn [fold_left]. destruct (places s first_place) as [[l c] cr]. unfold after_cr, place_step. destruct (Z.eqb_spec b 13) as [->|N]; [exists s; reflexivity|]. destruct (b =? 10); discriminate.
Qed.
Lemma earlier_trans p q r : earlier p q -> earlier q r \/ alike_place q r -> earlier p r.
Proof. unfold earlier, alike_place. lia. Qed.
(** One more byte, and more than one. *)
Lemma order_app s t : t <> [] -> earlier (places s first_place) (places (s ++ t) first_place) \/
  ((exists u, s = u ++ [13]) /\ t = [10] /\ alike_place (places s first_place) (places (s ++ t) first_place)).
Proof.
  induction t as [|b t IH] using rev_ind; intros N; [contradiction|]. destruct (step_order (places (s ++ t) first_place) b (cr_first _)) as [K _]. rewrite app_assoc, places_app. change (places [b] ?x) with (place_step x b).
  destruct t as [|a t'] eqn:Et.
  - rewrite app_nil_r in *. destruct K as [K|(C & -> & K)]; [left; exact K|right]. split; [apply after_cr_last; exact C|auto].
  - rewrite <- Et in *. assert (Nt : t <> []) by (rewrite Et; discriminate). clear Et. destruct (IH Nt) as [E|((u & Eu) & E10 & Al)].
    + left. eapply earlier_trans; [exact E|]. destruct K as [K|(_ & _ & K)]; auto.
    + left. destruct K as [K|(C & _ & _)].
      * unfold earlier, alike_place in *. lia.
      * exfalso. apply after_cr_last in C as (v & Ev). rewrite E10 in Ev. apply app_inj_tail in Ev. destruct Ev; discriminate.
Qed.
(** ** Texts inside of others *)
Lemma line_first s : (1 <= line_of (places s first_place))%nat /\ (after_cr (places s first_place) = true -> (2 <= line_of (places s first_place))%nat).
Proof.
  induction s as [|b s [A B]] using rev_ind; [cbn; split; [lia|discriminate]|]. rewrite places_app. change (places [b] ?x) with (place_step x b). destruct (places s first_place) as [[l c] cr]. unfold line_of, after_cr, place_step in *. cbn [fst snd] in *.
  destruct (b =? 13); [cbn; lia|]. destruct (b =? 10); [|cbn; split; [lia|discriminate]]. destruct cr; cbn; (split; [lia|discriminate]).
Qed.
Lemma places_shift s : forall l c cr, (cr = true -> forall t, s <> 10 :: t) ->
  line_of (places s (l, c, cr)) = (l + (line_of (places s first_place) - 1))%nat /\ (1 <= line_of (places s first_place))%nat /\ (1 <= col_of (places s first_place))%nat /\
  col_of (places s (l, c, cr)) = (if Nat.eqb (line_of (places s first_place)) 1 then c + (col_of (places s first_place) - 1) else col_of (places s first_place))%nat /\
  (s <> [] -> after_cr (places s (l, c, cr)) = after_cr (places s first_place)).
Proof.
  induction s as [|b s IH] using rev_ind; intros l c cr H; [cbn; repeat split; try lia; contradiction|]. rewrite !places_app. change (places [b] ?x) with (place_step x b).
  assert (H' : cr = true -> forall t, s <> 10 :: t) by (intros Ec t ->; apply (H Ec (t ++ [b])); reflexivity). destruct (IH l c cr H') as (A & B & B' & C & D).
  assert (D' : after_cr (places s (l, c, cr)) = after_cr (places s first_place) \/ b <> 10).
  { destruct s as [|x s]; [|left; apply D; discriminate]. destruct cr; [right; intros ->; exact (H eq_refl [] eq_refl)|left; reflexivity]. }
  clear D. pose proof (proj2 (line_first s)) as F. destruct (places s (l, c, cr)) as [[l1 c1] r1], (places s first_place) as [[l0 c0] r0]. unfold line_of, col_of, after_cr, place_step in *. cbn [fst snd] in *. destruct (Z.eqb_spec b 13).
  - cbn [fst snd]. replace (Nat.eqb (Datatypes.S l0) 1) with false by (symmetry; apply Nat.eqb_neq; lia). repeat split; lia.
  - destruct (Z.eqb_spec b 10) as [->|N10].
    + destruct D' as [->|X]; [|contradiction]. destruct r0; cbn [fst snd].
      * specialize (F eq_refl). destruct (Nat.eqb_spec l0 1); repeat split; lia.
      * replace (Nat.eqb (Datatypes.S l0) 1) with false by (symmetry; apply Nat.eqb_neq; lia). repeat split; lia.
    + cbn [fst snd]. destruct (Nat.eqb_spec l0 1); repeat split; lia.
Qed.
