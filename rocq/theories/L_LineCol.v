From Verif Require Export S_LineCol.
From Coq Require Export Lia.

Lemma lines_joined pre ls last : lines pre ls last -> pre = joined ls ++ last.
Proof.
  unfold joined. induction 1; simpl; auto; subst r; rewrite <- !app_assoc; reflexivity.
Qed.
Lemma lines_last pre ls last : lines pre ls last -> plain last.
Proof. induction 1; auto. Qed.
Lemma lines_plain pre ls last : lines pre ls last -> Forall (fun p => plain (fst p) /\ (snd p = [10] \/ snd p = [13; 10] \/ snd p = [13])) ls.
Proof. induction 1; constructor; simpl; auto. Qed.

(** Every text has such lines, and one way only. *)
Lemma lines_total : forall pre, exists ls last, lines pre ls last.
Proof.
  intros pre. remember (length pre) as n eqn:E. revert pre E. induction n as [n IH] using (well_founded_induction lt_wf). intros pre E.
  destruct pre as [|b pre]. { exists [], []. constructor. constructor. }
  simpl in E. destruct (Z.eq_dec b 10) as [->|N1].
  { destruct (IH (length pre) ltac:(lia) pre eq_refl) as (ls & last & H). exists (([], [10]) :: ls), last. apply (ln_lf []); auto. constructor. }
  destruct (Z.eq_dec b 13) as [->|N2].
  { destruct pre as [|c pre].
    - exists [([], [13])], []. apply (ln_cr [] []); [constructor|discriminate|constructor; constructor].
    - destruct (Z.eq_dec c 10) as [->|N3].
      + destruct (IH (length pre) ltac:(simpl in E; lia) pre eq_refl) as (ls & last & H). exists (([], [13; 10]) :: ls), last. apply (ln_crlf []); auto. constructor.
      + destruct (IH (length (c :: pre)) ltac:(simpl in *; lia) (c :: pre) eq_refl) as (ls & last & H). exists (([], [13]) :: ls), last. apply (ln_cr []); auto; [constructor|congruence]. }
  destruct (IH (length pre) ltac:(lia) pre eq_refl) as (ls & last & H).
  assert (C : forall l, plain l -> plain (b :: l)) by (intros l F; constructor; auto).
  inversion H; subst.
  - exists [], (b :: last). constructor. auto.
  - exists ((b :: l, [10]) :: ls0), last. apply (ln_lf (b :: l)); auto.
  - exists ((b :: l, [13; 10]) :: ls0), last. apply (ln_crlf (b :: l)); auto.
  - exists ((b :: l, [13]) :: ls0), last. apply (ln_cr (b :: l)); auto.
Qed.

(** The scan. *)
Definition tabs (l : bytes) : nat := length (filter (fun b => b =? 9) l).
Lemma scan_plain l : plain l -> forall r i s, scan (l ++ r) i s =
  scan r (i + length l) (mkSS (ss_prev s) (ss_idx s) (ss_line s) (ss_col s + length l) (ss_tabs s + tabs l)).
Proof.
  induction 1 as [|b l [N1 N2] F IH]; intros r i s; simpl.
  - rewrite !Nat.add_0_r. destruct s. reflexivity.
  - destruct (Z.eqb_spec b 13); [contradiction|]. destruct (Z.eqb_spec b 10); [contradiction|].
    unfold tabs. simpl. destruct (Z.eqb_spec b 9); rewrite IH; unfold tabs; simpl; rewrite <- !Nat.add_assoc; reflexivity.
Qed.
Lemma scan_lf r i s : scan (10 :: r) i s = scan r (i + 1) (mkSS (ss_idx s) (i + 1) (ss_line s + 1) 1 0).
Proof. reflexivity. Qed.
Lemma scan_crlf r i s : scan (13 :: 10 :: r) i s = scan r (i + 2) (mkSS (ss_idx s) (i + 2) (ss_line s + 1) 1 0).
Proof. reflexivity. Qed.
Lemma scan_cr r i s : (forall t, r <> 10 :: t) -> scan (13 :: r) i s = scan r (i + 1) (mkSS (ss_idx s) (i + 1) (ss_line s + 1) 1 0).
Proof.
  intros H. destruct r as [|b r]; [reflexivity|]. simpl. destruct (Z.eqb_spec b 10) as [->|]; [exfalso; eapply H; eauto|]. reflexivity.
Qed.
Definition last_start (prev idx : nat) (ls : list (bytes * bytes)) : nat :=
  match rev ls with [] => prev | _ :: r => (idx + length (joined (rev r)))%nat end.
Lemma scan_lines pre ls last : lines pre ls last -> forall i s, ss_idx s = i -> ss_col s = 1%nat -> ss_tabs s = 0%nat ->
  scan pre i s = mkSS (last_start (ss_prev s) (ss_idx s) ls) (i + length (joined ls)) (ss_line s + length ls) (1 + length last) (tabs last).
Proof.
  induction 1 as [l F|l r ls last F H IH|l r ls last F H IH|l r ls last F N H IH]; intros i s Hi Hc Ht.
  - rewrite <- (app_nil_r l) at 1. rewrite scan_plain by auto. simpl. rewrite Hc, Ht, Hi, !Nat.add_0_r. reflexivity.
  - rewrite scan_plain, scan_lf by auto. simpl. rewrite IH by reflexivity. simpl. unfold joined. simpl. rewrite !app_length. simpl.
    f_equal; try lia. unfold last_start. simpl. destruct (rev ls) as [|x rl] eqn:E; simpl.
    + lia.
    + rewrite rev_app_distr. simpl. unfold joined. simpl. rewrite !app_length. simpl. lia.
  - rewrite scan_plain, scan_crlf by auto. simpl. rewrite IH by reflexivity. simpl. unfold joined. simpl. rewrite !app_length. simpl.
    f_equal; try lia. unfold last_start. simpl. destruct (rev ls) as [|x rl] eqn:E; simpl.
    + lia.
    + rewrite rev_app_distr. simpl. unfold joined. simpl. rewrite !app_length. simpl. lia.
  - rewrite scan_plain, scan_cr by auto. simpl. rewrite IH by reflexivity. simpl. unfold joined. simpl. rewrite !app_length. simpl.
    f_equal; try lia. unfold last_start. simpl. destruct (rev ls) as [|x rl] eqn:E; simpl.
    + lia.
    + rewrite rev_app_distr. simpl. unfold joined. simpl. rewrite !app_length. simpl. lia.
Qed.
Lemma line_end s : exists l, line_rest s l /\ to_line_end s = length l /\ firstn (to_line_end s) s = l.
Proof.
  induction s as [|b s IH]; simpl. { exists []. repeat split; auto. constructor. }
  destruct (Z.eqb_spec b 13) as [->|N1]; simpl. { exists []. repeat split; auto; [constructor|]. right. exists 13, s. auto. }
  destruct (Z.eqb_spec b 10) as [->|N2]; simpl. { exists []. repeat split; auto; [constructor|]. right. exists 10, s. auto. }
  destruct IH as (l & (F & H) & E & E2). exists (b :: l). split; [split; [constructor; auto|]|split; [rewrite E; reflexivity|rewrite E2; reflexivity]].
  destruct H as [->|(c & t & -> & Hc)]; auto. right. exists c, t. auto.
Qed.
Lemma expand_flat n s : replace_tabs (repeat 32 n) s = expand n s.
Proof. induction s as [|b s IH]; simpl; auto. rewrite IH. destruct (Z.eqb_spec b 9), (Z.eq_dec b 9); try contradiction; auto. Qed.
Lemma expand_app n a b : expand n (a ++ b) = expand n a ++ expand n b.
Proof. induction a as [|x a IH]; simpl; auto. rewrite IH, <- app_assoc. auto. Qed.
Lemma expand_plain n l : plain l -> plain (expand n l).
Proof.
  induction 1 as [|b l H F IH]; simpl; [constructor|]. apply Forall_app. split; auto. destruct (Z.eq_dec b 9).
  - clear. induction n; simpl; constructor; auto; lia.
  - constructor; auto.
Qed.
Lemma expand_len n l : Z.of_nat (length (expand n l)) = Z.of_nat (length l) + Z.of_nat (tabs l) * (Z.of_nat n - 1).
Proof.
  induction l as [|b l IH]; [reflexivity|]. cbn [expand]. rewrite app_length. unfold tabs in *. cbn [filter].
  destruct (Z.eq_dec b 9), (Z.eqb_spec b 9); try contradiction; cbn [length].
  - rewrite repeat_length, !Nat2Z.inj_add, IH, !Nat2Z.inj_succ. lia.
  - rewrite !Nat2Z.inj_add, IH, !Nat2Z.inj_succ. lia.
Qed.
Lemma contains_app b s t : contains_byte b (s ++ t) = contains_byte b s || contains_byte b t.
Proof. unfold contains_byte. apply existsb_app. Qed.
Lemma plain_no l b : plain l -> b = 13 \/ b = 10 -> contains_byte b l = false.
Proof.
  intros F Hb. unfold contains_byte. rewrite <- not_true_iff_false, existsb_exists. intros (x & Hx & E). apply Z.eqb_eq in E. subst x.
  unfold plain in F. rewrite Forall_forall in F. destruct (F _ Hx). lia.
Qed.
Lemma replace_once_at b t l r : contains_byte b l = false -> replace_once b t (l ++ b :: r) = l ++ t ++ r.
Proof.
  induction l as [|x l IH]; simpl; intros H. { rewrite Z.eqb_refl. auto. }
  apply orb_false_iff in H. destruct H as [H1 H2]. rewrite H1. simpl. rewrite IH; auto.
Qed.
Lemma firstn_app_len {A} (a b : list A) n : n = length a -> firstn n (a ++ b) = a.
Proof. intros ->. rewrite firstn_app, firstn_all, Nat.sub_diag, firstn_O, app_nil_r. auto. Qed.
Lemma skipn_app_len {A} (a b : list A) n : n = length a -> skipn n (a ++ b) = b.
Proof. intros ->. rewrite skipn_app, skipn_all, Nat.sub_diag. auto. Qed.

Ltac fin_app := cbn; rewrite <- ?app_assoc; cbn; rewrite <- ?app_assoc; cbn; reflexivity.
Lemma rest_func s l l' : line_rest s l -> line_rest s l' -> l = l'.
Proof.
  intros [F H] [F' H']. revert s l' F' H H'. induction F as [|b l [N1 N2] F IH]; intros s l' F' H H'.
  - destruct F' as [|b' l' [M1 M2] F']; auto. exfalso. destruct H as [->|(c & t & -> & Hc)], H' as [E|(c' & t' & E & Hc')]; inversion E; subst; lia.
  - destruct F' as [|b' l' [M1 M2] F'].
    + exfalso. destruct H as [->|(c & t & -> & Hc)], H' as [E|(c' & t' & E & Hc')]; inversion E; subst; lia.
    + assert (E : exists r, s = b :: r /\ (r = l \/ exists c t, r = l ++ c :: t /\ (c = 13 \/ c = 10))).
      { destruct H as [->|(c & t & -> & Hc)]; eexists; (split; [reflexivity|]); [left; auto|right; exists c, t; auto]. }
      destruct E as (r & -> & Hr). assert (E : b = b' /\ (r = l' \/ exists c t, r = l' ++ c :: t /\ (c = 13 \/ c = 10))).
      { destruct H' as [E|(c & t & E & Hc)]; inversion E; subst; split; auto. right. exists c, t. auto. }
      destruct E as [<- Hr']. f_equal. eapply IH; eauto.
Qed.
Lemma linecol_ok src pos n ls last rest : (pos <= length src)%nat ->
  lines (firstn pos src) ls last -> line_rest (skipn pos src) rest ->
  exists r, GetLineAndColPosition src pos (Z.of_nat n) = Ok r /\
    lc_line r = (1 + length ls)%nat /\ lc_index r = length (joined ls) /\
    lc_col r = (pos - lc_index r + 1)%nat /\ lc_pos r = pos /\ lc_src r = report n ls last rest.
Proof.
  intros Hp H Hr. destruct (line_end (skipn pos src)) as (rest' & Hr' & Er & Fr).
  pose proof (rest_func _ _ _ Hr' Hr) as E0. rewrite E0 in Er, Fr. clear rest' Hr' E0. unfold GetLineAndColPosition. destruct (Nat.ltb_spec (length src) pos) as [|_]; [lia|].
  destruct (Z.ltb_spec (Z.of_nat n) 0) as [|_]; [lia|].
  rewrite (scan_lines _ _ _ H) by reflexivity. cbn [ss_prev ss_idx ss_line ss_col ss_tabs].
  eexists. split; [reflexivity|]. cbn [lc_line lc_index lc_col lc_pos lc_src].
  pose proof (lines_joined _ _ _ H) as J. pose proof (f_equal (@length Z) J) as JL. rewrite firstn_length_le, app_length in JL by auto.
  split; [reflexivity|]. split; [reflexivity|]. split; [lia|]. split; [reflexivity|].
  (* the report *)
  assert (Src : src = joined ls ++ last ++ skipn pos src) by (rewrite app_assoc, <- J; symmetry; apply firstn_skipn).
  replace (Z.to_nat (Z.max 0 (Z.of_nat (1 + length last) - 1 + Z.of_nat (tabs last) * (Z.of_nat n - 1)))) with (length (expand n last)) by (pose proof (expand_len n last); lia).
  unfold spaces_of. rewrite Nat2Z.id.
  replace (Z.to_nat (Z.max 0 (Z.of_nat (1 + length last) - 1 + Z.of_nat (tabs last) * (Z.of_nat n - 1)))) with (length (expand n last)) by (pose proof (expand_len n last); lia).
  rewrite expand_flat. pose proof (lines_plain _ _ _ H) as Lp. pose proof (lines_last _ _ _ H) as Pl. destruct Hr as [Pr _].
  assert (Pc : plain (expand n (last ++ rest))) by (apply expand_plain, Forall_app; auto).
  unfold report, last_start. destruct (rev ls) as [|[l t] rl] eqn:R.
  - assert (ls = []) by (apply (f_equal (@rev _)) in R; rewrite rev_involutive in R; auto). subst ls. simpl in JL, Src, J |- *.
    assert (E : firstn (pos + to_line_end (skipn pos src) - 0) src = last ++ rest).
    { rewrite Nat.sub_0_r, Er. rewrite Src at 1. rewrite firstn_app.
      rewrite firstn_all2 by lia. f_equal. transitivity (firstn (to_line_end (skipn pos src)) (skipn pos src)); [f_equal; rewrite ?app_length; lia|exact Fr]. }
    rewrite E. rewrite !plain_no by (auto; lia). fin_app.
  - assert (Ls : ls = rev rl ++ [(l, t)]) by (apply (f_equal (@rev _)) in R; rewrite rev_involutive in R; auto).
    assert (Jj : joined ls = joined (rev rl) ++ l ++ t). { rewrite Ls. unfold joined. rewrite flat_map_app. simpl. rewrite app_nil_r. auto. }
    simpl (0 + _)%nat.
    assert (E : firstn (pos + to_line_end (skipn pos src) - length (joined (rev rl))) (skipn (length (joined (rev rl))) src) = l ++ t ++ last ++ rest).
    { rewrite Src at 2. rewrite Jj, <- !app_assoc. rewrite skipn_app_len by reflexivity.
      rewrite Jj, !app_length in JL. rewrite !app_assoc. rewrite firstn_app. rewrite firstn_all2 by (rewrite !app_length; lia).
      f_equal. transitivity (firstn (to_line_end (skipn pos src)) (skipn pos src)); [f_equal; rewrite ?app_length; lia|exact Fr]. }
    rewrite E. rewrite !expand_app, <- expand_app. set (cur := expand n (last ++ rest)) in *.
    rewrite Forall_forall in Lp. destruct (Lp (l, t)) as [Pl1 Ht]. { rewrite Ls. apply in_or_app. right. left. auto. }
    simpl in Pl1, Ht. assert (Pe : plain (expand n l)) by (apply expand_plain; auto).
    destruct Ht as [->|[->| ->]].
    + change (expand n [10]) with [10]. rewrite !contains_app, (plain_no _ 10 Pe) by auto. simpl ([10] ++ _). rewrite replace_once_at by (apply plain_no; auto).
      simpl (contains_byte 10 [10] || _). cbn match. destruct (list_eq_dec Z.eq_dec [10] [13]) as [K|_]; [discriminate|].
      fin_app.
    + change (expand n [13; 10]) with [13; 10]. rewrite !contains_app, (plain_no _ 10 Pe) by auto.
      replace (expand n l ++ [13; 10] ++ cur) with ((expand n l ++ [13]) ++ 10 :: cur) by (rewrite <- app_assoc; reflexivity).
      rewrite replace_once_at by (rewrite contains_app, (plain_no _ 10 Pe) by auto; reflexivity).
      simpl (contains_byte 10 [13; 10] || _). cbn match. destruct (list_eq_dec Z.eq_dec [13; 10] [13]) as [K|_]; [discriminate|].
      fin_app.
    + change (expand n [13]) with [13]. rewrite !contains_app, (plain_no _ 10 Pe), (plain_no _ 13 Pe), (plain_no _ 10 Pc) by auto.
      simpl ([13] ++ _). rewrite replace_once_at by (apply plain_no; auto).
      simpl (contains_byte 10 [13] || _). simpl (contains_byte 13 [13] || _). cbn match. destruct (list_eq_dec Z.eq_dec [13] [13]) as [_|K]; [|congruence].
      fin_app.
Qed.
Lemma linecol_panics src pos tab : (exists r, GetLineAndColPosition src pos tab = Ok r) <-> (pos <= length src)%nat /\ 0 <= tab.
Proof.
  unfold GetLineAndColPosition. destruct (Nat.ltb_spec (length src) pos), (Z.ltb_spec tab 0); split; try (intros [? [=]]); try lia; try (eexists; reflexivity).
Qed.
