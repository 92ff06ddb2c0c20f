(** Lemmas for C53. *)
From Verif Require Import S_Slice L_Heap.

Lemma elems_len h s : valid h s -> length (elems h s) = s_len s.
Proof. intros [_ H]. unfold elems. rewrite firstn_length, skipn_length. lia. Qed.
Lemma nth_skip {A} (l : list A) i j : nth_error (skipn i l) j = nth_error l (i + j).
Proof. revert l. induction i as [|i IH]; intros [|x l]; simpl; auto. destruct j; reflexivity. Qed.
Lemma nth_first {A} (l : list A) n j : (j < n)%nat -> nth_error (firstn n l) j = nth_error l j.
Proof. revert l j. induction n as [|n IH]; intros [|x l] [|j] H; simpl; auto; try lia. apply IH. lia. Qed.
Lemma nth_elems h s j : (j < s_len s)%nat -> nth_error (elems h s) j = nth_error (cells h (s_arr s)) (s_off s + j).
Proof. intros H. unfold elems. rewrite nth_first, nth_skip; auto. Qed.

Lemma get_ok h s i a : valid h s -> (ast_get h s i = Ok a <-> 0 <= i < ast_len s /\ nth_error (elems h s) (Z.to_nat i) = Some a).
Proof.
  intros V. unfold ast_get. destruct (Z.ltb_spec i 0), (Z.leb_spec (ast_len s) i); simpl; split; try discriminate; try lia.
  - destruct (nth_error _ _); [|discriminate]. intros E. injection E as <-. auto with zarith.
  - intros [_ ->]. reflexivity.
Qed.
Lemma get_panics h s i : valid h s -> ((exists w, ast_get h s i = Panic w) <-> ~ 0 <= i < ast_len s).
Proof.
  intros V. unfold ast_get. destruct (Z.ltb_spec i 0), (Z.leb_spec (ast_len s) i); simpl; split; try (intros _; lia); try (intros _; eexists; reflexivity); try lia.
  intros (w & E). destruct (nth_error (elems h s) (Z.to_nat i)) eqn:N; [discriminate|]. apply nth_error_None in N. rewrite elems_len in N by auto.
  unfold ast_len in *. lia.
Qed.
Lemma nth_overwrite1 l i a j : (i < length l)%nat ->
  nth_error (overwrite l i (map (fun _ : ast => a) (firstn 1 (skipn i l)))) j = if Nat.eqb i j then Some a else nth_error l j.
Proof.
  intros H. assert (E : map (fun _ : ast => a) (firstn 1 (skipn i l)) = [a]).
  { destruct (skipn i l) as [|x r] eqn:S; [|reflexivity]. apply (f_equal (@length ast)) in S. rewrite skipn_length in S. simpl in S. lia. }
  rewrite E. unfold overwrite. simpl length. revert l H E j. induction i as [|i IH]; intros [|x l] H E j; simpl in H; try lia.
  - destruct j; reflexivity.
  - destruct j as [|j]; [reflexivity|]. simpl. apply (IH l); [lia|exact E].
Qed.
Lemma set_ok h s i a : valid h s -> 0 <= i < ast_len s -> exists h', ast_set h s i (VAst a) = Ok h' /\
  forall t, valid h t -> valid h' t /\ forall j, 0 <= j < ast_len t ->
    (same_cell s i t j -> nth_error (elems h' t) (Z.to_nat j) = Some a) /\
    (~ same_cell s i t j -> nth_error (elems h' t) (Z.to_nat j) = nth_error (elems h t) (Z.to_nat j)).
Proof.
  intros [Va Vl] Hi. unfold ast_len in *. unfold ast_set, ast_len.
  destruct (Z.ltb_spec i 0); [lia|]. destruct (Z.leb_spec (Z.of_nat (s_len s)) i); [lia|]. simpl. eexists. split; [reflexivity|].
  intros t [Ta Tl]. unfold go_update.
  assert (L : length (overwrite (cells h (s_arr s)) (s_off s + Z.to_nat i) (map (fun _ => a) (firstn 1 (skipn (s_off s + Z.to_nat i) (cells h (s_arr s)))))) = length (cells h (s_arr s))).
  { apply overwrite_length. rewrite map_length, firstn_length, skipn_length. lia. }
  split.
  - split; [rewrite set_array_length; auto|]. destruct (Nat.eq_dec (s_arr t) (s_arr s)) as [E|E].
    + rewrite E, cells_set_same by auto. rewrite L, <- E. auto.
    + rewrite cells_set_other; auto.
  - intros j Hj. rewrite !nth_elems by lia. unfold same_cell. destruct (Nat.eq_dec (s_arr t) (s_arr s)) as [E|E].
    + rewrite E, cells_set_same by auto. rewrite nth_overwrite1 by lia. destruct (Nat.eqb_spec (s_off s + Z.to_nat i) (s_off t + Z.to_nat j)); split; intros C; auto.
      * exfalso. apply C. lia.
      * lia.
    + rewrite cells_set_other by auto. split; intros C; [|reflexivity]. destruct C as [C _]. congruence.
Qed.
Lemma set_panics h s i v : (exists w, ast_set h s i v = Panic w) <-> (~ 0 <= i < ast_len s \/ forall a, v <> VAst a).
Proof.
  unfold ast_set. destruct v; try (split; [intros _; right; discriminate|intros _; eexists; reflexivity]).
  destruct (Z.ltb_spec i 0), (Z.leb_spec (ast_len s) i); simpl; split; try (intros _; left; lia); try (intros _; eexists; reflexivity).
  - intros (w & E). discriminate.
  - intros [C|C]; [lia|]. exfalso. eapply C. reflexivity.
Qed.

Lemma slice_ok h s i j t : valid h s -> go_slice h s i j = Ok t ->
  valid h t /\ ast_len t = j - i /\ 0 <= i <= j /\ (forall k, same_cell t k s (i + k)) /\
  (j <= ast_len s -> elems h t = window (elems h s) i j).
Proof.
  intros [Va Vl] E. unfold go_slice, s_cap in E. destruct (Z.leb_spec 0 i), (Z.leb_spec i j), (Z.leb_spec j (Z.of_nat (length (cells h (s_arr s)) - s_off s))); simpl in E; try discriminate.
  injection E as <-. split; [split; simpl; [auto|lia]|]. split; [unfold ast_len; simpl; lia|]. split; [lia|]. split; [intros k; split; simpl; [auto|lia]|].
  intros Hj. unfold ast_len in Hj. unfold elems, window. simpl s_arr. simpl s_off. simpl s_len.
  rewrite skipn_firstn_comm, firstn_firstn, Nat.min_l by lia. f_equal. clear. generalize (cells h (s_arr s)). intros l. generalize (Z.to_nat i). intros k.
  generalize (s_off s). intros o. revert l. induction o as [|o IH]; intros [|x l]; simpl; auto. rewrite skipn_nil. reflexivity.
Qed.
Lemma slice_panics h s i j : (exists w, go_slice h s i j = Panic w) <-> ~ (0 <= i <= j /\ j <= Z.of_nat (s_cap h s)).
Proof.
  unfold go_slice. destruct (Z.leb_spec 0 i), (Z.leb_spec i j), (Z.leb_spec j (Z.of_nat (s_cap h s))); simpl;
    split; try (intros _; lia); try (intros _; eexists; reflexivity); try lia. intros (w & E). discriminate.
Qed.

Lemma old_valid h h1 l t : h1 = h ++ [l] -> valid h t -> valid h1 t /\ elems h1 t = elems h t.
Proof.
  intros -> [Va Vl]. split.
  - split; [rewrite app_length; simpl; lia|]. rewrite cells_old by auto. auto.
  - unfold elems. rewrite cells_old by auto. reflexivity.
Qed.
Lemma copy_ok g h s i j : valid h s -> 0 <= i <= j -> j <= ast_len s ->
  exists h' t, ast_copy g h s i j = Ok (h', t) /\ valid h' t /\ elems h' t = window (elems h s) i j /\
    untouched h h' /\ forall u, valid h u -> separate t u.
Proof.
  intros V Hi Hj. pose proof V as [Va Vl]. unfold ast_len in Hj. unfold ast_copy, go_make.
  change (0 <? 0) with false. destruct (Z.ltb_spec (j - i) 0); [lia|]. simpl Z.to_nat. cbn [repeat]. unfold alloc. cbn [length app]. rewrite Nat.sub_0_r.
  assert (E : exists t, go_slice h s i j = Ok t).
  { unfold go_slice, s_cap. destruct (Z.leb_spec 0 i), (Z.leb_spec i j), (Z.leb_spec j (Z.of_nat (length (cells h (s_arr s)) - s_off s))); simpl; try lia. eauto. }
  destruct E as (t & E). rewrite E. destruct (slice_ok _ _ _ _ _ V E) as (Vt & Lt & _ & _ & W). specialize (W ltac:(unfold ast_len; lia)).
  set (h1 := h ++ [repeat zero_ast (Z.to_nat (j - i))]). destruct (old_valid h h1 _ t eq_refl Vt) as [Vt1 Et1].
  pose proof (elems_len _ _ Vt) as Ln. unfold ast_len in Lt.
  unfold go_append. cbn [s_arr s_off s_len]. rewrite !Nat.sub_0_r, !Nat.add_0_l, Et1, Ln.
  assert (C1 : cells h1 (length h) = repeat zero_ast (Z.to_nat (j - i))) by apply cells_new. rewrite C1, repeat_length.
  destruct (Nat.leb_spec (s_len t) (Z.to_nat (j - i))); [|lia]. do 2 eexists. split; [reflexivity|].
  assert (L1 : length h1 = S (length h)) by (unfold h1; rewrite app_length; simpl; lia).
  assert (O : overwrite (repeat zero_ast (Z.to_nat (j - i))) 0 (elems h t) = elems h t).
  { unfold overwrite. simpl. rewrite Ln, skipn_all2 by (rewrite repeat_length; lia). apply app_nil_r. }
  rewrite O. split; [|split; [|split]].
  - split; cbn [s_arr s_off s_len]; [rewrite set_array_length; lia|]. rewrite cells_set_same by lia. rewrite Ln. lia.
  - unfold elems at 1. cbn [s_arr s_off s_len]. rewrite cells_set_same by lia. simpl skipn. rewrite <- Ln, firstn_all. exact W.
  - intros u Vu. pose proof Vu as [Ua Ul]. destruct (old_valid h h1 _ u eq_refl Vu) as [[Ua1 Ul1] Eu]. split.
    + split; [rewrite set_array_length; lia|]. rewrite cells_set_other by lia. auto.
    + rewrite <- Eu. unfold elems. rewrite cells_set_other by lia. reflexivity.
  - intros u [Ua Ul] x y _ _ [C _]. simpl in C. lia.
Qed.
Lemma in_first {A} n (l : list A) a : In a (firstn n l) -> In a l.
Proof. intros I. rewrite <- (firstn_skipn n l). apply in_or_app. auto. Qed.
Lemma make_ok h len cap : 0 <= len <= cap -> exists h' t, ast_make h len cap = Ok (h', t) /\ valid h' t /\
  ast_len t = len /\ Z.of_nat (s_cap h' t) = cap /\ (forall a, In a (elems h' t) -> a = mkAst 0 "" TNil VNil (mkSP 0 0)) /\
  untouched h h' /\ forall u, valid h u -> separate t u.
Proof.
  intros H. unfold ast_make, go_make. destruct (Z.ltb_spec len 0); [lia|]. destruct (Z.ltb_spec cap len); [lia|]. unfold alloc.
  rewrite repeat_length, <- repeat_app. do 2 eexists. split; [reflexivity|].
  assert (V : valid (h ++ [repeat zero_ast (Z.to_nat len + (Z.to_nat cap - Z.to_nat len))]) (mkSlice (length h) 0 (Z.to_nat len))).
  { split; simpl; [rewrite app_length; simpl; lia|]. rewrite cells_new, repeat_length. lia. }
  split; [exact V|]. split; [unfold ast_len; simpl; lia|]. split; [unfold s_cap; simpl; rewrite cells_new, repeat_length; lia|].
  split; [|split].
  - intros a I. unfold elems in I. simpl in I. rewrite cells_new in I. eapply repeat_spec. eapply in_first. exact I.
  - intros u Vu. eapply old_valid; eauto.
  - intros u [Ua Ul] x y _ _ [C _]. simpl in C. lia.
Qed.
Lemma make_panics h len cap : (exists w, ast_make h len cap = Panic w) <-> ~ 0 <= len <= cap.
Proof.
  unfold ast_make, go_make. destruct (Z.ltb_spec len 0); [split; [lia|eauto]|]. destruct (Z.ltb_spec cap len); [split; [lia|eauto]|].
  split; [intros (w & E); discriminate E|lia].
Qed.
Lemma copy_panics g h s i j : (exists w, ast_copy g h s i j = Panic w) <-> ~ (0 <= i <= j /\ j <= Z.of_nat (s_cap h s)).
Proof.
  unfold ast_copy, go_make, go_slice. change (0 <? 0) with false. cbv iota. destruct (Z.ltb_spec (j - i) 0); [split; [lia|eauto]|].
  destruct (Z.leb_spec 0 i), (Z.leb_spec i j), (Z.leb_spec j (Z.of_nat (s_cap h s))); simpl;
    (split; [intros (w & E); try discriminate E; lia|intros; try lia; eauto]).
Qed.
