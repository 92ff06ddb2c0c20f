(** Arrays, slices, append, and heap transformers (for C13, C14). *)
From Verif Require Export L_CoreInv S_Heap.
Local Open Scope nat_scope.

Lemma skipn_twice {A} (l : list A) n m : skipn n (skipn m l) = skipn (m + n) l.
Proof. revert l. induction m as [|m IH]; intros l; cbn; auto. destruct l; auto. apply skipn_nil. Qed.

(** ** Arrays *)
Lemma set_array_length h a l : a < length h -> length (set_array h a l) = length h.
Proof.
  intros H. unfold set_array. rewrite app_length, firstn_length. cbn [length]. rewrite skipn_length. lia.
Qed.
Lemma cells_set_same h a l : a < length h -> cells (set_array h a l) a = l.
Proof.
  intros H. unfold cells, set_array. rewrite app_nth2; rewrite firstn_length; [|lia].
  replace (a - min a (length h)) with 0 by lia. reflexivity.
Qed.
Lemma cells_set_other h a l b : a < length h -> b <> a -> cells (set_array h a l) b = cells h b.
Proof.
  intros H Hb. unfold cells, set_array. destruct (Nat.lt_ge_cases b a) as [Hlt|Hge].
  - rewrite app_nth1 by (rewrite firstn_length; lia). rewrite <- (firstn_skipn a h) at 2.
    rewrite app_nth1 by (rewrite firstn_length; lia). reflexivity.
  - rewrite app_nth2; rewrite firstn_length; [|lia].
    replace (b - min a (length h)) with (S (b - S a)) by lia. cbn [nth].
    rewrite <- (firstn_skipn (S a) h) at 2. rewrite app_nth2; rewrite firstn_length; [|lia].
    f_equal. lia.
Qed.
Lemma cells_new h l : cells (h ++ [l]) (length h) = l.
Proof. unfold cells. rewrite app_nth2, Nat.sub_diag by lia. reflexivity. Qed.
Lemma cells_old h l b : b < length h -> cells (h ++ [l]) b = cells h b.
Proof. intros H. unfold cells. rewrite app_nth1 by lia. reflexivity. Qed.

Lemma overwrite_length l i new : i + length new <= length l -> length (overwrite l i new) = length l.
Proof. intros H. unfold overwrite. rewrite !app_length, firstn_length, skipn_length. lia. Qed.
Lemma overwrite_below l i new k : i + length new <= length l -> k <= i -> firstn k (overwrite l i new) = firstn k l.
Proof.
  intros H Hk. unfold overwrite. rewrite firstn_app, firstn_firstn, firstn_length.
  replace (min k i) with k by lia. replace (k - min i (length l)) with 0 by lia. rewrite firstn_O, app_nil_r. reflexivity.
Qed.
Lemma overwrite_at l i new : i <= length l -> skipn i (overwrite l i new) = new ++ skipn (i + length new) l.
Proof.
  intros H. unfold overwrite. rewrite skipn_app, firstn_length.
  rewrite (skipn_all2 (n := i)) by (rewrite firstn_length; lia). replace (i - min i (length l)) with 0 by lia. reflexivity.
Qed.
(** Overwriting right behind [n] elements that start at [o]. *)
Lemma overwrite_elems l o n new : o + n <= length l ->
  firstn (n + length new) (skipn o (overwrite l (o + n) new)) = firstn n (skipn o l) ++ new.
Proof.
  intros H. unfold overwrite. rewrite skipn_app. rewrite firstn_length.
  replace (o - min (o + n) (length l)) with 0 by lia. cbn [skipn].
  assert (E : skipn o (firstn (o + n) l) = firstn n (skipn o l)).
  { rewrite firstn_skipn_comm. reflexivity. }
  rewrite E. rewrite app_assoc.
  assert (L : length (firstn n (skipn o l) ++ new) = n + length new).
  { rewrite app_length, firstn_length, skipn_length. lia. }
  rewrite <- L. apply firstn_len_app.
Qed.

(** ** What is kept *)
Lemma kept_refl h a k : kept h h a k.
Proof. unfold kept. auto. Qed.
Lemma firstn_le {A} (l l' : list A) k m : firstn k l = firstn k l' -> m <= k -> firstn m l = firstn m l'.
Proof.
  intros E H. replace m with (min m k) by lia. rewrite <- !firstn_firstn. rewrite E. reflexivity.
Qed.
Lemma kept_le h h' a k m : kept h h' a k -> m <= k -> kept h h' a m.
Proof. intros (A & B & C & D) H. unfold kept. repeat split; auto. eapply firstn_le; eauto. Qed.
Lemma kept_trans h h1 h2 a k : kept h h1 a k -> kept h1 h2 a k -> kept h h2 a k.
Proof.
  intros (A & B & C & D) (A' & B' & C' & D'). unfold kept. split; [lia|]. split.
  { intros b Hb. rewrite B' by lia. auto. }
  split. { intros b Hb Hn. rewrite C' by (auto; lia). auto. }
  congruence.
Qed.
(** Afterwards only an array that is new is touched. *)
Lemma kept_new h h1 h2 a k b m : a < length h -> kept h h1 a k -> kept h1 h2 b m -> length h <= b -> kept h h2 a k.
Proof.
  intros Ha (A & B & C & D) (A' & B' & C' & D') Hb. unfold kept. split; [lia|]. split.
  { intros c Hc. rewrite B' by lia. auto. }
  split. { intros c Hc Hn. rewrite C' by lia. auto. }
  rewrite C' by lia. auto.
Qed.
Lemma kept_any h h' a b m : kept h h' b m -> length h <= b -> a < length h -> forall k, kept h h' a k.
Proof. intros K Hb Ha k. eapply kept_new; eauto. apply kept_refl. Qed.

Lemma kept_elems h h' a k s : kept h h' a k -> valid h s -> (s_arr s <> a \/ s_off s + s_len s <= k) ->
  elems h' s = elems h s.
Proof.
  intros (A & B & C & D) (V1 & V2) [H|H]; unfold elems.
  - rewrite C by auto. reflexivity.
  - destruct (Nat.eq_dec (s_arr s) a) as [E|E]; [|rewrite C by auto; reflexivity].
    rewrite E in *. rewrite !firstn_skipn_comm. f_equal. eapply firstn_le; eauto.
Qed.
Lemma kept_valid h h' a k s : kept h h' a k -> valid h s -> valid h' s.
Proof. intros (A & B & C & D) (V1 & V2). split; [lia|]. rewrite B by auto. auto. Qed.
Lemma kept_length h h' a k : kept h h' a k -> length h <= length h'.
Proof. intros (A & _). exact A. Qed.

Lemma valid_elems h s : valid h s -> length (elems h s) = s_len s.
Proof. intros (A & B). unfold elems. rewrite firstn_length, skipn_length. lia. Qed.
Lemma valid_upto h s k : valid h s -> k <= s_len s -> valid h (upto s k).
Proof. intros (A & B) H. split; cbn; lia. Qed.
Lemma valid_from h s k : valid h s -> k <= s_len s -> valid h (from s k).
Proof. intros (A & B) H. split; cbn; lia. Qed.
Lemma elems_upto h s k : k <= s_len s -> elems h (upto s k) = firstn k (elems h s).
Proof. intros H. unfold elems, upto. cbn. rewrite firstn_firstn. f_equal. lia. Qed.
Lemma elems_from h s k : elems h (from s k) = skipn k (elems h s).
Proof.
  unfold elems, from. cbn. rewrite skipn_firstn_comm, skipn_twice. reflexivity.
Qed.

(** ** alloc, append, assignment *)
Lemma alloc_spec h cap l h1 s1 : alloc h cap l = (h1, s1) ->
  elems h1 s1 = l /\ valid h1 s1 /\ (forall a k, a < length h -> kept h h1 a k) /\
  s_arr s1 = length h /\ s_off s1 = 0 /\ s_len s1 = length l /\
  length (cells h1 (s_arr s1)) = length l + (cap - length l) /\ length h1 = S (length h).
Proof.
  unfold alloc. intros [= <- <-]. cbn [s_arr s_off s_len].
  assert (E : cells (h ++ [l ++ repeat zero_ast (cap - length l)]) (length h) = l ++ repeat zero_ast (cap - length l)) by apply cells_new.
  split. { unfold elems. cbn [s_arr s_off s_len]. rewrite E. cbn [skipn]. apply firstn_len_app. }
  split. { split; cbn [s_arr s_off s_len]; rewrite ?app_length; cbn; [lia|]. rewrite E, app_length. lia. }
  split. { intros a k Ha. unfold kept. rewrite app_length. cbn. split; [lia|]. split.
    - intros b Hb. rewrite cells_old by auto. reflexivity.
    - split; [intros b Hb _; apply cells_old; auto|]. rewrite cells_old by auto. reflexivity. }
  rewrite E, app_length, repeat_length. repeat split. rewrite app_length. cbn. lia.
Qed.

Lemma append_spec g h s new h1 s1 : valid h s -> go_append g h s new = (h1, s1) ->
  elems h1 s1 = elems h s ++ new /\ valid h1 s1 /\ kept h h1 (s_arr s) (s_off s + s_len s) /\
  moved h s s1 /\ s_len s1 = s_len s + length new.
Proof.
  intros (V1 & V2) E. unfold go_append in E.
  destruct (Nat.leb_spec (s_len s + length new) (length (cells h (s_arr s)) - s_off s)) as [Hc|Hc].
  - injection E as <- <-. cbn [s_arr s_off s_len].
    assert (HL : s_off s + s_len s + length new <= length (cells h (s_arr s))) by lia.
    split. { unfold elems. cbn [s_arr s_off s_len]. rewrite cells_set_same by auto. apply overwrite_elems. lia. }
    split. { split; cbn [s_arr s_off s_len]; rewrite ?set_array_length, ?cells_set_same, ?overwrite_length by auto; lia. }
    split. { unfold kept. rewrite set_array_length by auto. split; [lia|]. split.
      - intros b Hb. destruct (Nat.eq_dec b (s_arr s)) as [->|Hn].
        + rewrite cells_set_same by auto. apply overwrite_length. lia.
        + rewrite cells_set_other by auto. reflexivity.
      - split; [intros b Hb Hn; apply cells_set_other; auto|]. rewrite cells_set_same by auto. apply overwrite_below; lia. }
    split; [left; auto|reflexivity].
  - destruct (alloc_spec _ _ _ _ _ E) as (E1 & E2 & E3 & E4 & E5 & E6 & E7 & E8).
    split; [exact E1|]. split; [exact E2|]. split; [apply E3; exact V1|]. split.
    + right. lia.
    + rewrite E6, app_length, valid_elems by (split; auto). reflexivity.
Qed.

(** With enough capacity the array stays the same. *)
Lemma append_fits g h s new : s_off s + s_len s + length new <= length (cells h (s_arr s)) ->
  snd (go_append g h s new) = mkSlice (s_arr s) (s_off s) (s_len s + length new).
Proof. intros H. unfold go_append. rewrite (proj2 (Nat.leb_le _ _)) by lia. reflexivity. Qed.

Definition upd_nth (l : list ast) (i : nat) (f : ast -> ast) : list ast :=
  firstn i l ++ map f (firstn 1 (skipn i l)) ++ skipn (S i) l.

Lemma update_spec h s i f h1 : valid h s -> i < s_len s -> go_update h s i f = h1 ->
  elems h1 s = upd_nth (elems h s) i f /\ valid h1 s /\ kept h h1 (s_arr s) (s_off s + i) /\ length h1 = length h /\
  length (cells h1 (s_arr s)) = length (cells h (s_arr s)).
Proof.
  intros (V1 & V2) Hi <-. unfold go_update. set (l := cells h (s_arr s)) in *.
  set (new := map f (firstn 1 (skipn (s_off s + i) l))).
  assert (Ln : length new = 1).
  { unfold new. rewrite map_length, firstn_length, skipn_length. lia. }
  assert (HL : s_off s + i + length new <= length l) by lia.
  split.
  { unfold elems. rewrite cells_set_same by auto. fold l.
    unfold overwrite. rewrite skipn_app, firstn_length. replace (s_off s - min (s_off s + i) (length l)) with 0 by lia. cbn [skipn].
    replace (skipn (s_off s) (firstn (s_off s + i) l)) with (firstn i (skipn (s_off s) l)) by (rewrite firstn_skipn_comm; reflexivity).
    rewrite firstn_app. rewrite firstn_firstn. replace (min (s_len s) i) with i by lia.
    rewrite firstn_length, skipn_length. replace (s_len s - min i (length l - s_off s)) with (s_len s - i) by lia.
    unfold upd_nth. rewrite firstn_firstn. replace (min i (s_len s)) with i by lia. f_equal.
    rewrite firstn_app, Ln. rewrite (firstn_all2 (n := s_len s - i)) by lia. f_equal.
    - unfold new. f_equal. rewrite skipn_firstn_comm, firstn_firstn, skipn_twice.
      replace (min 1 (s_len s - i)) with 1 by lia. reflexivity.
    - rewrite skipn_firstn_comm, skipn_twice. f_equal; [lia|]. f_equal. lia. }
  split. { split; rewrite ?set_array_length, ?cells_set_same, ?overwrite_length by auto; auto. }
  split. { unfold kept. rewrite set_array_length by auto. split; [lia|]. split.
    - intros b Hb. destruct (Nat.eq_dec b (s_arr s)) as [->|Hn].
      + rewrite cells_set_same by auto. apply overwrite_length. exact HL.
      + rewrite cells_set_other by auto. reflexivity.
    - split; [intros b Hb Hn; apply cells_set_other; auto|]. rewrite cells_set_same by auto. apply overwrite_below; [exact HL|lia]. }
  split; [apply set_array_length; auto|]. rewrite cells_set_same by auto. apply overwrite_length. auto.
Qed.

(** The loops that assign to elements [i .. i+k-1]. *)
Lemma split_nth (l : list ast) i : i < length l -> exists a x r, l = a ++ x :: r /\ length a = i.
Proof.
  intros H. exists (firstn i l). destruct (skipn i l) as [|x r] eqn:E.
  - assert (L : length (skipn i l) = 0) by (rewrite E; reflexivity). rewrite skipn_length in L. lia.
  - exists x, r. split; [rewrite <- E; symmetry; apply firstn_skipn|]. rewrite firstn_length. lia.
Qed.
Lemma firstn_plus {A} (a b : list A) k : firstn (length a + k) (a ++ b) = a ++ firstn k b.
Proof. rewrite firstn_app. rewrite (firstn_all2 a) by lia. f_equal. f_equal. lia. Qed.
Lemma skipn_plus {A} (a b : list A) k : skipn (length a + k) (a ++ b) = skipn k b.
Proof. rewrite skipn_app. rewrite (skipn_all2 a) by lia. cbn. f_equal. lia. Qed.
Lemma upd_nth_mid a x r f : upd_nth (a ++ x :: r) (length a) f = a ++ f x :: r.
Proof.
  unfold upd_nth. rewrite firstn_len_app. rewrite <- (Nat.add_0_r (length a)) at 1. rewrite skipn_plus.
  replace (S (length a)) with (length a + 1) by lia. rewrite skipn_plus. reflexivity.
Qed.
Lemma upd_nth_map l i k f : i + S k <= length l ->
  let l1 := upd_nth l i f in
  firstn (S i) l1 ++ map f (firstn k (skipn (S i) l1)) ++ skipn (S i + k) l1 =
  firstn i l ++ map f (firstn (S k) (skipn i l)) ++ skipn (i + S k) l /\ length l1 = length l.
Proof.
  intros H. destruct (split_nth l i ltac:(lia)) as (a & x & r & -> & <-). cbn zeta. rewrite upd_nth_mid.
  split; [|rewrite !app_length; reflexivity].
  replace (S (length a)) with (length a + 1) by lia. rewrite firstn_plus, skipn_plus.
  replace (length a + 1 + k) with (length a + S k) by lia. rewrite !skipn_plus.
  rewrite firstn_len_app. rewrite <- (Nat.add_0_r (length a)) at 1. rewrite skipn_plus.
  cbn. rewrite <- app_assoc. reflexivity.
Qed.

Lemma patch_spec f k : forall h s i, valid h s -> i + k <= s_len s ->
  let h1 := in_place f h s i k in
  elems h1 s = firstn i (elems h s) ++ map f (firstn k (skipn i (elems h s))) ++ skipn (i + k) (elems h s) /\
  valid h1 s /\ kept h h1 (s_arr s) (s_off s + i) /\ length h1 = length h.
Proof.
  induction k as [|k IH]; intros h s i V H; cbn zeta; cbn [in_place].
  - rewrite Nat.add_0_r. cbn. rewrite firstn_skipn. repeat split; auto; try apply V; apply kept_refl.
  - destruct (update_spec h s i f _ V ltac:(lia) eq_refl) as (E1 & E2 & E3 & E4 & E5).
    set (h1 := go_update h s i f) in *.
    destruct (IH h1 s (S i) E2 ltac:(lia)) as (F1 & F2 & F3 & F4).
    rewrite F1, E1. pose proof (upd_nth_map (elems h s) i k f) as U. cbn zeta in U. rewrite valid_elems in U by auto.
    destruct (U ltac:(lia)) as (U1 & U2). rewrite U1.
    split; [reflexivity|]. split; [exact F2|]. split; [|lia].
    eapply kept_trans; [exact E3|]. eapply kept_le; [exact F3|lia].
Qed.
Lemma zero_patch_in_place h s p i k : zero_patch h s p i k = in_place (fun a => set_asp a p) h s i k.
Proof. revert h i. induction k as [|k IH]; intros; cbn; auto. Qed.

(** ** Transformers *)
Lemma fresh_faithful t : faithful (h_fresh t) t.
Proof.
  intros n c h s V. unfold h_fresh. destruct (t n c (elems h s)) as [[e|l]|w|]; auto.
  - split; auto. apply kept_refl.
  - destruct (alloc h (length l) l) as [h1 s1] eqn:E. destruct (alloc_spec _ _ _ _ _ E) as (E1 & E2 & E3 & E4 & _).
    split; [exact E1|]. split; [exact E2|]. split; [apply E3, V|]. right. lia.
Qed.
Lemma erase_faithful : faithful h_erase Erase.
Proof.
  intros n c h s V. unfold h_erase, Erase, tok. split; [rewrite elems_upto by lia; reflexivity|]. split; [apply valid_upto; [auto|lia]|].
  split; [apply kept_refl|]. left. cbn. auto.
Qed.
Lemma removelast_len (l : list ast) : removelast l = firstn (length l - 1) l.
Proof. rewrite removelast_firstn_len. f_equal. lia. Qed.
Lemma pop_faithful : faithful h_pop Pop.
Proof.
  intros n c h s V. unfold h_pop, Pop, tok. destruct (Nat.ltb_spec 0 (s_len s)) as [H|H].
  - split. { rewrite elems_upto by lia. rewrite removelast_len, valid_elems by auto. reflexivity. }
    split; [apply valid_upto; [auto|lia]|]. split; [apply kept_refl|]. left. cbn. auto.
  - split. { pose proof (valid_elems h s V) as L. destruct (elems h s); [reflexivity|cbn in L; lia]. }
    split; [auto|]. split; [apply kept_refl|]. left. auto.
Qed.
Lemma roll_faithful k : faithful h_roll (Roll k).
Proof.
  intros n c h s V. unfold Roll, h_roll, tok.
  assert (H : elems h s = elems h s /\ valid h s /\ kept h h (s_arr s) (s_off s) /\
    ((s_arr s = s_arr s /\ s_off s <= s_off s) \/ length h <= s_arr s)).
  { split; [auto|]. split; [auto|]. split; [apply kept_refl|]. left. auto. }
  destruct (0 <=? k)%Z; [destruct (k <? _)%Z|destruct (- k <? _)%Z]; exact H.
Qed.
Lemma upd_first_faithful g f : faithful (h_upd_first g f) (fun _ _ l => tok (upd_first f l)).
Proof.
  intros n c h s V. unfold h_upd_first, tok.
  destruct (alloc h (s_len s) []) as [h1 w0] eqn:E. destruct (alloc_spec _ _ _ _ _ E) as (E1 & E2 & E3 & E4 & E5 & E6 & E7 & E8).
  destruct (go_append g h1 w0 (elems h1 s)) as [h2 w] eqn:A. destruct (append_spec _ _ _ _ _ _ E2 A) as (A1 & A2 & A3 & A4 & A5).
  assert (Es : elems h1 s = elems h s).
  { eapply (kept_elems h h1 (s_arr s) (s_off s + s_len s)); auto. apply E3, V. }
  assert (K : kept h h2 (s_arr s) (s_off s)).
  { eapply kept_new; [apply V|apply E3, V|exact A3|]. lia. }
  assert (N : length h <= s_arr w).
  { destruct A4 as [[A4 _]|A4]; [rewrite A4; lia|lia]. }
  rewrite E1, Es in A1. cbn [app] in A1.
  destruct (Nat.ltb_spec 0 (s_len w)) as [H|H].
  - destruct (update_spec h2 w 0 f _ A2 H eq_refl) as (U1 & U2 & U3 & U4 & U5).
    split. { rewrite U1, A1. destruct (elems h s); reflexivity. }
    split; [exact U2|]. split; [|right; exact N].
    eapply kept_new; [apply V|exact K|exact U3|exact N].
  - split. { rewrite A1. pose proof (valid_elems h2 w A2) as L. rewrite A1 in L. destruct (elems h s); [reflexivity|cbn in L; lia]. }
    split; [exact A2|]. split; [exact K|right; exact N].
Qed.
Lemma set_class_faithful g name : faithful (h_upd_first g (fun a => mkAst (a_op a) name (a_ty a) (a_val a) (a_sp a))) (ChangeClassName name).
Proof. apply upd_first_faithful. Qed.
Lemma set_op_faithful g op : faithful (h_upd_first g (fun a => mkAst op (a_cls a) (a_ty a) (a_val a) (a_sp a))) (SetOpCode op).
Proof. apply upd_first_faithful. Qed.
Lemma set_op_class_faithful g op name : faithful (h_upd_first g (fun a => mkAst op name (a_ty a) (a_val a) (a_sp a))) (SetOpCodeAndClassName op name).
Proof. apply upd_first_faithful. Qed.
Lemma set_value_faithful g ty v : faithful (h_upd_first g (fun a => mkAst (a_op a) (a_cls a) ty v (a_sp a))) (SetValue ty v).
Proof. apply upd_first_faithful. Qed.

Lemma push_faithful g a : faithful (h_push g a) (Push a).
Proof.
  intros n c h s V. unfold h_push, Push, push_step, tok. cbn [snd].
  match goal with |- context [go_append g _ _ [?x]] => set (a1 := x) end.
  destruct (alloc h (s_len s + 1) []) as [h1 w0] eqn:E. destruct (alloc_spec _ _ _ _ _ E) as (E1 & E2 & E3 & E4 & E5 & E6 & E7 & E8).
  destruct (go_append g h1 w0 (elems h1 s)) as [h2 w1] eqn:A. destruct (append_spec _ _ _ _ _ _ E2 A) as (A1 & A2 & A3 & A4 & A5).
  destruct (go_append g h2 w1 [a1]) as [h3 w2] eqn:B. destruct (append_spec _ _ _ _ _ _ A2 B) as (B1 & B2 & B3 & B4 & B5).
  assert (Es : elems h1 s = elems h s).
  { eapply (kept_elems h h1 (s_arr s) (s_off s + s_len s)); auto. apply E3, V. }
  assert (N1 : length h <= s_arr w1) by (destruct A4 as [[A4 _]|A4]; lia).
  pose proof (kept_length _ _ _ _ A3) as L2.
  assert (N2 : length h <= s_arr w2) by (destruct B4 as [[B4 _]|B4]; lia).
  split. { rewrite B1, A1, E1, Es. unfold a1. destruct (elems h s); reflexivity. }
  split; [exact B2|]. split; [|right; exact N2].
  eapply kept_new; [apply V| |exact B3|exact N1].
  eapply kept_new; [apply V|apply E3, V|exact A3|lia].
Qed.

Lemma prepend_faithful g a : faithful (h_prepend g a) (Prepend a).
Proof.
  intros n c h s V. unfold h_prepend, Prepend, prepend_step, tok. cbn [snd].
  set (a1 := match elems h s with [] => a | b :: _ => set_asp a (a_sp b) end).
  destruct (alloc h (s_len s + 1) [zero_ast]) as [h1 w0] eqn:E. destruct (alloc_spec _ _ _ _ _ E) as (E1 & E2 & E3 & E4 & E5 & E6 & E7 & E8).
  cbn [length] in E6.
  destruct (update_spec h1 w0 0 (fun _ => a1) _ E2 ltac:(lia) eq_refl) as (U1 & U2 & U3 & U4 & U5).
  set (h2 := go_update h1 w0 0 (fun _ => a1)) in *.
  destruct (go_append g h2 w0 (elems h2 s)) as [h3 w1] eqn:A. destruct (append_spec _ _ _ _ _ _ U2 A) as (A1 & A2 & A3 & A4 & A5).
  assert (K2 : forall k, kept h h2 (s_arr s) k).
  { intros k. eapply kept_new; [apply V|apply E3, V|exact U3|lia]. }
  assert (Es : elems h2 s = elems h s).
  { eapply (kept_elems h h2 (s_arr s) (s_off s + s_len s)); auto. }
  split. { rewrite A1, U1, E1, Es. unfold a1. cbn. destruct (elems h s); reflexivity. }
  split; [exact A2|]. split.
  - eapply kept_new; [apply V|apply K2|exact A3|lia].
  - right. destruct A4 as [[A4 _]|A4]; lia.
Qed.

Lemma in_place_faithful f : faithful (h_in_place f) (fun _ _ l => tok (map f l)).
Proof.
  intros n c h s V. unfold h_in_place, tok.
  destruct (patch_spec f (s_len s) h s 0 V ltac:(lia)) as (E1 & E2 & E3 & E4).
  split. { rewrite E1. cbn. rewrite firstn_all2 by (rewrite valid_elems by auto; lia).
    rewrite skipn_all2 by (rewrite valid_elems by auto; lia). apply app_nil_r. }
  split; [exact E2|]. split; [rewrite Nat.add_0_r in E3; exact E3|]. left. auto.
Qed.

(** A list of transformers. *)
Lemma trans_faithful hts ts : Forall2 faithful hts ts ->
  faithful (fun n c h s => h_run_trans n c hts h s) (fun n c l => run_trans n c ts l).
Proof.
  induction 1 as [|ht t hts ts Ht _ IH]; intros n c h s V; cbn [h_run_trans run_trans].
  - split; [auto|]. split; [auto|]. split; [apply kept_refl|]. left. auto.
  - specialize (Ht n c h s V). destruct (ht n c h s) as [[h1 [e'|s1]]|w'|], (t n c (elems h s)) as [[e|l]|w|]; try contradiction; auto.
    destruct Ht as (E1 & E2 & E3 & E4). specialize (IH n c h1 s1 E2). rewrite E1 in IH.
    assert (K : forall h2 k, kept h1 h2 (s_arr s1) (s_off s1) -> k <= s_off s -> kept h h2 (s_arr s) k).
    { intros h2 k K Hk. destruct E4 as [[Ea Eo]|Ef].
      - rewrite Ea in K. eapply kept_trans; eapply kept_le; eauto. lia.
      - eapply kept_new; [apply V|eapply kept_le; eauto|exact K|exact Ef]. }
    destruct (h_run_trans n c hts h1 s1) as [[h2 [e'|s2]]|w'|], (run_trans n c ts l) as [[e|l']|w|]; try contradiction; auto.
    + destruct IH as (-> & IH). split; auto.
    + destruct IH as (I1 & I2 & I3 & I4). split; [exact I1|]. split; [exact I2|]. split; [apply K; auto|].
      pose proof (kept_length _ _ _ _ E3) as L.
      destruct I4 as [[Ia Io]|If]; [|right; lia].
      destruct E4 as [[Ea Eo]|Ef]; [left; split; [congruence|lia]|right; lia].
Qed.
