(** Lemmas for the exact theorems about Marshal and Unmarshal (C45). *)
From Verif Require Import S_MarshalX L_Trans L_NumErr L_Marshal.

(** ** Maps filled by loops *)
Lemma get_set {A} (m : gmap A) k v k' : map_get (map_set m k v) k' = if bytes_eqb k k' then Some v else map_get m k'.
Proof.
  unfold map_set. cbn [map_get]. destruct (bytes_eqb k k') eqn:E; [reflexivity|]. induction m as [|[x y] m IH]; [reflexivity|]. cbn [filter fst map_get].
  destruct (bytes_eqb x k) eqn:Ex; cbn [negb].
  - rewrite IH. apply bytes_eqb_eq in Ex. subst x. rewrite E. reflexivity.
  - cbn [map_get]. rewrite IH. reflexivity.
Qed.
Lemma get_snoc {A} (l : list (bytes * A)) k v k' : map_get (map_of (l ++ [(k, v)])) k' = if bytes_eqb k k' then Some v else map_get (map_of l) k'.
Proof. unfold map_of. rewrite fold_left_app. cbn [fold_left fst snd]. apply get_set. Qed.
Lemma keys_of {A} (l : list (bytes * A)) : NoDup (map fst (map_of l)).
Proof.
  unfold map_of. assert (G : forall acc, NoDup (map fst acc) -> NoDup (map fst (fold_left (fun m p => map_set m (fst p) (snd p)) l acc))).
  { induction l as [|[k v] l IH]; intros acc N; [exact N|]. cbn [fold_left fst snd]. apply IH. unfold map_set. cbn [map fst]. constructor.
    - intros I. apply in_map_iff in I. destruct I as ([x y] & E & I). cbn in E. subst x. apply filter_In in I. destruct I as [_ I]. cbn in I.
      replace (bytes_eqb k k) with true in I by (symmetry; apply bytes_eqb_eq; reflexivity). discriminate.
    - clear IH. induction acc as [|[x y] acc IH]; [constructor|]. inversion N; subst. cbn [filter fst]. destruct (negb (bytes_eqb x k)); [|auto]. cbn. constructor; auto.
      intros I. apply in_map_iff in I. destruct I as ([a b] & E & I). cbn in E. subst a. apply filter_In in I. destruct I as [I _]. match goal with H : ~ In x _ |- _ => apply H end. apply (in_map fst) in I. exact I. }
  apply G. constructor.
Qed.
Lemma in_map_of {A} (l : list (bytes * A)) k v : In (k, v) (map_of l) <-> map_get (map_of l) k = Some v.
Proof. symmetry. apply map_get_in. apply keys_of. Qed.
Lemma last_snoc (l : list bytes) x c j : last_at (l ++ [x]) c j <-> (x = c /\ j = length l) \/ (x <> c /\ last_at l c j).
Proof.
  unfold last_at. split.
  - intros [H N]. destruct (Nat.eq_dec j (length l)) as [->|Nj].
    + rewrite nth_error_app2, Nat.sub_diag in H by lia. injection H as ->. auto.
    + right. assert (Lt : (j < length l)%nat). { assert (nth_error (l ++ [x]) j <> None) as K by congruence. apply nth_error_Some in K. rewrite app_length in K. cbn in K. lia. }
      rewrite nth_error_app1 in H by lia. split.
      * intros ->. apply (N (length l) Lt). rewrite nth_error_app2, Nat.sub_diag by lia. reflexivity.
      * split; [exact H|]. intros k Hk E. apply (N k Hk). rewrite nth_error_app1; [exact E|]. apply nth_error_Some. congruence.
  - intros [[-> ->]|[Nx [H N]]].
    + split; [rewrite nth_error_app2, Nat.sub_diag by lia; reflexivity|]. intros k Hk E. assert (nth_error (l ++ [c]) k <> None) as K by congruence. apply nth_error_Some in K. rewrite app_length in K. cbn in K. lia.
    + assert (Lt : (j < length l)%nat) by (apply nth_error_Some; congruence). split; [rewrite nth_error_app1 by lia; exact H|].
      intros k Hk E. destruct (Nat.lt_ge_cases k (length l)) as [L|L]; [rewrite nth_error_app1 in E by lia; exact (N k Hk E)|].
      rewrite nth_error_app2 in E by lia. destruct (k - length l)%nat as [|[|]]; cbn in E; congruence.
Qed.
Lemma combine_snoc {A B} (l : list A) (x : A) (y : B) : forall s, length l = length s -> combine (l ++ [x]) (s ++ [y]) = combine l s ++ [(x, y)].
Proof. induction l as [|a l IH]; intros [|b s] L; try discriminate; cbn; [reflexivity|]. f_equal. apply IH. cbn in L. lia. Qed.
Lemma columns_snoc l x : columns_of (l ++ [x]) = map_set (columns_of l) x (length l).
Proof.
  unfold columns_of, map_of. rewrite app_length. cbn [length]. rewrite Nat.add_1_r, seq_S, Nat.add_0_l.
  assert (E : combine (l ++ [x]) (seq 0 (length l) ++ [length l]) = combine l (seq 0 (length l)) ++ [(x, length l)]).
  { apply combine_snoc. rewrite seq_length. reflexivity. }
  rewrite E, fold_left_app. reflexivity.
Qed.
Lemma columns_last l c : forall j, map_get (columns_of l) c = Some j <-> last_at l c j.
Proof.
  induction l as [|x l IH] using rev_ind; intros j.
  - unfold last_at. split; [discriminate|]. intros [H _]. destruct j; discriminate.
  - rewrite columns_snoc, get_set, last_snoc. destruct (bytes_eqb x c) eqn:E.
    + apply bytes_eqb_eq in E. subst x. split; [intros H; injection H as <-; auto|intros [[_ ->]|[N _]]; congruence].
    + rewrite IH. assert (x <> c) by (intros ->; rewrite (proj2 (bytes_eqb_eq c c) eq_refl) in E; discriminate). tauto.
Qed.
Lemma columns_absent l c : map_get (columns_of l) c = None <-> ~ In c l.
Proof.
  induction l as [|x l IH] using rev_ind; [split; [intros _ []|reflexivity]|]. rewrite columns_snoc, get_set, in_app_iff. cbn [In]. destruct (bytes_eqb x c) eqn:E.
  - apply bytes_eqb_eq in E. subst x. split; [discriminate|]. intros N. elim N. auto.
  - rewrite IH. assert (x <> c) by (intros ->; rewrite (proj2 (bytes_eqb_eq c c) eq_refl) in E; discriminate). tauto.
Qed.
Lemma last_exists l c : In c l -> exists j, last_at l c j.
Proof. intros I. destruct (map_get (columns_of l) c) as [j|] eqn:E; [exists j; apply columns_last; exact E|]. apply columns_absent in E. contradiction. Qed.
Lemma last_func l c j j' : last_at l c j -> last_at l c j' -> j = j'.
Proof. rewrite <- !columns_last. congruence. Qed.

(** ** Marshal *)
Definition target (cols : list bytes) (f : field) : nat := match map_get (columns_of cols) (column_name f) with Some j => j | None => 0%nat end.
Lemma aims_iff cols f j : aims cols f j <-> j = target cols f.
Proof.
  unfold aims, target. split.
  - intros (c & O & H). apply own_iff in O. subst c. destruct H as [H|[N ->]].
    + apply columns_last in H. rewrite H. reflexivity.
    + apply columns_absent in N. rewrite N. reflexivity.
  - intros ->. exists (column_name f). split; [apply own_iff; reflexivity|]. destruct (map_get (columns_of cols) (column_name f)) as [j|] eqn:E.
    + left. apply columns_last. exact E.
    + right. apply columns_absent in E. auto.
Qed.
Section Row.
Variables (ff : spec_float -> bytes) (cols : list bytes) (fields : list field) (vals : list gval).
Hypothesis Nn : NoDup (names fields).
Hypothesis Fit : Forall2 (fun f v => fits (fd_kind f) v) fields vals.
Definition visits (visit : list nat) (todo : list (bytes * bytes)) : Prop := Forall2 (fun i e => exists f, nth_error fields i = Some f /\ e = entry f) visit todo.
Lemma fill_visit visit todo : visits visit todo -> (cols <> [] \/ forall f, In f fields -> ~ written f) -> forall buf, length buf = length cols ->
  exists cells, fill_row ff (columns_of cols) (types fields) fields vals todo buf = Ok cells /\ length cells = length cols /\
  forall j cell, nth_error cells j = Some cell ->
  (exists before i after f v, visit = before ++ i :: after /\ nth_error fields i = Some f /\ nth_error vals i = Some v /\
     written f /\ aims cols f j /\ field_text ff v cell /\
     forall i' f', In i' after -> nth_error fields i' = Some f' -> written f' -> ~ aims cols f' j) \/
  (nth_error buf j = Some cell /\ forall i f, In i visit -> nth_error fields i = Some f -> written f -> ~ aims cols f j).
Proof.
  intros V C. induction V as [|i e visit todo (f & Hf & ->) _ IH]; intros buf L.
  - exists buf. split; [reflexivity|]. split; [exact L|]. intros j cell H. right. split; [exact H|]. intros i f [].
  - unfold entry. cbn [fill_row]. destruct (vals_at fields vals Fit i f Hf) as (x & Hx & Hfit).
    rewrite (type_of fields Nn i f Hf), (by_name fields vals i f x Nn Hf Hx). change (match map_get (columns_of cols) (column_name f) with Some i0 => i0 | None => 0%nat end) with (target cols f).
    destruct (kind_dec f) as [W|W].
    + destruct (render_ok ff f x Hfit W) as (t & -> & T).
      assert (Lt : (target cols f < length buf)%nat).
      { rewrite L. unfold target. destruct (map_get (columns_of cols) (column_name f)) eqn:E; [eapply columns_lt; eauto|]. destruct C as [C|C]; [destruct cols; [congruence|simpl; lia]|].
        elim (C f (nth_error_In _ _ Hf) W). }
      apply Nat.ltb_lt in Lt as Lt'. rewrite Lt'. destruct (IH (upd buf (target cols f) t)) as (cells & E & Lc & H); [rewrite upd_length; auto|]. exists cells. split; [exact E|]. split; [exact Lc|].
      intros j cell Hc. destruct (H j cell Hc) as [(b & i' & a & f' & v' & -> & R)|[Hb Hn]].
      * left. exists (i :: b), i', a, f', v'. split; [reflexivity|exact R].
      * destruct (Nat.eq_dec j (target cols f)) as [->|Nj].
        { left. exists [], i, visit, f, x. rewrite upd_same in Hb by exact Lt. injection Hb as <-. repeat split; auto. apply aims_iff. reflexivity. }
        { right. rewrite upd_other in Hb by auto. split; [exact Hb|]. intros i' f' [<-|I] Hf' W' A; [|eapply Hn; eauto]. apply aims_iff in A. congruence. }
    + assert (R : render ff (fd_kind f) x = Ok None). { unfold written in W. destruct (fd_kind f); try (exfalso; apply W; discriminate). reflexivity. }
      rewrite R. destruct (IH buf L) as (cells & E & Lc & H). exists cells. split; [exact E|]. split; [exact Lc|].
      intros j cell Hc. destruct (H j cell Hc) as [(b & i' & a & f' & v' & -> & R')|[Hb Hn]].
      * left. exists (i :: b), i', a, f', v'. split; [reflexivity|exact R'].
      * right. split; [exact Hb|]. intros i' f' [<-|I] Hf' W'; [|eapply Hn; eauto]. exfalso. apply W. congruence.
Qed.
Lemma row_visit visit todo : visits visit todo -> (cols <> [] \/ forall f, In f fields -> ~ written f) ->
  exists cells, fill_row ff (columns_of cols) (types fields) fields vals todo (repeat [] (length cols)) = Ok cells /\ row_by ff cols fields visit vals cells.
Proof.
  intros V C. destruct (fill_visit visit todo V C (repeat [] (length cols))) as (cells & E & L & H); [apply repeat_length|]. exists cells. split; [exact E|]. split; [exact L|].
  intros j cell Hc. destruct (H j cell Hc) as [K|[K N]]; [left; exact K|]. right. split; [|exact N]. apply nth_error_In, repeat_spec in K. exact K.
Qed.
Lemma fill_empty visit todo : visits visit todo -> cols = [] -> (exists i f, In i visit /\ nth_error fields i = Some f /\ written f) ->
  fill_row ff (columns_of cols) (types fields) fields vals todo [] = Panic "index out of range".
Proof.
  intros V C. induction V as [|i e visit todo (f & Hf & ->) _ IH]; intros (i' & f' & I & Hf' & W'); [destruct I|].
  unfold entry. cbn [fill_row]. destruct (vals_at fields vals Fit i f Hf) as (x & Hx & Hfit).
  rewrite (type_of fields Nn i f Hf), (by_name fields vals i f x Nn Hf Hx). destruct (kind_dec f) as [W|W].
  - destruct (render_ok ff f x Hfit W) as (t & -> & T). reflexivity.
  - assert (R : render ff (fd_kind f) x = Ok None). { unfold written in W. destruct (fd_kind f); try (exfalso; apply W; discriminate). reflexivity. }
    rewrite R. apply IH. destruct I as [->|I]; [exfalso; apply W; congruence|eauto].
Qed.
End Row.
Lemma row_by_func ff cols fields visit vals row row' : row_by ff cols fields visit vals row -> row_by ff cols fields visit vals row' -> row = row'.
Proof.
  intros [L H] [L' H']. apply nth_ext_error. intros j. destruct (nth_error row j) as [c|] eqn:E.
  2:{ symmetry. apply nth_error_None. apply nth_error_None in E. lia. }
  destruct (nth_error row' j) as [c'|] eqn:E'; [|apply nth_error_None in E'; assert (nth_error row j <> None) as K by congruence; apply nth_error_Some in K; lia]. f_equal.
  destruct (H j c E) as [(b & i & a & f & v & Ev & Hf & Hv & W & A & T & N)|[-> N]]; destruct (H' j c' E') as [(b' & i' & a' & f' & v' & Ev' & Hf' & Hv' & W' & A' & T' & N')|[-> N']].
  - assert (X : length b = length b').
    { destruct (Nat.lt_trichotomy (length b) (length b')) as [X|[X|X]]; [|exact X|]; exfalso.
      - assert (In i' a). { rewrite Ev in Ev'. assert (K : nth_error (b ++ i :: a) (length b') = Some i') by (rewrite Ev', nth_error_app2, Nat.sub_diag by lia; reflexivity).
          rewrite nth_error_app2 in K by lia. destruct (length b' - length b)%nat eqn:Q; [lia|]. cbn in K. eapply nth_error_In; eauto. }
        eapply N; eauto.
      - assert (In i a'). { rewrite Ev in Ev'. assert (K : nth_error (b' ++ i' :: a') (length b) = Some i) by (rewrite <- Ev', nth_error_app2, Nat.sub_diag by lia; reflexivity).
          rewrite nth_error_app2 in K by lia. destruct (length b - length b')%nat eqn:Q; [lia|]. cbn in K. eapply nth_error_In; eauto. }
        eapply N'; eauto. }
    rewrite Ev in Ev'. assert (i = i'). { assert (K : nth_error (b ++ i :: a) (length b) = nth_error (b' ++ i' :: a') (length b)) by congruence. rewrite X in K at 2. rewrite !nth_error_app2, !Nat.sub_diag in K by lia. cbn in K. congruence. }
    subst i'. assert (v' = v) by congruence. subst v'. eapply field_text_det; eauto.
  - exfalso. eapply (N' i); eauto. rewrite Ev. apply in_elt.
  - exfalso. eapply (N i'); eauto. rewrite Ev'. apply in_elt.
  - reflexivity.
Qed.
Lemma visit_of fields todo : Permutation (map entry fields) todo -> exists visit, an_order fields visit /\ visits fields visit todo.
Proof.
  intros P. set (d := mkFd [] [] KOther false). assert (E : map entry fields = map (fun i => entry (nth i fields d)) (seq 0 (length fields))).
  { rewrite <- (map_map (fun i => nth i fields d) entry). f_equal. clear. induction fields as [|f fields IH]; [reflexivity|]. cbn [length seq map nth]. f_equal. rewrite <- seq_shift, map_map. exact IH. }
  rewrite E in P. apply Permutation_sym in P. apply Permutation_map_inv in P. destruct P as (visit & -> & P). exists visit. split; [exact P|].
  assert (B : Forall (fun i => (i < length fields)%nat) visit). { apply Forall_forall. intros i I. apply (Permutation_in _ (Permutation_sym P)) in I. apply in_seq in I. lia. }
  clear P E. induction B as [|i visit Hi _ IH]; [constructor|]. cbn. constructor; [|exact IH]. exists (nth i fields d). split; [apply nth_error_nth'; exact Hi|reflexivity].
Qed.
Lemma todo_of fields visit : an_order fields visit -> exists todo, Permutation (map entry fields) todo /\ visits fields visit todo.
Proof.
  intros P. set (d := mkFd [] [] KOther false). exists (map (fun i => entry (nth i fields d)) visit). split.
  - assert (E : map entry fields = map (fun i => entry (nth i fields d)) (seq 0 (length fields))).
    { rewrite <- (map_map (fun i => nth i fields d) entry). f_equal. clear. induction fields as [|f fields IH]; [reflexivity|]. cbn [length seq map nth]. f_equal. rewrite <- seq_shift, map_map. exact IH. }
    rewrite E. apply Permutation_map. exact P.
  - assert (B : Forall (fun i => (i < length fields)%nat) visit). { apply Forall_forall. intros i I. apply (Permutation_in _ (Permutation_sym P)) in I. apply in_seq in I. lia. }
    clear P. induction B as [|i visit Hi _ IH]; [constructor|]. cbn. constructor; [|exact IH]. exists (nth i fields d). split; [apply nth_error_nth'; exact Hi|reflexivity].
Qed.
Definition pairs_dec : forall x y : bytes * bytes, {x = y} + {x <> y}.
Proof. decide equality; apply (list_eq_dec Z.eq_dec). Defined.
Lemma rev_entry fields : NoDup (names fields) -> map_of (map (fun f => (fd_name f, column_name f)) fields) = rev (map entry fields).
Proof. intros N. rewrite map_of_rev by (rewrite map_map; exact N). reflexivity. Qed.
Section M.
Variable ff : spec_float -> bytes.
Lemma marshal_visits order cols fields rows vs : NoDup (names fields) -> (cols <> [] \/ forall f, In f fields -> ~ written f) ->
  Forall (Forall2 (fun f v => fits (fd_kind f) v) fields) rows -> length vs = length rows ->
  (forall i visit, nth_error vs i = Some visit -> visits fields visit (order i (map_of (map (fun f => (fd_name f, column_name f)) fields)))) ->
  exists cells, Marshal ff order cols fields rows = Ok (ToCsv cells) /\ Forall2 (fun vv row => row_by ff cols fields (snd vv) (fst vv) row) (combine rows vs) cells.
Proof.
  intros Nn C Fit L V. unfold Marshal. set (mp := map_of _) in *. fold (types fields).
  assert (G : forall i vs, length vs = length rows -> (forall k visit, nth_error vs k = Some visit -> visits fields visit (order (i + k)%nat mp)) ->
    exists cells, marshal_rows ff order (columns_of cols) mp (types fields) (length cols) fields i rows = Ok cells /\
    Forall2 (fun vv row => row_by ff cols fields (snd vv) (fst vv) row) (combine rows vs) cells).
  { clear vs L V. induction Fit as [|vals rows Hv _ IH]; intros i vs L V; [exists []; split; [reflexivity|constructor]|]. cbn [marshal_rows]. destruct vs as [|visit vs]; [discriminate|].
    assert (V0 := V 0%nat visit eq_refl). rewrite Nat.add_0_r in V0.
    destruct (row_visit ff cols fields vals Nn Hv visit _ V0 C) as (cells & E & H). match goal with |- context [fill_row ?a ?b ?c ?d ?e ?f ?g] => replace (fill_row a b c d e f g) with (Ok cells) by (symmetry; exact E) end.
    destruct (IH (S i) vs) as (rest & -> & Hr); [cbn in L; lia|intros k v Hk; specialize (V (S k) v Hk); rewrite Nat.add_succ_r in V; exact V|].
    exists (cells :: rest). split; [reflexivity|constructor; auto]. }
  destruct (G 0%nat vs L V) as (cells & -> & H). eauto.
Qed.
Lemma orders_of fields order n : any_order order -> NoDup (names fields) -> exists vs, length vs = n /\
  forall i visit, nth_error vs i = Some visit -> an_order fields visit /\ visits fields visit (order i (map_of (map (fun f => (fd_name f, column_name f)) fields))).
Proof.
  intros O Nn. induction n as [|n (vs & L & IH)]; [exists []; split; [reflexivity|intros [|i] visit H; discriminate]|].
  destruct (visit_of fields _ (mapping_perm order n fields O Nn)) as (v & A & V). exists (vs ++ [v]). split; [rewrite app_length; cbn; lia|].
  intros i visit H. destruct (Nat.lt_ge_cases i n) as [Li|Li]; [rewrite nth_error_app1 in H by lia; auto|]. rewrite nth_error_app2 in H by lia. rewrite L in H.
  destruct (i - n)%nat as [|k] eqn:E; [|destruct k; discriminate]. cbn in H. injection H as <-. replace i with n by lia. auto.
Qed.
Lemma order_for fields vs : NoDup (names fields) -> Forall (an_order fields) vs -> exists order, any_order order /\
  forall i visit, nth_error vs i = Some visit -> visits fields visit (order i (map_of (map (fun f => (fd_name f, column_name f)) fields))).
Proof.
  intros Nn A. assert (T : exists ts, length ts = length vs /\ forall i visit todo, nth_error vs i = Some visit -> nth_error ts i = Some todo -> Permutation (map entry fields) todo /\ visits fields visit todo).
  { induction A as [|v vs Hv _ (ts & L & IH)]; [exists []; split; [reflexivity|intros [|i] ? ? H; discriminate]|]. destruct (todo_of fields v Hv) as (t & P & V). exists (t :: ts). split; [cbn; congruence|].
    intros [|i] visit todo H1 H2; cbn in H1, H2; [injection H1 as <-; injection H2 as <-; auto|eapply IH; eauto]. }
  destruct T as (ts & L & T). set (mp := map_of _).
  exists (fun i m => if list_eq_dec pairs_dec m mp then match nth_error ts i with Some t => t | None => m end else m). split.
  - intros i m. destruct (list_eq_dec pairs_dec m mp) as [->|]; [|reflexivity]. destruct (nth_error ts i) as [t|] eqn:E; [|reflexivity].
    destruct (nth_error vs i) as [v|] eqn:Ev; [|apply nth_error_None in Ev; assert (nth_error ts i <> None) as K by congruence; apply nth_error_Some in K; lia].
    destruct (T i v t Ev E) as [P _]. unfold mp. rewrite rev_entry by exact Nn. eapply Permutation_trans; [apply Permutation_sym, Permutation_rev|exact P].
  - intros i visit H. destruct (list_eq_dec pairs_dec mp mp) as [_|N]; [|congruence].
    destruct (nth_error ts i) as [t|] eqn:E; [eapply T; eauto|]. apply nth_error_None in E. assert (nth_error vs i <> None) as K by congruence. apply nth_error_Some in K. lia.
Qed.
End M.

(** ** Unmarshal *)
Lemma same_rest z r m : 0 < m -> (z - r) mod m = 0 -> 0 <= r < m -> z mod m = r.
Proof. intros Hm H Hr. apply Z.mod_divide in H; [|lia]. destruct H as [q H]. symmetry. apply (Z.mod_unique _ _ q); lia. Qed.
Lemma wrap_iff bits z r : 1 <= bits -> (wrap_int bits z = r <-> (z - r) mod 2 ^ bits = 0 /\ - 2 ^ (bits - 1) <= r < 2 ^ (bits - 1)).
Proof.
  intros Hb. unfold wrap_int. assert (E : 2 ^ bits = 2 * 2 ^ (bits - 1)) by (rewrite <- Z.pow_succ_r by lia; f_equal; lia). assert (P : 0 < 2 ^ (bits - 1)) by (apply Z.pow_pos_nonneg; lia).
  rewrite E. generalize dependent (2 ^ (bits - 1)). intros h _ P. cbv zeta. pose proof (Z.mod_pos_bound z (2 * h) ltac:(lia)) as B. pose proof (Z.div_mod z (2 * h) ltac:(lia)) as D. split.
  - destruct (Z.ltb_spec (z mod (2 * h)) h); intros <-; (split; [|lia]); apply Z.mod_divide; try lia; [exists (z / (2 * h))|exists (z / (2 * h) + 1)]; lia.
  - intros [M R]. destruct (Z.ltb_spec r 0).
    + assert (X : z mod (2 * h) = r + 2 * h). { apply same_rest; [lia| |lia]. apply Z.mod_divide in M; [|lia]. destruct M as [q M]. apply Z.mod_divide; [lia|]. exists (q - 1). lia. }
      rewrite X. destruct (Z.ltb_spec (r + 2 * h) h); lia.
    + assert (X : z mod (2 * h) = r) by (apply same_rest; auto; lia). rewrite X. destruct (Z.ltb_spec r h); lia.
Qed.
Section U.
Variables (pf : bytes -> numerr + spec_float) (narrow : spec_float -> spec_float).
Lemma load_spec f w : sized f ->
  (exists v, stores pf narrow (fd_kind f) w v /\ (forall v', stores pf narrow (fd_kind f) w v' -> v' = v) /\ (forall e, ~ refuses pf (fd_kind f) w e) /\ written f /\
     load_cell pf narrow f w = if fd_exported f then Ok (inr (Some v)) else Panic "reflect: using value obtained using unexported field") \/
  (exists e, refuses pf (fd_kind f) w e /\ (forall e', refuses pf (fd_kind f) w e' -> e' = e) /\ (forall v, ~ stores pf narrow (fd_kind f) w v) /\ written f /\ load_cell pf narrow f w = Ok (inl e)) \/
  (~ written f /\ (forall e, ~ refuses pf (fd_kind f) w e) /\ (forall v, ~ stores pf narrow (fd_kind f) w v) /\ load_cell pf narrow f w = Ok (inr None)).
Proof.
  unfold sized, load_cell, written. destruct (fd_kind f) as [|bits|bits|bits|]; intros Sz.
  - left. eexists. split; [constructor|]. split; [intros v' H; inversion H; reflexivity|]. split; [intros e H; inversion H|]. split; [discriminate|reflexivity].
  - destruct (parse_int w 10) as [e|z] eqn:P.
    + right. left. exists (ENum "ParseInt" w (is_range e)). apply parse_int_error in P as F; [|lia]. split; [constructor; exact F|]. split.
      { intros e' H. inversion H as [? ? r F'| |]; subst. apply fault_int in F'; [|lia]. destruct F' as (e2 & P2 & <-). congruence. }
      split; [|split; [discriminate|destruct e; reflexivity]]. intros v H. inversion H as [|? ? z r N I M R| |]; subst. assert (K : parse_int w 10 = inr z) by (apply parse_int_ok; [lia|auto]). congruence.
    + left. exists (GInt (wrap_int bits z)). apply parse_int_ok in P as Q; [|lia]. destruct Q as [N I]. destruct (proj1 (wrap_iff bits z _ (proj1 Sz)) eq_refl) as [M R].
      split; [econstructor; eauto|]. split.
      { intros v H. inversion H as [|? ? z' r N' I' M' R'| |]; subst. assert (K : parse_int w 10 = inr z') by (apply parse_int_ok; [lia|auto]). assert (z' = z) by congruence. subst z'. f_equal. symmetry. apply wrap_iff; [lia|auto]. }
      split; [|split; [discriminate|reflexivity]]. intros e H. inversion H as [? ? r F'| |]; subst. apply fault_int in F'; [|lia]. destruct F' as (e2 & P2 & _). congruence.
  - destruct (parse_uint w 10) as [e|z] eqn:P.
    + right. left. exists (ENum "ParseUint" w (is_range e)). apply parse_uint_error in P as F; [|lia]. split; [constructor; exact F|]. split.
      { intros e' H. inversion H as [|? ? r F'|]; subst. apply fault_uint in F'; [|lia]. destruct F' as (e2 & P2 & <-). congruence. }
      split; [|split; [discriminate|destruct e; reflexivity]]. intros v H. inversion H as [| |? ? z r N I M R|]; subst. assert (K : parse_uint w 10 = inr z) by (apply parse_uint_ok; [lia|auto]). congruence.
    + left. exists (GUint (z mod 2 ^ bits)). apply parse_uint_ok in P as Q; [|lia]. destruct Q as [N I]. assert (Hp : 0 < 2 ^ bits) by (apply Z.pow_pos_nonneg; lia).
      split. { econstructor; eauto; [|apply Z.mod_pos_bound; lia]. apply Z.mod_divide; [lia|]. exists (z / 2 ^ bits). pose proof (Z.div_mod z (2 ^ bits)). lia. }
      split.
      { intros v H. inversion H as [| |? ? z' r N' I' M' R'|]; subst. assert (K : parse_uint w 10 = inr z') by (apply parse_uint_ok; [lia|auto]). assert (z' = z) by congruence. subst z'. f_equal. symmetry. apply same_rest; auto. }
      split; [|split; [discriminate|reflexivity]]. intros e H. inversion H as [|? ? r F'|]; subst. apply fault_uint in F'; [|lia]. destruct F' as (e2 & P2 & _). congruence.
  - destruct (pf w) as [e|x] eqn:P.
    + right. left. eexists. split; [apply rf_float; exact P|]. split; [|split; [intros v H; inversion H; congruence|split; [discriminate|reflexivity]]].
      intros e' H. inversion H as [| |? ? e2 P2]; subst. assert (e2 = e) by congruence. subst e2. reflexivity.
    + left. eexists. split; [apply st_float; exact P|]. split; [intros v H; inversion H as [| | |? ? x' P']; subst; assert (x' = x) by congruence; subst x'; reflexivity|]. split; [intros e H; inversion H; congruence|]. split; [discriminate|reflexivity].
  - right. right. split; [intros H; apply H; reflexivity|]. split; [intros e H; inversion H|]. split; [intros v H; inversion H|reflexivity].
Qed.

Section Header.
Variable header : list bytes.
Definition ask (f : field) : list (bytes * bytes) :=
  match map_get (columns_of header) (fd_tag f) with
  | Some _ => [(fd_tag f, fd_name f)]
  | None => match map_get (columns_of header) (fd_name f) with Some _ => [(fd_name f, fd_name f)] | None => [] end
  end.
Lemma ask_cases f : (exists c, asks header f c /\ ask f = [(c, fd_name f)] /\ forall c', asks header f c' -> c' = c) \/ ((forall c, ~ asks header f c) /\ ask f = []).
Proof.
  unfold ask, asks. destruct (map_get (columns_of header) (fd_tag f)) as [j|] eqn:Et.
  - apply columns_last in Et. destruct Et as [Et _]. apply nth_error_In in Et. left. eexists. split; [left; split; [exact Et|reflexivity]|]. split; [reflexivity|]. intros c' [[_ ->]|[N _]]; [reflexivity|contradiction].
  - apply columns_absent in Et. destruct (map_get (columns_of header) (fd_name f)) as [j|] eqn:En.
    + apply columns_last in En. destruct En as [En _]. apply nth_error_In in En. left. exists (fd_name f). split; [right; auto|]. split; [reflexivity|]. intros c' [[I _]|[_ [_ ->]]]; [contradiction|reflexivity].
    + apply columns_absent in En. right. split; [|reflexivity]. intros c [[I _]|[_ [I _]]]; contradiction.
Qed.
Lemma asks_in f c : asks header f c -> In c header.
Proof. intros [[I ->]|[_ [I ->]]]; exact I. Qed.
Lemma pairs_snoc fields f : pairs header (fields ++ [f]) = pairs header fields ++ ask f.
Proof.
  unfold pairs, mapping_pairs, ask. rewrite flat_map_app, map_app. f_equal. cbn [flat_map]. rewrite app_nil_r.
  destruct (map_get (columns_of header) (fd_tag f)); [reflexivity|]. destruct (map_get (columns_of header) (fd_name f)); reflexivity.
Qed.
Lemma gets_snoc fields x c i f : gets header (fields ++ [x]) c i f <-> (i = length fields /\ f = x /\ asks header x c) \/ (~ asks header x c /\ gets header fields c i f).
Proof.
  unfold gets. split.
  - intros (H & A & N). destruct (Nat.lt_ge_cases i (length fields)) as [L|L].
    + right. rewrite nth_error_app1 in H by lia. split.
      * intros X. apply (N (length fields) x L); [|exact X]. rewrite nth_error_app2, Nat.sub_diag by lia. reflexivity.
      * split; [exact H|]. split; [exact A|]. intros k g Hk Hg. apply (N k g Hk). rewrite nth_error_app1; [exact Hg|]. apply nth_error_Some. congruence.
    + left. rewrite nth_error_app2 in H by lia. destruct (i - length fields)%nat as [|[|]] eqn:E; try discriminate. cbn in H. injection H as ->. split; [lia|auto].
  - intros [(-> & -> & A)|(A & H & A' & N)].
    + split; [rewrite nth_error_app2, Nat.sub_diag by lia; reflexivity|]. split; [exact A|]. intros k g Hk Hg. assert (nth_error (fields ++ [x]) k <> None) as K by congruence. apply nth_error_Some in K. rewrite app_length in K. cbn in K. lia.
    + assert (L : (i < length fields)%nat) by (apply nth_error_Some; congruence). split; [rewrite nth_error_app1 by lia; exact H|]. split; [exact A'|]. intros k g Hk Hg.
      destruct (Nat.lt_ge_cases k (length fields)) as [L'|L']; [rewrite nth_error_app1 in Hg by lia; eapply N; eauto|].
      rewrite nth_error_app2 in Hg by lia. destruct (k - length fields)%nat as [|[|]] eqn:E; try discriminate. cbn in Hg. injection Hg as <-. exact A.
Qed.
Lemma gets_func fields c i f i' f' : gets header fields c i f -> gets header fields c i' f' -> i = i' /\ f = f'.
Proof.
  intros (H & A & N) (H' & A' & N'). assert (i = i'). { destruct (Nat.lt_trichotomy i i') as [L|[L|L]]; [exfalso; eapply N; eauto|exact L|exfalso; eapply N'; eauto]. } subst i'. split; congruence.
Qed.
Lemma gets_column fields c c' i f : gets header fields c i f -> gets header fields c' i f -> c = c'.
Proof. intros (_ & A & _) (_ & A' & _). destruct (ask_cases f) as [(x & _ & _ & U)|[N _]]; [rewrite (U c A), (U c' A'); reflexivity|elim (N c A)]. Qed.
Lemma mapping_get fields k n : map_get (map_of (pairs header fields)) k = Some n <-> exists i f, gets header fields k i f /\ n = fd_name f.
Proof.
  induction fields as [|x fields IH] using rev_ind.
  - split; [discriminate|]. intros ([|i] & f & (H & _) & _); discriminate.
  - rewrite pairs_snoc. destruct (ask_cases x) as [(c & A & -> & U)|[N ->]].
    + rewrite get_snoc. destruct (bytes_eqb c k) eqn:E.
      * apply bytes_eqb_eq in E. subst c. split.
        { intros H. injection H as <-. exists (length fields), x. split; [apply gets_snoc; auto|reflexivity]. }
        { intros (i & f & G & ->). apply gets_snoc in G. destruct G as [(_ & -> & _)|[N _]]; [reflexivity|contradiction]. }
      * assert (Nx : ~ asks header x k) by (intros X; rewrite (U k X), (proj2 (bytes_eqb_eq c c) eq_refl) in E; discriminate). rewrite IH.
        split; intros (i & f & G & ->); exists i, f; (split; [|reflexivity]); [apply gets_snoc; auto|apply gets_snoc in G; destruct G as [(_ & _ & X)|[_ G]]; [contradiction|exact G]].
    + rewrite app_nil_r, IH. split; intros (i & f & G & ->); exists i, f; (split; [|reflexivity]); [apply gets_snoc; auto|apply gets_snoc in G; destruct G as [(_ & _ & X)|[_ G]]; [elim (N k X)|exact G]].
Qed.

Section Fields.
Variable fields : list field.
Hypothesis Nn : NoDup (names fields).
Hypothesis Sz : Forall sized fields.
Definition mp : list (bytes * bytes) := map_of (pairs header fields).
Lemma mp_in k n : In (k, n) mp <-> exists i f, gets header fields k i f /\ n = fd_name f.
Proof. unfold mp. rewrite in_map_of. apply mapping_get. Qed.
Section Line.
Variable row : list bytes.
(** What one round of the loop does. *)
Definition round (e : bytes * bytes) : res (gerr + option gval) :=
  match field_named fields (snd e) with
  | None => Panic "no such field"
  | Some f => match nth_error row (match map_get (columns_of header) (fst e) with Some i => i | None => 0%nat end) with
              | None => Panic "index out of range"
              | Some w => load_cell pf narrow f w
              end
  end.
Lemma fill_cons e todo b : fill_struct pf narrow (columns_of header) fields row (e :: todo) b =
  match round e with
  | Ok (inl e) => Ok (inl e)
  | Ok (inr None) => fill_struct pf narrow (columns_of header) fields row todo b
  | Ok (inr (Some x)) => fill_struct pf narrow (columns_of header) fields row todo (set_by_name fields b (snd e) x)
  | Panic w => Panic w
  | Fuel => Fuel
  end.
Proof.
  destruct e as [k v]. cbn [fill_struct]. unfold round. cbn [fst snd]. destruct (field_named fields v); [|reflexivity].
  destruct (nth_error row _); [|reflexivity]. destruct (load_cell _ _ _ _) as [[?|[?|]]| |]; reflexivity.
Qed.
Lemma gets_sized k i f : gets header fields k i f -> sized f.
Proof. intros (H & _). apply nth_error_In in H. rewrite Forall_forall in Sz. auto. Qed.
Lemma round_eq k i f : gets header fields k i f -> exists j, last_at header k j /\ round (k, fd_name f) = match nth_error row j with None => Panic "index out of range" | Some w => load_cell pf narrow f w end.
Proof.
  intros G. unfold round. cbn [fst snd]. rewrite (named fields i f Nn) by apply G. destruct (last_exists header k) as (j & L); [eapply asks_in; apply G|].
  exists j. split; [exact L|]. apply columns_last in L. rewrite L. reflexivity.
Qed.
Lemma cell_func c f f' w w' : cell_for header fields row c f w -> cell_for header fields row c f' w' -> f = f' /\ w = w'.
Proof.
  intros (i & j & G & L & H) (i' & j' & G' & L' & H'). destruct (gets_func _ _ _ _ _ _ G G') as [_ E]. split; [exact E|]. assert (j = j') by (eapply last_func; eauto). congruence.
Qed.
(** A round either sets a field, skips one, or ends the loop. *)
Definition sound (k : bytes) (i : nat) (f : field) (o : option gval) : Prop :=
  exists w, cell_for header fields row k f w /\ match o with Some v => fd_exported f = true /\ written f /\ stores pf narrow (fd_kind f) w v | None => ~ written f end.
Lemma round_cases k i f : gets header fields k i f ->
  (exists o, round (k, fd_name f) = Ok (inr o) /\ sound k i f o) \/
  (exists e, round (k, fd_name f) = Ok (inl e) /\ row_error pf header fields row e) \/
  (exists why, round (k, fd_name f) = Panic why /\ row_panics pf narrow header fields row).
Proof.
  intros G. destruct (round_eq k i f G) as (j & L & ->). destruct (nth_error row j) as [w|] eqn:E.
  - assert (C : cell_for header fields row k f w) by (exists i, j; auto).
    destruct (load_spec f w (gets_sized _ _ _ G)) as [(v & St & _ & _ & W & ->)|[(e & R & _ & _ & _ & ->)|(W & _ & _ & ->)]].
    + destruct (fd_exported f) eqn:X; [left; exists (Some v); split; [reflexivity|]; exists w; auto|]. right. right. eexists. split; [reflexivity|]. exists k, i, f. split; [exact G|]. right. exists w, v. auto.
    + right. left. exists e. split; [reflexivity|]. exists k, f, w. auto.
    + left. exists None. split; [reflexivity|]. exists w. auto.
  - right. right. eexists. split; [reflexivity|]. exists k, i, f. split; [exact G|]. left. exists j. auto.
Qed.
Lemma round_error e : row_error pf header fields row e -> exists x, In x mp /\ round x = Ok (inl e).
Proof.
  intros (c & f & w & (i & j & G & L & H) & R). exists (c, fd_name f). split; [apply mp_in; eauto|]. destruct (round_eq c i f G) as (j' & L' & ->). assert (j' = j) by (eapply last_func; eauto). subst j'. rewrite H.
  destruct (load_spec f w (gets_sized _ _ _ G)) as [(v & _ & _ & N & _)|[(e' & _ & U & _ & _ & ->)|(_ & N & _)]]; [elim (N e R)|rewrite (U e R); reflexivity|elim (N e R)].
Qed.
Lemma round_panic : row_panics pf narrow header fields row -> exists x why, In x mp /\ round x = Panic why.
Proof.
  intros (c & i & f & G & H). exists (c, fd_name f). destruct (round_eq c i f G) as (j & L & ->). destruct H as [(j' & L' & H)|(w & v & (i' & j' & G' & L' & H) & X & St)].
  - assert (j' = j) by (eapply last_func; eauto). subst j'. rewrite H. eexists. split; [apply mp_in; eauto|reflexivity].
  - assert (j' = j) by (eapply last_func; eauto). subst j'. rewrite H. destruct (load_spec f w (gets_sized _ _ _ G)) as [(v' & _ & _ & _ & _ & ->)|[(e' & _ & _ & N & _)|(_ & _ & N & _)]]; [|elim (N v St)|elim (N v St)].
    rewrite X. eexists. split; [apply mp_in; eauto|reflexivity].
Qed.
(** ** The whole loop *)
Definition does (x : bytes * bytes) (w : option (nat * gval)) : Prop :=
  exists k i f, gets header fields k i f /\ x = (k, fd_name f) /\
  match w with Some (i', v) => i' = i /\ round x = Ok (inr (Some v)) /\ sound k i f (Some v) | None => round x = Ok (inr None) /\ sound k i f None end.
Lemma fill_does todo ws : Forall2 does todo ws -> forall b, length b = length fields ->
  fill_struct pf narrow (columns_of header) fields row todo b = Ok (inr (apply_all ws b)).
Proof.
  induction 1 as [|x w todo ws H _ IH]; intros b L; [reflexivity|]. rewrite fill_cons. destruct H as (k & i & f & G & -> & H). destruct w as [[i' v]|].
  - destruct H as (-> & -> & _). cbn [snd]. rewrite (set_upd fields b i f v Nn) by (try apply G; exact L). cbn [apply_all fold_left apply1]. apply IH. rewrite upd_length; [exact L|]. rewrite L. apply nth_error_Some. destruct G as (G & _). congruence.
  - destruct H as [-> _]. apply IH. exact L.
Qed.
Lemma fill_fault todo : (forall x, In x todo -> In x mp) -> forall b, length b = length fields ->
  (exists ws, Forall2 does todo ws) \/
  (exists e, fill_struct pf narrow (columns_of header) fields row todo b = Ok (inl e) /\ row_error pf header fields row e) \/
  (exists why, fill_struct pf narrow (columns_of header) fields row todo b = Panic why /\ row_panics pf narrow header fields row).
Proof.
  induction todo as [|x todo IH]; intros S b L; [left; exists []; constructor|]. rewrite fill_cons. destruct x as [k n]. destruct (proj1 (mp_in k n) (S _ (or_introl eq_refl))) as (i & f & G & ->).
  destruct (round_cases k i f G) as [(o & E & So)|[(e & -> & R)|(why & -> & R)]]; [|right; left; eauto|right; right; eauto].
  rewrite E. assert (S' : forall x, In x todo -> In x mp) by (intros; apply S; right; auto). destruct o as [v|].
  - destruct (IH S' (set_by_name fields b (snd (k, fd_name f)) v)) as [(ws & H)|H].
    + cbn [snd]. rewrite (set_upd fields b i f v Nn) by (try apply G; exact L). rewrite upd_length; [exact L|]. rewrite L. apply nth_error_Some. destruct G as (G & _). congruence.
    + left. exists (Some (i, v) :: ws). constructor; [|exact H]. exists k, i, f. auto.
    + right. exact H.
  - destruct (IH S' b L) as [(ws & H)|H]; [|right; exact H]. left. exists (None :: ws). constructor; [|exact H]. exists k, i, f. auto.
Qed.
Lemma stores_func k i f w v v' : gets header fields k i f -> stores pf narrow (fd_kind f) w v -> stores pf narrow (fd_kind f) w v' -> v = v'.
Proof. intros G St St'. destruct (load_spec f w (gets_sized _ _ _ G)) as [(x & _ & U & _)|[(e' & _ & _ & N & _)|(_ & _ & N & _)]]; [rewrite (U v St), (U v' St'); reflexivity|elim (N v St)|elim (N v St)]. Qed.
Lemma does_struct todo ws : Permutation mp todo -> Forall2 does todo ws -> struct_of pf narrow header fields row (apply_all ws (map (fun f => zero_val (fd_kind f)) fields)).
Proof.
  intros P H. destruct (apply_spec ws (map (fun f => zero_val (fd_kind f)) fields)) as [L Hn].
  { intros i v I. rewrite map_length. destruct (forall2_in_r _ _ _ _ H I) as (x & _ & k & i' & f & G & _ & -> & _). apply nth_error_Some. destruct G as (G & _). congruence. }
  { intros i v v' I I'. destruct (forall2_in_r _ _ _ _ H I) as (x & _ & k & i1 & f & G & _ & -> & _ & w & C & _ & _ & St). destruct (forall2_in_r _ _ _ _ H I') as (x' & _ & k' & i2 & f' & G' & _ & -> & _ & w' & C' & _ & _ & St').
    assert (f' = f) by (destruct G as (G & _), G' as (G' & _); congruence). subst f'. assert (k' = k) by (eapply gets_column; eauto). subst k'. destruct (cell_func _ _ _ _ _ C C') as [_ <-]. eapply stores_func; eauto. }
  rewrite map_length in L. split; [exact L|].
  assert (Q : forall c i f, gets header fields c i f -> exists o, In (match o with Some v => Some (i, v) | None => None end) ws /\ sound c i f o).
  { intros c i f G. assert (I : In (c, fd_name f) todo) by (eapply Permutation_in; [exact P|]; apply mp_in; eauto). destruct (forall2_in_l _ _ _ _ H I) as (w & Iw & k & i' & f' & G' & E & D).
    injection E as <- En. destruct (gets_func _ _ _ _ _ _ G G') as [<- <-]. destruct w as [[i2 v]|]; [destruct D as (-> & _ & So); exists (Some v)|destruct D as [_ So]; exists None]; auto. }
  split.
  - intros c i f G. destruct (Q c i f G) as (o & _ & w & C & _). eauto.
  - intros i f v Hf Hv. destruct (Hn i) as [H1 H2].
    assert (D : (exists t, In (Some (i, t)) ws) \/ forall t, ~ In (Some (i, t)) ws).
    { clear. induction ws as [|[[k u]|] ws [(t' & IH)|IH]]; [right; intros t' []|left; exists t'; right; auto| |left; exists t'; right; auto|right; intros t' [H|H]; [discriminate|exact (IH t' H)]].
      destruct (Nat.eq_dec k i) as [->|N]; [left; exists u; left; reflexivity|right]. intros t' [H|H]; [congruence|exact (IH t' H)]. }
    destruct D as [(t & D)|D].
    + rewrite (H1 t D) in Hv. injection Hv as <-. destruct (forall2_in_r _ _ _ _ H D) as (x & _ & k & i' & f' & G & _ & -> & _ & w & C & X & W & St).
      assert (f' = f) by (destruct G as (G & _); congruence). subst f'. left. exists k, w. auto.
    + rewrite (H2 D), nth_error_map, Hf in Hv. cbn in Hv. injection Hv as <-. right. split; [reflexivity|].
      assert (Dc : (exists c, asks header f c /\ forall c', asks header f c' -> c' = c) \/ forall c, ~ asks header f c) by (destruct (ask_cases f) as [(c & A & _ & U)|[N _]]; eauto).
      destruct (kind_dec f) as [W|W]; [left|right; exact W]. intros c G. destruct (Q c i f G) as ([u|] & I & w & C & So); [elim (D u I)|contradiction].
Qed.
Lemma struct_func vals vals' : struct_of pf narrow header fields row vals -> struct_of pf narrow header fields row vals' -> vals = vals'.
Proof.
  intros (L & _ & H) (L' & _ & H'). apply nth_ext_error. intros i. destruct (nth_error fields i) as [f|] eqn:Ef.
  2:{ apply nth_error_None in Ef. replace (nth_error vals i) with (@None gval) by (symmetry; apply nth_error_None; lia). symmetry. apply nth_error_None. lia. }
  assert (Lt : (i < length fields)%nat) by (apply nth_error_Some; congruence).
  destruct (nth_error vals i) as [v|] eqn:E; [|apply nth_error_None in E; lia]. destruct (nth_error vals' i) as [v'|] eqn:E'; [|apply nth_error_None in E'; lia]. f_equal.
  assert (SW : forall w v, stores pf narrow (fd_kind f) w v -> written f) by (intros w0 v0 S0; unfold written; inversion S0; discriminate).
  destruct (H i f v Ef E) as [(c & w & G & C & _ & St)|[-> Z1]]; destruct (H' i f v' Ef E') as [(c' & w' & G' & C' & _ & St')|[-> Z2]].
  - assert (c' = c) by (eapply gets_column; eauto). subst c'. destruct (cell_func _ _ _ _ _ C C') as [_ <-]. eapply stores_func; eauto.
  - destruct Z2 as [N|N]; [elim (N c G)|elim N; eauto].
  - destruct Z1 as [N|N]; [elim (N c' G')|elim N; eauto].
  - reflexivity.
Qed.
Lemma struct_fine vals : struct_of pf narrow header fields row vals -> (forall e, ~ row_error pf header fields row e) /\ ~ row_panics pf narrow header fields row.
Proof.
  intros (L & Hc & H). assert (V : forall c i f w, gets header fields c i f -> cell_for header fields row c f w -> written f -> fd_exported f = true /\ exists v, stores pf narrow (fd_kind f) w v).
  { intros c i f w G C W. assert (Ef : nth_error fields i = Some f) by apply G. assert (Lt : (i < length fields)%nat) by (apply nth_error_Some; congruence). destruct (nth_error vals i) as [v|] eqn:Ev; [|apply nth_error_None in Ev; lia].
    destruct (H i f v Ef Ev) as [(c' & w' & G' & C' & X & St)|[_ [N|N]]]; [|elim (N c G)|contradiction]. assert (c' = c) by (eapply gets_column; eauto). subst c'. destruct (cell_func _ _ _ _ _ C C') as [_ <-]. eauto. }
  split.
  - intros e (c & f & w & C & R). assert (C' := C). destruct C as (i & j & G & _). assert (W : written f) by (unfold written; inversion R; discriminate). destruct (V c i f w G C' W) as (_ & v & St).
    destruct (load_spec f w (gets_sized _ _ _ G)) as [(x & _ & _ & N & _)|[(e' & _ & _ & N & _)|(_ & N & _)]]; [elim (N e R)|elim (N v St)|elim (N e R)].
  - intros (c & i & f & G & [(j & Lj & E)|(w & v & C & X & St)]).
    + destruct (Hc c i f G) as (w & i' & j' & _ & L' & E'). assert (j' = j) by (eapply last_func; eauto). congruence.
    + assert (W : written f) by (unfold written; inversion St; discriminate). destruct (V c i f w G C W) as [X' _]. congruence.
Qed.
Definition zeros : list gval := map (fun f => zero_val (fd_kind f)) fields.
Lemma line_cases todo : Permutation mp todo ->
  (exists vals, fill_struct pf narrow (columns_of header) fields row todo zeros = Ok (inr vals) /\ struct_of pf narrow header fields row vals) \/
  (exists e, fill_struct pf narrow (columns_of header) fields row todo zeros = Ok (inl e) /\ row_error pf header fields row e) \/
  (exists why, fill_struct pf narrow (columns_of header) fields row todo zeros = Panic why /\ row_panics pf narrow header fields row).
Proof.
  intros P. destruct (fill_fault todo (fun x I => Permutation_in _ (Permutation_sym P) I) zeros) as [(ws & H)|H]; [apply map_length| |right; exact H].
  left. eexists. split; [apply fill_does; [exact H|apply map_length]|apply (does_struct todo); auto].
Qed.
Lemma line_struct todo vals : Permutation mp todo -> struct_of pf narrow header fields row vals -> fill_struct pf narrow (columns_of header) fields row todo zeros = Ok (inr vals).
Proof.
  intros P S. destruct (struct_fine vals S) as [N1 N2]. destruct (line_cases todo P) as [(v & -> & S')|[(e & _ & R)|(why & _ & R)]]; [rewrite (struct_func v vals S' S); reflexivity|elim (N1 e R)|elim (N2 R)].
Qed.
End Line.
(** ** All rows *)
Lemma lines_ok order : any_order order -> forall data i rows, fill_structs pf narrow order (columns_of header) mp fields i data = Ok (inr rows) <-> Forall2 (struct_of pf narrow header fields) data rows.
Proof.
  intros O. induction data as [|row data IH]; intros i rows.
  - cbn. split; [intros H; injection H as <-; constructor|intros H; inversion H; reflexivity].
  - cbn [fill_structs]. fold zeros. split.
    + intros E. destruct (line_cases row (order i mp) (O i mp)) as [(v & F & S)|[(e & F & R)|(why & F & R)]]; rewrite F in E; try discriminate.
      destruct (fill_structs pf narrow order (columns_of header) mp fields (Datatypes.S i) data) as [[e|rest]| |] eqn:F'; try discriminate. injection E as <-. constructor; [exact S|]. eapply IH; eauto.
    + intros H. inversion H as [|? v ? rest S Hr]; subst. rewrite (line_struct row (order i mp) v (O i mp) S). apply (IH (Datatypes.S i)) in Hr. rewrite Hr. reflexivity.
Qed.
Lemma lines_first order : any_order order -> forall data i,
  (exists rows, fill_structs pf narrow order (columns_of header) mp fields i data = Ok (inr rows) /\ Forall2 (struct_of pf narrow header fields) data rows) \/
  (exists good row rest, data = good ++ row :: rest /\ Forall (fun r => exists vals, struct_of pf narrow header fields r vals) good /\
    ((exists e, fill_structs pf narrow order (columns_of header) mp fields i data = Ok (inl e) /\ row_error pf header fields row e) \/
     (exists why, fill_structs pf narrow order (columns_of header) mp fields i data = Panic why /\ row_panics pf narrow header fields row))).
Proof.
  intros O. induction data as [|row data IH]; intros i; [left; exists []; split; [reflexivity|constructor]|]. cbn [fill_structs]. fold zeros.
  destruct (line_cases row (order i mp) (O i mp)) as [(v & -> & S)|[(e & -> & R)|(why & -> & R)]].
  - destruct (IH (Datatypes.S i)) as [(rows & -> & H)|(good & r & rest & -> & Hg & H)]; [left; exists (v :: rows); split; [reflexivity|constructor; auto]|].
    right. exists (row :: good), r, rest. split; [reflexivity|]. split; [constructor; eauto|]. destruct H as [(e & -> & R)|(why & -> & R)]; [left|right]; eauto.
  - right. exists [], row, data. split; [reflexivity|]. split; [constructor|]. left. eauto.
  - right. exists [], row, data. split; [reflexivity|]. split; [constructor|]. right. eauto.
Qed.
Definition same_map (m : list (bytes * bytes)) : {m = mp} + {m <> mp} := list_eq_dec pairs_dec m mp.
Lemma first_order x : In x mp -> exists order rest, any_order order /\ forall i, order i mp = x :: rest.
Proof.
  intros I. apply in_split in I. destruct I as (a & b & E). exists (fun i m => if same_map m then x :: a ++ b else m), (a ++ b). split.
  - intros i m. destruct (same_map m) as [->|]; [rewrite E; apply Permutation_sym, Permutation_middle|reflexivity].
  - intros i. destruct (same_map mp) as [_|N]; [reflexivity|congruence].
Qed.
Lemma lines_reach order row rest good (r : res (gerr + list (list gval))) : any_order order -> Forall (fun r => exists vals, struct_of pf narrow header fields r vals) good ->
  (forall i, fill_struct pf narrow (columns_of header) fields row (order i mp) zeros = match r with Ok (inl e) => Ok (inl e) | Panic w => Panic w | _ => Fuel end) ->
  (exists e, r = Ok (inl e)) \/ (exists w, r = Panic w) ->
  forall i, fill_structs pf narrow order (columns_of header) mp fields i (good ++ row :: rest) = r.
Proof.
  intros O Hg F K. induction Hg as [|g good (v & S) _ IH]; intros i; cbn [app fill_structs]; fold zeros.
  - rewrite F. destruct K as [(e & ->)|(w & ->)]; reflexivity.
  - rewrite (line_struct g (order i mp) v (O i mp) S), IH. destruct K as [(e & ->)|(w & ->)]; reflexivity.
Qed.
End Fields.
End Header.
End U.
