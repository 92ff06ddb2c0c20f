(** Marshal and Unmarshal put texts where the specification wants them, in any order. *)
From Verif Require Export S_Marshal L_CsvBack L_Extra.

(** ** Maps *)
Lemma map_of_acc {A} (l : list (bytes * A)) : forall acc, NoDup (map fst l) -> (forall k, In k (map fst l) -> ~ In k (map fst acc)) ->
  fold_left (fun m p => map_set m (fst p) (snd p)) l acc = rev l ++ acc.
Proof.
  induction l as [|[k v] l IH]; intros acc N D; [reflexivity|]. inversion N as [|? ? Nk Nl]; subst. cbn [fold_left fst snd].
  assert (E : map_set acc k v = (k, v) :: acc).
  { unfold map_set. f_equal. specialize (D k (or_introl eq_refl)). clear - D. induction acc as [|[k' v'] acc IH]; [reflexivity|]. cbn [filter fst].
    destruct (bytes_eqb k' k) eqn:E; [apply bytes_eqb_eq in E; subst; exfalso; apply D; left; reflexivity|]. cbn [negb]. f_equal. apply IH. intros H. apply D. right. exact H. }
  rewrite E, IH; auto.
  - cbn [rev]. rewrite <- app_assoc. reflexivity.
  - intros k' Hk [H|H]; cbn [fst] in H; [subst k'; auto|]. eapply D; [right; exact Hk|exact H].
Qed.
Lemma map_of_rev {A} (l : list (bytes * A)) : NoDup (map fst l) -> map_of l = rev l.
Proof. intros N. unfold map_of. rewrite map_of_acc; [apply app_nil_r|exact N|intros k _ []]. Qed.
Lemma map_get_in {A} (m : gmap A) k v : NoDup (map fst m) -> (map_get m k = Some v <-> In (k, v) m).
Proof.
  induction m as [|[k' v'] m IH]; intros N; [split; [discriminate|intros []]|]. cbn [map fst] in N. inversion N as [|? ? Nk Nl]; subst. cbn [map_get].
  destruct (bytes_eqb k' k) eqn:E.
  - apply bytes_eqb_eq in E. subst k'. split; [intros H; injection H as ->; left; reflexivity|]. intros [H|H]; [congruence|]. exfalso. apply Nk. apply (in_map fst) in H. exact H.
  - rewrite IH by auto. split; [right; auto|]. intros [H|H]; [|auto]. injection H as -> ->. assert (bytes_eqb k k = true) by (apply bytes_eqb_eq; auto). congruence.
Qed.
Lemma nodup_rev {A} (l : list (bytes * A)) : NoDup (map fst l) -> NoDup (map fst (rev l)).
Proof. intros N. rewrite map_rev. apply NoDup_rev. exact N. Qed.
Lemma get_of {A} (l : list (bytes * A)) k v : NoDup (map fst l) -> (map_get (map_of l) k = Some v <-> In (k, v) l).
Proof. intros N. rewrite map_of_rev by auto. rewrite map_get_in by (apply nodup_rev; auto). rewrite <- in_rev. tauto. Qed.
Lemma combine_seq {A} (l : list A) : forall s c j, In (c, j) (combine l (seq s (length l))) <-> (s <= j)%nat /\ nth_error l (j - s) = Some c.
Proof.
  induction l as [|x l IH]; intros s c j; [simpl; split; [tauto|]|].
  - intros [_ H]. destruct (j - s)%nat; discriminate.
  - cbn [length seq combine]. split.
    + intros [H|H]; [injection H as <- <-; split; [lia|rewrite Nat.sub_diag; reflexivity]|]. apply IH in H as [Hs H]. split; [lia|].
      replace (j - s)%nat with (S (j - S s)) by lia. exact H.
    + intros [Hs H]. destruct (Nat.eq_dec j s) as [->|N]; [rewrite Nat.sub_diag in H; injection H as ->; left; reflexivity|]. right. apply IH. split; [lia|].
      replace (j - s)%nat with (S (j - S s)) in H by lia. exact H.
Qed.
Lemma combine_fst {A B} (l : list A) (m : list B) : length l = length m -> map fst (combine l m) = l.
Proof. revert m. induction l as [|x l IH]; intros [|y m] H; try discriminate; [reflexivity|]. simpl. f_equal. apply IH. simpl in H. lia. Qed.
Lemma columns_get cols c j : NoDup cols -> (map_get (columns_of cols) c = Some j <-> nth_error cols j = Some c).
Proof.
  intros N. unfold columns_of. rewrite get_of by (rewrite combine_fst; auto; rewrite seq_length; auto). rewrite combine_seq, Nat.sub_0_r.
  split; [tauto|]. intros H. split; [lia|auto].
Qed.
Lemma columns_none cols c : NoDup cols -> (map_get (columns_of cols) c = None <-> ~ In c cols).
Proof.
  intros N. destruct (map_get (columns_of cols) c) as [j|] eqn:E.
  - apply columns_get in E; auto. split; [discriminate|]. intros H. exfalso. apply H. eapply nth_error_In; eauto.
  - split; auto. intros _ H. apply In_nth_error in H as (j & H). apply columns_get in H; auto. congruence.
Qed.

(** ** Writing at indices *)
Definition apply1 {A} (b : list A) (w : option (nat * A)) : list A := match w with Some (j, t) => upd b j t | None => b end.
Definition apply_all {A} (ws : list (option (nat * A))) (b : list A) : list A := fold_left apply1 ws b.
Lemma upd_length {A} (l : list A) i x : (i < length l)%nat -> length (upd l i x) = length l.
Proof. intros H. unfold upd. rewrite app_length. cbn [length]. rewrite firstn_length, skipn_length. lia. Qed.
Lemma upd_same {A} (l : list A) i x : (i < length l)%nat -> nth_error (upd l i x) i = Some x.
Proof. intros H. unfold upd. rewrite nth_error_app2; rewrite firstn_length; [|lia]. replace (i - Nat.min i (length l))%nat with 0%nat by lia. reflexivity. Qed.
Lemma upd_other {A} (l : list A) i j x : (i < length l)%nat -> i <> j -> nth_error (upd l i x) j = nth_error l j.
Proof.
  intros H N. unfold upd. revert i j H N. induction l as [|y l IH]; intros i j H N; [simpl in H; lia|]. destruct i as [|i], j as [|j]; try lia; [reflexivity|reflexivity|].
  simpl in H. cbn [firstn skipn app nth_error]. apply IH; lia.
Qed.
Definition inside {A} (n : nat) (ws : list (option (nat * A))) : Prop := forall j t, In (Some (j, t)) ws -> (j < n)%nat.
Lemma apply_spec {A} (ws : list (option (nat * A))) : forall b, inside (length b) ws -> (forall j t t', In (Some (j, t)) ws -> In (Some (j, t')) ws -> t = t') ->
  length (apply_all ws b) = length b /\
  forall j, (forall t, In (Some (j, t)) ws -> nth_error (apply_all ws b) j = Some t) /\
            ((forall t, ~ In (Some (j, t)) ws) -> nth_error (apply_all ws b) j = nth_error b j).
Proof.
  induction ws as [|w ws IH]; intros b I F; cbn [apply_all fold_left].
  - split; [reflexivity|]. intros j. split; [intros t []|reflexivity].
  - assert (L : length (apply1 b w) = length b). { destruct w as [[j t]|]; [|reflexivity]. apply upd_length. eapply I. left. reflexivity. }
    destruct (IH (apply1 b w)) as [Hl Hn].
    { rewrite L. intros j t H. eapply I. right. exact H. }
    { intros j t t' H H'. eapply F; right; eauto. }
    split; [unfold apply_all in Hl; rewrite Hl; exact L|]. intros j. destruct (Hn j) as [H1 H2]. split.
    + intros t [H|H]; [|apply H1; exact H]. subst w.
      assert (D : (exists t', In (Some (j, t')) ws) \/ forall t', ~ In (Some (j, t')) ws).
      { clear. induction ws as [|[[i u]|] ws [(t' & IH)|IH]]; [right; intros t' []|left; exists t'; right; auto| |left; exists t'; right; auto|right; intros t' [H|H]; [discriminate|exact (IH t' H)]].
        destruct (Nat.eq_dec i j) as [->|N]; [left; exists u; left; reflexivity|right]. intros t' [H|H]; [congruence|exact (IH t' H)]. }
      destruct D as [(t' & D)|D].
      * unfold apply_all in H1. rewrite (H1 t' D). f_equal. eapply F; [right; exact D|left; reflexivity].
      * unfold apply_all in H2. rewrite (H2 D). cbn [apply1]. apply upd_same. eapply I. left. reflexivity.
    + intros H. unfold apply_all in H2. rewrite H2; [|intros t K; apply (H t); right; exact K]. destruct w as [[i u]|]; [|reflexivity]. cbn [apply1]. apply upd_other.
      * eapply I. left. reflexivity.
      * intros ->. apply (H u). left. reflexivity.
Qed.
Lemma forall_exists {A B} (R : A -> B -> Prop) l : (forall x, In x l -> exists y, R x y) -> exists ys, Forall2 R l ys.
Proof.
  induction l as [|x l IH]; intros H; [exists []; constructor|]. destruct (H x (or_introl eq_refl)) as (y & Hy). destruct IH as (ys & Hys); [intros z Hz; apply H; right; auto|].
  exists (y :: ys). constructor; auto.
Qed.
Lemma forall2_in_r {A B} (R : A -> B -> Prop) l m y : Forall2 R l m -> In y m -> exists x, In x l /\ R x y.
Proof. induction 1 as [|x z l m H _ IH]; [intros []|]. intros [->|Hy]; [exists x; split; [left; auto|auto]|]. destruct (IH Hy) as (x' & Hx & Hr). exists x'. split; [right; auto|auto]. Qed.
Lemma forall2_in_l {A B} (R : A -> B -> Prop) l m x : Forall2 R l m -> In x l -> exists y, In y m /\ R x y.
Proof. induction 1 as [|z y l m H _ IH]; [intros []|]. intros [->|Hx]; [exists y; split; [left; auto|auto]|]. destruct (IH Hx) as (y' & Hy & Hr). exists y'. split; [right; auto|auto]. Qed.
Lemma forall2_nth {A B} (R : A -> B -> Prop) l m : length l = length m -> (forall i x y, nth_error l i = Some x -> nth_error m i = Some y -> R x y) -> Forall2 R l m.
Proof.
  revert m. induction l as [|x l IH]; intros [|y m] L H; try discriminate; [constructor|]. constructor; [apply (H 0%nat); reflexivity|]. apply IH; [simpl in L; lia|].
  intros i a b Ha Hb. apply (H (S i)); auto.
Qed.
Lemma forall2_nth_inv {A B} (R : A -> B -> Prop) l m i x y : Forall2 R l m -> nth_error l i = Some x -> nth_error m i = Some y -> R x y.
Proof. intros H. revert i. induction H as [|a b l m H _ IH]; intros [|i] E E'; simpl in E, E'; try discriminate; [congruence|eauto]. Qed.

(** ** Decimal texts *)
Lemma pos_app l d : positional 10 (l ++ [d]) = positional 10 l * 10 + d.
Proof.
  induction l as [|x l IH]; [simpl; lia|]. cbn [app positional]. rewrite IH, app_length. cbn [length]. rewrite Nat.add_1_r, Nat2Z.inj_succ, Z.pow_succ_r by lia. lia.
Qed.
Lemma dec_ok k : forall z, 0 <= z < 10 ^ Z.of_nat k -> (0 < k)%nat -> canonical (dec_digits k z) z.
Proof.
  induction k as [|k IH]; intros z Hz Hk; [lia|]. cbn [dec_digits]. destruct (Z.ltb_spec z 10).
  - split; [split; [discriminate|]; exists [z]; split; [constructor; [constructor; lia|constructor]|simpl; lia]|].
    destruct (Z.eq_dec z 0) as [->|N]; [left; reflexivity|right; exists (48 + z), []; split; [reflexivity|lia]].
  - assert (k <> 0%nat) by (intros ->; simpl in Hz; lia).
    rewrite Nat2Z.inj_succ, Z.pow_succ_r in Hz by lia.
    destruct (IH (z / 10)) as [(Ne & ds & Hd & E) C]; [|lia|]. { split; [apply Z.div_pos; lia|]. apply Z.div_lt_upper_bound; lia. }
    pose proof (Z.mod_pos_bound z 10 eq_refl). pose proof (Z.div_mod z 10 ltac:(lia)).
    split.
    + split; [intros K; apply app_eq_nil in K as [_ K]; discriminate|]. exists (ds ++ [z mod 10]). split; [apply Forall2_app; auto; constructor; [constructor; lia|constructor]|].
      rewrite pos_app, <- E. lia.
    + right. destruct C as [C|(d & r & C & Nd)].
      * exfalso. rewrite C in Hd. inversion Hd as [|? d0 ? ? Hd0 Hd1]; subst. inversion Hd1; subst.
        assert (d0 = 0) by (remember 48 as q eqn:Eq in Hd0; destruct Hd0; lia). subst d0. simpl in E. assert (1 <= z / 10) by (apply Z.div_le_lower_bound; lia). lia.
      * rewrite C. exists d, (r ++ [48 + z mod 10]). split; [reflexivity|exact Nd].
Qed.
Lemma uint_canonical z : 0 <= z < 10 ^ 20 -> canonical (FormatUint z) z.
Proof. intros H. apply dec_ok; [exact H|lia]. Qed.
Lemma int_canonical z : - 10 ^ 20 < z < 10 ^ 20 -> int_text z (FormatInt z).
Proof.
  intros H. unfold FormatInt, int_text. destruct (Z.ltb_spec z 0); [right|left]; (split; [lia|]); [exists (FormatUint (- z)); split; [reflexivity|]|]; apply uint_canonical; lia.
Qed.

(** ** Marshal *)
Definition names (fields : list field) : list bytes := map fd_name fields.
Lemma own_iff f c : own_column f c <-> c = column_name f.
Proof.
  unfold own_column, column_name. destruct (fd_tag f) as [|b t] eqn:E; split.
  - intros [[H _]|[_ H]]; [congruence|auto].
  - intros H. right. auto.
  - intros [[_ H]|[H _]]; [auto|discriminate].
  - intros H. left. split; [discriminate|auto].
Qed.
Lemma by_name fields vals i f v : NoDup (names fields) -> nth_error fields i = Some f -> nth_error vals i = Some v -> field_by_name fields vals (fd_name f) = Some v.
Proof.
  revert vals i. induction fields as [|g fields IH]; intros [|x vals] [|i] N Hf Hv; try discriminate.
  - simpl in Hf, Hv. injection Hf as ->. injection Hv as ->. cbn [field_by_name]. replace (bytes_eqb (fd_name f) (fd_name f)) with true; [reflexivity|]. symmetry. apply bytes_eqb_eq. reflexivity.
  - cbn [field_by_name]. inversion N as [|? ? Ng Nf]; subst. simpl in Hf, Hv. destruct (bytes_eqb (fd_name g) (fd_name f)) eqn:E; [|eauto].
    apply bytes_eqb_eq in E. exfalso. apply Ng. rewrite E. apply in_map. eapply nth_error_In; eauto.
Qed.
Lemma named fields i f : NoDup (names fields) -> nth_error fields i = Some f -> field_named fields (fd_name f) = Some f.
Proof.
  revert i. induction fields as [|g fields IH]; intros [|i] N Hf; try discriminate; cbn [field_named].
  - simpl in Hf. injection Hf as ->. replace (bytes_eqb (fd_name f) (fd_name f)) with true; [reflexivity|]. symmetry. apply bytes_eqb_eq. reflexivity.
  - inversion N as [|? ? Ng Nf]; subst. simpl in Hf. destruct (bytes_eqb (fd_name g) (fd_name f)) eqn:E; [|eauto].
    apply bytes_eqb_eq in E. exfalso. apply Ng. rewrite E. apply in_map. eapply nth_error_In; eauto.
Qed.
Lemma pow_mono bits : 1 <= bits <= 64 -> 2 ^ (bits - 1) <= 2 ^ 63 /\ 2 ^ bits <= 2 ^ 64.
Proof. intros H. split; apply Z.pow_le_mono_r; lia. Qed.
Section M.
Variable ff : spec_float -> bytes.
Lemma render_ok f v : fits (fd_kind f) v -> written f -> exists t, render ff (fd_kind f) v = Ok (Some t) /\ field_text ff v t.
Proof.
  unfold written. intros H W. destruct H; cbn [render]; try congruence; eexists; (split; [reflexivity|]); constructor.
  - apply int_canonical. destruct (pow_mono bits H). lia.
  - apply uint_canonical. destruct (pow_mono bits H). lia.
Qed.
Section Row.
Variables (cols : list bytes) (fields : list field) (vals : list gval).
Hypothesis Nn : NoDup (names fields).
Hypothesis Nc : NoDup cols.
Hypothesis Sep : separate fields.
Hypothesis Cov : forall f, In f fields -> written f -> In (column_name f) cols.
Hypothesis Fit : Forall2 (fun f v => fits (fd_kind f) v) fields vals.
Definition entry (f : field) : bytes * bytes := (fd_name f, column_name f).
Definition types : gmap kind := map_of (map (fun f => (fd_name f, fd_kind f)) fields).
Definition writes (e : bytes * bytes) (w : option (nat * bytes)) : Prop :=
  exists i f v, nth_error fields i = Some f /\ nth_error vals i = Some v /\ e = entry f /\
  match w with
  | Some (j, t) => written f /\ nth_error cols j = Some (column_name f) /\ render ff (fd_kind f) v = Ok (Some t) /\ field_text ff v t
  | None => ~ written f
  end.
Lemma kind_dec f : written f \/ ~ written f.
Proof. unfold written. destruct (fd_kind f); try (left; discriminate). right. intros H. apply H. reflexivity. Qed.
Lemma vals_at i f : nth_error fields i = Some f -> exists v, nth_error vals i = Some v /\ fits (fd_kind f) v.
Proof.
  intros H. destruct (nth_error vals i) as [v|] eqn:E.
  - exists v. split; auto. exact (forall2_nth_inv _ _ _ _ _ _ Fit H E).
  - exfalso. apply nth_error_None in E. rewrite <- (Forall2_len _ _ _ Fit) in E. apply nth_error_None in E. congruence.
Qed.
Lemma entry_writes f : In f fields -> exists w, writes (entry f) w.
Proof.
  intros H. apply In_nth_error in H as (i & H). destruct (vals_at i f H) as (v & Hv & Ft). destruct (kind_dec f) as [W|W].
  - destruct (render_ok f v Ft W) as (t & R & T). assert (I : In (column_name f) cols) by (apply Cov; auto; eapply nth_error_In; eauto).
    apply In_nth_error in I as (j & Hj). exists (Some (j, t)), i, f, v. repeat (split; auto).
  - exists None, i, f, v. repeat (split; auto).
Qed.
Lemma type_of i f : nth_error fields i = Some f -> map_get types (fd_name f) = Some (fd_kind f).
Proof.
  intros H. unfold types. apply get_of; [rewrite map_map; exact Nn|]. apply (in_map (fun f => (fd_name f, fd_kind f))). eapply nth_error_In; eauto.
Qed.
Lemma fill_ok todo ws : Forall2 writes todo ws -> forall buf, length buf = length cols ->
  fill_row ff (columns_of cols) types fields vals todo buf = Ok (apply_all ws buf).
Proof.
  induction 1 as [|e w todo ws H _ IH]; intros buf L; [reflexivity|]. destruct H as (i & f & v & Hf & Hv & -> & Hw). unfold entry. cbn [fill_row].
  rewrite (type_of i f Hf), (by_name fields vals i f v Nn Hf Hv). destruct w as [[j t]|].
  - destruct Hw as (W & Hj & R & T). rewrite R. apply columns_get in Hj as Gj; auto. rewrite Gj.
    assert (j < length buf)%nat by (rewrite L; apply nth_error_Some; congruence). apply Nat.ltb_lt in H as Hlt. rewrite Hlt. cbn [apply_all fold_left]. cbn [apply1].
    apply IH. rewrite upd_length; auto.
  - assert (R : render ff (fd_kind f) v = Ok None). { unfold written in Hw. destruct (fd_kind f); try (exfalso; apply Hw; discriminate). reflexivity. }
    rewrite R. cbn [apply_all fold_left apply1]. apply IH. exact L.
Qed.
Lemma writes_func todo ws j t t' : Forall2 writes todo ws -> In (Some (j, t)) ws -> In (Some (j, t')) ws -> t = t'.
Proof.
  intros H I I'. destruct (forall2_in_r _ _ _ _ H I) as (e & _ & i & f & v & Hf & Hv & _ & W & Hj & R & _).
  destruct (forall2_in_r _ _ _ _ H I') as (e' & _ & i' & f' & v' & Hf' & Hv' & _ & W' & Hj' & R' & _).
  assert (i = i') by (eapply (Sep i i' f f' (column_name f)); eauto; [apply own_iff; auto|apply own_iff; congruence]). subst i'. congruence.
Qed.
Lemma row_ok todo : Permutation (map entry fields) todo -> exists cells,
  fill_row ff (columns_of cols) types fields vals todo (repeat [] (length cols)) = Ok cells /\ Forall2 (cell_of ff fields vals) cols cells.
Proof.
  intros P. assert (Ex : exists ws, Forall2 writes todo ws).
  { apply forall_exists. intros e He. apply (Permutation_in e (Permutation_sym P)) in He. apply in_map_iff in He as (f & <- & Hf). apply entry_writes. exact Hf. }
  destruct Ex as (ws & Hw). exists (apply_all ws (repeat [] (length cols))). split; [apply fill_ok; auto; apply repeat_length|].
  destruct (apply_spec ws (repeat [] (length cols))) as [L Hn].
  { intros j t I. rewrite repeat_length. destruct (forall2_in_r _ _ _ _ Hw I) as (e & _ & i & f & v & _ & _ & _ & _ & Hj & _). apply nth_error_Some. congruence. }
  { intros j t t'. eapply writes_func; eauto. }
  rewrite repeat_length in L. apply forall2_nth; [symmetry; exact L|]. intros j name cell Hj Hc. destruct (Hn j) as [H1 H2].
  assert (D : (exists t, In (Some (j, t)) ws) \/ forall t, ~ In (Some (j, t)) ws).
  { clear. induction ws as [|[[i u]|] ws [(t' & IH)|IH]]; [right; intros t' []|left; exists t'; right; auto| |left; exists t'; right; auto|right; intros t' [H|H]; [discriminate|exact (IH t' H)]].
    destruct (Nat.eq_dec i j) as [->|N]; [left; exists u; left; reflexivity|right]. intros t' [H|H]; [congruence|exact (IH t' H)]. }
  destruct D as [(t & D)|D].
  - left. destruct (forall2_in_r _ _ _ _ Hw D) as (e & _ & i & f & v & Hf & Hv & _ & W & Hj' & R & T). exists i, f, v. repeat (split; auto).
    + apply own_iff. congruence.
    + rewrite (H1 t D) in Hc. injection Hc as <-. exact T.
  - right. rewrite (H2 D) in Hc. split.
    + apply nth_error_In, repeat_spec in Hc. exact Hc.
    + intros f Hf W O. apply own_iff in O. subst name. assert (In (entry f) todo) as Ht by (eapply Permutation_in; [exact P|apply in_map; exact Hf]).
      destruct (forall2_in_l _ _ _ _ Hw Ht) as ([[j' t]|] & Iw & i & g & v & Hg & Hv & E & Hww).
      * destruct Hww as (_ & Hj' & _). unfold entry in E. injection E as En Ec. rewrite <- Ec in Hj'.
        assert (j = j') by (eapply (proj1 (NoDup_nth_error cols) Nc); [apply nth_error_Some; congruence|congruence]). subst j'. exact (D t Iw).
      * unfold entry in E. injection E as En Ec. apply Hww. 
        assert (g = f). { assert (K : field_named fields (fd_name g) = Some g) by (eapply named; eauto). apply In_nth_error in Hf as (i' & Hf). pose proof (named fields i' f Nn Hf) as K'. congruence. }
        subst g. exact W.
Qed.
End Row.

Lemma mapping_perm order i fields : any_order order -> NoDup (names fields) ->
  Permutation (map entry fields) (order i (map_of (map (fun f => (fd_name f, column_name f)) fields))).
Proof.
  intros O N. rewrite map_of_rev by (rewrite map_map; exact N). eapply Permutation_trans; [apply Permutation_rev|]. apply O.
Qed.
Lemma marshal_ok order cols fields rows : any_order order -> NoDup (names fields) -> NoDup cols -> separate fields ->
  (forall f, In f fields -> written f -> In (column_name f) cols) -> Forall (Forall2 (fun f v => fits (fd_kind f) v) fields) rows ->
  exists cells, Marshal ff order cols fields rows = Ok (ToCsv cells) /\ Forall2 (fun vals row => Forall2 (cell_of ff fields vals) cols row) rows cells.
Proof.
  intros O Nn Nc Sep Cov Fit. unfold Marshal. set (mp := map_of _). fold (types fields). generalize 0%nat as i.
  assert (G : forall i, exists cells, marshal_rows ff order (columns_of cols) mp (types fields) (length cols) fields i rows = Ok cells /\
    Forall2 (fun vals row => Forall2 (cell_of ff fields vals) cols row) rows cells).
  { induction Fit as [|vals rows Hv _ IH]; intros i; [exists []; split; [reflexivity|constructor]|]. cbn [marshal_rows].
    destruct (row_ok cols fields vals Nn Nc Sep Cov Hv _ (mapping_perm order i fields O Nn)) as (cells & E & H). fold mp in E. rewrite E.
    destruct (IH (S i)) as (rest & -> & Hr). exists (cells :: rest). split; [reflexivity|constructor; auto]. }
  intros i. destruct (G i) as (cells & -> & H). eauto.
Qed.
End M.

(** ** Unmarshal *)
Lemma nth_ext_error {A} (l m : list A) : (forall i, nth_error l i = nth_error m i) -> l = m.
Proof.
  revert m. induction l as [|x l IH]; intros [|y m] H; auto; try (specialize (H 0%nat); discriminate).
  pose proof (H 0%nat) as E. simpl in E. injection E as ->. f_equal. apply IH. intros i. exact (H (S i)).
Qed.
Lemma nth_mid {A} (l r : list A) k : nth_error (l ++ r) (length l + k) = nth_error r k.
Proof. rewrite nth_error_app2 by lia. f_equal. lia. Qed.
Section U.
Variables (pf : bytes -> numerr + spec_float) (narrow : spec_float -> spec_float).
Lemma wrap_id bits z : 1 <= bits <= 64 -> - 2 ^ (bits - 1) <= z < 2 ^ (bits - 1) -> wrap_int bits z = z.
Proof.
  intros Hb Hz. unfold wrap_int. assert (E : 2 ^ bits = 2 * 2 ^ (bits - 1)) by (rewrite <- Z.pow_succ_r by lia; f_equal; lia). rewrite E. cbv zeta.
  destruct (Z.ltb_spec z 0).
  - replace (z mod (2 * 2 ^ (bits - 1))) with (z + 2 * 2 ^ (bits - 1)) by (apply (Z.mod_unique _ _ (-1)); lia).
    destruct (Z.ltb_spec (z + 2 * 2 ^ (bits - 1)) (2 ^ (bits - 1))); lia.
  - rewrite Z.mod_small by lia. destruct (Z.ltb_spec z (2 ^ (bits - 1))); lia.
Qed.
Lemma read_ok f w v : means pf narrow (fd_kind f) w v -> fd_exported f = true -> load_cell pf narrow f w = Ok (inr (Some v)).
Proof.
  intros M X. unfold load_cell. rewrite X. destruct M as [w|bits w z N B Hb|bits w z N B Hb|bits w x N].
  - reflexivity.
  - replace (parse_int w 10) with (@inr numerr Z z); [rewrite wrap_id; auto|]. symmetry. apply parse_int_ok; [lia|]. split; auto. destruct (pow_mono bits Hb). unfold int64. lia.
  - replace (parse_uint w 10) with (@inr numerr Z z); [rewrite Z.mod_small; auto|]. symmetry. apply parse_uint_ok; [lia|]. split; auto. destruct (pow_mono bits Hb). unfold uint64. lia.
  - rewrite N. reflexivity.
Qed.
Lemma set_upd fields vals i f x : NoDup (names fields) -> nth_error fields i = Some f -> length vals = length fields ->
  set_by_name fields vals (fd_name f) x = upd vals i x.
Proof.
  revert vals i. induction fields as [|g fields IH]; intros [|y vals] [|i] N Hf L; try discriminate; cbn [set_by_name].
  - simpl in Hf. injection Hf as ->. replace (bytes_eqb (fd_name f) (fd_name f)) with true; [reflexivity|]. symmetry. apply bytes_eqb_eq. reflexivity.
  - inversion N as [|? ? Ng Nf]; subst. simpl in Hf. destruct (bytes_eqb (fd_name g) (fd_name f)) eqn:E.
    + apply bytes_eqb_eq in E. exfalso. apply Ng. rewrite E. apply in_map. eapply nth_error_In; eauto.
    + unfold upd. cbn [firstn skipn app]. f_equal. apply IH; auto.
Qed.
Section Row.
Variables (header row : list bytes) (fields : list field) (vals : list gval).
Hypothesis Nn : NoDup (names fields).
Hypothesis Nh : NoDup header.
Hypothesis Tag : ~ In [] header \/ forall f, In f fields -> fd_tag f <> [].
Hypothesis Ap : sources_apart header fields.
Hypothesis Rd : Forall2 (field_read pf narrow header row) fields vals.
Definition pairs : list (bytes * bytes) := map (fun p => (fst p, fd_name (snd p))) (mapping_pairs (columns_of header) fields).
Lemma pairs_in k n : In (k, n) pairs <-> exists i f, nth_error fields i = Some f /\ n = fd_name f /\ source header f k.
Proof.
  unfold pairs, mapping_pairs. rewrite in_map_iff. split.
  - intros ((k' & f) & E & H). cbn [fst snd] in E. injection E as <- <-. apply in_flat_map in H as (g & Hg & H). assert (Hg' := Hg). apply In_nth_error in Hg as (i & Hi).
    destruct (map_get (columns_of header) (fd_tag g)) as [j|] eqn:Et.
    + destruct H as [H|[]]. injection H as <- <-. exists i, g. split; auto. split; auto. apply columns_get in Et; auto. split; [eapply nth_error_In; eauto|]. left. split; auto.
      intros K. destruct Tag as [T|T]; [apply T; rewrite <- K; eapply nth_error_In; eauto|eapply T; eauto].
    + destruct (map_get (columns_of header) (fd_name g)) as [j|] eqn:En; [|destruct H]. destruct H as [H|[]]. injection H as <- <-. exists i, g. split; auto. split; auto.
      apply columns_get in En; auto. split; [eapply nth_error_In; eauto|]. right. split; auto. right. apply columns_none in Et; auto.
  - intros (i & f & Hf & -> & Hk & [[Ht ->]|[Ht ->]]).
    + exists (fd_tag f, f). split; [reflexivity|]. apply in_flat_map. exists f. split; [eapply nth_error_In; eauto|].
      destruct (map_get (columns_of header) (fd_tag f)) as [j|] eqn:Et; [left; reflexivity|]. apply columns_none in Et; auto. contradiction.
    + exists (fd_name f, f). split; [reflexivity|]. apply in_flat_map. exists f. split; [eapply nth_error_In; eauto|].
      assert (Nt : ~ In (fd_tag f) header). { destruct Ht as [Ht|Ht]; auto. rewrite Ht. destruct Tag as [T|T]; auto. exfalso. eapply T; [eapply nth_error_In; eauto|exact Ht]. }
      apply columns_none in Nt; auto. rewrite Nt. destruct (map_get (columns_of header) (fd_name f)) as [j|] eqn:En; [left; reflexivity|]. apply columns_none in En; auto. contradiction.
Qed.
Definition sets (e : bytes * bytes) (w : option (nat * gval)) : Prop :=
  exists i f j c, nth_error fields i = Some f /\ e = (c, fd_name f) /\ source header f c /\ nth_error header j = Some c /\
  exists t, nth_error row j = Some t /\
  match w with
  | Some (i', v) => i' = i /\ nth_error vals i = Some v /\ load_cell pf narrow f t = Ok (inr (Some v))
  | None => ~ written f
  end.
Lemma pair_sets e : In e pairs -> exists w, sets e w.
Proof.
  destruct e as [k n]. intros H. apply pairs_in in H as (i & f & Hf & -> & Hs). destruct (nth_error vals i) as [v|] eqn:Ev.
  2:{ exfalso. apply nth_error_None in Ev. rewrite <- (Forall2_len _ _ _ Rd) in Ev. apply nth_error_None in Ev. congruence. }
  destruct (forall2_nth_inv _ _ _ _ _ _ Rd Hf Ev) as [(j & c & w & Hs' & Hj & Hw & W & X & M)|(Ez & [N|(W & L)])].
  - assert (c = k).
    { destruct Hs as [I1 [[A1 ->]|[A1 ->]]], Hs' as [I2 [[A2 ->]|[A2 ->]]]; auto; exfalso; [destruct A2; contradiction|destruct A1; contradiction]. }
    subst c. exists (Some (i, v)), i, f, j, k. split; auto. split; auto. split; auto. split; auto. exists w. split; auto. split; auto. split; auto. apply read_ok; auto.
  - exfalso. eapply N; eauto.
  - assert (I : In k header) by apply Hs. apply In_nth_error in I as (j & Hj). specialize (L j k Hs Hj). destruct (nth_error row j) as [t|] eqn:Et; [|apply nth_error_None in Et; lia].
    exists None, i, f, j, k. split; auto. split; auto. split; auto. split; auto. exists t. auto.
Qed.
Lemma fill_struct_ok todo ws : Forall2 sets todo ws -> forall b, length b = length fields ->
  fill_struct pf narrow (columns_of header) fields row todo b = Ok (inr (apply_all ws b)).
Proof.
  induction 1 as [|e w todo ws H _ IH]; intros b L; [reflexivity|]. destruct H as (i & f & j & c & Hf & -> & Hs & Hj & t & Ht & Hw). cbn [fill_struct].
  rewrite (named fields i f Nn Hf). apply columns_get in Hj; auto. rewrite Hj, Ht. destruct w as [[i' v]|].
  - destruct Hw as (-> & Hv & R). rewrite R, (set_upd fields b i f v Nn Hf L). cbn [apply_all fold_left apply1]. apply IH. rewrite upd_length; auto.
    rewrite L. apply nth_error_Some. congruence.
  - assert (R : load_cell pf narrow f t = Ok (inr None)). { unfold load_cell. unfold written in Hw. destruct (fd_kind f); try (exfalso; apply Hw; discriminate). reflexivity. }
    rewrite R. apply IH. exact L.
Qed.
Lemma nodup_pairs : NoDup (map fst pairs).
Proof.
  assert (G : forall l, (exists a z, fields = a ++ l ++ z) -> NoDup (map fst (mapping_pairs (columns_of header) l))).
  { intros l (a & z & E). revert a E. induction l as [|f l IH]; intros a E; [constructor|]. unfold mapping_pairs. cbn [flat_map]. fold (mapping_pairs (columns_of header) l).
    assert (Nl : NoDup (map fst (mapping_pairs (columns_of header) l))) by (apply (IH (a ++ [f])); rewrite <- app_assoc; exact E).
    assert (K : forall k, (In (k, f) (mapping_pairs (columns_of header) [f])) -> In k (map fst (mapping_pairs (columns_of header) l)) -> False).
    { intros k Hk Hin. apply in_map_iff in Hin as ((k' & g) & Ek & Hg). cbn [fst] in Ek. subst k'.
      assert (Q : forall m b, fields = b ++ m ++ z -> In (k, g) (mapping_pairs (columns_of header) m) -> exists i, (length b <= i)%nat /\ nth_error fields i = Some g /\ source header g k).
      { intros m b Eb Hm. assert (Hp : In (k, fd_name g) pairs).
        { unfold pairs. apply in_map_iff. exists (k, g). split; auto. rewrite Eb. unfold mapping_pairs in *. rewrite !flat_map_app. apply in_or_app. right. apply in_or_app. left. exact Hm. }
        apply pairs_in in Hp as (i0 & g0 & Hg0 & En & Hs). assert (g0 = g).
        { unfold mapping_pairs in Hm. apply in_flat_map in Hm as (g1 & Hg1 & Hm). assert (g1 = g). { destruct (map_get (columns_of header) (fd_tag g1)); [destruct Hm as [Hm|[]]; congruence|]. destruct (map_get (columns_of header) (fd_name g1)); [destruct Hm as [Hm|[]]; congruence|destruct Hm]. }
          subst g1. apply In_nth_error in Hg1 as (i1 & Hi1). assert (Hi : nth_error fields (length b + i1) = Some g).
          { rewrite Eb, nth_mid. rewrite nth_error_app1; auto. apply nth_error_Some. congruence. }
          pose proof (named fields _ g Nn Hi) as K1. pose proof (named fields _ g0 Nn Hg0) as K2. congruence. }
        subst g0. unfold mapping_pairs in Hm. apply in_flat_map in Hm as (g1 & Hg1 & Hm). assert (g1 = g). { destruct (map_get (columns_of header) (fd_tag g1)); [destruct Hm as [Hm|[]]; congruence|]. destruct (map_get (columns_of header) (fd_name g1)); [destruct Hm as [Hm|[]]; congruence|destruct Hm]. }
        subst g1. apply In_nth_error in Hg1 as (i1 & Hi1). exists (length b + i1)%nat. split; [lia|]. split; auto. rewrite Eb, nth_mid. rewrite nth_error_app1; auto. apply nth_error_Some. congruence. }
      destruct (Q l (a ++ [f])) as (i2 & Hi2 & Hg2 & Hs2); [rewrite <- app_assoc; exact E|exact Hg|].
      assert (Hp : In (k, fd_name f) pairs).
      { unfold pairs. apply in_map_iff. exists (k, f). split; auto. rewrite E. unfold mapping_pairs in *. rewrite flat_map_app. apply in_or_app. right. cbn [app flat_map]. apply in_or_app. left. cbn [flat_map] in Hk. rewrite app_nil_r in Hk. exact Hk. }
      apply pairs_in in Hp as (i1 & f1 & Hf1 & En & Hs1).
      assert (Hfi : nth_error fields (length a) = Some f) by (rewrite E; pose proof (nth_mid a ((f :: l) ++ z) 0) as Nm; rewrite Nat.add_0_r in Nm; rewrite Nm; reflexivity).
      assert (f1 = f). { pose proof (named fields _ f Nn Hfi). pose proof (named fields _ f1 Nn Hf1). congruence. } subst f1.
      assert (length a = i2) by (eapply (Ap (length a) i2 f g k); eauto). rewrite app_length in Hi2. simpl in Hi2. lia. }
    unfold mapping_pairs in K. cbn [flat_map] in K. rewrite app_nil_r in K.
    destruct (map_get (columns_of header) (fd_tag f)); [|destruct (map_get (columns_of header) (fd_name f))]; cbn [app map fst]; auto; (constructor; [|exact Nl]); intros H; (eapply K; [left; reflexivity|exact H]). }
  unfold pairs. rewrite map_map. cbn [fst]. apply G. exists [], []. rewrite app_nil_r. reflexivity.
Qed.
Lemma struct_ok todo : Permutation pairs todo ->
  fill_struct pf narrow (columns_of header) fields row todo (map (fun f => zero_val (fd_kind f)) fields) = Ok (inr vals).
Proof.
  intros P. assert (Ex : exists ws, Forall2 sets todo ws).
  { apply forall_exists. intros e He. apply pair_sets. eapply Permutation_in; [apply Permutation_sym; exact P|exact He]. }
  destruct Ex as (ws & Hw). rewrite (fill_struct_ok todo ws Hw) by apply map_length. f_equal. f_equal.
  destruct (apply_spec ws (map (fun f => zero_val (fd_kind f)) fields)) as [L Hn].
  { intros i v I. rewrite map_length. destruct (forall2_in_r _ _ _ _ Hw I) as (e & _ & i' & f & j & c & Hf & _ & _ & _ & t & _ & -> & _). apply nth_error_Some. congruence. }
  { intros i v v' I I'. destruct (forall2_in_r _ _ _ _ Hw I) as (e & _ & i1 & f & j & c & _ & _ & _ & _ & t & _ & -> & Hv & _).
    destruct (forall2_in_r _ _ _ _ Hw I') as (e' & _ & i2 & f' & j' & c' & _ & _ & _ & _ & t' & _ & -> & Hv' & _). congruence. }
  rewrite map_length in L. apply nth_ext_error. intros i. destruct (Hn i) as [H1 H2].
  assert (D : (exists t, In (Some (i, t)) ws) \/ forall t, ~ In (Some (i, t)) ws).
  { clear. induction ws as [|[[k u]|] ws [(t' & IH)|IH]]; [right; intros t' []|left; exists t'; right; auto| |left; exists t'; right; auto|right; intros t' [H|H]; [discriminate|exact (IH t' H)]].
    destruct (Nat.eq_dec k i) as [->|N]; [left; exists u; left; reflexivity|right]. intros t' [H|H]; [congruence|exact (IH t' H)]. }
  destruct D as [(t & D)|D].
  - rewrite (H1 t D). destruct (forall2_in_r _ _ _ _ Hw D) as (e & _ & i' & f & j & c & _ & _ & _ & _ & t' & _ & -> & Hv & _). congruence.
  - rewrite (H2 D). rewrite nth_error_map. destruct (nth_error fields i) as [f|] eqn:Ef; cbn [option_map].
    2:{ symmetry. apply nth_error_None. apply nth_error_None in Ef. rewrite <- (Forall2_len _ _ _ Rd). exact Ef. }
    destruct (nth_error vals i) as [v|] eqn:Ev.
    2:{ exfalso. apply nth_error_None in Ev. rewrite <- (Forall2_len _ _ _ Rd) in Ev. apply nth_error_None in Ev. congruence. }
    f_equal. symmetry. destruct (forall2_nth_inv _ _ _ _ _ _ Rd Ef Ev) as [(j & c & w & Hs & Hj & Hw' & W & X & M)|(Ez & _)]; auto.
    exfalso. assert (Hp : In (c, fd_name f) pairs) by (apply pairs_in; exists i, f; auto).
    apply (Permutation_in _ P) in Hp. destruct (forall2_in_l _ _ _ _ Hw Hp) as (x & Ix & i1 & f1 & j1 & c1 & Hf1 & E1 & Hs1 & Hj1 & t1 & Ht1 & Hx).
    injection E1 as <- En. assert (f1 = f) by (pose proof (named fields _ f Nn Ef); pose proof (named fields _ f1 Nn Hf1); congruence). subst f1.
    destruct x as [[i2 v2]|]; [|contradiction]. destruct Hx as (-> & Hv2 & _).
    assert (i1 = i) by (eapply (Ap i1 i f f c); eauto). subst i1. exact (D v2 Ix).
Qed.
End Row.
Lemma unmarshal_ok order fields header data rows : any_order order -> NoDup (names fields) -> NoDup header ->
  (~ In [] header \/ forall f, In f fields -> fd_tag f <> []) -> sources_apart header fields -> data <> [] ->
  Forall2 (fun row vals => Forall2 (field_read pf narrow header row) fields vals) data rows ->
  from_table pf narrow order fields (header :: data) = Ok (inr (Some rows)).
Proof.
  intros O Nn Nh Tag Ap Ne H. unfold from_table. destruct data as [|r0 data0]; [congruence|]. clear Ne. revert H. generalize (r0 :: data0) as data. intros data H.
  fold (pairs header fields). generalize 0%nat as i.
  assert (G : forall i, fill_structs pf narrow order (columns_of header) (map_of (pairs header fields)) fields i data = Ok (inr rows)).
  { induction H as [|row vals data rows H _ IH]; intros i; [reflexivity|]. cbn [fill_structs].
    rewrite (struct_ok header row fields vals Nn Nh Tag Ap H), IH; [reflexivity|].
    apply Permutation_trans with (map_of (pairs header fields)); [|apply O].
    rewrite map_of_rev by (apply nodup_pairs; auto). apply Permutation_rev. }
  intros i. rewrite G. reflexivity.
Qed.
End U.

(** ** Round trip *)
Lemma char_shape r cs : utf8_char r cs -> (cs = [r] /\ 0 <= r < 128) \/ exists b, In b cs /\ 128 <= b.
Proof. intros H. destruct H; [left; auto| | |]; right; eexists; (split; [left; reflexivity|lia]). Qed.
Lemma graphic_safe c : Forall (fun b => 33 <= b < 127 /\ b <> 44 /\ b <> 34) c -> safe_cell c.
Proof.
  intros F. assert (Fi : forall b, In b c -> 33 <= b < 127 /\ b <> 44 /\ b <> 34) by (apply Forall_forall; exact F).
  assert (Nsp : forall r cs, space r -> utf8_char r cs -> (forall b, In b cs -> In b c) -> False).
  { intros r cs Hr Hc Hi. apply char_shape in Hc as [[-> Hr']|(b & Hb & Hb')].
    - specialize (Fi r (Hi r (or_introl eq_refl))). unfold space in Hr. simpl in Hr. lia.
    - specialize (Fi b (Hi b Hb)). lia. }
  split.
  - exists c. induction F as [|b c Hb _ IH]; [constructor|]. apply (u_cons b [b] c c); [apply u_1; lia|]. apply IH; [intros x Hx; apply Fi; right; auto|].
    intros r cs Hr Hc Hi. apply (Nsp r cs Hr Hc). intros x Hx. right. auto.
  - right. split; [|split].
    + intros (p & t & -> & w & Hw & u & ->). assert (H : exists b, In b w /\ (b = 44 \/ b <= 32 \/ 128 <= b)).
      { destruct Hw as [->|Hw]; [exists 44; split; [left; auto|lia]|]. unfold line_break in Hw. simpl in Hw. repeat destruct Hw as [<-|Hw]; try contradiction; eexists; (split; [left; reflexivity|lia]). }
      destruct H as (b & Hb & Hb'). specialize (Fi b). rewrite !in_app_iff in Fi. specialize (Fi (or_intror (or_introl Hb))). lia.
    + exists [], []. split; [rewrite app_nil_r; reflexivity|]. split; [exists []; split; constructor|]. split; [exists []; split; constructor|]. split.
      * intros (r & cs & t & Hr & Hc & ->). apply (Nsp r cs Hr Hc). intros b Hb. apply in_or_app. auto.
      * intros (r & cs & t & Hr & Hc & ->). apply (Nsp r cs Hr Hc). intros b Hb. apply in_or_app. auto.
    + intros (t & ->). specialize (Fi 34 (or_introl eq_refl)). lia.
Qed.
Lemma canonical_graphic c z : canonical c z -> c <> [] /\ Forall (fun b => 33 <= b < 127 /\ b <> 44 /\ b <> 34) c.
Proof.
  intros [(N & ds & F & _) _]. split; auto. clear N. induction F as [|b d c ds D _ IH]; constructor; auto.
  remember 10 as ten eqn:Et in D. destruct D; lia.
Qed.
Lemma text_safe ff k v t : fits k v -> field_text ff v t -> (forall s, v = GStr s -> safe_cell s) -> (forall x, v = GFloat x -> safe_cell (ff x)) -> safe_cell t.
Proof.
  intros F T Hs Hf. destruct T as [s|z c I|z c C|x]; auto; apply graphic_safe.
  - destruct I as [[_ C]|[_ (d & -> & C)]]; apply canonical_graphic in C as [_ C]; auto. constructor; auto. lia.
  - apply canonical_graphic in C as [_ C]. exact C.
Qed.
Lemma text_nonempty ff k v t : fits k v -> field_text ff v t -> v <> GStr [] -> (forall x, v = GFloat x -> ff x <> []) -> t <> [].
Proof.
  intros F T Hs Hf. destruct T as [s|z c I|z c C|x]; auto.
  - congruence.
  - destruct I as [[_ C]|[_ (d & -> & C)]]; [|discriminate]. apply canonical_graphic in C. tauto.
  - apply canonical_graphic in C. tauto.
Qed.
Lemma text_means ff pf narrow k v t : fits k v -> field_text ff v t ->
  (forall bits x, k = KFloat bits -> v = GFloat x -> exists y, pf (ff x) = inr y /\ x = if bits =? 32 then narrow y else y) ->
  k <> KOther -> means pf narrow k t v.
Proof.
  intros F T Hf W. destruct F as [s|bits z Hb Hz|bits z Hb Hz|bits x|n]; [| | | |congruence]; inversion T as [| z' c I| z' c C|x']; subst.
  - constructor.
  - constructor; auto. destruct I as [[_ [C _]]|[_ (d & -> & C & _)]]; [left; exact C|right; right; exists d; auto].
  - constructor; auto. destruct C as [C _]. exact C.
  - destruct (Hf bits x eq_refl eq_refl) as (y & E & ->). constructor. exact E.
Qed.
Lemma tocsv_cons r rows : rows <> [] -> ToCsv (r :: rows) = ToCsv [r] ++ [10] ++ ToCsv rows.
Proof.
  destruct rows as [|r' rows]; [congruence|]. intros _. unfold ToCsv. cbn [ToCsv_from app]. rewrite app_nil_r. reflexivity.
Qed.
Section RT.
Variables (ff : spec_float -> bytes) (pf : bytes -> numerr + spec_float) (narrow : spec_float -> spec_float).
Variables (cols : list bytes) (fields : list field).
Hypothesis Nn : NoDup (names fields).
Hypothesis Nc : NoDup cols.
Hypothesis Ne : ~ In [] cols.
Hypothesis Sep : separate fields.
Hypothesis Pl : plain_struct fields.
Hypothesis Cov : forall f, In f fields -> In (column_name f) cols.
Lemma source_column f c : In f fields -> (source cols f c <-> c = column_name f).
Proof.
  intros Hf. specialize (Cov f Hf). unfold source. rewrite <- own_iff. unfold own_column. split.
  - intros [I [[H1 H2]|[[H1|H1] H2]]]; auto. unfold column_name in Cov. destruct (fd_tag f) eqn:E; auto. contradiction.
  - intros H. split; [apply own_iff in H; congruence|]. destruct H as [H|[H1 H2]]; auto.
Qed.
Lemma sources_ok : sources_apart cols fields.
Proof.
  intros i j f g c Hf Hg S1 S2. apply source_column in S1; [|eapply nth_error_In; eauto]. apply source_column in S2; [|eapply nth_error_In; eauto].
  apply (Sep i j f g c); auto; [apply Pl; eapply nth_error_In; eauto|apply Pl; eapply nth_error_In; eauto|apply own_iff; auto|apply own_iff; auto].
Qed.
Lemma row_fields vals row : Forall2 (fun f v => fits (fd_kind f) v) fields vals -> floats_return ff pf narrow fields vals ->
  Forall2 (cell_of ff fields vals) cols row -> Forall2 (field_read pf narrow cols row) fields vals.
Proof.
  intros Fit Fl Hc. apply forall2_nth; [apply (Forall2_len _ _ _ Fit)|]. intros i f v Hf Hv. left. assert (Hin : In f fields) by (eapply nth_error_In; eauto).
  destruct (Pl f Hin) as [W X]. pose proof (Cov f Hin) as I. apply In_nth_error in I as (j & Hj).
  destruct (nth_error row j) as [w|] eqn:Ew.
  2:{ exfalso. apply nth_error_None in Ew. rewrite <- (Forall2_len _ _ _ Hc) in Ew. apply nth_error_None in Ew. congruence. }
  exists j, (column_name f), w. split; [apply source_column; auto|]. split; auto. split; auto. split; auto. split; auto.
  destruct (forall2_nth_inv _ _ _ _ _ _ Hc Hj Ew) as [(i' & f' & v' & Hf' & Hv' & W' & O & T)|(_ & N)].
  - assert (i' = i) by (eapply (Sep i' i f' f); eauto; apply own_iff; reflexivity). subst i'. assert (f' = f) by congruence. assert (v' = v) by congruence. subst f' v'.
    pose proof (forall2_nth_inv _ _ _ _ _ _ Fit Hf Hv) as Hfit. pose proof (forall2_nth_inv _ _ _ _ _ _ Fl Hf Hv) as Hfl. cbv beta in Hfit, Hfl.
    apply (text_means ff); auto.
  - exfalso. apply (N f Hin W). apply own_iff. reflexivity.
Qed.
Lemma row_safe vals row : cols <> [] -> Forall2 (fun f v => fits (fd_kind f) v) fields vals -> safe_row_values ff vals -> kept_row ff cols vals ->
  Forall2 (cell_of ff fields vals) cols row -> row <> [] /\ Forall safe_cell row /\ row <> [[]].
Proof.
  intros Nec Fit [Ss Sf] K Hc. pose proof (Forall2_len _ _ _ Hc) as L. split; [|split].
  - destruct row; [|discriminate]. destruct cols; [congruence|discriminate].
  - apply Forall_forall. intros t Ht. destruct (forall2_in_r _ _ _ _ Hc Ht) as (c & _ & [(i & f & v & Hf & Hv & W & O & T)|(-> & _)]); [|apply graphic_safe; constructor].
    pose proof (forall2_nth_inv _ _ _ _ _ _ Fit Hf Hv) as Hfit. cbv beta in Hfit. assert (In v vals) by (eapply nth_error_In; eauto).
    eapply text_safe; eauto; intros; subst; eauto.
  - intros ->. destruct K as [K|(K & Ks & Kf)]; [simpl in L; lia|]. inversion Hc as [|c t cs ts H H' Ec Et]; subst. inversion H'; subst.
    destruct H as [(i & f & v & Hf & Hv & W & O & T)|(_ & N)].
    + pose proof (forall2_nth_inv _ _ _ _ _ _ Fit Hf Hv) as Hfit. cbv beta in Hfit. assert (In v vals) by (eapply nth_error_In; eauto).
      apply (text_nonempty ff (fd_kind f) v [] Hfit T); auto; [congruence|]. intros x ->. auto.
    + destruct fields as [|f fs] eqn:Ef; [inversion Fit; subst; congruence|]. apply (N f (or_introl eq_refl)); [apply Pl; left; reflexivity|]. apply own_iff.
      destruct (Cov f (or_introl eq_refl)) as [<-|[]]. reflexivity.
Qed.
Lemma marshal_round order order' rows : any_order order -> any_order order' -> cols <> [] -> rows <> [] -> Forall safe_cell cols ->
  Forall (Forall2 (fun f v => fits (fd_kind f) v) fields) rows ->
  Forall (safe_row_values ff) rows -> Forall (kept_row ff cols) rows -> Forall (floats_return ff pf narrow fields) rows ->
  exists s n0, Marshal ff order cols fields rows = Ok s /\
    forall n, (n0 <= n)%nat -> Unmarshal pf narrow n order' fields (ToCsv [cols] ++ [10] ++ s) = Ok (inr (Some rows)).
Proof.
  intros O O' Nec Ner Sc Fit Ss K Fl. destruct (marshal_ok ff order cols fields rows O Nn Nc Sep) as (cells & E & H); auto.
  assert (Hs : Forall (fun r => r <> [] /\ Forall safe_cell r /\ r <> [[]]) cells).
  { clear E Ner. induction H as [|vals row rows cells Hr _ IH]; [constructor|]. inversion Fit; inversion Ss; inversion K; inversion Fl; subst. constructor; auto. eapply row_safe; eauto. }
  assert (Hc : cells <> []) by (inversion H; subst; [congruence|discriminate]).
  assert (St : safe_table (cols :: cells)).
  { split.
    - constructor; [split; auto|]. eapply Forall_impl; [|exact Hs]. simpl. tauto.
    - split; [eapply Forall_impl; [|exact Hs]; simpl; tauto|congruence]. }
  assert (Hb : Forall (Forall (Forall is_byte)) (cols :: cells)).
  { destruct St as [St _]. eapply Forall_impl; [|exact St]. simpl. intros r [_ Hr]. eapply Forall_impl; [|exact Hr]. intros c Hcc. apply valid_byte. apply Hcc. }
  destruct (proj2 (round_trip _ Hb) St) as (n0 & Hn). exists (ToCsv cells), n0. split; auto. intros n Ln. rewrite <- tocsv_cons by auto. unfold Unmarshal. rewrite (Hn n Ln). cbv iota beta.
  pose proof (unmarshal_ok pf narrow order' fields cols cells rows O' Nn Nc (or_introl Ne) sources_ok Hc) as U.
  match goal with |- context [from_table ?a ?b ?c ?d ?e] => set (r := from_table a b c d e) end. enough (K9 : r = Ok (inr (Some rows))) by (rewrite K9; reflexivity). apply U. clear U r.
  clear - H Fit Fl Nn Nc Ne Sep Pl Cov. induction H as [|vals row rows cells Hr _ IH]; [constructor|]. inversion Fit; inversion Fl; subst. constructor; auto. apply row_fields; auto.
Qed.
End RT.

(** ** The texts are unique, so the result does not depend on the order *)
Definition ten (d : Z) : Prop := 0 <= d <= 9.
Lemma pos_bound ds : Forall ten ds -> 0 <= positional 10 ds < 10 ^ Z.of_nat (length ds).
Proof.
  induction 1 as [|d ds H _ IH]; [simpl; lia|]. cbn [positional length]. unfold ten in H. rewrite Nat2Z.inj_succ, Z.pow_succ_r by lia. nia.
Qed.
Lemma pos_inj ds : forall ds', Forall ten ds -> Forall ten ds' -> length ds = length ds' -> positional 10 ds = positional 10 ds' -> ds = ds'.
Proof.
  induction ds as [|d ds IH]; intros [|d' ds'] F F' L E; try discriminate; auto. inversion F; inversion F'; subst. cbn [positional] in E. simpl in L. injection L as L. rewrite L in E.
  pose proof (pos_bound ds H2) as B. pose proof (pos_bound ds' H6) as B'. rewrite L in B. set (q := 10 ^ Z.of_nat (length ds')) in *.
  assert (d = d') by nia. subst d'. f_equal. apply IH; auto. lia.
Qed.
Lemma digits_ten c ds : Forall2 (digit 10) c ds -> Forall ten ds /\ c = map (fun d => 48 + d) ds.
Proof.
  induction 1 as [|b d c ds D _ [IH1 IH2]]; [split; [constructor|reflexivity]|]. cbn [map]. subst c. remember 10 as t eqn:Et in D. destruct D; try lia. split; [constructor; auto; unfold ten; lia|reflexivity].
Qed.
Lemma lead_bound d ds : ten d -> Forall ten ds -> d <> 0 -> 10 ^ Z.of_nat (length ds) <= positional 10 (d :: ds).
Proof. intros H F N. cbn [positional]. pose proof (pos_bound ds F). unfold ten in H. nia. Qed.
Lemma canonical_det c c' z : canonical c z -> canonical c' z -> c = c'.
Proof.
  intros [(N & ds & F & E) H] [(N' & ds' & F' & E') H']. apply digits_ten in F as [T ->]. apply digits_ten in F' as [T' ->].
  assert (G : forall ds, Forall ten ds -> (map (fun d => 48 + d) ds = [48] \/ exists d r, map (fun d => 48 + d) ds = d :: r /\ d <> 48) ->
    ds = [0] \/ exists d r, ds = d :: r /\ d <> 0).
  { clear. intros ds T [H|(d & r & H & Hd)].
    - left. destruct ds as [|x [|y ds]]; try discriminate. cbn [map] in H. assert (48 + x = 48) by congruence. f_equal. lia.
    - right. destruct ds as [|x ds]; [discriminate|]. cbn [map] in H. assert (d = 48 + x) by congruence. exists x, ds. split; auto. lia. }
  apply G in H; auto. apply G in H'; auto. f_equal. destruct H as [->|(d & r & -> & Hd)], H' as [->|(d' & r' & -> & Hd')]; auto.
  - inversion T'; subst. pose proof (lead_bound d' r' H1 H2 Hd'). assert (0 < 10 ^ Z.of_nat (length r')) by (apply Z.pow_pos_nonneg; lia). simpl in E'. simpl positional in *. lia.
  - inversion T; subst. pose proof (lead_bound d r H1 H2 Hd). assert (0 < 10 ^ Z.of_nat (length r)) by (apply Z.pow_pos_nonneg; lia). simpl positional in *. lia.
  - apply pos_inj; auto; [|congruence]. inversion T; inversion T'; subst. pose proof (lead_bound d r H1 H2 Hd). pose proof (lead_bound d' r' H5 H6 Hd').
    pose proof (pos_bound _ T) as B. pose proof (pos_bound _ T') as B'. cbn [length] in *. rewrite Nat2Z.inj_succ in B, B'. rewrite E' in *.
    destruct (Nat.lt_trichotomy (length r) (length r')) as [L|[L|L]]; [exfalso| congruence|exfalso].
    + assert (10 ^ Z.succ (Z.of_nat (length r)) <= 10 ^ Z.of_nat (length r')) by (apply Z.pow_le_mono_r; lia). lia.
    + assert (10 ^ Z.succ (Z.of_nat (length r')) <= 10 ^ Z.of_nat (length r)) by (apply Z.pow_le_mono_r; lia). lia.
Qed.
Lemma field_text_det ff v t t' : field_text ff v t -> field_text ff v t' -> t = t'.
Proof.
  intros H H'. destruct H as [s|z c I|z c C|x]; inversion H' as [|z' c' I'|z' c' C'|]; subst; auto.
  - destruct I as [[P C]|[P (d & -> & C)]], I' as [[P' C']|[P' (d' & -> & C')]]; try lia; [eapply canonical_det; eauto|f_equal; eapply canonical_det; eauto].
  - eapply canonical_det; eauto.
Qed.
Lemma cell_of_det ff fields vals name t t' : separate fields -> cell_of ff fields vals name t -> cell_of ff fields vals name t' -> t = t'.
Proof.
  intros Sep [(i & f & v & Hf & Hv & W & O & T)|(-> & N)] [(i' & f' & v' & Hf' & Hv' & W' & O' & T')|(-> & N')]; auto.
  - assert (i' = i) by (eapply (Sep i' i f' f); eauto). subst i'. assert (v' = v) by congruence. subst v'. eapply field_text_det; eauto.
  - exfalso. apply (N' f); auto. eapply nth_error_In; eauto.
  - exfalso. apply (N f'); auto. eapply nth_error_In; eauto.
Qed.
Lemma forall2_det {A B} (R : A -> B -> Prop) l : (forall x y y', In x l -> R x y -> R x y' -> y = y') -> forall m m', Forall2 R l m -> Forall2 R l m' -> m = m'.
Proof.
  induction l as [|x l IH]; intros D m m' H H'; inversion H; inversion H'; subst; auto. f_equal; [eapply D; eauto; left; reflexivity|]. apply IH; auto. intros. eapply D; eauto. right. auto.
Qed.
Lemma marshal_any_order ff order order' cols fields rows : any_order order -> any_order order' -> NoDup (names fields) -> NoDup cols -> separate fields ->
  (forall f, In f fields -> written f -> In (column_name f) cols) -> Forall (Forall2 (fun f v => fits (fd_kind f) v) fields) rows ->
  Marshal ff order cols fields rows = Marshal ff order' cols fields rows.
Proof.
  intros O O' Nn Nc Sep Cov Fit. destruct (marshal_ok ff order cols fields rows) as (cells & -> & H); auto. destruct (marshal_ok ff order' cols fields rows) as (cells' & -> & H'); auto.
  f_equal. f_equal. eapply forall2_det; [|exact H|exact H']. intros vals r r' _ Hr Hr'. cbv beta in *. eapply forall2_det; [|exact Hr|exact Hr']. intros name t t' _. apply cell_of_det. exact Sep.
Qed.

(** ** No panic *)
Lemma map_of_in {A} (l : list (bytes * A)) k v : In (k, v) (map_of l) -> In (k, v) l.
Proof.
  unfold map_of. assert (G : forall l acc, In (k, v) (fold_left (fun m p => map_set m (fst p) (snd p)) l acc) -> In (k, v) l \/ In (k, v) acc).
  { clear. induction l as [|[k' v'] l IH]; intros acc H; [auto|]. cbn [fold_left fst snd] in H. apply IH in H as [H|H]; [left; right; auto|].
    unfold map_set in H. destruct H as [H|H]; [left; left; auto|]. apply filter_In in H as [H _]. auto. }
  intros H. apply G in H as [H|[]]. exact H.
Qed.
Lemma columns_lt cols c j : map_get (columns_of cols) c = Some j -> (j < length cols)%nat.
Proof.
  intros H. assert (I : In (c, j) (columns_of cols)).
  { revert H. generalize (columns_of cols). induction g as [|[k v] g IH]; [discriminate|]. cbn [map_get]. destruct (bytes_eqb k c) eqn:E; [|intros H; right; auto].
    intros H. injection H as ->. apply bytes_eqb_eq in E. subst k. left. reflexivity. }
  apply map_of_in in I. apply combine_seq in I as [_ I]. rewrite Nat.sub_0_r in I. apply nth_error_Some. congruence.
Qed.
Lemma fill_row_total ff cols fields vals todo : cols <> [] -> NoDup (names fields) -> Forall2 (fun f v => fits (fd_kind f) v) fields vals ->
  (forall k v, In (k, v) todo -> exists f, In f fields /\ k = fd_name f) -> forall buf, length buf = length cols ->
  exists r, fill_row ff (columns_of cols) (types fields) fields vals todo buf = Ok r /\ length r = length cols.
Proof.
  intros Ne Nn Fit. induction todo as [|kv todo IH]; intros T buf L; [cbn [fill_row]; eauto|]. destruct kv as [k v]. cbn [fill_row].
  destruct (T k v (or_introl eq_refl)) as (f & Hf & ->). apply In_nth_error in Hf as (i & Hf). destruct (vals_at fields vals Fit i f Hf) as (x & Hx & Hfit).
  rewrite (type_of fields Nn i f Hf), (by_name fields vals i f x Nn Hf Hx). assert (T' : forall k v, In (k, v) todo -> exists f, In f fields /\ k = fd_name f) by (intros; eapply T; right; eauto).
  destruct (kind_dec f) as [W|W].
  - destruct (render_ok ff f x Hfit W) as (t & -> & _).
    assert (Lt : (match map_get (columns_of cols) v with Some i0 => i0 | None => 0 end < length buf)%nat).
    { rewrite L. destruct (map_get (columns_of cols) v) eqn:E; [eapply columns_lt; eauto|]. destruct cols; [congruence|simpl; lia]. }
    apply Nat.ltb_lt in Lt as Lt'. rewrite Lt'. apply IH; auto. rewrite upd_length; auto.
  - assert (R : render ff (fd_kind f) x = Ok None). { unfold written in W. destruct (fd_kind f); try (exfalso; apply W; discriminate). reflexivity. }
    rewrite R. apply IH; auto.
Qed.
Lemma marshal_total ff order cols fields rows : any_order order -> cols <> [] -> NoDup (names fields) ->
  Forall (Forall2 (fun f v => fits (fd_kind f) v) fields) rows -> exists s, Marshal ff order cols fields rows = Ok s.
Proof.
  intros O Ne Nn Fit. unfold Marshal. set (mp := map_of _). fold (types fields).
  assert (G : forall i, exists cells, marshal_rows ff order (columns_of cols) mp (types fields) (length cols) fields i rows = Ok cells).
  { induction Fit as [|vals rows Hv _ IH]; intros i; [exists []; reflexivity|]. cbn [marshal_rows].
    match goal with |- context [repeat ?x ?m] => destruct (fill_row_total ff cols fields vals (order i mp) Ne Nn Hv) with (buf := repeat x m) as (r & -> & _) end; [|apply repeat_length|].
    - intros k v I. apply (Permutation_in _ (Permutation_sym (O i mp))) in I. apply map_of_in in I. apply in_map_iff in I as (f & E & Hf). injection E as <- _. eauto.
    - destruct (IH (S i)) as (rest & ->). eauto. }
  destruct (G 0%nat) as (cells & ->). eauto.
Qed.
Lemma named_in fields n : In n (names fields) -> exists f, field_named fields n = Some f /\ In f fields.
Proof.
  induction fields as [|g fields IH]; [intros []|]. intros [H|H]; cbn [field_named].
  - subst n. replace (bytes_eqb (fd_name g) (fd_name g)) with true by (symmetry; apply bytes_eqb_eq; reflexivity). exists g. split; auto. left. reflexivity.
  - destruct (bytes_eqb (fd_name g) n); [exists g; split; auto; left; reflexivity|]. destruct (IH H) as (f & E & I). exists f. split; auto. right. auto.
Qed.
Lemma load_total pf narrow f w : (fd_exported f = true \/ ~ written f) -> exists r, load_cell pf narrow f w = Ok r.
Proof.
  unfold load_cell, written. intros H. destruct (fd_exported f).
  - destruct (fd_kind f); [|destruct (parse_int w 10)|destruct (parse_uint w 10)|destruct (pf w)|]; eauto.
  - destruct H as [H|H]; [discriminate|]. destruct (fd_kind f); try (exfalso; apply H; discriminate). eauto.
Qed.
Lemma fill_struct_total pf narrow header fields row todo : (forall f, In f fields -> fd_exported f = true \/ ~ written f) -> (length header <= length row)%nat ->
  (forall k n, In (k, n) todo -> In n (names fields) /\ exists j, map_get (columns_of header) k = Some j) ->
  forall vals, exists r, fill_struct pf narrow (columns_of header) fields row todo vals = Ok r.
Proof.
  intros X L. induction todo as [|[k n] todo IH]; intros T vals; [cbn [fill_struct]; eauto|]. cbn [fill_struct].
  destruct (T k n (or_introl eq_refl)) as [Hn (j & Hj)]. destruct (named_in fields n Hn) as (f & -> & Hf). rewrite Hj.
  destruct (nth_error row j) as [w|] eqn:Ew; [|apply nth_error_None in Ew; apply columns_lt in Hj; lia].
  assert (T' : forall k n, In (k, n) todo -> In n (names fields) /\ exists j, map_get (columns_of header) k = Some j) by (intros; eapply T; right; eauto).
  destruct (load_total pf narrow f w (X f Hf)) as ([e|[x|]] & ->); eauto.
Qed.
Lemma unmarshal_total pf narrow order fields header data : any_order order -> (forall f, In f fields -> fd_exported f = true \/ ~ written f) ->
  Forall (fun row => (length header <= length row)%nat) data -> exists r, from_table pf narrow order fields (header :: data) = Ok r.
Proof.
  intros O X L. unfold from_table. destruct data as [|r0 data0]; [eauto|]. revert L. generalize (r0 :: data0) as data. clear r0 data0. intros data L. set (mp := map_of _).
  assert (G : forall i, exists r, fill_structs pf narrow order (columns_of header) mp fields i data = Ok r).
  { induction L as [|row data Hr _ IH]; intros i; [cbn [fill_structs]; eauto|]. cbn [fill_structs].
    destruct (fill_struct_total pf narrow header fields row (order i mp) X Hr) with (vals := map (fun f => zero_val (fd_kind f)) fields) as (r & ->).
    - intros k n I. apply (Permutation_in _ (Permutation_sym (O i mp))) in I. apply map_of_in in I. apply in_map_iff in I as ((k' & f) & E & I). cbn [fst snd] in E. injection E as <- <-.
      unfold mapping_pairs in I. apply in_flat_map in I as (g & Hg & I). destruct (map_get (columns_of header) (fd_tag g)) eqn:Et; [|destruct (map_get (columns_of header) (fd_name g)) eqn:En; [|destruct I]];
        (destruct I as [I|[]]; injection I as <- <-; split; [apply in_map; exact Hg|eauto]).
    - destruct r as [e|vals]; [eauto|]. destruct (IH (S i)) as ([e|rest] & ->); eauto. }
  destruct (G 0%nat) as ([e|rows] & ->); eauto.
Qed.

(** ** The number of elements *)
Lemma fill_length pf narrow order columns mapping fields data : forall i rows,
  fill_structs pf narrow order columns mapping fields i data = Ok (inr rows) -> length rows = length data.
Proof.
  induction data as [|row data IH]; intros i rows H; cbn [fill_structs] in H; [injection H as <-; reflexivity|].
  match type of H with match ?q with _ => _ end = _ => destruct q as [[e|vals]| |]; try discriminate end.
  match type of H with match ?q with _ => _ end = _ => destruct q as [[e|rest]| |] eqn:E; try discriminate end.
  injection H as <-. cbn. f_equal. exact (IH _ _ E).
Qed.
Lemma unmarshal_rows pf narrow order fields s data n : Parse n s = Ok (inr data) ->
  ((length data < 2)%nat -> Unmarshal pf narrow n order fields s = Ok (inr None)) /\
  (Unmarshal pf narrow n order fields s = Ok (inr None) -> (length data < 2)%nat) /\
  (forall rows, Unmarshal pf narrow n order fields s = Ok (inr (Some rows)) -> length data = S (length rows) /\ rows <> []).
Proof.
  intros P. unfold Unmarshal. rewrite P. destruct data as [|header [|r data]]; cbn [from_table length].
  - split; [auto|]. split; [intros _; lia|discriminate].
  - split; [auto|]. split; [intros _; lia|discriminate].
  - split; [lia|]. match goal with |- context [fill_structs ?a ?b ?c ?d ?e ?f ?g ?h] => destruct (fill_structs a b c d e f g h) as [[er|rows]| |] eqn:E end;
      (split; [discriminate|]); intros rows' H; try discriminate. injection H as <-. apply fill_length in E. cbn in E. split; [lia|]. destruct rows; discriminate.
Qed.
