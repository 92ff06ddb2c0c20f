(** Lemmas for C75. *)
From Verif Require Import L_Obj.
From Verif Require Export S_DeepMem.

(** ** Addresses *)
Lemma nats_eqb_eq p q : list_eqb Nat.eqb p q = true <-> p = q.
Proof.
  revert q. induction p as [|a p IH]; intros [|b q]; cbn; try (split; congruence). rewrite andb_true_iff, Nat.eqb_eq, IH.
  split; [intros [-> ->]; reflexivity|intros E; injection E; auto].
Qed.
Lemma daddr_eqb_eq x y : daddr_eqb x y = true <-> x = y.
Proof.
  destruct x as [[a i] p], y as [[b j] q]. cbn. rewrite !andb_true_iff, !Nat.eqb_eq, nats_eqb_eq.
  split; [intros [[-> ->] ->]; reflexivity|intros E; injection E; auto].
Qed.
Lemma visited_in seen x y : visited seen x y = true <-> In (x, y) seen \/ In (y, x) seen.
Proof.
  unfold visited. rewrite existsb_exists. split.
  - intros ([u v] & I & E). cbn in E. rewrite orb_true_iff, !andb_true_iff, !daddr_eqb_eq in E. destruct E as [[-> ->]|[-> ->]]; auto.
  - intros [I|I]; [exists (x, y)|exists (y, x)]; (split; [exact I|]); cbn; rewrite orb_true_iff, !andb_true_iff, !daddr_eqb_eq; auto.
Qed.

(** ** Fuel *)
Lemma dall_more f g l : (forall seen x y r, f seen x y = Some r -> g seen x y = Some r) -> forall seen r, dall f seen l = Some r -> dall g seen l = Some r.
Proof.
  intros H. induction l as [|[x y] l IH]; intros seen r E; cbn in *; auto. destruct (f seen x y) as [[s1 b]|] eqn:E1; [|discriminate].
  rewrite (H _ _ _ _ E1). destruct b; auto.
Qed.
Lemma deq_more s f : forall g seen x y r, (f <= g)%nat -> deq f s seen x y = Some r -> deq g s seen x y = Some r.
Proof.
  induction f as [|f IH]; intros [|g] seen x y r L E; cbn [deq] in *; try discriminate; try lia.
  destruct (node_at s x) as [n|]; auto. destruct (node_at s y) as [m|]; auto. destruct (dhard n && dhard m && visited seen x y); auto.
  cbv zeta in *. set (seen1 := if dhard n && dhard m then (x, y) :: seen else seen) in *. clearbody seen1.
  destruct n as [v|[[t b]|]|[[[a o] l]|]|l], m as [w|[[t' b']|]|[[[a' o'] l']|]|l']; auto.
  - destruct (Nat.eqb t t'); auto. apply IH; [lia|exact E].
  - destruct (Nat.eqb l l'); auto. destruct (Nat.eqb a a' && Nat.eqb o o'); auto. eapply dall_more; [|exact E]. intros. apply IH; [lia|assumption].
  - destruct (Nat.eqb (length l) (length l')); auto. eapply dall_more; [|exact E]. intros. apply IH; [lia|assumption].
Qed.
Lemma dall_incl f l : (forall seen x y seen' b, f seen x y = Some (seen', b) -> incl seen seen') -> forall seen seen' b, dall f seen l = Some (seen', b) -> incl seen seen'.
Proof.
  intros H. induction l as [|[x y] l IH]; intros seen seen' b E; cbn in *; [injection E as <- <-; apply incl_refl|].
  destruct (f seen x y) as [[s1 [|]]|] eqn:E1; [|injection E as <- <-|discriminate]; [|eapply H; eauto].
  eapply incl_tran; [eapply H; eauto|eapply IH; eauto].
Qed.
Lemma deq_incl s f : forall seen x y seen' b, deq f s seen x y = Some (seen', b) -> incl seen seen'.
Proof.
  induction f as [|f IH]; intros seen x y seen' b E; cbn [deq] in E; [discriminate|].
  destruct (node_at s x) as [n|]; [|injection E as <- <-; apply incl_refl]. destruct (node_at s y) as [m|]; [|injection E as <- <-; apply incl_refl].
  destruct (dhard n && dhard m && visited seen x y); [injection E as <- <-; apply incl_refl|].
  cbv zeta in E. assert (I : incl seen (if dhard n && dhard m then (x, y) :: seen else seen)) by (destruct (dhard n && dhard m); [apply incl_tl|]; apply incl_refl).
  set (seen1 := if dhard n && dhard m then (x, y) :: seen else seen) in *. clearbody seen1.
  assert (Q : incl seen1 seen' -> incl seen seen') by (intros; eapply incl_tran; eauto).
  destruct n as [v|[[t k]|]|[[[a o] l]|]|l], m as [w|[[t' k']|]|[[[a' o'] l']|]|l']; try (injection E as <- <-; exact I).
  - destruct (Nat.eqb t t'); [apply Q; eapply IH; eauto|injection E as <- <-; exact I].
  - destruct (Nat.eqb l l'); [|injection E as <- <-; exact I]. destruct (Nat.eqb a a' && Nat.eqb o o'); [injection E as <- <-; exact I|].
    apply Q. eapply dall_incl; [|exact E]. exact IH.
  - destruct (Nat.eqb (length l) (length l')); [|injection E as <- <-; exact I]. apply Q. eapply dall_incl; [|exact E]. exact IH.
Qed.

(** ** Termination *)
Fixpoint dpaths (n : dnode) : list (list nat) :=
  [] :: match n with
        | DStruct l => (fix go k l := match l with [] => [] | m :: r => map (cons k) (dpaths m) ++ go (S k) r end) 0%nat l
        | _ => []
        end.
Lemma dpaths_all p : forall n m, dfield n p = Some m -> In p (dpaths n).
Proof.
  induction p as [|k p IH]; intros n m E; [destruct n; left; reflexivity|]. cbn in E. destruct n as [| | |l]; try discriminate.
  destruct (nth_error l k) as [q|] eqn:Ek; [|discriminate]. right.
  cut (forall b l k, nth_error l k = Some q -> In (b + k :: p)%nat ((fix go k l := match l with [] => [] | m :: r => map (cons k) (dpaths m) ++ go (S k) r end) b l)).
  { intros H. apply (H 0%nat l k Ek). }
  clear Ek l k. intros b l. revert b. induction l as [|z l IHl]; intros b [|k] Ek; try discriminate; cbn in *.
  - injection Ek as ->. apply in_or_app. left. rewrite Nat.add_0_r. apply in_map. eapply IH; eauto.
  - apply in_or_app. right. replace (b + S k)%nat with (S b + k)%nat by lia. apply IHl. exact Ek.
Qed.
Definition daddrs (s : dstore) : list daddr :=
  flat_map (fun a => flat_map (fun i => map (fun p => (a, i, p)) (match nth_error (nth a s []) i with Some n => dpaths n | None => [] end)) (seq 0 (length (nth a s [])))) (seq 0 (length s)).
Lemma daddrs_all s x n : node_at s x = Some n -> In x (daddrs s).
Proof.
  destruct x as [[a i] p]. cbn. destruct (nth_error s a) as [l|] eqn:Ea; [|discriminate]. destruct (nth_error l i) as [m|] eqn:Ei; [|discriminate]. intros E.
  assert (El : nth a s [] = l) by (apply nth_error_nth; exact Ea).
  apply in_flat_map. exists a. split; [apply in_seq; split; [lia|apply nth_error_Some; congruence]|]. rewrite El.
  apply in_flat_map. exists i. split; [apply in_seq; split; [lia|apply nth_error_Some; congruence]|]. rewrite Ei. apply in_map. eapply dpaths_all; eauto.
Qed.
Definition unseen (s : dstore) (seen : visits) : nat :=
  length (filter (fun p => negb (visited seen (fst p) (snd p))) (list_prod (daddrs s) (daddrs s))).
Lemma filter_less {A} (f g : A -> bool) l : (forall a, g a = true -> f a = true) -> (length (filter g l) <= length (filter f l))%nat.
Proof. intros H. induction l as [|a l IH]; cbn; [lia|]. destruct (g a) eqn:G; [rewrite (H a G); cbn; lia|]. destruct (f a); cbn; lia. Qed.
Lemma filter_fewer {A} (f g : A -> bool) l a : (forall a, g a = true -> f a = true) -> In a l -> f a = true -> g a = false -> (length (filter g l) < length (filter f l))%nat.
Proof.
  intros H. induction l as [|b l IH]; cbn; intros I Fa Ga; [contradiction|]. destruct I as [->|I].
  - rewrite Fa, Ga. cbn. pose proof (filter_less f g l H). lia.
  - specialize (IH I Fa Ga). destruct (g b) eqn:G; [rewrite (H b G); cbn; lia|]. destruct (f b); cbn; lia.
Qed.
Lemma unseen_incl s seen seen' : incl seen seen' -> (unseen s seen' <= unseen s seen)%nat.
Proof.
  intros I. apply filter_less. intros [x y] H. cbn in *. rewrite negb_true_iff in *. destruct (visited seen x y) eqn:E; auto.
  apply visited_in in E. assert (visited seen' x y = true) by (apply visited_in; destruct E; [left|right]; auto). congruence.
Qed.
Lemma unseen_add s seen x y n m : node_at s x = Some n -> node_at s y = Some m -> visited seen x y = false -> (unseen s ((x, y) :: seen) < unseen s seen)%nat.
Proof.
  intros Ex Ey V. apply (filter_fewer _ _ _ (x, y)).
  - intros [u v] H. cbn [fst snd] in *. rewrite negb_true_iff in *. destruct (visited seen u v) eqn:E; auto. apply visited_in in E.
    assert (visited ((x, y) :: seen) u v = true) by (apply visited_in; destruct E; [left|right]; right; assumption). congruence.
  - apply in_prod; eapply daddrs_all; eauto.
  - cbn. rewrite V. reflexivity.
  - cbn [fst snd]. rewrite negb_false_iff. apply visited_in. left. left. reflexivity.
Qed.
Lemma dall_ends s l : forall seen, (forall seen' x y, incl seen seen' -> In (x, y) l -> exists f r, deq f s seen' x y = Some r) -> exists f r, dall (deq f s) seen l = Some r.
Proof.
  induction l as [|[x y] l IH]; intros seen H; [exists 0%nat; eexists; reflexivity|].
  destruct (H seen x y (incl_refl _) (or_introl eq_refl)) as (f & [s1 b] & E). destruct b.
  - destruct (IH s1) as (g & r & G). { intros seen' u v I J. apply H; [eapply incl_tran; [eapply deq_incl; eauto|exact I]|right; exact J]. }
    exists (f + g)%nat, r. cbn. rewrite (deq_more s f (f + g) _ _ _ _ ltac:(lia) E). eapply dall_more; [|exact G]. intros. eapply deq_more; [|eassumption]. lia.
  - exists f. eexists. cbn. rewrite E. reflexivity.
Qed.
Fixpoint dsize (n : dnode) : nat := match n with DStruct l => S (list_sum (map dsize l)) | _ => 1%nat end.
Lemma node_sub s x l k m : node_at s x = Some (DStruct l) -> nth_error l k = Some m -> node_at s (dsub x k) = Some m.
Proof.
  destruct x as [[a i] p]. cbn. destruct (nth_error s a) as [r|]; [|discriminate]. destruct (nth_error r i) as [n|]; [|discriminate].
  revert n. induction p as [|j p IH]; intros n E Ek; cbn in *; [injection E as ->; rewrite Ek; reflexivity|].
  destruct n as [| | |l']; try discriminate. destruct (nth_error l' j); [|discriminate]. apply IH; assumption.
Qed.
Lemma node_sub_some s x l k n : node_at s x = Some (DStruct l) -> node_at s (dsub x k) = Some n -> nth_error l k = Some n.
Proof.
  destruct x as [[a i] p]. cbn. destruct (nth_error s a) as [r|]; [|discriminate]. destruct (nth_error r i) as [z|]; [|discriminate].
  revert z. induction p as [|j p IH]; intros z E Ek; cbn in *; [injection E as ->; destruct (nth_error l k); congruence|].
  destruct z as [| | |l']; try discriminate. destruct (nth_error l' j); [|discriminate]. eapply IH; eassumption.
Qed.
Lemma in_fields x y n u v : In (u, v) (field_pairs x y n) -> exists k, (k < n)%nat /\ u = dsub x k /\ v = dsub y k.
Proof. unfold field_pairs. rewrite in_map_iff. intros (k & E & I). injection E as <- <-. apply in_seq in I. exists k. split; [lia|auto]. Qed.
Lemma fields_in x y n k : (k < n)%nat -> In (dsub x k, dsub y k) (field_pairs x y n).
Proof. intros L. unfold field_pairs. apply in_map_iff. exists k. split; [reflexivity|apply in_seq; lia]. Qed.
Lemma in_elems a o b p n u v : In (u, v) (elem_pairs a o b p n) -> exists k, (k < n)%nat /\ u = (a, (o + k)%nat, []) /\ v = (b, (p + k)%nat, []).
Proof. unfold elem_pairs. rewrite in_map_iff. intros (k & E & I). injection E as <- <-. apply in_seq in I. exists k. split; [lia|auto]. Qed.
Lemma elems_in a o b p n k : (k < n)%nat -> In ((a, (o + k)%nat, []), (b, (p + k)%nat, [])) (elem_pairs a o b p n).
Proof. intros L. unfold elem_pairs. apply in_map_iff. exists k. split; [reflexivity|apply in_seq; lia]. Qed.
Lemma sum_in l : forall k (m : dnode), nth_error l k = Some m -> (dsize m <= list_sum (map dsize l))%nat.
Proof. induction l as [|a l IH]; intros [|k] m E; try discriminate; change (list_sum (map dsize (a :: l))) with (dsize a + list_sum (map dsize l))%nat; cbn in E; [injection E as ->; lia|]. specialize (IH k m E). lia. Qed.
Lemma deq_ends s : forall N M seen x y, (unseen s seen <= N)%nat -> (match node_at s x with Some n => dsize n | None => 0 end <= M)%nat -> exists f r, deq f s seen x y = Some r.
Proof.
  induction N as [N IHN] using lt_wf_ind. induction M as [M IHM] using lt_wf_ind. intros seen x y LN LM.
  destruct (node_at s x) as [n|] eqn:Ex; [|exists 1%nat; eexists; cbn; rewrite Ex; reflexivity].
  destruct (node_at s y) as [m|] eqn:Ey; [|exists 1%nat; eexists; cbn; rewrite Ex, Ey; reflexivity].
  destruct (dhard n && dhard m && visited seen x y) eqn:Hv; [exists 1%nat; eexists; cbn [deq]; rewrite Ex, Ey, Hv; reflexivity|].
  assert (U : dhard n && dhard m = true -> (unseen s ((x, y) :: seen) < N)%nat).
  { intros H. rewrite H in Hv. cbn in Hv. pose proof (unseen_add s seen x y n m Ex Ey Hv). lia. }
  assert (easy : forall r, (forall f, deq (S f) s seen x y = Some r) -> exists f r, deq f s seen x y = Some r) by (intros r H; exists 1%nat, r; apply H).
  destruct n as [v|[[t b]|]|[[[a o] l]|]|l], m as [w|[[t' b']|]|[[[a' o'] l']|]|l'];
    try (eapply easy; intros f; cbn [deq]; rewrite Ex, Ey, Hv; reflexivity); cbn in U; try specialize (U eq_refl).
  - destruct (IHN _ U _ ((x, y) :: seen) (dcell b 0) (dcell b' 0) (le_n _) (le_n _)) as (f & r & E).
    destruct (Nat.eqb t t') eqn:Et; [exists (S f), r|exists 1%nat; eexists]; cbn [deq]; rewrite Ex, Ey, Hv; cbn [dhard andb]; rewrite Et; [exact E|reflexivity].
  - destruct (dall_ends s (elem_pairs a o a' o' l) ((x, y) :: seen)) as (f & r & E).
    { intros seen' u v I J. eapply IHN; [|apply le_n|apply le_n]. pose proof (unseen_incl s _ _ I). lia. }
    destruct (Nat.eqb l l') eqn:El; [|exists 1%nat; eexists; cbn [deq]; rewrite Ex, Ey, Hv; cbn [dhard andb]; rewrite El; reflexivity].
    destruct (Nat.eqb a a' && Nat.eqb o o') eqn:Ea; [exists 1%nat; eexists|exists (S f), r]; cbn [deq]; rewrite Ex, Ey, Hv; cbn [dhard andb]; rewrite El, Ea; [reflexivity|exact E].
  - destruct (Nat.eqb (length l) (length l')) eqn:El; [|exists 1%nat; eexists; cbn [deq]; rewrite Ex, Ey, Hv; cbn [dhard andb]; rewrite El; reflexivity].
    destruct (dall_ends s (field_pairs x y (length l)) seen) as (f & r & E).
    { intros seen' u v I J. apply in_fields in J. destruct J as (k & Lk & -> & ->).
      destruct (nth_error l k) as [q|] eqn:Eq; [|apply nth_error_None in Eq; lia].
      apply (IHM (dsize q)); [pose proof (sum_in l k q Eq); change (dsize (DStruct l)) with (S (list_sum (map dsize l))) in LM; lia| |rewrite (node_sub _ _ _ _ _ Ex Eq); lia].
      pose proof (unseen_incl s _ _ I). lia. }
    exists (S f), r. cbn [deq]. rewrite Ex, Ey. cbn [dhard andb]. rewrite El. exact E.
Qed.
Lemma deq_total s seen x y : exists f r, deq f s seen x y = Some r.
Proof. eapply deq_ends; apply le_n. Qed.

(** ** True answers *)
Inductive clos (s : dstore) (T : visits) : daddr -> daddr -> Prop :=
| cl_seen : forall x y, In (x, y) T \/ In (y, x) T -> clos s T x y
| cl_atom : forall x y v w, node_at s x = Some (DAtom v) -> node_at s y = Some (DAtom w) -> deep_eqb v w = true -> clos s T x y
| cl_nil : forall x y, node_at s x = Some (DIface None) -> node_at s y = Some (DIface None) -> clos s T x y
| cl_nils : forall x y, node_at s x = Some (DSlice None) -> node_at s y = Some (DSlice None) -> clos s T x y
| cl_struct : forall x y l l', node_at s x = Some (DStruct l) -> node_at s y = Some (DStruct l') -> length l = length l' ->
    (forall k, (k < length l)%nat -> clos s T (dsub x k) (dsub y k)) -> clos s T x y.
Lemma clos_more s T T' : incl T T' -> forall x y, clos s T x y -> clos s T' x y.
Proof.
  intros I x y H. induction H as [x y H| | | |x y l l' Ex Ey El _ IH]; [|eapply cl_atom; eauto|eapply cl_nil; eauto|eapply cl_nils; eauto|eapply cl_struct; eauto].
  apply cl_seen. destruct H; auto.
Qed.
Lemma clos_sym s T x y : clos s T x y -> clos s T y x.
Proof.
  intros H. induction H as [x y H|x y v w Ex Ey E| | |x y l l' Ex Ey El _ IH]; [apply cl_seen; tauto| |eapply cl_nil; eauto|eapply cl_nils; eauto|].
  - eapply cl_atom; eauto. rewrite (proj1 deep_sym). exact E.
  - eapply cl_struct; eauto. intros k Lk. apply IH. lia.
Qed.
Lemma alike_more s (R R' : daddr -> daddr -> Prop) x y : (forall u v, R u v -> R' u v) -> alike_at s R x y -> alike_at s R' x y.
Proof.
  intros H A. destruct A as [v w|A B|t b b'|A B|a o a' o' l Ex Ey D|l l'].
  - eapply al_atom; eauto.
  - apply al_nil; auto.
  - eapply al_iface; eauto.
  - apply al_nils; auto.
  - eapply al_slice; eauto. destruct D as [D|D]; [left; exact D|right; intros k L; apply H, D, L].
  - eapply al_struct; eauto.
Qed.
Lemma alike_sym s (R : daddr -> daddr -> Prop) x y : (forall u v, R u v -> R v u) -> alike_at s R x y -> alike_at s R y x.
Proof.
  intros H A. destruct A as [v w Ex Ey E|A B|t b b'|A B|a o a' o' l Ex Ey D|l l' Ex Ey El F].
  - eapply al_atom; eauto. rewrite (proj1 deep_sym). exact E.
  - apply al_nil; auto.
  - eapply al_iface; eauto.
  - apply al_nils; auto.
  - eapply al_slice; eauto. destruct D as [[-> ->]|D]; [left; auto|right; intros k L; apply H, D, L].
  - eapply al_struct; eauto. intros k L. apply H, F. lia.
Qed.
Definition good_visits (s : dstore) (seen seen' : visits) : Prop :=
  forall x y, In (x, y) seen' -> In (x, y) seen \/ alike_at s (clos s seen') x y.
Lemma good_trans_visits s a b c : incl b c -> good_visits s a b -> good_visits s b c -> good_visits s a c.
Proof.
  intros I G H x y J. destruct (H x y J) as [K|K]; [|auto]. destruct (G x y K) as [L|L]; auto. right. eapply alike_more; [|exact L]. apply clos_more. exact I.
Qed.
Lemma dall_sound s f l : (forall seen x y seen', deq f s seen x y = Some (seen', true) -> clos s seen' x y /\ good_visits s seen seen') ->
  forall seen seen', dall (deq f s) seen l = Some (seen', true) -> (forall x y, In (x, y) l -> clos s seen' x y) /\ good_visits s seen seen'.
Proof.
  intros H. induction l as [|[x y] l IH]; intros seen seen' E; cbn in E.
  { injection E as <-. split; [intros x y []|intros x y I; auto]. }
  destruct (deq f s seen x y) as [[s1 [|]]|] eqn:E1; try discriminate. destruct (H _ _ _ _ E1) as [C G]. destruct (IH _ _ E) as [D G2].
  assert (I : incl s1 seen') by (eapply dall_incl; [|exact E]; intros ? ? ? ? ? Q; eapply deq_incl; exact Q).
  split; [intros u v [J|J]; [injection J as <- <-; eapply clos_more; eauto|auto]|]. eapply good_trans_visits; eauto.
Qed.
Lemma deq_sound s f : forall seen x y seen', deq f s seen x y = Some (seen', true) -> clos s seen' x y /\ good_visits s seen seen'.
Proof.
  induction f as [|f IH]; intros seen x y seen' E; cbn [deq] in E; [discriminate|].
  destruct (node_at s x) as [n|] eqn:Ex; [|discriminate]. destruct (node_at s y) as [m|] eqn:Ey; [|discriminate].
  destruct (dhard n && dhard m && visited seen x y) eqn:Hv.
  { injection E as <-. rewrite !andb_true_iff in Hv. destruct Hv as [_ Hv]. apply visited_in in Hv. split; [apply cl_seen; exact Hv|intros u v I; auto]. }
  assert (same : good_visits s seen seen) by (intros u v I; auto).
  assert (add : forall T, incl ((x, y) :: seen) T -> good_visits s ((x, y) :: seen) T -> alike_at s (clos s T) x y -> clos s T x y /\ good_visits s seen T).
  { intros T I G A. split; [apply cl_seen; left; apply I; left; reflexivity|]. intros u v J. destruct (G u v J) as [[K|K]|K]; auto. injection K as <- <-. auto. }
  destruct n as [v|[[t b]|]|[[[a o] l]|]|l], m as [w|[[t' b']|]|[[[a' o'] l']|]|l']; cbn [dhard andb] in E; try discriminate.
  - injection E as <- E. split; [eapply cl_atom; eauto|exact same].
  - destruct (Nat.eqb_spec t t') as [<-|]; [|discriminate]. destruct (IH _ _ _ _ E) as [C G]. apply add; [eapply deq_incl; exact E|exact G|]. eapply al_iface; eauto.
  - injection E as <-. split; [apply cl_nil; auto|exact same].
  - destruct (Nat.eqb_spec l l') as [<-|]; [|discriminate]. destruct (Nat.eqb a a' && Nat.eqb o o') eqn:Ea.
    + injection E as <-. rewrite andb_true_iff, !Nat.eqb_eq in Ea. apply add; [apply incl_refl|intros u v I; auto|]. eapply al_slice; eauto.
    + destruct (dall_sound s f _ IH _ _ E) as [C G]. apply add; [eapply dall_incl; [|exact E]; intros ? ? ? ? ? Q; eapply deq_incl; exact Q|exact G|].
      eapply al_slice; eauto. right. intros k L. apply C. apply elems_in. exact L.
  - injection E as <-. split; [apply cl_nils; auto|exact same].
  - destruct (Nat.eqb_spec (length l) (length l')) as [El|]; [|discriminate]. destruct (dall_sound s f _ IH _ _ E) as [C G]. split; [|exact G].
    eapply cl_struct; eauto. intros k L. apply C. apply fields_in. exact L.
Qed.
Lemma deq_true s f x y seen : deq f s [] x y = Some (seen, true) -> deeply_at s x y.
Proof.
  intros E. destruct (deq_sound s f _ _ _ _ E) as [C G]. exists (clos s seen). split; [|exact C]. intros u v H.
  destruct H as [u v [I|I]|u v z w Ex Ey Ev|u v Ex Ey|u v Ex Ey|u v l l' Ex Ey El F].
  - destruct (G _ _ I) as [[]|A]. exact A.
  - destruct (G _ _ I) as [[]|A]. apply alike_sym; [apply clos_sym|exact A].
  - eapply al_atom; eauto.
  - apply al_nil; auto.
  - apply al_nils; auto.
  - eapply al_struct; eauto.
Qed.
Lemma dall_complete s f (R : daddr -> daddr -> Prop) l : (forall seen x y seen' b, R x y -> deq f s seen x y = Some (seen', b) -> b = true) ->
  (forall x y, In (x, y) l -> R x y) -> forall seen seen' b, dall (deq f s) seen l = Some (seen', b) -> b = true.
Proof.
  intros H. induction l as [|[x y] l IH]; intros HR seen seen' b E; cbn in E; [injection E; auto|].
  destruct (deq f s seen x y) as [[s1 c]|] eqn:E1; [|discriminate]. pose proof (H _ _ _ _ _ (HR x y (or_introl eq_refl)) E1). subst c.
  eapply IH; [|exact E]. intros u v I. apply HR. right. exact I.
Qed.
Lemma deq_complete s (R : daddr -> daddr -> Prop) : (forall u v, R u v -> alike_at s R u v) -> forall f seen x y seen' b, R x y -> deq f s seen x y = Some (seen', b) -> b = true.
Proof.
  intros B. induction f as [|f IH]; intros seen x y seen' b H E; cbn [deq] in E; [discriminate|].
  destruct (B x y H) as [v w Ex Ey Ev|Ex Ey|t p p' Ex Ey Hr|Ex Ey|a o a' o' l Ex Ey D|l l' Ex Ey El F]; rewrite Ex, Ey in E; cbn [dhard andb] in E.
  - injection E as _ <-. exact Ev.
  - injection E as _ <-. reflexivity.
  - destruct (visited seen x y); [injection E as _ <-; reflexivity|]. rewrite Nat.eqb_refl in E. eapply IH; [exact Hr|exact E].
  - injection E as _ <-. reflexivity.
  - destruct (visited seen x y); [injection E as _ <-; reflexivity|]. rewrite Nat.eqb_refl in E. destruct (Nat.eqb a a' && Nat.eqb o o') eqn:Ea; [injection E as _ <-; reflexivity|].
    destruct D as [[-> ->]|D]; [rewrite !Nat.eqb_refl in Ea; discriminate|]. eapply (dall_complete s f R); [intros ? ? ? ? ? Hr Q; eapply IH; [exact Hr|exact Q]| |exact E].
    intros u v I. apply in_elems in I. destruct I as (k & L & -> & ->). apply D. exact L.
  - rewrite El, Nat.eqb_refl in E. eapply (dall_complete s f R); [intros ? ? ? ? ? Hr Q; eapply IH; [exact Hr|exact Q]| |exact E].
    intros u v I. apply in_fields in I. destruct I as (k & L & -> & ->). apply F. lia.
Qed.
Lemma deq_exact s x y : exists f b, (forall g, (f <= g)%nat -> exists seen, deq g s [] x y = Some (seen, b)) /\ (b = true <-> deeply_at s x y).
Proof.
  destruct (deq_total s [] x y) as (f & [seen b] & E). exists f, b. split; [intros g L; exists seen; eapply deq_more; eauto|]. split.
  - intros ->. eapply deq_true; eauto.
  - intros (R & B & H). eapply deq_complete; eauto.
Qed.

(** ** Memory without cycles *)
Scheme unfolds_m := Minimality for unfolds Sort Prop with unfolds_all_m := Minimality for unfolds_all Sort Prop.
Combined Scheme unfolds_mut from unfolds_m, unfolds_all_m.
Lemma unfolds_once s : (forall n t, unfolds s n t -> forall t', unfolds s n t' -> t = t') /\ (forall ns ts, unfolds_all s ns ts -> forall ts', unfolds_all s ns ts' -> ts = ts').
Proof.
  apply unfolds_mut.
  - intros v t' H. inversion H; reflexivity.
  - intros t' H. inversion H; reflexivity.
  - intros t b n tr E _ IH t' H. inversion H as [| |? ? n' tr' E' U| | |]; subst. assert (n' = n) by congruence. subst. rewrite (IH _ U). reflexivity.
  - intros t' H. inversion H; reflexivity.
  - intros a i l ns trs E L _ IH t' H. inversion H as [| | | |? ? ? ns' trs' E' L' U|]; subst. assert (ns' = ns) by congruence. subst. rewrite (IH _ U). reflexivity.
  - intros l trs _ IH t' H. inversion H as [| | | | |? ? U]; subst. rewrite (IH _ U). reflexivity.
  - intros ts' H. inversion H; reflexivity.
  - intros n tr ns trs _ IH _ IHs ts' H. inversion H as [|? ? ? ? U V]; subst. rewrite (IH _ U), (IHs _ V). reflexivity.
Qed.
Lemma unfolds_all_length s ns ts : unfolds_all s ns ts -> length ts = length ns.
Proof. induction 1; cbn; congruence. Qed.
Lemma nth_part {A} (ns : list A) i l k : (k < l)%nat -> nth_error (firstn l (skipn i ns)) k = nth_error ns (i + k).
Proof.
  intros L. revert i l k L. induction ns as [|a ns IH]; intros i l k L.
  - rewrite skipn_nil, firstn_nil. destruct (i + k)%nat, k; reflexivity.
  - destruct i as [|i]; [|apply IH; exact L]. cbn [skipn Nat.add]. destruct l as [|l]; [lia|]. destruct k as [|k]; [reflexivity|]. cbn. apply (IH 0%nat l k). lia.
Qed.
Lemma tree_deep s (R : daddr -> daddr -> Prop) : (forall u v, R u v -> alike_at s R u v) ->
  (forall n t, unfolds s n t -> tree_same t t -> forall x y m t', node_at s x = Some n -> R x y -> node_at s y = Some m -> unfolds s m t' -> tree_same t t') /\
  (forall ns ts, unfolds_all s ns ts -> trees_same ts ts -> forall ms ts', length ns = length ms ->
     (forall k n m, nth_error ns k = Some n -> nth_error ms k = Some m -> exists x y, node_at s x = Some n /\ node_at s y = Some m /\ R x y) ->
     unfolds_all s ms ts' -> trees_same ts ts').
Proof.
  intros B. apply unfolds_mut.
  - intros v _ x y m t' Ex H Ey U. destruct (B _ _ H) as [v' w Ex' Ey' Ev|Ex' Ey'|t b b' Ex' Ey' Hr|Ex' Ey'|a o a' o' l Ex' Ey' D|l l' Ex' Ey' El F]; rewrite Ex in Ex'; try discriminate.
    injection Ex' as <-. rewrite Ey in Ey'. injection Ey' as ->. inversion U; subst. constructor. exact Ev.
  - intros _ x y m t' Ex H Ey U. destruct (B _ _ H) as [v' w Ex' Ey' Ev|Ex' Ey'|t b b' Ex' Ey' Hr|Ex' Ey'|a o a' o' l Ex' Ey' D|l l' Ex' Ey' El F]; rewrite Ex in Ex'; try discriminate.
    rewrite Ey in Ey'. injection Ey' as ->. inversion U; subst. constructor.
  - intros t b n tr E _ IH T x y m t' Ex H Ey U. destruct (B _ _ H) as [v' w Ex' Ey' Ev|Ex' Ey'|t0 p p' Ex' Ey' Hr|Ex' Ey'|a o a' o' l Ex' Ey' D|l l' Ex' Ey' El F]; rewrite Ex in Ex'; try discriminate.
    injection Ex' as <- <-. rewrite Ey in Ey'. injection Ey' as ->. inversion U as [| |? ? n' tr' E' U'| | |]; subst. constructor.
    inversion T; subst. eapply IH; eauto.
  - intros _ x y m t' Ex H Ey U. destruct (B _ _ H) as [v' w Ex' Ey' Ev|Ex' Ey'|t b b' Ex' Ey' Hr|Ex' Ey'|a o a' o' l Ex' Ey' D|l l' Ex' Ey' El F]; rewrite Ex in Ex'; try discriminate.
    rewrite Ey in Ey'. injection Ey' as ->. inversion U; subst. constructor.
  - intros a i l ns trs E L U0 IH T x y m t' Ex H Ey U. destruct (B _ _ H) as [v' w Ex' Ey' Ev|Ex' Ey'|t b b' Ex' Ey' Hr|Ex' Ey'|a1 o1 a2 o2 l1 Ex' Ey' D|l1 l' Ex' Ey' El F]; rewrite Ex in Ex'; try discriminate.
    injection Ex' as <- <- <-. rewrite Ey in Ey'. injection Ey' as ->. inversion U as [| | | |? ? ? ns' trs' E' L' U'|]; subst. constructor. inversion T as [| | | |? ? T'|]; subst.
    destruct D as [[<- <-]|D].
    + assert (ns' = ns) by congruence. subst. rewrite (proj2 (unfolds_once s) _ _ U' _ U0). exact T'.
    + eapply IH; [exact T'| | |exact U'].
      * rewrite !firstn_length, !skipn_length. lia.
      * intros k n m' En Em. assert (Lk : (k < l)%nat). { assert (Q : (k < length (firstn l (skipn i ns)))%nat) by (apply nth_error_Some; congruence). rewrite firstn_length in Q. lia. }
        rewrite nth_part in En, Em by exact Lk. exists (a, (i + k)%nat, []), (a2, (o2 + k)%nat, []). cbn. rewrite E, E', En, Em. cbn. auto.
  - intros l trs _ IH T x y m t' Ex H Ey U. destruct (B _ _ H) as [v' w Ex' Ey' Ev|Ex' Ey'|t b b' Ex' Ey' Hr|Ex' Ey'|a1 o1 a2 o2 l1 Ex' Ey' D|l1 l' Ex' Ey' El F]; rewrite Ex in Ex'; try discriminate.
    injection Ex' as <-. rewrite Ey in Ey'. injection Ey' as ->. inversion U as [| | | | |? ? U']; subst. constructor. inversion T as [| | | | |? ? T']; subst.
    eapply IH; [exact T'|exact El| |exact U']. intros k n m' En Em. exists (dsub x k), (dsub y k).
    split; [eapply node_sub; eauto|]. split; [eapply node_sub; eauto|]. apply F. apply nth_error_Some. congruence.
  - intros _ ms ts' L _ U. destruct ms; [|discriminate]. inversion U; subst. constructor.
  - intros n tr ns trs _ IH _ IHs T [|m ms] ts' L F U; [discriminate|]. inversion T; subst. inversion U; subst. constructor.
    + destruct (F 0%nat n m eq_refl eq_refl) as (x & y & Ex & Ey & H'). eapply IH; eauto.
    + match goal with H : trees_same trs trs, V : unfolds_all s ms _ |- _ => apply (IHs H ms _ ltac:(cbn in L; congruence)) end; [|assumption].
      intros k n' m' En Em. apply (F (S k) n' m' En Em).
Qed.
Lemma trees_same_nth l m : trees_same l m -> length l = length m /\ forall k a b, nth_error l k = Some a -> nth_error m k = Some b -> tree_same a b.
Proof.
  induction 1 as [|a b l m H _ [IH1 IH2]]; cbn; [split; [reflexivity|]; intros [|k]; discriminate|]. split; [congruence|].
  intros [|k] a' b' E E'; [cbn in E, E'; congruence|]. eapply IH2; eauto.
Qed.
Lemma unfolds_nth s ns ts : unfolds_all s ns ts -> forall k, (k < length ns)%nat -> exists n t, nth_error ns k = Some n /\ nth_error ts k = Some t /\ unfolds s n t.
Proof.
  induction 1 as [|n t ns ts U _ IH]; cbn; intros k L; [lia|]. destruct k as [|k]; [exists n, t; auto|]. apply IH. lia.
Qed.
Lemma tree_alike s x y n m t t' : node_at s x = Some n -> node_at s y = Some m -> unfolds s n t -> unfolds s m t' -> tree_same t t' -> deeply_at s x y.
Proof.
  intros Ex Ey U V T.
  exists (fun u v => exists n m t t', node_at s u = Some n /\ node_at s v = Some m /\ unfolds s n t /\ unfolds s m t' /\ tree_same t t').
  split; [|exists n, m, t, t'; auto 10]. clear. intros u v (n & m & t & t' & Ex & Ey & U & V & T).
  destruct U as [v1| |t1 b1 n1 tr1 E1 U1| |a i l ns trs E1 L1 U1|l trs U1]; inversion T as [? ? D| |? ? ? T'| |? ? T'|? ? T']; subst.
  - inversion V; subst. eapply al_atom; eauto.
  - inversion V; subst. apply al_nil; auto.
  - inversion V as [| |? b2 n2 ? E2 V2| | |]; subst. eapply al_iface; eauto. exists n1, n2, tr1, b. auto 10.
  - inversion V; subst. apply al_nils; auto.
  - inversion V as [| | | |a2 i2 l2 ns2 ? E2 L2 V2|]; subst. destruct (trees_same_nth _ _ T') as [Len Nth].
    assert (l2 = l). { pose proof (unfolds_all_length _ _ _ U1) as A. pose proof (unfolds_all_length _ _ _ V2) as A2. rewrite firstn_length, skipn_length in A, A2. lia. }
    subst l2. eapply al_slice; eauto. right. intros k Lk.
    destruct (unfolds_nth _ _ _ U1 k) as (n1 & t1 & A1 & A2 & A3); [rewrite firstn_length, skipn_length; lia|].
    destruct (unfolds_nth _ _ _ V2 k) as (n2 & t2 & B1 & B2 & B3); [rewrite firstn_length, skipn_length; lia|].
    rewrite nth_part in A1, B1 by exact Lk. exists n1, n2, t1, t2. cbn. rewrite E1, E2, A1, B1. cbn. split; [reflexivity|]. split; [reflexivity|]. eauto.
  - inversion V as [| | | | |l2 ? V2]; subst. destruct (trees_same_nth _ _ T') as [Len Nth].
    pose proof (unfolds_all_length _ _ _ U1) as A. pose proof (unfolds_all_length _ _ _ V2) as A2.
    eapply al_struct; eauto; [lia|]. intros k Lk.
    destruct (unfolds_nth _ _ _ U1 k Lk) as (n1 & t1 & C1 & C2 & C3). destruct (unfolds_nth _ _ _ V2 k) as (n2 & t2 & B1 & B2 & B3); [lia|].
    exists n1, n2, t1, t2. split; [eapply node_sub; eauto|]. split; [eapply node_sub; eauto|]. eauto.
Qed.
Lemma deep_tree s x y n m t t' : node_at s x = Some n -> node_at s y = Some m -> unfolds s n t -> unfolds s m t' -> tree_same t t ->
  (deeply_at s x y <-> tree_same t t').
Proof.
  intros Ex Ey U V T. split; [|eapply tree_alike; eauto]. intros (R & B & H). eapply (proj1 (tree_deep s R B)); eauto.
Qed.

(** ** The values of the model *)
Lemma trees_map {A} (f : A -> dtree) (g : A -> A -> bool) l : Forall (fun x => forall y, tree_same (f x) (f y) <-> g x y = true) l ->
  forall m, trees_same (map f l) (map f m) <-> list_eqb g l m = true.
Proof.
  induction 1 as [|x l Hx _ IH]; intros [|y m]; cbn; try (split; [intros H; inversion H|discriminate]).
  - split; [reflexivity|constructor].
  - rewrite andb_true_iff, <- Hx, <- IH. split; [intros H; inversion H; auto|intros [A1 A2]; constructor; auto].
Qed.
Lemma slice_map {A} (f : A -> dtree) (g : A -> A -> bool) l : Forall (fun x => forall y, tree_same (f x) (f y) <-> g x y = true) l ->
  forall m, tree_same (TrSlice (Some (map f l))) (TrSlice (Some (map f m))) <-> list_eqb g l m = true.
Proof. intros H m. rewrite <- (trees_map f g l H m). split; [intros T; inversion T; auto|constructor; auto]. Qed.
Lemma iface_same t a b : tree_same (TrIface (Some (t, a))) (TrIface (Some (t, b))) <-> tree_same a b.
Proof. split; [intros T; inversion T; auto|constructor; auto]. Qed.
Lemma iface_other t t' a b : t <> t' -> tree_same (TrIface (Some (t, a))) (TrIface (Some (t', b))) <-> false = true.
Proof. intros N. split; [intros T; inversion T; congruence|discriminate]. Qed.
Lemma iface_nil t a : tree_same (TrIface (Some (t, a))) (TrIface None) <-> false = true.
Proof. split; [intros T; inversion T|discriminate]. Qed.
Lemma nil_iface t a : tree_same (TrIface None) (TrIface (Some (t, a))) <-> false = true.
Proof. split; [intros T; inversion T|discriminate]. Qed.
Lemma atom_same v w : tree_same (TrAtom v) (TrAtom w) <-> deep_eqb v w = true.
Proof. split; [intros T; inversion T; auto|constructor; auto]. Qed.
Lemma struct_same l m : tree_same (TrStruct l) (TrStruct m) <-> trees_same l m.
Proof. split; [intros T; inversion T; auto|constructor; auto]. Qed.
Lemma cons_same a b l m : trees_same (a :: l) (b :: m) <-> tree_same a b /\ trees_same l m.
Proof. split; [intros T; inversion T; auto|intros [? ?]; constructor; auto]. Qed.
Lemma end_same : trees_same [] [] <-> True.
Proof. split; constructor. Qed.
Lemma bs_inj a : forall b, bs a = bs b -> a = b.
Proof.
  induction a as [|c a IH]; intros [|d b]; cbn; try discriminate; [reflexivity|]. intros E. injection E as E1 E2. apply N2Z.inj in E1.
  f_equal; [|apply IH; exact E2]. rewrite <- (ascii_N_embedding c), <- (ascii_N_embedding d), E1. reflexivity.
Qed.
Lemma ty_code_eqb a b : Nat.eqb (ty_code a) (ty_code b) = asttype_eqb a b.
Proof. destruct a, b; reflexivity. Qed.
Lemma tree_deep_eqb : (forall v w, tree_same (tree_of v) (tree_of w) <-> deep_eqb v w = true) /\
  (forall a b, tree_same (tree_of_ast a) (tree_of_ast b) <-> deep_eqb_ast a b = true).
Proof.
  apply ast_value_ind; intros;
    try (destruct w; cbn [tree_of];
         match goal with
         | |- tree_same (TrIface (Some _)) (TrIface None) <-> _ => apply iface_nil
         | |- tree_same (TrIface None) (TrIface (Some _)) <-> _ => apply nil_iface
         | |- tree_same (TrIface None) (TrIface None) <-> _ => split; [reflexivity|constructor]
         | |- tree_same (TrIface (Some (dt_of (?f _), _))) (TrIface (Some (dt_of (?f _), _))) <-> _ => cbn [dt_of]; rewrite iface_same
         | |- tree_same (TrIface (Some (dt_of (?f _ _), _))) (TrIface (Some (dt_of (?f _ _), _))) <-> _ => cbn [dt_of]; rewrite iface_same
         | _ => apply iface_other; discriminate
         end); try apply atom_same.
  - rewrite struct_same, !cons_same, end_same, H, H0. cbn. rewrite andb_true_iff. tauto.
  - apply slice_map. exact H.
  - apply H.
  - apply slice_map. exact H.
  - apply slice_map. apply Forall_all. intros x y. apply atom_same.
  - apply slice_map. apply Forall_all. intros x y. apply slice_map. apply Forall_all. intros u v. apply atom_same.
  - destruct b as [o' cls' ty' v' p']. cbn [tree_of_ast]. rewrite struct_same, !cons_same, end_same, struct_same, !cons_same, end_same, !atom_same, H.
    cbn [deep_eqb deep_eqb_ast]. unfold sp_eqb. rewrite !andb_true_iff, ty_code_eqb, !Z.eqb_eq, bytes_eqb_iff, String.eqb_eq, !Nat.eqb_eq, !Nat2Z.inj_iff.
    assert (E : bs cls = bs cls' <-> cls = cls') by (split; [apply bs_inj|congruence]). rewrite E. 
    assert (N : tree_same (TrIface None) (TrIface None) <-> True) by (split; constructor). rewrite N. tauto.
Qed.
Lemma DeepEqual_value s u u' v w : unfolds s (DIface u) (tree_of v) -> unfolds s (DIface u') (tree_of w) -> deep_eqb v v = true ->
  exists f, forall g, (f <= g)%nat -> DeepEqual g s u u' = Ok (deep_eqb v w).
Proof.
  intros U V D. rewrite <- (proj1 tree_deep_eqb v v) in D. pose proof (proj1 tree_deep_eqb v w) as I.
  destruct (tree_of v) as [|o1| |]; inversion U as [| |t b n tr E U1| | |]; subst; destruct (tree_of w) as [|o2| |]; inversion V as [| |t' b' n' tr' E' V1| | |]; subst.
  - exists 0%nat. intros g _. cbn. f_equal. symmetry. apply I. constructor.
  - exists 0%nat. intros g _. cbn. f_equal. symmetry. destruct (deep_eqb v w); [|reflexivity]. assert (T : tree_same (TrIface None) (TrIface (Some (t', tr')))) by (apply I; reflexivity). inversion T.
  - exists 0%nat. intros g _. cbn. f_equal. symmetry. destruct (deep_eqb v w); [|reflexivity]. assert (T : tree_same (TrIface (Some (t, tr))) (TrIface None)) by (apply I; reflexivity). inversion T.
  - destruct (Nat.eqb_spec t t') as [<-|N].
    + destruct (deq_exact s (b, 0%nat, []) (b', 0%nat, [])) as (f & r & F & R). exists f. intros g L. cbn [DeepEqual]. rewrite Nat.eqb_refl.
      destruct (F g L) as [seen Q]. unfold dcell. rewrite Q. f_equal. apply bool_iff_eq. rewrite R, <- I, iface_same. inversion D; subst.
      eapply deep_tree; eauto.
    + exists 0%nat. intros g _. cbn [DeepEqual]. rewrite (proj2 (Nat.eqb_neq t t') N). f_equal. symmetry. destruct (deep_eqb v w); [|reflexivity].
      assert (T : tree_same (TrIface (Some (t, tr))) (TrIface (Some (t', tr')))) by (apply I; reflexivity). inversion T; congruence.
Qed.
Lemma unfolds_ast s n a : unfolds s n (tree_of_ast a) -> exists x0 v x4 x5,
  n = DStruct [x0; DAtom (VStr (bs (a_cls a))); DAtom (VOther (ty_code (a_ty a))); DIface v; x4; x5] /\ unfolds s (DIface v) (tree_of (a_val a)).
Proof.
  destruct a as [op cls ty v p]. cbn [tree_of_ast a_cls a_ty a_val]. intros U. inversion U as [| | | | |l trs U0]; subst.
  repeat match goal with H : unfolds_all _ _ (_ :: _) |- _ => inversion H; clear H; subst | H : unfolds_all _ _ [] |- _ => inversion H; clear H; subst end.
  repeat match goal with H : unfolds _ ?n (TrAtom _) |- _ => inversion H; clear H; subst end.
  match goal with H : unfolds _ ?x (tree_of v) |- _ => assert (exists u, x = DIface u) as [u ->] by (destruct v; inversion H; eauto) end.
  do 4 eexists. split; [reflexivity|]. assumption.
Qed.
Lemma eq_all_ok s l m : forall ns ms, unfolds_all s ns (map tree_of_ast l) -> unfolds_all s ms (map tree_of_ast m) -> length l = length m ->
  Forall (fun a => forall b n m, unfolds s n (tree_of_ast a) -> unfolds s m (tree_of_ast b) -> deep_eqb_ast a a = true ->
            exists f, forall g, (f <= g)%nat -> mem_equals g s n m = of_answer (ast_equals a b)) l ->
  list_eqb deep_eqb_ast l l = true ->
  exists f, forall g, (f <= g)%nat -> eq_all (mem_equals g s) ns ms = of_answer (eq_loop ast_equals l m).
Proof.
  revert m. induction l as [|a l IH]; intros [|b m] ns ms U V L F D; try discriminate; inversion U as [|x t ns' ts X U']; subst; inversion V as [|y t' ms' ts' Y V']; subst.
  - exists 0%nat. reflexivity.
  - inversion F as [|? ? Fa Fl]; subst. cbn [list_eqb] in D. apply andb_prop in D. destruct D as [Da Dl].
    destruct (Fa b x y X Y Da) as [f1 F1]. destruct (IH m ns' ms' U' V' ltac:(cbn in L; lia) Fl Dl) as [f2 F2].
    exists (Nat.max f1 f2). intros g Lg. cbn [eq_all eq_loop]. rewrite F1 by lia. destruct (ast_equals a b) as [[|]|]; cbn [of_answer and_then]; [|reflexivity|reflexivity].
    apply F2. lia.
Qed.
Lemma unfolds_slice s n trs : unfolds s n (TrSlice (Some trs)) -> exists a i l, n = DSlice (Some (a, i, l)) /\ unfolds_all s (delems s (Some (a, i, l))) trs.
Proof. intros U. inversion U as [| | | |a i l ns trs' E L U'|]; subst. exists a, i, l. split; [reflexivity|]. cbn. erewrite nth_error_nth; eauto. Qed.
Lemma unfolds_iface_some s u t tr : unfolds s (DIface u) (TrIface (Some (t, tr))) -> exists b n, u = Some (t, b) /\ node_at s (dcell b 0) = Some n /\ unfolds s n tr.
Proof. intros U. inversion U; subst. eauto 6. Qed.
Lemma iface_kind s u v : unfolds s (DIface u) (tree_of v) -> v = VNil /\ u = None \/ exists b, u = Some (dt_of v, b).
Proof. intros U. destruct v; cbn [tree_of] in U; inversion U; subst; auto; right; eexists; reflexivity. Qed.
Lemma mem_equals_ok s a : forall b n m, unfolds s n (tree_of_ast a) -> unfolds s m (tree_of_ast b) -> deep_eqb_ast a a = true ->
  exists f, forall g, (f <= g)%nat -> mem_equals g s n m = of_answer (ast_equals a b).
Proof.
  induction a as [op cls ty v p IH] using ast_tree_ind. intros [op' cls' ty' v' p'] n m U V D.
  destruct (unfolds_ast _ _ _ U) as (x0 & u & x4 & x5 & -> & U1). destruct (unfolds_ast _ _ _ V) as (y0 & u' & y4 & y5 & -> & V1). clear U V.
  cbn [a_cls a_ty a_val] in *.
  assert (Dv : deep_eqb v v = true). { cbn [deep_eqb_ast] in D. rewrite !andb_true_iff in D. tauto. }
  assert (Ec : bytes_eqb (bs cls) (bs cls') = String.eqb cls cls').
  { apply bool_iff_eq. rewrite bytes_eqb_iff, String.eqb_eq. split; [apply bs_inj|congruence]. }
  destruct (String.eqb cls cls' && asttype_eqb ty ty') eqn:Et.
  2: { exists 1%nat. intros [|g] L; [lia|]. cbn [mem_equals ast_equals]. rewrite Ec, ty_code_eqb, Et. reflexivity. }
  assert (Case : ty = TAstCons \/ ty = TListOfAst \/ (ty <> TAstCons /\ ty <> TListOfAst)) by (destruct ty; auto; right; right; split; discriminate).
  destruct Case as [->|[->|[N1 N2]]].
  - assert (Go : forall g, mem_equals (S g) s (DStruct [x0; DAtom (VStr (bs cls)); DAtom (VOther (ty_code TAstCons)); DIface u; x4; x5])
                     (DStruct [y0; DAtom (VStr (bs cls')); DAtom (VOther (ty_code ty')); DIface u'; y4; y5]) =
        match u, u' with
        | Some (k, p), Some (k', p') => if Nat.eqb k dt_cons && Nat.eqb k' dt_cons then
            match node_at s (dcell p 0), node_at s (dcell p' 0) with
            | Some (DStruct [x; y]), Some (DStruct [x'; y']) => match mem_equals g s x x' with Ok true => mem_equals g s y y' | r => r end
            | _, _ => Panic "invalid memory"
            end else Panic "interface conversion"
        | _, _ => Panic "interface conversion" end) by (intros g; cbn [mem_equals]; rewrite Ec, ty_code_eqb, Et; reflexivity).
    assert (Bad : forall v v', match v, v' with VCons _ _, VCons _ _ => False | _, _ => True end ->
      unfolds s (DIface u) (tree_of v) -> unfolds s (DIface u') (tree_of v') ->
      match u, u' with Some (k, _), Some (k', _) => Nat.eqb k dt_cons && Nat.eqb k' dt_cons = false | _, _ => True end).
    { intros w w' W A1 A2. destruct (iface_kind _ _ _ A1) as [[_ ->]|[b ->]]; [exact I|]. destruct (iface_kind _ _ _ A2) as [[_ ->]|[b' ->]]; [exact I|].
      destruct w, w'; try reflexivity; contradiction. }
    destruct (match v, v' with VCons _ _, VCons _ _ => true | _, _ => false end) eqn:K.
    + destruct v; try discriminate. destruct v'; try discriminate. cbn [tree_of] in U1, V1.
      destruct (unfolds_iface_some _ _ _ _ U1) as (b1 & n1 & -> & E1 & T1). destruct (unfolds_iface_some _ _ _ _ V1) as (b2 & n2 & -> & E2 & T2).
      inversion T1 as [| | | | |l1 ? T1']; subst. inversion T2 as [| | | | |l2 ? T2']; subst.
      repeat match goal with H : unfolds_all _ _ (_ :: _) |- _ => inversion H; clear H; subst | H : unfolds_all _ _ [] |- _ => inversion H; clear H; subst end.
      cbn [deep_eqb] in Dv. apply andb_prop in Dv. destruct Dv as [D1 D2]. destruct IH as [IH1 IH2].
      edestruct IH1 as [f1 F1]; [eassumption| |exact D1|]; [match goal with H : unfolds s ?x (tree_of_ast car0) |- _ => exact H end|].
      edestruct IH2 as [f2 F2]; [eassumption| |exact D2|]; [match goal with H : unfolds s ?x (tree_of_ast cdr0) |- _ => exact H end|].
      exists (S (Nat.max f1 f2)). intros [|g] L; [lia|]. rewrite Go. cbn [dt_of]. rewrite Nat.eqb_refl. cbn [andb]. rewrite E1, E2, F1 by lia.
      cbn [ast_equals]. rewrite Et. destruct (ast_equals car car0) as [[|]|]; cbn [of_answer and_then]; try reflexivity. apply F2. lia.
    + assert (Q : match v, v' with VCons _ _, VCons _ _ => False | _, _ => True end) by (destruct v, v'; try exact I; discriminate).
      exists 1%nat. intros [|g] L; [lia|]. rewrite Go. specialize (Bad v v' Q U1 V1).
      assert (An : ast_equals (mkAst op cls TAstCons v p) (mkAst op' cls' ty' v' p') = None) by (cbn [ast_equals]; rewrite Et; destruct v, v'; try reflexivity; contradiction).
      rewrite An. destruct u as [[k b]|]; [|reflexivity]. destruct u' as [[k' b']|]; [|reflexivity]. rewrite Bad. reflexivity.
  - assert (Go : forall g, mem_equals (S g) s (DStruct [x0; DAtom (VStr (bs cls)); DAtom (VOther (ty_code TListOfAst)); DIface u; x4; x5])
                     (DStruct [y0; DAtom (VStr (bs cls')); DAtom (VOther (ty_code ty')); DIface u'; y4; y5]) =
        match u, u' with
        | Some (k, p), Some (k', p') => if Nat.eqb k dt_asts && Nat.eqb k' dt_asts then
            match node_at s (dcell p 0), node_at s (dcell p' 0) with
            | Some (DSlice o), Some (DSlice o') =>
                if Nat.eqb (length (delems s o)) (length (delems s o')) then eq_all (mem_equals g s) (delems s o) (delems s o') else Ok false
            | _, _ => Panic "invalid memory"
            end else Panic "interface conversion"
        | _, _ => Panic "interface conversion" end) by (intros g; cbn [mem_equals]; rewrite Ec, ty_code_eqb, Et; reflexivity).
    assert (Bad : forall v v', match v, v' with VAsts _, VAsts _ => False | _, _ => True end ->
      unfolds s (DIface u) (tree_of v) -> unfolds s (DIface u') (tree_of v') ->
      match u, u' with Some (k, _), Some (k', _) => Nat.eqb k dt_asts && Nat.eqb k' dt_asts = false | _, _ => True end).
    { intros w w' W A1 A2. destruct (iface_kind _ _ _ A1) as [[_ ->]|[b ->]]; [exact I|]. destruct (iface_kind _ _ _ A2) as [[_ ->]|[b' ->]]; [exact I|].
      destruct w, w'; try reflexivity; contradiction. }
    destruct (match v, v' with VAsts _, VAsts _ => true | _, _ => false end) eqn:K.
    + destruct v; try discriminate. destruct v'; try discriminate. cbn [tree_of] in U1, V1.
      destruct (unfolds_iface_some _ _ _ _ U1) as (b1 & n1 & -> & E1 & T1). destruct (unfolds_iface_some _ _ _ _ V1) as (b2 & n2 & -> & E2 & T2).
      destruct (unfolds_slice _ _ _ T1) as (a1 & i1 & k1 & -> & W1). destruct (unfolds_slice _ _ _ T2) as (a2 & i2 & k2 & -> & W2).
      pose proof (unfolds_all_length _ _ _ W1) as L1. pose proof (unfolds_all_length _ _ _ W2) as L2. rewrite map_length in L1, L2.
      destruct (Nat.eqb_spec (length l) (length l0)) as [El|El].
      * cbn [deep_eqb] in Dv. destruct (eq_all_ok s l l0 _ _ W1 W2 El IH Dv) as [f F]. exists (S f). intros [|g] L; [lia|]. rewrite Go. cbn [dt_of]. rewrite Nat.eqb_refl. cbn [andb].
        rewrite E1, E2, <- L1, <- L2, El, Nat.eqb_refl. cbn [ast_equals]. rewrite Et, El, Nat.eqb_refl. apply F. lia.
      * exists 1%nat. intros [|g] L; [lia|]. rewrite Go. cbn [dt_of]. rewrite Nat.eqb_refl. cbn [andb].
        rewrite E1, E2, <- L1, <- L2. cbn [ast_equals]. rewrite Et, (proj2 (Nat.eqb_neq _ _) El). reflexivity.
    + assert (Q : match v, v' with VAsts _, VAsts _ => False | _, _ => True end) by (destruct v, v'; try exact I; discriminate).
      exists 1%nat. intros [|g] L; [lia|]. rewrite Go. specialize (Bad v v' Q U1 V1).
      assert (An : ast_equals (mkAst op cls TListOfAst v p) (mkAst op' cls' ty' v' p') = None) by (cbn [ast_equals]; rewrite Et; destruct v, v'; try reflexivity; contradiction).
      rewrite An. destruct u as [[k b]|]; [|reflexivity]. destruct u' as [[k' b']|]; [|reflexivity]. rewrite Bad. reflexivity.
  - destruct (DeepEqual_value s u u' v v' U1 V1 Dv) as [f F]. exists (S f). intros [|g] L; [lia|]. cbn [mem_equals]. rewrite Ec, ty_code_eqb, Et.
    replace (ty_code ty =? ty_code TAstCons)%nat with false by (rewrite ty_code_eqb; destruct ty; try reflexivity; contradiction).
    replace (ty_code ty =? ty_code TListOfAst)%nat with false by (rewrite ty_code_eqb; destruct ty; try reflexivity; contradiction).
    rewrite F by lia. cbn [ast_equals]. rewrite Et. destruct ty; try reflexivity; contradiction.
Qed.

(** ** The answers *)
Lemma DeepEqual_exact s u v : exists f b, (forall g, (f <= g)%nat -> DeepEqual g s u v = Ok b) /\
  (forall g r, DeepEqual g s u v = r -> r = Ok b \/ r = Fuel) /\ (b = true <-> any_same s u v).
Proof.
  destruct u as [[t b]|], v as [[t' b']|]; cbn [DeepEqual any_same].
  - destruct (Nat.eqb_spec t t') as [->|N].
    + destruct (deq_exact s (b, 0%nat, []) (b', 0%nat, [])) as (f & r & F & R). exists f, r. unfold dcell.
      split; [intros g L; destruct (F g L) as [seen ->]; reflexivity|]. split; [|rewrite R; tauto].
      intros g q <-. destruct (deq g s [] (b, 0%nat, []) (b', 0%nat, [])) as [[seen r']|] eqn:E; [|auto]. left. f_equal.
      destruct (F (Nat.max f g) ltac:(lia)) as [seen' E']. rewrite (deq_more s g (Nat.max f g) [] _ _ _ (Nat.le_max_r f g) E) in E'. congruence.
    + exists 0%nat, false. split; [reflexivity|]. split; [auto|]. split; [discriminate|intros [? _]; contradiction].
  - exists 0%nat, false. split; [reflexivity|]. split; [auto|]. split; [discriminate|contradiction].
  - exists 0%nat, false. split; [reflexivity|]. split; [auto|]. split; [discriminate|contradiction].
  - exists 0%nat, true. split; [reflexivity|]. split; [auto|]. split; auto.
Qed.
Lemma deeply_sym s x y : deeply_at s x y -> deeply_at s y x.
Proof.
  intros (R & B & H). exists (fun u v => R v u). split; [|exact H]. clear x y H. intros x y H.
  destruct (B _ _ H) as [v w E1 E2 D|E1 E2|t b b' E1 E2 D|E1 E2|a o a' o' l E1 E2 D|l l' E1 E2 L D].
  - eapply al_atom; eauto. rewrite (proj1 deep_sym). exact D.
  - apply al_nil; auto.
  - eapply al_iface; eauto.
  - apply al_nils; auto.
  - eapply al_slice; eauto. destruct D as [[-> ->]|D]; auto.
  - eapply al_struct; eauto. intros k Lk. apply D. lia.
Qed.
Lemma deeply_trans s x y z : deeply_at s x y -> deeply_at s y z -> deeply_at s x z.
Proof.
  intros (R & B & H) (R' & B' & H'). exists (fun u v => R u v \/ R' u v \/ exists w, R u w /\ R' w v).
  split; [|right; right; exists y; auto]. clear x y z H H'. intros x z [H|[H|(y & H & H')]].
  - destruct (B _ _ H) as [v w E1 E2 D|E1 E2|t b b' E1 E2 D|E1 E2|a o a' o' l E1 E2 D|l l' E1 E2 L D];
      [eapply al_atom; eauto|apply al_nil; auto|eapply al_iface; eauto|apply al_nils; auto|eapply al_slice; eauto|eapply al_struct; eauto].
    destruct D as [D|D]; auto.
  - destruct (B' _ _ H) as [v w E1 E2 D|E1 E2|t b b' E1 E2 D|E1 E2|a o a' o' l E1 E2 D|l l' E1 E2 L D];
      [eapply al_atom; eauto|apply al_nil; auto|eapply al_iface; eauto|apply al_nils; auto|eapply al_slice; eauto|eapply al_struct; eauto].
    destruct D as [D|D]; auto.
  - destruct (B _ _ H) as [v w E1 E2 D|E1 E2|t b b' E1 E2 D|E1 E2|a o a' o' l E1 E2 D|l l' E1 E2 L D];
      destruct (B' _ _ H') as [v1 w1 G1 G2 D1|G1 G2|t1 b1 b1' G1 G2 D1|G1 G2|a1 o1 a1' o1' l1 G1 G2 D1|l1 l1' G1 G2 L1 D1];
      rewrite E2 in G1; try discriminate.
    + injection G1 as <-. eapply al_atom; eauto. eapply (proj1 deep_trans); eauto.
    + apply al_nil; auto.
    + injection G1 as <- <-. eapply al_iface; eauto 6.
    + apply al_nils; auto.
    + injection G1 as <- <- <-. eapply al_slice; eauto. destruct D as [[-> ->]|D], D1 as [[-> ->]|D1]; auto 6.
      right. intros k Lk. right. right. eauto.
    + injection G1 as <-. eapply al_struct; eauto; [congruence|]. intros k Lk. right. right. exists (dsub y k). split; auto. apply D1. lia.
Qed.
Lemma deeply_slice s x o : node_at s x = Some (DSlice o) -> deeply_at s x x.
Proof.
  intros E. exists (fun u v => u = x /\ v = x). split; [|auto]. intros u v [-> ->]. destruct o as [[[a i] l]|]; [|apply al_nils; auto].
  eapply al_slice; eauto.
Qed.
