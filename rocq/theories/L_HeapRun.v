(** The grammars over the heap agree with the grammars over lists (C13, C14). *)
From Verif Require Export L_Heap.
Local Open Scope Z_scope.

(** ** Contexts *)
Definition blind (f : ctx -> ctx) : Prop := forall c s, f (set_stack c s) = set_stack (f c) s.
Lemma blind_cls s : blind (fun c => set_cls c s). Proof. intros [? ? ? ? ? ? ? ?] ?. reflexivity. Qed.
Lemma blind_st s : blind (fun c => set_st c s). Proof. intros [? ? ? ? ? ? ? ?] ?. reflexivity. Qed.
Lemma blind_qty s : blind (fun c => set_qty c s). Proof. intros [? ? ? ? ? ? ? ?] ?. reflexivity. Qed.
Lemma blind_pos s : blind (fun c => set_pos c s). Proof. intros [? ? ? ? ? ? ? ?] ?. reflexivity. Qed.
Lemma blind_len_st s : blind (fun c => set_st (set_len c 0) s). Proof. intros [? ? ? ? ? ? ? ?] ?. reflexivity. Qed.
Lemma blind_fix err : blind (fun c => fix_status c err).
Proof. intros [? ? ? ? ? ? ? ?] ?. destruct err; reflexivity. Qed.
Lemma blind_after f k : blind (fun c => after_loop f c k).
Proof.
  intros [? ? ? ? ? st ? ?] s. unfold after_loop. destruct ((0 <=? t_min (f_qty f)) && (Z.of_nat k <? t_min (f_qty f)));
  destruct (f_neg f); try reflexivity; destruct st; reflexivity.
Qed.
Lemma blind_id : blind (fun c => c). Proof. intros c s. reflexivity. Qed.
#[global] Hint Resolve blind_cls blind_st blind_qty blind_pos blind_len_st blind_fix blind_after blind_id : blind.

Lemma view_hmap h f x : blind f -> view h (hmap f x) = f (view h x).
Proof. intros B. unfold view, hmap. cbn. rewrite B. reflexivity. Qed.
Lemma view_like h x o : view h x = o -> like x o.
Proof. intros <-. unfold view, like. destruct (h_ctx x). reflexivity. Qed.
Lemma like_hmap f x o : blind f -> like x o -> like (hmap f x) (f o).
Proof. unfold like, hmap. cbn. intros B E. rewrite <- !B, E. reflexivity. Qed.
Lemma hmap_id x : hmap (fun c => c) x = x. Proof. destruct x; reflexivity. Qed.
Lemma like_fix x o e : like x o -> like (h_fix_status x e) (fix_status o e).
Proof. apply (like_hmap (fun c => fix_status c e)), blind_fix. Qed.
Lemma like_st x o : like x o -> hst x = c_st o.
Proof. unfold like, hst. intros E. change (c_st (h_ctx x)) with (c_st (set_stack (h_ctx x) [])). rewrite E. reflexivity. Qed.
Lemma view_st h x o : view h x = o -> hst x = c_st o.
Proof. intros E. apply like_st. eapply view_like; eauto. Qed.
Lemma view_same h h' x : elems h' (h_stk x) = elems h (h_stk x) -> view h' x = view h x.
Proof. unfold view. intros ->. reflexivity. Qed.
Lemma view_stack h x : c_stack (view h x) = elems h (h_stk x).
Proof. reflexivity. Qed.
Lemma view_len h x : valid h (h_stk x) -> length (c_stack (view h x)) = s_len (h_stk x).
Proof. intros V. rewrite view_stack. apply valid_elems, V. Qed.

(** ** Indices *)
Lemma cut_le s r r' : r <= r' -> (cut s r' <= cut s r)%nat.
Proof. unfold cut. lia. Qed.
Lemma cut_top s : cut s 0 = (s_off s + s_len s)%nat.
Proof. unfold cut. cbn. lia. Qed.
Lemma cut_neg s r : r <= 0 -> cut s r = (s_off s + s_len s)%nat.
Proof. unfold cut. lia. Qed.
Lemma cut_after s s' r r' p : s_off s' = s_off s -> Z.of_nat (s_len s) + p <= Z.of_nat (s_len s') ->
  0 <= r' -> 0 <= r -> r' - p <= r -> (cut s r <= cut s' r')%nat.
Proof. unfold cut. lia. Qed.

Lemma kept_view h h' x r : kept h h' (s_arr (h_stk x)) (cut (h_stk x) r) -> valid h (h_stk x) -> r <= 0 -> view h' x = view h x.
Proof.
  intros K V H. apply view_same. eapply kept_elems; eauto. right. rewrite cut_neg by auto. auto.
Qed.

(** Work that starts at [s'], where earlier work from [s] has led. *)
Lemma kept_after h0 h h' s s' r r1 r2 p :
  (s_arr s < length h0)%nat -> kept h0 h (s_arr s) (cut s r1) -> moved h0 s s' ->
  Z.of_nat (s_len s) + p <= Z.of_nat (s_len s') ->
  kept h h' (s_arr s') (cut s' r2) ->
  0 <= r -> r1 <= r -> 0 <= r2 -> r2 - p <= r -> kept h0 h' (s_arr s) (cut s r).
Proof.
  intros A K M L K' Hr H1 H2 H3. destruct M as [[Ma Mo]|Mn].
  - rewrite Ma in K'. eapply kept_trans; [eapply kept_le; [exact K|apply cut_le; exact H1]|].
    eapply kept_le; [exact K'|]. eapply cut_after; eauto.
  - eapply kept_new; eauto. eapply kept_le; [exact K|apply cut_le; exact H1].
Qed.
Lemma moved_trans h0 h s s' s'' : (length h0 <= length h)%nat -> moved h0 s s' -> moved h s' s'' -> moved h0 s s''.
Proof.
  intros L [[A O]|N] [[A' O']|N']; unfold moved.
  - left. split; congruence.
  - right. lia.
  - right. lia.
  - right. lia.
Qed.
Lemma moved_refl h s : moved h s s. Proof. left. auto. Qed.

Lemma answers_weaken rs rf p rs' rf' p' h s r' r : answers rs rf p h s r' r ->
  rs <= rs' -> rf <= rf' -> p' <= p -> answers rs' rf' p' h s r' r.
Proof.
  unfold answers. destruct r' as [[[h' x'] e']|w'|], r as [[o e]|w|]; auto. intros (E & L & H) H1 H2 H3.
  split; [exact E|]. split; [exact L|]. destruct e; auto. destruct (c_st o).
  - destruct H as (A & B & C & D & F). split; [exact A|]. split; [exact B|]. split; [|split; [exact D|lia]].
    eapply kept_le; [exact C|apply cut_le; auto].
  - destruct H as (A & B). split; [eapply kept_le; [exact A|apply cut_le; auto]|]. intros G. apply B. lia.
  - eapply kept_le; [exact H|apply cut_le; lia].
Qed.
Lemma agrees_weaken hp q rs rf p rs' rf' p' : agrees hp q rs rf p -> rs <= rs' -> rf <= rf' -> p' <= p -> agrees hp q rs' rf' p'.
Proof. intros H H1 H2 H3 h x V. eapply answers_weaken; eauto. Qed.

(** ** Leaves *)
Lemma leaf_agrees g fn n p : appends fn ->
  (forall n c o, fn n c = Ok (o, None) -> c_st o = Matched ->
     Z.of_nat (length (c_stack c)) + p <= Z.of_nat (length (c_stack o))) ->
  agrees (h_leaf g fn n) (fn n) 0 0 p.
Proof.
  intros A B h x V. unfold h_leaf. destruct (fn n (view h x)) as [[o e]|w|] eqn:E; cbn; auto.
  destruct (A _ _ _ _ E) as (l & El). rewrite El, view_stack.
  pose proof (valid_elems _ _ V) as Ln.
  assert (Es : skipn (s_len (h_stk x)) (elems h (h_stk x) ++ l) = l).
  { rewrite <- Ln, skipn_app, skipn_all, Nat.sub_diag. reflexivity. }
  rewrite Es. destruct (go_append g h (h_stk x) l) as [h1 s1] eqn:Ea.
  destruct (append_spec _ _ _ _ _ _ V Ea) as (A1 & A2 & A3 & A4 & A5).
  assert (Ev : view h1 (mkH o s1) = o).
  { unfold view. cbn. rewrite A1. change (elems h (h_stk x)) with (c_stack (view h x)). rewrite <- El. destruct o; reflexivity. }
  cbn. split; [reflexivity|]. split; [eapply view_like; exact Ev|].
  assert (K : forall r, 0 <= r -> kept h h1 (s_arr (h_stk x)) (cut (h_stk x) r)).
  { intros r Hr. eapply kept_le; [exact A3|]. unfold cut. lia. }
  destruct e as [e|]; [eapply kept_le; [exact A3|lia]|]. destruct (c_st o) eqn:Es'.
  - split; [exact Ev|]. split; [exact A2|]. split; [apply K; lia|]. split; [exact A4|].
    specialize (B _ _ _ E Es'). rewrite El, app_length, view_stack, Ln in B. cbn [h_stk]. rewrite A5. lia.
  - split; [apply K; lia|]. intros _. auto.
  - apply K. lia.
Qed.

Lemma impl_agrees g f num b : appends_impl f -> agrees (h_impl g f num b) (f num b) 0 0 0.
Proof.
  intros A. unfold h_impl. apply (leaf_agrees g (fun _ => f num b) 0%nat 0).
  - intros n c o e E. eapply A; eauto.
  - intros n c o E _. destruct (A _ _ _ _ _ E) as (l & ->). rewrite app_length. lia.
Qed.

Lemma impl_kept g f num b h x h' x' e : appends_impl f -> valid h (h_stk x) -> h_impl g f num b h x = Ok (h', x', e) ->
  kept h h' (s_arr (h_stk x)) (cut (h_stk x) 0).
Proof.
  intros A V. unfold h_impl, h_leaf. destruct (f num b (view h x)) as [[o e1]|w|] eqn:E; try discriminate.
  destruct (go_append g h (h_stk x) (skipn (s_len (h_stk x)) (c_stack o))) as [h1 s1] eqn:Ea. intros [= <- _ _].
  rewrite cut_top. eapply append_spec; eauto.
Qed.

Lemma zero_agrees g ins n : agrees (h_zero g ins n) (zero_fn ins) 0 0 (Z.of_nat (length ins)).
Proof.
  intros h x V. unfold h_zero, zero_fn. destruct (go_append g h (h_stk x) ins) as [h1 s1] eqn:Ea.
  destruct (append_spec _ _ _ _ _ _ V Ea) as (A1 & A2 & A3 & A4 & A5).
  rewrite zero_patch_in_place.
  destruct (patch_spec (fun a => set_asp a (c_sp (h_ctx x))) (length ins) h1 s1 (s_len (h_stk x)) A2 ltac:(lia)) as (P1 & P2 & P3 & P4).
  set (h2 := in_place _ _ _ _ _) in *. rewrite A1 in P1.
  pose proof (valid_elems _ _ V) as Ln.
  assert (Ee : elems h2 s1 = elems h (h_stk x) ++ map (fun a => set_asp a (c_sp (h_ctx x))) ins).
  { rewrite P1. rewrite <- Ln at 1. rewrite firstn_len_app. f_equal. rewrite <- Ln. rewrite skipn_plus.
    rewrite skipn_all, app_nil_r. rewrite <- (Nat.add_0_r (length (elems h (h_stk x)))) at 1. rewrite skipn_plus. cbn [skipn].
    rewrite firstn_all. reflexivity. }
  unfold answers. split; [reflexivity|].
  assert (Ev : view h2 (mkH (set_st (set_len (h_ctx x) 0) Matched) s1) =
    set_st (set_len (set_stack (view h x) (c_stack (view h x) ++ map (fun a => set_asp a (c_sp (view h x))) ins)) 0) Matched).
  { unfold view. cbn [h_ctx h_stk]. rewrite Ee. reflexivity. }
  split; [eapply view_like; exact Ev|]. cbn [c_st set_st]. split; [exact Ev|]. split; [exact P2|].
  split; [|split; [exact A4|cbn [h_stk]; lia]].
  rewrite cut_top. destruct A4 as [[Aa Ao]|An].
  - eapply kept_trans; [exact A3|]. rewrite Aa in P3. eapply kept_le; [exact P3|]. lia.
  - eapply kept_new; [apply V|exact A3|exact P3|exact An].
Qed.

(** ** Match *)
Lemma cases_find l hcs cs : cases_made hcs cs ->
  match find (fun c => hcase_if c l) hcs, find (fun c => case_if c l) cs with
  | Some hc, Some c => Forall2 faithful (hcase_let hc) (case_let c) /\ In c cs
  | None, None => True
  | _, _ => False
  end.
Proof.
  induction 1 as [|test hts ts hcs cs Hf _ IH]; cbn; auto.
  destruct (test l); cbn; [auto|].
  destruct (find (fun c => hcase_if c l) hcs), (find (fun c => case_if c l) cs); auto. destruct IH; auto.
Qed.

Lemma match_agrees g n hcs cs k fuel : 0 <= n -> cases_made hcs cs ->
  Forall (fun c => returns n k (case_let c)) cs ->
  agrees (h_match g n hcs fuel) (match_fn n cs fuel) n 0 (k - n).
Proof.
  intros Hn Hc Hk h x0 V. unfold h_match, match_fn.
  set (x := hmap (fun c => set_st (set_len c 0) Unmatched) x0).
  assert (Ex : view h x = set_st (set_len (view h x0) 0) Unmatched) by (apply (view_hmap h (fun c => set_st (set_len c 0) Unmatched)); auto with blind).
  rewrite <- Ex. rewrite !view_stack. rewrite !valid_elems by (auto; exact V).
  change (h_stk x) with (h_stk x0). set (s := h_stk x0) in *.
  pose proof (cases_find (elems h s) hcs cs Hc) as F.
  destruct (find (fun c => hcase_if c (elems h s)) hcs) as [hc|], (find (fun c => case_if c (elems h s)) cs) as [c|]; try contradiction.
  2:{ unfold answers. split; [reflexivity|]. split; [eapply view_like; reflexivity|]. cbn [c_st view set_stack].
      change (c_st (view h x)) with Unmatched. cbn. split; [apply kept_refl|]. auto. }
  destruct F as (Ff & Fi). rewrite Forall_forall in Hk. specialize (Hk c Fi).
  destruct ((Z.of_nat (s_len s) - n <? 0) || (Z.of_nat (s_len s) <? Z.of_nat (s_len s) - n)) eqn:Eb; [reflexivity|].
  apply orb_false_iff in Eb. destruct Eb as [Eb1 Eb2]. apply Z.ltb_ge in Eb1, Eb2.
  set (m := Z.to_nat (Z.of_nat (s_len s) - n)).
  assert (Hm : (m <= s_len s)%nat) by lia.
  pose proof (trans_faithful _ _ Ff fuel (view h x) h (from s m) (valid_from _ _ _ V Hm)) as T.
  rewrite elems_from in T.
  destruct (h_run_trans fuel (view h x) (hcase_let hc) h (from s m)) as [[h1 [e'|s1]]|w'|] eqn:Et',
    (run_trans fuel (view h x) (case_let c) (skipn m (elems h s))) as [[e|l]|w|] eqn:Et; try contradiction; auto.
  - destruct T as (-> & T). unfold answers. split; [reflexivity|]. split.
    + apply (like_hmap (fun c => set_st c Errored)); [auto with blind|]. eapply view_like; reflexivity.
    + cbn in T. eapply kept_le; [exact T|lia].
  - destruct T as (T1 & T2 & T3 & T4). rewrite T1. cbn [from s_arr s_off] in T3.
    assert (V1 : valid h1 (upto s m)) by (apply valid_upto; [eapply kept_valid; eauto|auto]).
    destruct (go_append g h1 (upto s m) l) as [h2 s2] eqn:Ea.
    destruct (append_spec _ _ _ _ _ _ V1 Ea) as (A1 & A2 & A3 & A4 & A5). cbn [upto s_arr s_off s_len] in A3, A5.
    assert (Ek : elems h1 (upto s m) = firstn m (elems h s)).
    { rewrite <- elems_upto by auto. eapply kept_elems; [exact T3|apply valid_upto; auto|]. right. cbn. lia. }
    assert (Ev : view h2 (mkH (set_st (h_ctx x) Matched) s2) = set_st (set_stack (view h x) (firstn m (elems h s) ++ l)) Matched).
    { unfold view. cbn [h_ctx h_stk]. rewrite A1, Ek. reflexivity. }
    unfold answers. split; [reflexivity|]. split; [eapply view_like; exact Ev|]. cbn [c_st set_st].
    split; [exact Ev|]. split; [exact A2|]. split; [|split].
    + assert (Ec : cut s n = (s_off s + m)%nat) by (unfold cut; lia). fold s. rewrite Ec. eapply kept_trans; [exact T3|exact A3].
    + pose proof (kept_length _ _ _ _ T3). destruct A4 as [[Aa Ao]|An]; [left; auto|right; cbn; lia].
    + cbn [h_stk]. rewrite A5. pose proof (fun H => Hk _ _ _ _ H Et) as Hk'. rewrite skipn_length, valid_elems in Hk' by exact V. unfold m in *. lia.
Qed.

(** ** LightBaseParser *)
Lemma light_agrees cls hp q rs rf p : agrees hp q rs rf p -> agrees (h_light cls hp) (light_base_parser cls q) rs rf p.
Proof.
  intros A h x V. specialize (A h x V). unfold h_light, light_base_parser. unfold answers in A.
  destruct (hp h x) as [[[h1 o'] e']|w'|], (q (view h x)) as [[o e]|w|]; try contradiction; auto.
  destruct A as (-> & L & A). unfold answers.
  set (f1 := fun c => set_cls (match c_st (fix_status c e) with Matched => set_qty (fix_status c e) 1 | _ => fix_status c e end) cls).
  assert (B : blind f1).
  { intros [? ? ? ? ? st ? ?] s. unfold f1. destruct e; [|destruct st]; reflexivity. }
  assert (E1 : hmap (fun c => set_cls c cls) (match hst (h_fix_status o' e) with Matched => hmap (fun c => set_qty c 1) (h_fix_status o' e) | _ => h_fix_status o' e end) = hmap f1 o').
  { unfold h_fix_status, hst, hmap, f1. cbn. destruct (c_st (fix_status (h_ctx o') e)); reflexivity. }
  assert (E2 : set_cls (match c_st (fix_status o e) with Matched => set_qty (fix_status o e) 1 | _ => fix_status o e end) cls = f1 o) by reflexivity.
  rewrite E1, E2. split; [reflexivity|]. split; [apply like_hmap; auto|].
  destruct e as [e|]; [exact A|].
  assert (Es : c_st (f1 o) = c_st o). { unfold f1. cbn. destruct (c_st o) eqn:Eo; cbn; rewrite ?Eo; reflexivity. }
  rewrite Es. destruct (c_st o).
  - destruct A as (A1 & A2 & A3 & A4 & A5). rewrite view_hmap by auto. rewrite A1. auto 6.
  - destruct A as (A1 & A2). split; [exact A1|]. intros H. destruct (A2 H) as (G1 & G2). rewrite view_hmap by auto. rewrite G1. auto.
  - exact A.
Qed.

(** ** The CHILDREN loop *)

(** The context [o'] reached from the stack [s] of the heap [h0]. *)
Definition led (rs p : Z) (h0 : heap) (s : slice) (h : heap) (x : hctx) (o : ctx) : Prop :=
  view h x = o /\ valid h (h_stk x) /\ kept h0 h (s_arr s) (cut s rs) /\ moved h0 s (h_stk x) /\
  Z.of_nat (s_len s) + p <= Z.of_nat (s_len (h_stk x)).

Lemma led_refl h x : valid h (h_stk x) -> led 0 0 h (h_stk x) h x (view h x).
Proof.
  intros V. split; [auto|]. split; [auto|]. split; [apply kept_refl|]. split; [apply moved_refl|]. lia.
Qed.
Lemma led_weaken rs p rs' p' h0 s h x o : led rs p h0 s h x o -> rs <= rs' -> p' <= p -> led rs' p' h0 s h x o.
Proof.
  intros (A & B & C & D & E) H1 H2. split; [auto|]. split; [auto|]. split; [|split; [auto|lia]].
  eapply kept_le; [exact C|apply cut_le; auto].
Qed.
Lemma led_trans rs1 p1 rs2 p2 rs p h0 s h1 x1 o1 h2 x2 o2 : valid h0 s ->
  led rs1 p1 h0 s h1 x1 o1 -> led rs2 p2 h1 (h_stk x1) h2 x2 o2 ->
  0 <= rs -> rs1 <= rs -> 0 <= rs2 -> rs2 - p1 <= rs -> p <= p1 + p2 -> led rs p h0 s h2 x2 o2.
Proof.
  intros V (A & B & C & D & E) (A' & B' & C' & D' & E') Hr H1 H2 H3 H4.
  split; [auto|]. split; [auto|]. split; [|split].
  - eapply kept_after; eauto. apply V.
  - exact (moved_trans _ _ _ _ _ (kept_length _ _ _ _ C) D D').
  - lia.
Qed.
Lemma led_hmap rs p h0 s h x o f : blind f -> led rs p h0 s h x o -> led rs p h0 s h (hmap f x) (f o).
Proof. intros B (H1 & H). split; [rewrite view_hmap by auto; congruence|exact H]. Qed.

(** An answer of a later step, seen from the start. *)
Lemma answers_err rs1 p1 rs2 rf2 p2 rs rf p h0 s h1 x1 o1 h2 x2 o e : valid h0 s ->
  led rs1 p1 h0 s h1 x1 o1 -> answers rs2 rf2 p2 h1 (h_stk x1) (Ok (h2, x2, e)) (Ok (o, e)) ->
  (e = None -> c_st o = Errored) ->
  0 <= rs -> rs1 <= rs -> 0 <= rs2 -> rs2 - p1 <= rs -> rf2 - p1 <= Z.max rs rf ->
  answers rs rf p h0 s (Ok (h2, x2, e)) (Ok (o, e)).
Proof.
  intros V (A & B & C & D & E) (_ & L & H) Hs Hr H1 H2 H3 H4. split; [reflexivity|]. split; [exact L|].
  destruct e as [e|].
  - destruct D as [[Da Do]|Dn].
    + rewrite Da in H. eapply kept_trans; [eapply kept_le; [exact C|lia]|exact H].
    + eapply kept_new; [apply V|eapply kept_le; [exact C|lia]|exact H|exact Dn].
  - rewrite (Hs eq_refl) in *. eapply kept_after; eauto; try lia. apply V.
Qed.

Lemma fix_answers rs rf p h s h' x' o e : answers rs rf p h s (Ok (h', x', e)) (Ok (o, e)) ->
  answers rs rf p h s (Ok (h', h_fix_status x' e, e)) (Ok (fix_status o e, e)).
Proof.
  intros (_ & L & H). split; [reflexivity|]. split; [apply like_fix; auto|].
  destruct e as [e|]; [exact H|]. unfold h_fix_status. cbn [fix_status]. rewrite hmap_id. destruct (c_st o); auto.
Qed.

Definition seq_ok (hcs : list hrun) (cs : list (ctx -> out)) (rs rf p : Z) : Prop :=
  0 <= rs /\ 0 <= rf /\ length hcs = length cs /\
  forall h o saved saved' num, valid h (h_stk o) ->
  match h_children false saved hcs h o num, children_loop false saved' cs (view h o) num with
  | HReturn r', CReturn r =>
      answers rs rf p h (h_stk o) r' r /\ (forall c e, r = Ok (c, e) -> e = None -> c_st c = Errored)
  | HBreak h' x, CBreak c => x = saved /\ c = saved' /\ kept h h' (s_arr (h_stk o)) (cut (h_stk o) rf)
  | HEnd h' x' k', CEnd o' k => k' = k /\ led rs p h (h_stk o) h' x' o' /\ (hst o = Matched -> c_st o' = Matched)
  | _, _ => False
  end.

Lemma seq_nil : seq_ok [] [] 0 0 0.
Proof.
  split; [lia|]. split; [lia|]. split; [reflexivity|]. intros h o saved saved' num V. cbn.
  split; [reflexivity|]. split; [apply led_refl; auto|]. auto.
Qed.

Lemma seq_cons hp q hcs cs rs1 rf1 p1 rs2 rf2 p2 rs rf p :
  agrees hp q rs1 rf1 p1 -> seq_ok hcs cs rs2 rf2 p2 ->
  0 <= rs -> rs1 <= rs -> rs2 - p1 <= rs -> 0 <= rf -> rf1 <= rf ->
  (cs <> [] -> rs1 <= rf /\ rf2 - p1 <= rf) -> p <= p1 + p2 ->
  seq_ok (hp :: hcs) (q :: cs) rs rf p.
Proof.
  intros A (S0 & S1 & S2 & S3) H1 H2 H3 H4 H5 H6 H7. split; [auto|]. split; [auto|]. split; [cbn; congruence|].
  intros h o saved saved' num V. cbn [h_children children_loop].
  specialize (A h o V). unfold answers in A.
  destruct (hp h o) as [[[h1 o1'] e']|w'|], (q (view h o)) as [[o1 e]|w|]; try contradiction.
  2:{ split; [exact A|]. intros c e [=]. }
  2:{ split; [exact I|]. intros c e [=]. }
  destruct A as (-> & L & A).
  assert (Lf : like (h_fix_status o1' e) (fix_status o1 e)) by (apply like_fix; auto).
  rewrite (like_st _ _ Lf).
  destruct e as [e|].
  { cbn. split; [|intros c e0 [= <- <-]; discriminate]. split; [reflexivity|]. split; [exact Lf|]. exact A. }
  cbn [fix_status]. unfold h_fix_status in *. cbn [fix_status] in *. rewrite hmap_id in *.
  destruct (c_st o1) eqn:Es.
  - assert (Ld : led rs1 p1 h (h_stk o) h1 o1' o1) by exact A. destruct A as (A1 & A2 & A3 & A4 & A5).
    specialize (S3 h1 o1' saved saved' (S num) A2). rewrite A1 in S3.
    destruct (h_children false saved hcs h1 o1' (S num)) as [r'|h' x'|h' x' k'] eqn:Eh,
      (children_loop false saved' cs o1 (S num)) as [r|c|o' k] eqn:Ec; try contradiction.
    + destruct S3 as (S3 & S4). split; [|exact S4].
      assert (Hne : cs <> []) by (intros ->; cbn in Ec; discriminate).
      destruct (H6 Hne) as (H8 & H9).
      destruct r' as [[[h2 x2] e2]|w'|], r as [[o2 e2']|w|]; try contradiction; auto.
      assert (Ee : e2 = e2') by apply S3. subst e2'.
      eapply (answers_err rs1 p1 rs2 rf2 p2); eauto. lia.
    + destruct S3 as (-> & -> & K). split; [reflexivity|]. split; [reflexivity|].
      assert (Hne : cs <> []) by (intros ->; cbn in Ec; discriminate).
      destruct (H6 Hne) as (H8 & H9). eapply kept_after; eauto. apply V.
    + destruct S3 as (-> & S3 & S4). split; [reflexivity|]. split.
      * eapply led_trans; eauto.
      * intros _. apply S4. rewrite (view_st _ _ _ A1). exact Es.
  - destruct A as (A1 & A2). split; [reflexivity|]. split; [reflexivity|]. eapply kept_le; [exact A1|apply cut_le; auto].
  - split; [|intros c e [= <- <-] _; exact Es]. split; [reflexivity|]. split; [exact L|]. rewrite Es.
    eapply kept_le; [exact A|apply cut_le; lia].
Qed.

(** First: every alternative starts from the same context. *)
Definition alt_ok (hcs : list hrun) (cs : list (ctx -> out)) (rs p : Z) : Prop :=
  Forall2 (fun hp q => agrees hp q rs 0 p) hcs cs.

Lemma alt_loop hcs cs rs p : 0 <= rs -> alt_ok hcs cs rs p ->
  forall h o saved saved' num h0, valid h0 (h_stk o) -> kept h0 h (s_arr (h_stk o)) (cut (h_stk o) 0) ->
  match h_children true saved hcs h o num, children_loop true saved' cs (view h0 o) num with
  | HReturn r', CReturn r =>
      answers rs 0 p h0 (h_stk o) r' r /\ (forall c e, r = Ok (c, e) -> e = None -> c_st c = Errored)
  | HEnd h' x' k', CEnd o' k => k' = k /\
      ((k = num /\ x' = o /\ o' = view h0 o /\ kept h0 h' (s_arr (h_stk o)) (cut (h_stk o) 0)) \/
       (k = S num /\ cs <> [] /\ led rs p h0 (h_stk o) h' x' o' /\ c_st o' = Matched))
  | _, _ => False
  end.
Proof.
  intros Hrs HA. induction HA as [|hp q hcs cs A _ IH]; intros h o saved saved' num h0 V K; cbn [h_children children_loop].
  - split; [reflexivity|]. left. auto.
  - assert (V1 : valid h (h_stk o)) by (eapply kept_valid; eauto).
    assert (Ev : view h o = view h0 o) by (eapply kept_view; eauto; lia).
    specialize (A h o V1). rewrite Ev in A. unfold answers in A.
    destruct (hp h o) as [[[h1 o1'] e']|w'|], (q (view h0 o)) as [[o1 e]|w|]; try contradiction.
    2:{ split; [exact A|]. intros c e [=]. }
    2:{ split; [exact I|]. intros c e [=]. }
    destruct A as (-> & L & A).
    assert (Lf : like (h_fix_status o1' e) (fix_status o1 e)) by (apply like_fix; auto).
    rewrite (like_st _ _ Lf).
    destruct e as [e|].
    { cbn. split; [|intros c e0 [= <- <-]; discriminate]. split; [reflexivity|]. split; [exact Lf|].
      eapply kept_trans; [eapply kept_le; [exact K|lia]|exact A]. }
    cbn [fix_status]. unfold h_fix_status in *. cbn [fix_status] in *. rewrite hmap_id in *.
    assert (KT : forall h' r, 0 <= r -> kept h h' (s_arr (h_stk o)) (cut (h_stk o) r) -> kept h0 h' (s_arr (h_stk o)) (cut (h_stk o) r)).
    { intros h' r Hr K'. eapply kept_trans; [|exact K']. eapply kept_le; [exact K|apply cut_le; auto]. }
    destruct (c_st o1) eqn:Es.
    + destruct A as (A1 & A2 & A3 & A4 & A5). split; [reflexivity|]. right.
      split; [reflexivity|]. split; [discriminate|]. split; [|exact Es].
      split; [exact A1|]. split; [exact A2|]. split; [apply KT; auto|]. split; [|exact A5].
      pose proof (kept_length _ _ _ _ K). destruct A4 as [A4|A4]; [left; auto|right; lia].
    + destruct A as (A1 & _). specialize (IH h1 o saved saved' num h0 V (KT _ _ (Z.le_refl 0) A1)).
      destruct (h_children true saved hcs h1 o num), (children_loop true saved' cs (view h0 o) num); try contradiction; auto.
      destruct IH as (E & IH). split; [exact E|]. destruct IH as [IH|IH]; [left; exact IH|right].
      destruct IH as (I1 & I2 & I3 & I4). split; [exact I1|]. split; [discriminate|]. auto.
    + split; [|intros c e [= <- <-] _; exact Es]. split; [reflexivity|]. split; [exact L|]. rewrite Es. apply KT; [lia|exact A].
Qed.

(** One pass of the loop body, for both kinds of parsers. *)
Definition body_ok (ex : bool) (hcs : list hrun) (cs : list (ctx -> out)) (rs rf p : Z) : Prop :=
  0 <= rs /\ 0 <= rf /\ length hcs = length cs /\
  forall h o, valid h (h_stk o) -> hst o = Matched ->
  match h_children ex o hcs h o 0, children_loop ex (view h o) cs (view h o) 0 with
  | HReturn r', CReturn r =>
      answers rs rf p h (h_stk o) r' r /\ (forall c e, r = Ok (c, e) -> e = None -> c_st c = Errored)
  | HBreak h' x, CBreak c => x = o /\ c = view h o /\ kept h h' (s_arr (h_stk o)) (cut (h_stk o) rf)
  | HEnd h' x' k', CEnd o' k => k' = k /\
      if ex && Nat.ltb 0 (length cs) && Nat.eqb k 0
      then kept h h' (s_arr (h_stk o)) (cut (h_stk o) rf)
      else led rs p h (h_stk o) h' x' o' /\ c_st o' = Matched
  | _, _ => False
  end.

Lemma seq_body hcs cs rs rf p : seq_ok hcs cs rs rf p -> body_ok false hcs cs rs rf p.
Proof.
  intros (A & B & C & D). split; [auto|]. split; [auto|]. split; [auto|]. intros h o V Hs.
  specialize (D h o o (view h o) 0%nat V).
  destruct (h_children false o hcs h o 0), (children_loop false (view h o) cs (view h o) 0); try contradiction; auto.
  destruct D as (D1 & D2 & D3). cbn. auto.
Qed.
Lemma alt_body hcs cs rs p : 0 <= rs -> alt_ok hcs cs rs p -> (cs = [] -> p <= 0) -> body_ok true hcs cs rs 0 p.
Proof.
  intros Hrs A Hp. split; [auto|]. split; [lia|]. split; [eapply Forall2_len; exact A|]. intros h o V Hs.
  pose proof (alt_loop hcs cs rs p Hrs A h o o (view h o) 0%nat h V (kept_refl _ _ _)) as D.
  destruct (h_children true o hcs h o 0) as [|?|h' x' k'], (children_loop true (view h o) cs (view h o) 0) as [|?|o' k]; try contradiction; auto.
  destruct D as (-> & D). split; [reflexivity|]. destruct D as [(-> & -> & -> & K)|(-> & Hn & L & M)].
  - cbn. destruct cs as [|c cs]; cbn; [|exact K]. split.
    + destruct hcs; [|inversion A]. split; [eapply kept_view; eauto; lia|]. split; [eapply kept_valid; eauto|].
      split; [eapply kept_le; [exact K|apply cut_le; auto]|]. split; [apply moved_refl|]. specialize (Hp eq_refl). lia.
    + exact Hs.
  - rewrite andb_false_r. auto.
Qed.

(** ** The PARENT loop *)
Definition only_errors (r : out) : Prop := forall c e, r = Ok (c, e) -> e = None -> c_st c = Errored.

Lemma more_once k : more qtyOnce (S k) = false.
Proof. unfold more. cbn -[Z.of_nat]. apply Z.ltb_ge. lia. Qed.
Lemma h_parent_stop n q ex fn b cs h o k : more q k = false -> h_parent n q ex fn b cs h o k = HPDone h o k.
Proof. intros H. destruct n; cbn [h_parent]; rewrite H; reflexivity. Qed.
Lemma parent_stop n q ex fn b cs o k : more q k = false -> parent_loop n q ex fn b cs o k = PDone o k.
Proof. intros H. destruct n; cbn [parent_loop]; rewrite H; reflexivity. Qed.

Lemma once_ok ex hcs cs rs rf p n b : body_ok ex hcs cs rs rf p -> forall h o, valid h (h_stk o) -> hst o = Matched ->
  match h_parent n qtyOnce ex None b hcs h o 0, parent_loop n qtyOnce ex None b cs (view h o) 0 with
  | HPReturn r', PReturn r => answers rs rf p h (h_stk o) r' r /\ only_errors r
  | HPDone h' x' k', PDone o' k => k' = k /\
     ((k = 1%nat /\ led rs p h (h_stk o) h' x' o' /\ c_st o' = Matched) \/
      (k = 0%nat /\ x' = o /\ o' = view h o /\ kept h h' (s_arr (h_stk o)) (cut (h_stk o) rf)))
  | _, _ => False
  end.
Proof.
  intros (A & B & C & D) h o V Hs. specialize (D h o V Hs).
  assert (M0 : more qtyOnce 0 = true) by reflexivity.
  destruct n as [|n]; cbn [h_parent parent_loop]; rewrite M0.
  { split; [exact I|]. intros c e [=]. }
  destruct (h_children ex o hcs h o 0) as [r'|h1 x1|h1 x1 k1], (children_loop ex (view h o) cs (view h o) 0) as [r|c|o1 k]; try contradiction.
  - exact D.
  - destruct D as (-> & -> & K). split; [reflexivity|]. right. auto.
  - destruct D as (-> & D). rewrite C.
    destruct (ex && Nat.ltb 0 (length cs) && Nat.eqb k 0).
    + split; [reflexivity|]. right. auto.
    + destruct D as (D1 & D2). cbn [h_call_fn call_fn].
      assert (D3 : hst (hmap (fun c => set_qty c 0) x1) = Matched).
      { transitivity (hst x1); [reflexivity|]. rewrite (view_st _ _ _ (proj1 D1)). exact D2. }
      rewrite D3. change (c_st (set_qty o1 0)) with (c_st o1). rewrite D2.
      rewrite h_parent_stop, parent_stop by apply more_once. split; [reflexivity|]. left. split; [reflexivity|].
      split; [apply (led_hmap _ _ _ _ _ _ _ (fun c => set_qty c 0)); auto with blind|exact D2].
Qed.

Definition fn_ok (hfn : option himpl) (fn : option impl_fn) (rs : Z) : Prop :=
  match hfn, fn with
  | None, None => True
  | Some hf, Some f => rs = 0 /\ (forall num b, agrees (hf num b) (f num b) 0 0 0) /\
      (forall num b h x h' x' e, valid h (h_stk x) -> hf num b h x = Ok (h', x', e) ->
         kept h h' (s_arr (h_stk x)) (cut (h_stk x) 0))
  | _, _ => False
  end.

Lemma led_stay rs pc h0 s h h2 o : valid h0 s -> 0 <= rs -> 0 <= pc -> led rs pc h0 s h o (view h o) ->
  kept h h2 (s_arr (h_stk o)) (cut (h_stk o) 0) -> led rs pc h0 s h2 o (view h o).
Proof.
  intros V Hr Hp (A & B & C & D & E) K. split; [eapply kept_view; eauto; lia|]. split; [eapply kept_valid; eauto|].
  split; [|auto]. eapply kept_after; eauto; try lia. apply V.
Qed.
Lemma kept_stay pc h0 s h h2 o : valid h0 s -> 0 <= pc -> kept h0 h (s_arr s) (cut s 0) -> moved h0 s (h_stk o) ->
  Z.of_nat (s_len s) + pc <= Z.of_nat (s_len (h_stk o)) ->
  kept h h2 (s_arr (h_stk o)) (cut (h_stk o) 0) -> kept h0 h2 (s_arr s) (cut s 0).
Proof. intros V Hp K M L K'. eapply kept_after; eauto; try lia. apply V. Qed.

Definition pcount (p : Z) (k : nat) : Z := match k with O => 0 | _ => p end.

Lemma loop_ok q ex hfn fn b hcs cs rs p : body_ok ex hcs cs rs 0 p -> 0 <= p -> fn_ok hfn fn rs ->
  forall n h0 s h o count, valid h0 s -> led rs (pcount p count) h0 s h o (view h o) -> hst o = Matched ->
  (count = 0%nat -> kept h0 h (s_arr s) (cut s 0)) ->
  match h_parent n q ex hfn b hcs h o count, parent_loop n q ex fn b cs (view h o) count with
  | HPReturn r', PReturn r => answers rs 0 p h0 s r' r /\ only_errors r
  | HPDone h' x' k', PDone o' k => k' = k /\ (count <= k)%nat /\ led rs (pcount p k) h0 s h' x' o' /\ c_st o' = Matched /\
      (k = 0%nat -> kept h0 h' (s_arr s) (cut s 0))
  | _, _ => False
  end.
Proof.
  intros (Br & _ & Bl & Bd) Hp Hf. induction n as [|n IH]; intros h0 s h o count V Ld Hs H0.
  - cbn [h_parent parent_loop]. destruct (more q count).
    + split; [exact I|]. intros c e [=].
    + split; [reflexivity|]. split; [lia|]. split; [exact Ld|]. split; [rewrite <- (view_st h o _ eq_refl); exact Hs|exact H0].
  - assert (Hpc : 0 <= pcount p count) by (destruct count; cbn; lia).
    assert (Hvs : c_st (view h o) = Matched) by (rewrite <- (view_st h o _ eq_refl); exact Hs).
    cbn [h_parent parent_loop]. destruct (more q count).
    2:{ split; [reflexivity|]. split; [lia|]. split; [exact Ld|]. split; [exact Hvs|exact H0]. }
    assert (Stay : forall h2, kept h h2 (s_arr (h_stk o)) (cut (h_stk o) 0) ->
      led rs (pcount p count) h0 s h2 o (view h o) /\ (count = 0%nat -> kept h0 h2 (s_arr s) (cut s 0))).
    { intros h2 K. split; [apply (led_stay rs _ h0 s h h2 o); auto|]. intros E. specialize (H0 E).
      destruct Ld as (A & B & C & D & F). eapply (kept_stay (pcount p count)); eauto. }
    pose proof Ld as (La & Lb & Lc & Lm & Le).
    specialize (Bd h o Lb Hs).
    destruct (h_children ex o hcs h o 0) as [r'|h1 x1|h1 x1 k1], (children_loop ex (view h o) cs (view h o) 0) as [r|c|o1 k]; try contradiction.
    + destruct Bd as (D1 & D2). split; [|exact D2].
      destruct r' as [[[h2 x2] e2]|w'|], r as [[o2 e2']|w|]; try contradiction; auto.
      assert (Ee : e2 = e2') by apply D1. subst e2'.
      eapply (answers_err rs (pcount p count) rs 0 p); eauto; lia.
    + destruct Bd as (-> & -> & K). destruct (Stay _ K) as (S1 & S2). split; [reflexivity|]. split; [lia|]. auto.
    + destruct Bd as (-> & D). rewrite Bl.
      destruct (ex && Nat.ltb 0 (length cs) && Nat.eqb k 0).
      { destruct (Stay _ D) as (S1 & S2). split; [reflexivity|]. split; [lia|]. auto. }
      destruct D as (D1 & D2).
      assert (Dq : led rs p h (h_stk o) h1 (hmap (fun c => set_qty c count) x1) (set_qty o1 count)) by (apply (led_hmap _ _ _ _ _ _ _ (fun c => set_qty c count)); auto with blind).
      set (x2 := hmap (fun c => set_qty c count) x1) in *. set (o2 := set_qty o1 count) in *.
      assert (S2 : c_st o2 = Matched) by exact D2.
      assert (L2 : led rs (pcount p count + p) h0 s h1 x2 o2) by (eapply led_trans; eauto; lia).
      pose proof Dq as (Q1 & Q2 & Q3 & Q4 & Q5).
      destruct hfn as [hf|], fn as [f|]; try contradiction; cbn [h_call_fn call_fn].
      * destruct Hf as (-> & Hf & _). specialize (Hf (Z.of_nat k) b h1 x2 Q2). rewrite Q1 in Hf. unfold answers in Hf.
        destruct (hf (Z.of_nat k) b h1 x2) as [[[h3 x3] e']|w'|], (f (Z.of_nat k) b o2) as [[o3 e]|w|]; try contradiction.
        2:{ split; [exact Hf|]. intros c e [=]. }
        2:{ split; [exact I|]. intros c e [=]. }
        destruct Hf as (-> & L3 & Hf).
        assert (Lf : like (h_fix_status x3 e) (fix_status o3 e)) by (apply like_fix; auto).
        rewrite (like_st _ _ Lf).
        assert (Err : answers 0 0 0 h1 (h_stk x2) (Ok (h3, h_fix_status x3 e, e)) (Ok (fix_status o3 e, e))).
        { apply fix_answers. split; [reflexivity|]. split; [exact L3|exact Hf]. }
        destruct e as [e|].
        { cbn [fix_status c_st set_st]. split; [|intros c e0 [= <- <-]; discriminate].
          eapply (answers_err 0 (pcount p count + p) 0 0 0); eauto; try lia; try discriminate. }
        cbn [fix_status] in *. unfold h_fix_status in *. cbn [fix_status] in *. rewrite hmap_id in *.
        destruct (c_st o3) eqn:E3.
        -- assert (L4 : led 0 (pcount p (S count)) h0 s h3 x3 o3).
           { eapply (led_trans 0 (pcount p count + p) 0 0); eauto; cbn; lia. }
           destruct Hf as (F1 & F2 & F3 & F4 & F5).
           assert (Ev : view h3 x3 = o3) by exact F1.
           specialize (IH h0 s h3 x3 (S count) V). rewrite Ev in IH.
           assert (Hs3 : hst x3 = Matched) by (rewrite (view_st _ _ _ Ev); exact E3).
           specialize (IH L4 Hs3 ltac:(discriminate)).
           destruct (h_parent n q ex (Some hf) b hcs h3 x3 (S count)), (parent_loop n q ex (Some f) b cs o3 (S count)); try contradiction; auto.
           destruct IH as (I1 & I2 & I3). split; [exact I1|]. split; [lia|exact I3].
        -- destruct Hf as (F1 & _).
           assert (K : kept h h3 (s_arr (h_stk o)) (cut (h_stk o) 0)).
           { eapply (kept_after h h1 h3 (h_stk o) (h_stk x2) 0 0 0 p); eauto; try lia. apply Lb. }
           destruct (Stay _ K) as (S3 & S4). split; [reflexivity|]. split; [lia|]. auto.
        -- split; [|intros c e [= <- <-] _; exact E3].
           eapply (answers_err 0 (pcount p count + p) 0 0 0); eauto; try lia.
      * assert (Hs2 : hst x2 = Matched) by (rewrite (view_st _ _ _ Q1); exact S2). rewrite Hs2, S2.
        specialize (IH h0 s h1 x2 (S count) V). rewrite Q1 in IH.
        assert (L4 : led rs (pcount p (S count)) h0 s h1 x2 o2) by (eapply led_weaken; eauto; cbn; lia).
        specialize (IH L4 Hs2 ltac:(discriminate)).
        destruct (h_parent n q ex None b hcs h1 x2 (S count)), (parent_loop n q ex None b cs o2 (S count)); try contradiction; auto.
        destruct IH as (I1 & I2 & I3). split; [exact I1|]. split; [lia|exact I3].
Qed.

(** ** The transformers at the end of BaseParser *)
Lemma run_trans_stackless n c s ts l : Forall stackless ts -> run_trans n (set_stack c s) ts l = run_trans n c ts l.
Proof.
  intros H. revert l. induction H as [|t ts Ht _ IH]; intros l; cbn; auto.
  rewrite Ht. destruct (t n c l) as [[e|l']|w|]; auto.
Qed.

Definition finish (g : growth) (hts : option (list htrans)) (fuel : nat) (x : hctx) (h2 : heap) (o3 : hctx) : hout :=
  match hts with
  | None => Ok (h2, o3, None)
  | Some ts =>
      if Nat.ltb (s_len (h_stk o3)) (s_len (h_stk x))
      then Panic "slice bounds out of range"
      else
        match h_run_trans fuel (view h2 x) ts h2 (from (h_stk o3) (s_len (h_stk x))) with
        | Panic w => Panic w
        | Fuel => Fuel
        | Ok (h3, inl e) => Ok (h3, hmap (fun c => set_st c Errored) o3, Some e)
        | Ok (h3, inr asts) =>
            let '(h4, s4) := go_append g h3 (upto (h_stk o3) (s_len (h_stk x))) (elems h3 asts) in
            Ok (h4, mkH (h_ctx o3) s4, None)
        end
  end.
Definition finish_l (ts : option (list trans)) (fuel : nat) (c : ctx) (o3 : ctx) : out :=
  match ts with
  | None => Ok (o3, None)
  | Some ts =>
      if Nat.ltb (length (c_stack o3)) (length (c_stack c))
      then Panic "slice bounds out of range"
      else
        match run_trans fuel c ts (skipn (length (c_stack c)) (c_stack o3)) with
        | Panic w => Panic w
        | Fuel => Fuel
        | Ok (inl e) => Ok (set_st o3 Errored, Some e)
        | Ok (inr asts) =>
            Ok (set_stack o3 (firstn (length (c_stack c)) (c_stack o3) ++ asts), None)
        end
  end.
Definition yields_opt (k p : Z) (ts : option (list trans)) : Prop :=
  match ts with None => k <= p | Some l => returns p k l end.
Definition blind_opt (rs : Z) (ts : option (list trans)) : Prop :=
  match ts with None => True | Some l => rs <= 0 \/ Forall stackless l end.

Lemma finish_ok g hts ts fuel h0 x h2 o3' o3 rs rf p k : valid h0 (h_stk x) -> 0 <= rs -> 0 <= rf ->
  led rs p h0 (h_stk x) h2 o3' o3 -> (c_st o3 = Matched \/ rs <= 0) ->
  faithful_opt hts ts -> blind_opt rs ts -> yields_opt k p ts ->
  answers rs rf k h0 (h_stk x) (finish g hts fuel x h2 o3') (finish_l ts fuel (view h0 x) o3).
Proof.
  intros V Hr Hrf Ld Hst F B Y. pose proof Ld as (L1 & L2 & L3 & L4 & L5). set (s := h_stk x) in *.
  assert (Close : forall h4 x4 o4, led rs k h0 s h4 x4 o4 -> c_st o4 = c_st o3 ->
    answers rs rf k h0 s (Ok (h4, x4, None)) (Ok (o4, None))).
  { intros h4 x4 o4 Ld4 E4. pose proof Ld4 as (M1 & M2 & M3 & M4 & M5). split; [reflexivity|]. split; [eapply view_like; exact M1|].
    rewrite E4. destruct (c_st o3) eqn:E3.
    - exact Ld4.
    - split; [eapply kept_le; [exact M3|]|auto]. destruct Hst as [Hst|Hst]; [discriminate|]. apply cut_le. lia.
    - eapply kept_le; [exact M3|]. apply cut_le. lia. }
  destruct hts as [hts|], ts as [ts|]; try contradiction; cbn [finish finish_l].
  2:{ apply Close; [|reflexivity]. eapply led_weaken; eauto; try lia. }
  fold s. rewrite (view_len h0 x) by exact V. fold s.
  assert (Ln3 : length (c_stack o3) = s_len (h_stk o3')) by (rewrite <- L1; apply view_len; exact L2).
  rewrite Ln3. destruct (Nat.ltb_spec (s_len (h_stk o3')) (s_len s)) as [Hb|Hb]; [reflexivity|].
  set (b := s_len s) in *.
  assert (Vf : valid h2 (from (h_stk o3') b)) by (apply valid_from; auto).
  assert (Ec : forall l, run_trans fuel (view h2 x) ts l = run_trans fuel (view h0 x) ts l).
  { intros l. destruct B as [B|B].
    - rewrite (kept_view h0 h2 x rs); auto.
    - unfold view. rewrite !run_trans_stackless by exact B. reflexivity. }
  pose proof (trans_faithful _ _ F fuel (view h2 x) h2 (from (h_stk o3') b) Vf) as T.
  cbn beta in T. rewrite Ec in T. rewrite elems_from in T. rewrite <- view_stack, L1 in T.
  assert (Kall : forall h' j, kept h2 h' (s_arr (h_stk o3')) (s_off (h_stk o3') + b) -> (j <= cut s rs)%nat -> kept h0 h' (s_arr s) j).
  { intros h' j K Hj. destruct L4 as [[La Lo]|Ln].
    - rewrite La, Lo in K. eapply kept_trans; [eapply kept_le; [exact L3|exact Hj]|]. eapply kept_le; [exact K|]. unfold cut in Hj. fold b in Hj. lia.
    - eapply kept_new; [apply V|eapply kept_le; [exact L3|exact Hj]|exact K|exact Ln]. }
  destruct (h_run_trans fuel (view h2 x) hts h2 (from (h_stk o3') b)) as [[h3 [e'|s3]]|w'|],
    (run_trans fuel (view h0 x) ts (skipn b (c_stack o3))) as [[e|l]|w|] eqn:Et; try contradiction; auto.
  - destruct T as (-> & T). cbn [from s_arr s_off] in T. split; [reflexivity|]. split.
    + apply (like_hmap (fun c => set_st c Errored)); [auto with blind|]. eapply view_like; exact L1.
    + apply Kall; [exact T|lia].
  - destruct T as (T1 & T2 & T3 & T4). cbn [from s_arr s_off] in T3. rewrite T1.
    assert (Vu : valid h3 (upto (h_stk o3') b)) by (apply valid_upto; [eapply kept_valid; eauto|auto]).
    destruct (go_append g h3 (upto (h_stk o3') b) l) as [h4 s4] eqn:Ea.
    destruct (append_spec _ _ _ _ _ _ Vu Ea) as (A1 & A2 & A3 & A4 & A5). cbn [upto s_arr s_off s_len] in A3, A5.
    assert (Ek : elems h3 (upto (h_stk o3') b) = firstn b (c_stack o3)).
    { rewrite <- L1, view_stack, <- elems_upto by auto. eapply kept_elems; [exact T3|apply valid_upto; auto|]. right. cbn. lia. }
    apply Close; [|destruct o3; reflexivity].
    split. { unfold view. cbn [h_ctx h_stk]. rewrite A1, Ek. rewrite <- L1. unfold view. cbn [c_stack set_stack]. destruct (h_ctx o3'); reflexivity. }
    split; [exact A2|]. split; [|split].
    + apply Kall; [|lia]. eapply kept_trans; [exact T3|exact A3].
    + pose proof (kept_length _ _ _ _ T3) as G1. pose proof (kept_length _ _ _ _ L3) as G2. cbn [h_stk].
      destruct A4 as [[Aa Ao]|An]; [|right; lia]. cbn [upto s_arr s_off] in Aa, Ao. destruct L4 as [[La Lo]|Ln]; [left; split; congruence|right; lia].
    + cbn [h_stk]. rewrite A5. pose proof (fun H => Y _ _ _ _ H Et) as Y'. rewrite skipn_length, Ln3 in Y'. fold b. lia.
Qed.

(** ** BaseParser *)
Lemma h_base_eq g cls fn props cs tr fuel h x0 :
  h_base g cls fn props cs tr fuel h x0 =
  let f := flags_of props in
  let x := hmap (fun c => set_cls c cls) x0 in
  match h_parent fuel (f_qty f) (f_ex f) fn (s_len (h_stk x)) cs h (hmap (fun c => set_st c Matched) x) 0 with
  | HPReturn r => r
  | HPDone h1 o count =>
      let o1 := hmap (fun c => after_loop f c count) o in
      match hst o1 with
      | Unmatched | Errored => Ok (h1, o1, None)
      | Matched =>
          match h_call_fn fn (-1) (s_len (h_stk x)) h1 (hmap (fun c => set_qty c count) o1) with
          | Panic w => Panic w
          | Fuel => Fuel
          | Ok (h2, o2, _) =>
              match hst o2 with
              | Unmatched | Errored => Ok (h2, o2, None)
              | Matched => finish g tr fuel x h2 (if f_rew f then x else o2)
              end
          end
      end
  end.
Proof. reflexivity. Qed.
Lemma base_eq cls fn props cs tr fuel c0 :
  base_parser cls fn props cs tr fuel c0 =
  let f := flags_of props in
  let c := set_cls c0 cls in
  match parent_loop fuel (f_qty f) (f_ex f) fn (length (c_stack c)) cs (set_st c Matched) 0 with
  | PReturn r => r
  | PDone o count =>
      let o1 := after_loop f o count in
      match c_st o1 with
      | Unmatched | Errored => Ok (o1, None)
      | Matched =>
          match call_fn fn (-1) (length (c_stack c)) (set_qty o1 count) with
          | Panic w => Panic w
          | Fuel => Fuel
          | Ok (o2, _) =>
              match c_st o2 with
              | Unmatched | Errored => Ok (o2, None)
              | Matched => finish_l tr fuel c (if f_rew f then c else o2)
              end
          end
      end
  end.
Proof. reflexivity. Qed.

Lemma answers_unmatched rs rf p h s h' x o : like x o -> c_st o = Unmatched ->
  kept h h' (s_arr s) (cut s rf) -> (rf <= 0 -> view h' x = o /\ valid h' (h_stk x)) ->
  answers rs rf p h s (Ok (h', x, None)) (Ok (o, None)).
Proof. intros L E K W. split; [reflexivity|]. split; [exact L|]. rewrite E. auto. Qed.

Lemma answers_errors rs rf p rs' rf' p' h s r' r : answers rs rf p h s r' r -> only_errors r ->
  Z.max rs rf <= Z.max rs' rf' -> answers rs' rf' p' h s r' r.
Proof.
  unfold answers. destruct r' as [[[h' x'] e']|w'|], r as [[o e]|w|]; auto. intros (E & L & H) O H1.
  split; [exact E|]. split; [exact L|]. destruct e; auto. specialize (O o None eq_refl eq_refl). rewrite O in *.
  eapply kept_le; [exact H|apply cut_le; auto].
Qed.

(** A single pass: FlatGroup, Group, First, Trans, Once. *)
Lemma base_once g cls props ex hcs cs hts ts n rs rf p k :
  flags_of props = mkFlags false ex false qtyOnce -> body_ok ex hcs cs rs rf p ->
  faithful_opt hts ts -> blind_opt rs ts -> yields_opt k p ts ->
  agrees (h_base g cls None props hcs hts n) (base_parser cls None props cs ts n) rs rf k.
Proof.
  intros Ef Bd F B Y h x0 V. rewrite h_base_eq, base_eq. cbn zeta. rewrite Ef. cbn [f_qty f_ex f_rew].
  set (x := hmap (fun c => set_cls c cls) x0). set (o := hmap (fun c => set_st c Matched) x).
  assert (Ex : view h x = set_cls (view h x0) cls) by (apply (view_hmap h (fun c => set_cls c cls)); auto with blind).
  assert (Eo : view h o = set_st (view h x) Matched) by (apply (view_hmap h (fun c => set_st c Matched)); auto with blind).
  rewrite <- Ex, <- Eo. rewrite (view_len h x) by exact V.
  pose proof (once_ok ex hcs cs rs rf p n (s_len (h_stk x)) Bd h o V eq_refl) as O.
  destruct Bd as (Hr & Hrf & _).
  destruct (h_parent n qtyOnce ex None (s_len (h_stk x)) hcs h o 0) as [r'|h1 x1 k1],
    (parent_loop n qtyOnce ex None (s_len (h_stk x)) cs (view h o) 0) as [r|o1 k0]; try contradiction.
  - destruct O as (O & Oe). change (h_stk x0) with (h_stk o). eapply answers_errors; eauto. apply Z.le_refl.
  - destruct O as (-> & [(-> & Ld & Hs)|(-> & -> & -> & K)]).
    + assert (Ea : after_loop (mkFlags false ex false qtyOnce) o1 1 = o1) by reflexivity.
      assert (Ea' : hmap (fun c => after_loop (mkFlags false ex false qtyOnce) c 1) x1 = x1) by (destruct x1; reflexivity).
      rewrite Ea, Ea'. rewrite (view_st _ _ _ (proj1 Ld)), Hs. cbn [h_call_fn call_fn].
      change (hst (hmap (fun c => set_qty c 1) x1)) with (hst x1). change (c_st (set_qty o1 1)) with (c_st o1).
      rewrite (view_st _ _ _ (proj1 Ld)), Hs.
      change (h_stk x0) with (h_stk x). eapply finish_ok; eauto.
      apply (led_hmap _ _ _ _ _ _ _ (fun c => set_qty c 1)); [auto with blind|exact Ld].
    + set (f := fun c => after_loop (mkFlags false ex false qtyOnce) c 0).
      assert (L0 : like (hmap f o) (f (view h o))) by (apply like_hmap; [apply blind_after|eapply view_like; reflexivity]).
      change (after_loop (mkFlags false ex false qtyOnce) (view h o) 0) with (f (view h o)).
      rewrite (like_st _ _ L0). assert (Es : c_st (f (view h o)) = Unmatched) by reflexivity. rewrite Es.
      apply answers_unmatched; auto. intros H. split; [|eapply kept_valid; eauto].
      rewrite view_hmap by apply blind_after. f_equal. eapply kept_view; eauto.
Qed.

(** LookAhead and LookAheadN, and the parser inside LookBehind. *)
Lemma base_ahead g cls props (neg : bool) hcs cs n rs rf p :
  flags_of props = mkFlags neg false true qtyOnce -> body_ok false hcs cs rs rf p ->
  (if neg then rf = 0 else rs = 0) ->
  agrees (h_base g cls None props hcs None n) (base_parser cls None props cs None n) 0 (if neg then rs else rf) 0.
Proof.
  intros Ef Bd Hn h x0 V. rewrite h_base_eq, base_eq. cbn zeta. rewrite Ef. cbn [f_qty f_ex f_rew].
  set (x := hmap (fun c => set_cls c cls) x0). set (o := hmap (fun c => set_st c Matched) x).
  assert (Ex : view h x = set_cls (view h x0) cls) by (apply (view_hmap h (fun c => set_cls c cls)); auto with blind).
  assert (Eo : view h o = set_st (view h x) Matched) by (apply (view_hmap h (fun c => set_st c Matched)); auto with blind).
  rewrite <- Ex, <- Eo. rewrite (view_len h x) by exact V.
  pose proof (once_ok false hcs cs rs rf p n (s_len (h_stk x)) Bd h o V eq_refl) as O.
  destruct Bd as (Hr & Hrf & _).
  destruct (h_parent n qtyOnce false None (s_len (h_stk x)) hcs h o 0) as [r'|h1 x1 k1],
    (parent_loop n qtyOnce false None (s_len (h_stk x)) cs (view h o) 0) as [r|o1 k0]; try contradiction.
  - destruct O as (O & Oe). change (h_stk x0) with (h_stk o). eapply answers_errors; eauto. destruct neg; lia.
  - destruct O as (-> & O). set (f := fun c => after_loop (mkFlags neg false true qtyOnce) c k0).
    change (after_loop (mkFlags neg false true qtyOnce) o1 k0) with (f o1).
    assert (L0 : like (hmap f x1) (f o1)).
    { apply like_hmap; [apply blind_after|]. destruct O as [(_ & (E & _) & _)|(_ & -> & -> & _)]; eapply view_like; eauto. }
    rewrite (like_st _ _ L0).
    assert (Back : forall h', kept h h' (s_arr (h_stk x)) (cut (h_stk x) 0) ->
      answers 0 (if neg then rs else rf) 0 h (h_stk x0) (finish g None n x h' x) (finish_l None n (view h x) (view h x))).
    { intros h' K. change (h_stk x0) with (h_stk x). apply finish_ok with (p := 0); auto; try lia; try exact I.
      - destruct neg; lia.
      - split; [eapply kept_view; eauto; lia|]. split; [eapply kept_valid; eauto|]. split; [exact K|]. split; [apply moved_refl|lia].
      - cbn. lia. }
    destruct O as [(-> & Ld & Hs)|(-> & -> & -> & K)].
    + destruct neg.
      * assert (Es : c_st (f o1) = Unmatched). { unfold f, after_loop. cbn. rewrite Hs. reflexivity. }
        rewrite Es. apply answers_unmatched; auto; [apply Ld|]. intros _. split; [|apply Ld].
        rewrite view_hmap by apply blind_after. f_equal. apply Ld.
      * assert (Es : c_st (f o1) = Matched) by exact Hs. rewrite Es. cbn [h_call_fn call_fn].
        change (c_st (set_qty (f o1) 1)) with (c_st (f o1)). change (hst (hmap (fun c => set_qty c 1) (hmap f x1))) with (hst (hmap f x1)).
        rewrite (like_st _ _ L0), Es. apply Back. rewrite <- Hn. apply Ld.
    + destruct neg.
      * assert (Es : c_st (f (view h o)) = Matched) by reflexivity. rewrite Es. cbn [h_call_fn call_fn].
        change (c_st (set_qty (f (view h o)) 0)) with Matched. change (hst (hmap (fun c => set_qty c 0) (hmap f o))) with Matched.
        apply Back. rewrite <- Hn. exact K.
      * assert (Es : c_st (f (view h o)) = Unmatched) by reflexivity. rewrite Es.
        apply answers_unmatched; auto. intros H. split; [|eapply kept_valid; eauto].
        rewrite view_hmap by apply blind_after. f_equal. eapply kept_view; eauto.
Qed.

(** Repeat. *)
Lemma base_repeat g cls t hcs cs n rs p : body_ok false hcs cs rs 0 p -> 0 <= p ->
  agrees (h_base g cls None [PTimes t] hcs None n) (base_parser cls None [PTimes t] cs None n) rs
    (if t_min t <=? 1 then 0 else rs) (if t_min t <=? 0 then 0 else p).
Proof.
  intros Bd Hp h x0 V. rewrite h_base_eq, base_eq. cbn zeta.
  change (flags_of [PTimes t]) with (mkFlags false false false t). cbn [f_qty f_ex f_rew].
  set (x := hmap (fun c => set_cls c cls) x0). set (o := hmap (fun c => set_st c Matched) x).
  assert (Ex : view h x = set_cls (view h x0) cls) by (apply (view_hmap h (fun c => set_cls c cls)); auto with blind).
  assert (Eo : view h o = set_st (view h x) Matched) by (apply (view_hmap h (fun c => set_st c Matched)); auto with blind).
  rewrite <- Ex, <- Eo. rewrite (view_len h x) by exact V.
  pose proof Bd as (Hr & _).
  pose proof (loop_ok t false None None (s_len (h_stk x)) hcs cs rs p Bd Hp I n h (h_stk o) h o 0 V) as O.
  assert (Ld0 : led rs (pcount p 0) h (h_stk o) h o (view h o)).
  { eapply led_weaken; [apply led_refl; exact V|auto|cbn; lia]. }
  specialize (O Ld0 eq_refl (fun _ => kept_refl _ _ _)).
  destruct (h_parent n t false None (s_len (h_stk x)) hcs h o 0) as [r'|h1 x1 k1],
    (parent_loop n t false None (s_len (h_stk x)) cs (view h o) 0) as [r|o1 k0]; try contradiction.
  - destruct O as (O & Oe). change (h_stk x0) with (h_stk o). eapply answers_errors; eauto. destruct (t_min t <=? 1); lia.
  - destruct O as (-> & _ & Ld & Hs & H0). set (f := fun c => after_loop (mkFlags false false false t) c k0).
    change (after_loop (mkFlags false false false t) o1 k0) with (f o1).
    assert (Lf : led rs (pcount p k0) h (h_stk x) h1 (hmap f x1) (f o1)) by (apply led_hmap; [apply blind_after|exact Ld]).
    rewrite (view_st _ _ _ (proj1 Lf)). pose proof Lf as (M1 & M2 & M3 & M4 & M5).
    destruct ((0 <=? t_min t) && (Z.of_nat k0 <? t_min t)) eqn:Eq.
    + assert (Es : c_st (f o1) = Unmatched). { unfold f, after_loop. cbn [f_qty f_neg]. rewrite Eq. reflexivity. }
      rewrite Es. apply andb_prop in Eq. destruct Eq as [Eq1 Eq2]. apply Z.leb_le in Eq1. apply Z.ltb_lt in Eq2.
      change (h_stk x0) with (h_stk x). apply answers_unmatched; auto; [eapply view_like; exact M1|].
      destruct (Z.leb_spec (t_min t) 1) as [Ht|Ht].
      * apply H0. lia.
      * exact M3.
    + assert (Es : f o1 = o1). { unfold f, after_loop. cbn [f_qty f_neg]. rewrite Eq. reflexivity. }
      rewrite Es in *. rewrite Hs. cbn [h_call_fn call_fn].
      change (c_st (set_qty o1 k0)) with (c_st o1). change (hst (hmap (fun c => set_qty c k0) (hmap f x1))) with (hst (hmap f x1)).
      rewrite (view_st _ _ _ M1), Hs. change (h_stk x0) with (h_stk x).
      eapply finish_ok; eauto; try exact I.
      * destruct (t_min t <=? 1); lia.
      * apply (led_hmap _ _ _ _ _ _ _ (fun c => set_qty c k0)); [auto with blind|exact Lf].
      * cbn. destruct (Z.leb_spec (t_min t) 0) as [Ht|Ht]; [destruct k0; cbn; lia|].
        apply andb_false_iff in Eq. destruct Eq as [Eq|Eq]; [apply Z.leb_gt in Eq; lia|]. apply Z.ltb_ge in Eq.
        destruct k0; cbn; lia.
Qed.

(** BaseParser in general, over children that rewrite nothing. *)
Lemma call_agrees hfn fn num b : fn_ok hfn fn 0 -> agrees (h_call_fn hfn num b) (call_fn fn num b) 0 0 0.
Proof.
  intros F h x V. destruct hfn as [hf|], fn as [f|]; try contradiction; cbn [h_call_fn call_fn].
  - destruct F as (_ & F & _). specialize (F num b h x V).
    destruct (hf num b h x) as [[[h1 x1] e']|w'|], (f num b (view h x)) as [[o e]|w|]; try contradiction; auto.
    assert (e' = e) by apply F. subst e'. apply fix_answers. exact F.
  - split; [reflexivity|]. split; [eapply view_like; reflexivity|]. destruct (c_st (view h x)).
    + apply led_refl. exact V.
    + split; [apply kept_refl|]. auto.
    + apply kept_refl.
Qed.

Lemma base_any g cls hfn fn props hcs cs hts ts n :
  (forall ex, body_ok ex hcs cs 0 0 0) -> fn_ok hfn fn 0 -> faithful_opt hts ts ->
  agrees (h_base g cls hfn props hcs hts n) (base_parser cls fn props cs ts n) 0 0 0.
Proof.
  intros Bd Fn F h x0 V. rewrite h_base_eq, base_eq. cbn zeta.
  set (fl := flags_of props).
  set (x := hmap (fun c => set_cls c cls) x0). set (o := hmap (fun c => set_st c Matched) x).
  assert (Ex : view h x = set_cls (view h x0) cls) by (apply (view_hmap h (fun c => set_cls c cls)); auto with blind).
  assert (Eo : view h o = set_st (view h x) Matched) by (apply (view_hmap h (fun c => set_st c Matched)); auto with blind).
  rewrite <- Ex, <- Eo. rewrite (view_len h x) by exact V.
  pose proof (loop_ok (f_qty fl) (f_ex fl) hfn fn (s_len (h_stk x)) hcs cs 0 0 (Bd _) (Z.le_refl 0) Fn n h (h_stk o) h o 0 V) as O.
  assert (Ld0 : led 0 (pcount 0 0) h (h_stk o) h o (view h o)) by (apply led_refl; exact V).
  specialize (O Ld0 eq_refl (fun _ => kept_refl _ _ _)).
  destruct (h_parent n (f_qty fl) (f_ex fl) hfn (s_len (h_stk x)) hcs h o 0) as [r'|h1 x1 k1],
    (parent_loop n (f_qty fl) (f_ex fl) fn (s_len (h_stk x)) cs (view h o) 0) as [r|o1 k0]; try contradiction.
  - destruct O as (O & _). exact O.
  - destruct O as (-> & _ & Ld & Hs & H0). set (f := fun c => after_loop fl c k0).
    change (after_loop fl o1 k0) with (f o1).
    assert (Ep : pcount 0 k0 = 0) by (destruct k0; reflexivity). rewrite Ep in Ld.
    assert (Lf : led 0 0 h (h_stk x) h1 (hmap f x1) (f o1)) by (apply led_hmap; [apply blind_after|exact Ld]).
    rewrite (view_st _ _ _ (proj1 Lf)). pose proof Lf as (M1 & M2 & M3 & M4 & M5).
    change (h_stk x0) with (h_stk x).
    destruct (c_st (f o1)) eqn:Es.
    + set (x2 := hmap (fun c => set_qty c k0) (hmap f x1)). set (o2 := set_qty (f o1) k0).
      assert (L2 : led 0 0 h (h_stk x) h1 x2 o2) by (apply (led_hmap _ _ _ _ _ _ _ (fun c => set_qty c k0)); [auto with blind|exact Lf]).
      pose proof L2 as (Q1 & Q2 & Q3 & Q4 & Q5).
      pose proof (call_agrees hfn fn (-1) (s_len (h_stk x)) Fn h1 x2 Q2) as C. rewrite Q1 in C.
      destruct (h_call_fn hfn (-1) (s_len (h_stk x)) h1 x2) as [[[h3 x3] e']|w'|] eqn:Eh, (call_fn fn (-1) (s_len (h_stk x)) o2) as [[o3 e]|w|] eqn:Ec; try contradiction; auto.
      destruct C as (-> & L3 & C). rewrite (like_st _ _ L3).
      assert (Fix : forall e1, e = Some e1 -> c_st o3 = Errored).
      { intros e1 ->. unfold call_fn in Ec. destruct fn as [f1|]; [|discriminate]. destruct (f1 (-1) (s_len (h_stk x)) o2) as [[o4 e4]|w|]; try discriminate.
        injection Ec as <- ->. reflexivity. }
      destruct e as [e|].
      { rewrite (Fix e eq_refl). split; [reflexivity|]. split; [exact L3|]. rewrite (Fix e eq_refl).
        assert (K3 : kept h1 h3 (s_arr (h_stk x2)) (cut (h_stk x2) 0)).
        { unfold h_call_fn in Eh. destruct hfn as [hf|]; [|discriminate]. destruct fn as [f1|]; [|contradiction].
          destruct Fn as (_ & _ & Fk). destruct (hf (-1) (s_len (h_stk x)) h1 x2) as [[[h4 x4] e4]|w|] eqn:E4; try discriminate.
          injection Eh as <- _ _. eapply Fk; eauto. }
        eapply (kept_after h h1 h3 (h_stk x) (h_stk x2) 0 0 0 0); eauto; try lia. apply V. }
      destruct (c_st o3) eqn:E3.
      * destruct (f_rew fl).
        -- assert (K3 : kept h h3 (s_arr (h_stk x)) (cut (h_stk x) 0)).
           { eapply (kept_after h h1 h3 (h_stk x) (h_stk x2) 0 0 0 0); eauto; try lia; [apply V|apply C]. }
           apply finish_ok with (p := 0); auto; try lia.
           ++ split; [eapply kept_view; eauto; lia|]. split; [eapply kept_valid; eauto|]. split; [exact K3|]. split; [apply moved_refl|lia].
           ++ destruct ts; cbn; auto. left. lia.
           ++ destruct ts; cbn; [|lia]. intros n0 c1 l1 l2 _ _. lia.
        -- apply finish_ok with (p := 0); auto; try lia.
           ++ eapply (led_trans 0 0 0 0); eauto; lia.
           ++ destruct ts; cbn; auto. left. lia.
           ++ destruct ts; cbn; [|lia]. intros n0 c1 l1 l2 _ _. lia.
      * apply answers_unmatched; auto.
        -- eapply (kept_after h h1 h3 (h_stk x) (h_stk x2) 0 0 0 0); eauto; try lia; [apply V|apply C].
        -- intros _. apply C. lia.
      * split; [reflexivity|]. split; [exact L3|]. rewrite E3. eapply (kept_after h h1 h3 (h_stk x) (h_stk x2) 0 0 0 0); eauto; try lia. apply V.
    + apply answers_unmatched; auto. eapply view_like; exact M1.
    + split; [reflexivity|]. split; [eapply view_like; exact M1|]. rewrite Es. exact M3.
Qed.

(** ** LookBehind *)
Lemma behind_agrees neg hp q : agrees hp q 0 0 0 -> forall k i,
  agrees (fun h x => h_look_behind neg hp h x i k) (fun c => look_behind_loop neg q c i k) 0 0 0.
Proof.
  intros A. induction k as [|k IH]; intros i h x V; cbn [h_look_behind look_behind_loop].
  - assert (Ev : view h (hmap (fun c => set_st c (if neg then Matched else Unmatched)) x) = set_st (view h x) (if neg then Matched else Unmatched))
      by (apply (view_hmap h (fun c => set_st c (if neg then Matched else Unmatched))); auto with blind).
    split; [reflexivity|]. split; [eapply view_like; exact Ev|]. cbn [c_st set_st]. destruct neg.
    + split; [exact Ev|]. split; [exact V|]. split; [apply kept_refl|]. split; [apply moved_refl|]. cbn. lia.
    + split; [apply kept_refl|]. auto.
  - change (c_pos (view h x)) with (c_pos (h_ctx x)).
    destruct (Z.of_nat (c_pos (h_ctx x)) - i <? 0); [apply IH; exact V|].
    set (pp := Z.to_nat (Z.of_nat (c_pos (h_ctx x)) - i)).
    specialize (A h (hmap (fun c => set_pos c pp) x) V).
    rewrite (view_hmap h (fun c => set_pos c pp)) in A by auto with blind.
    unfold answers in A.
    destruct (hp h (hmap (fun c => set_pos c pp) x)) as [[[h1 o'] e']|w'|], (q (set_pos (view h x) pp)) as [[o e]|w|]; try contradiction; auto.
    destruct A as (-> & L & A). destruct e as [e|]; [split; [reflexivity|]; split; [exact L|exact A]|].
    rewrite (like_st _ _ L). change (h_stk (hmap (fun c => set_pos c pp) x)) with (h_stk x) in A.
    assert (Go : kept h h1 (s_arr (h_stk x)) (cut (h_stk x) 0) ->
      answers 0 0 0 h (h_stk x) (h_look_behind neg hp h1 x (i + 1) k) (look_behind_loop neg q (view h x) (i + 1) k)).
    { intros K. assert (V1 : valid h1 (h_stk x)) by (eapply kept_valid; eauto).
      assert (Ev : view h1 x = view h x) by (eapply kept_view; eauto; lia).
      specialize (IH (i + 1) h1 x V1). cbn beta in IH. rewrite Ev in IH.
      destruct (h_look_behind neg hp h1 x (i + 1) k) as [[[h2 x2] e2]|w|], (look_behind_loop neg q (view h x) (i + 1) k) as [[o2 e2']|w'|]; try contradiction; auto.
      destruct IH as (I1 & I2 & I3). split; [exact I1|]. split; [exact I2|].
      assert (KT : forall r j, 0 <= r -> kept h1 h2 (s_arr (h_stk x)) j -> (j <= cut (h_stk x) 0)%nat -> kept h h2 (s_arr (h_stk x)) j).
      { intros r j _ K2 Hj. eapply kept_trans; [eapply kept_le; [exact K|exact Hj]|exact K2]. }
      destruct e2' as [e2'|].
      - eapply (KT 0); eauto; lia.
      - destruct (c_st o2).
        + destruct I3 as (J1 & J2 & J3 & J4 & J5). split; [exact J1|]. split; [exact J2|]. split; [eapply (KT 0); eauto; lia|].
          split; [|exact J5]. pose proof (kept_length _ _ _ _ K). destruct J4 as [J4|J4]; [left; exact J4|right; lia].
        + destruct I3 as (J1 & J2). split; [eapply (KT 0); eauto; lia|exact J2].
        + eapply (KT 0); eauto; lia. }
    destruct (c_st o) eqn:Es.
    + destruct A as (A1 & A2 & A3 & A4 & A5). destruct neg.
      * assert (Ev : view h1 (hmap (fun c => set_st c Unmatched) o') = set_st o Unmatched).
        { rewrite (view_hmap h1 (fun c => set_st c Unmatched)) by auto with blind. rewrite A1. reflexivity. }
        apply answers_unmatched; auto. eapply view_like; exact Ev.
      * assert (Ev : view h1 x = view h x) by (eapply kept_view; eauto; lia).
        split; [reflexivity|]. split; [eapply view_like; reflexivity|].
        destruct (c_st (view h x)).
        -- split; [exact Ev|]. split; [eapply kept_valid; eauto|]. split; [exact A3|]. split; [apply moved_refl|]. lia.
        -- split; [exact A3|]. intros _. split; [exact Ev|eapply kept_valid; eauto].
        -- exact A3.
    + apply Go. apply A.
    + apply Go. exact A.
Qed.

(** ** Grammars *)
Scheme reach_m := Minimality for reach Sort Prop
  with reach_seq_m := Minimality for reach_seq Sort Prop
  with reach_alt_m := Minimality for reach_alt Sort Prop.
Combined Scheme reach_mut from reach_m, reach_seq_m, reach_alt_m.

Lemma forall2_variadic hts ts : Forall2 faithful hts ts -> faithful_opt (variadic hts) (variadic ts).
Proof. intros H. inversion H; subst; cbn; auto. Qed.

Section Denote.
  Variables (g : growth) (sg : nat -> Z * Z * Z) (n : nat) (hrho : nat -> hrun) (rho : nat -> ctx -> out).
  Hypothesis Hrho : forall k, agrees (hrho k) (rho k) (fst (fst (sg k))) (snd (fst (sg k))) (snd (sg k)).

  Lemma reach_sound :
    (forall he e rs rf p, reach g sg he e rs rf p -> agrees (h_denote g hrho n he) (denote rho n e) rs rf p) /\
    (forall hs es rs rf p, reach_seq g sg hs es rs rf p ->
       seq_ok (map (h_denote g hrho n) hs) (map (denote rho n) es) rs rf p) /\
    (forall hs es rs p, reach_alt g sg hs es rs p ->
       alt_ok (map (h_denote g hrho n) hs) (map (denote rho n) es) rs p).
  Proof.
    apply reach_mut.
    - intros he e rs rf p rs' rf' p' _ IH H1 H2 H3. eapply agrees_weaken; eauto.
    - intros cls fn p A B. cbn. apply light_agrees. apply leaf_agrees; auto.
    - intros ins. cbn. apply light_agrees. apply zero_agrees.
    - intros m hcs cs k H1 H2 H3. cbn. apply light_agrees. apply match_agrees; auto.
    - intros hs es rs rf p _ IH. cbn. eapply base_once; [reflexivity|apply seq_body; exact IH|exact I|exact I|cbn; lia].
    - intros hs es rs rf p _ IH. cbn. eapply base_once; [reflexivity|apply seq_body; exact IH| | |].
      + constructor; [apply fresh_faithful|constructor].
      + right. constructor; [|constructor]. intros m c s l. reflexivity.
      + intros m c l l' _ E. cbn in E. injection E as <-. cbn. lia.
    - intros hs es rs p _ IH Hrs Hp. cbn. eapply base_once; [reflexivity| |exact I|exact I|cbn; apply Z.le_refl].
      apply alt_body; [exact Hrs|exact IH|]. intros E. apply Hp. destruct es; [auto|discriminate].
    - intros hs es rf p _ IH. cbn. eapply (base_ahead g _ _ false); [reflexivity|apply seq_body; exact IH|reflexivity].
    - intros hs es rs p _ IH. cbn. eapply (base_ahead g _ _ true); [reflexivity|apply seq_body; exact IH|reflexivity].
    - intros neg mn mx hs es p _ IH. cbn. apply behind_agrees. eapply (base_ahead g _ _ false); [reflexivity|apply seq_body; exact IH|reflexivity].
    - intros hs es rs rf p _ IH. cbn. eapply base_once; [reflexivity|apply seq_body; exact IH|exact I|exact I|cbn; lia].
    - intros t hs es rs p _ IH Hp. cbn. apply base_repeat; [apply seq_body; exact IH|exact Hp].
    - intros he e hts ts rs rf p k _ IH F H1 H2 Hrp H3 H4 H5. cbn. eapply base_once; [reflexivity| | | |].
      + apply seq_body. apply (seq_cons _ _ [] [] rs rf p 0 0 0 rs rf p); [exact IH|apply seq_nil| | | | | | |]; try lia. intros E. congruence.
      + apply forall2_variadic. exact F.
      + destruct ts; cbn; [exact I|]. destruct H3 as [H3|H3]; [left; lia|right; exact H3].
      + destruct ts; cbn; [apply H5; reflexivity|exact H4].
    - intros k. cbn. apply light_agrees. apply Hrho.
    - intros cls hfn fn props hs es hts ts Im _ IH F. cbn. apply base_any; [| |exact F].
      + intros [|]; [apply alt_body; [lia|exact IH|lia]|]. apply seq_body.
        clear F. induction IH as [|a b la lb A IH1 IH2]; [apply seq_nil|].
        eapply seq_cons; [exact A|exact IH2| | | | | | |]; lia.
      + inversion Im; subst; cbn; auto. split; [reflexivity|]. split.
        * intros num b. apply impl_agrees. assumption.
        * intros num b h x h' x' e V E. eapply impl_kept; eauto.
    - apply seq_nil.
    - intros he e hs es rs1 rf1 p1 rs2 rf2 p2 rs rf p _ IH1 _ IH2 H1 H2 H3 H4 H5 H6 H7. cbn.
      eapply seq_cons; eauto. intros E. apply H6. destruct es; [exfalso; apply E; reflexivity|discriminate].
    - intros rs p. constructor.
    - intros he e hs es rs p _ IH1 _ IH2. cbn. constructor; assumption.
  Qed.
End Denote.

Lemma heap_env_sound g sg henv env :
  (forall k, reach g sg (henv k) (env k) (fst (fst (sg k))) (snd (fst (sg k))) (snd (sg k))) ->
  forall n k, agrees (h_run_env g henv n k) (run_env env n k) (fst (fst (sg k))) (snd (fst (sg k))) (snd (sg k)).
Proof.
  intros H. induction n as [|n IH]; intros k h x V; [exact I|]. cbn [h_run_env run_env].
  apply (proj1 (reach_sound g sg n _ _ IH) _ _ _ _ _ (H k)). exact V.
Qed.
Lemma heap_run_sound g sg henv env :
  (forall k, reach g sg (henv k) (env k) (fst (fst (sg k))) (snd (fst (sg k))) (snd (sg k))) ->
  forall n he e rs rf p, reach g sg he e rs rf p -> agrees (h_run g henv n he) (run env n e) rs rf p.
Proof.
  intros H n he e rs rf p R. exact (proj1 (reach_sound g sg n _ _ (heap_env_sound g sg henv env H n)) _ _ _ _ _ R).
Qed.
