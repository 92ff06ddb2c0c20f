(** Lemmas for C74. *)
From Verif Require Import L_Heap L_HeapUse.
From Verif Require Export S_Live.

(** ** near *)
Lemma near_refl h s : valid h s -> near h (s_arr s) h s.
Proof. intros V. split; [apply kept_refl|]. auto. Qed.
Lemma near_kept h a h1 s1 h2 : (a < length h)%nat -> near h a h1 s1 -> kept h1 h2 (s_arr s1) 0 -> kept h h2 a 0.
Proof.
  intros La (K & V & [E|E]) K2.
  - rewrite E in K2. eapply kept_trans; eauto.
  - eapply kept_new; eauto.
Qed.
Lemma near_trans h a h1 s1 h2 s2 : (a < length h)%nat -> near h a h1 s1 -> near h1 (s_arr s1) h2 s2 -> near h a h2 s2.
Proof.
  intros La N1 (K2 & V2 & D2). split; [eapply near_kept; eauto|]. split; [exact V2|].
  destruct N1 as (K1 & V1 & D1). pose proof (kept_length _ _ _ _ K1) as L. destruct D2 as [D2|D2]; [rewrite D2; exact D1|]. right. lia.
Qed.
Lemma near_back h a h1 s1 h2 : (a < length h)%nat -> near h a h1 s1 -> kept h1 h2 (s_arr s1) 0 -> forall s, valid h s -> s_arr s = a -> near h a h2 s.
Proof. intros La N K s V E. pose proof (near_kept _ _ _ _ _ La N K) as K2. split; [exact K2|]. split; [eapply kept_valid; eauto|auto]. Qed.
Lemma near_here h a h1 s1 h2 : (a < length h)%nat -> near h a h1 s1 -> kept h1 h2 (s_arr s1) 0 -> near h a h2 s1.
Proof. intros La N K. split; [eapply near_kept; eauto|]. destruct N as (_ & V & D). split; [eapply kept_valid; eauto|exact D]. Qed.
Lemma valid_lt h s : valid h s -> (s_arr s < length h)%nat. Proof. intros V. apply V. Qed.
#[local] Hint Resolve valid_lt near_refl : live.

Definition src_same (x y : hctx) : Prop := c_slice (h_ctx x) = c_slice (h_ctx y).

Lemma source_moves src h x h' x' : source_at src h x -> near h (s_arr (h_stk x)) h' (h_stk x') -> src_same x' x -> source_at src h' x'.
Proof.
  intros (V & Vx & D & E) (K & Vx' & D') S. unfold src_same in S.
  assert (Es : elems h' src = elems h src) by (eapply kept_elems; eauto).
  split; [eapply kept_valid; eauto|]. split; [exact Vx'|]. split; [|rewrite S, E, Es; reflexivity].
  destruct D' as [D'|D']; [rewrite D'; exact D|]. pose proof (valid_lt _ _ V). lia.
Qed.
Lemma source_stays src h x y h' s' : source_at src h x -> source_at src h y -> near h (s_arr (h_stk x)) h' s' -> source_at src h' y.
Proof.
  intros (V & Vx & D & E) (_ & Vy & Dy & Ey) (K & _ & _).
  assert (Es : elems h' src = elems h src) by (eapply kept_elems; eauto).
  split; [eapply kept_valid; eauto|]. split; [eapply kept_valid; eauto|]. split; [exact Dy|rewrite Ey, Es; reflexivity].
Qed.
Lemma source_hmap src h x f : (forall c, c_slice (f c) = c_slice c) -> source_at src h x -> source_at src h (hmap f x).
Proof. intros Hf (A & B & C & D). repeat split; try apply A; try apply B; try exact C. cbn. rewrite Hf. exact D. Qed.
Lemma now_same src h x : source_at src h x -> hmap (now src h) x = x.
Proof. intros (_ & _ & _ & E). destruct x as [[]]. cbn in *. unfold hmap, now. cbn. rewrite E. reflexivity. Qed.
Lemma now_view src h x : source_at src h x -> now src h (view h x) = view h x.
Proof. intros (_ & _ & _ & E). destruct x as [[]]. cbn in *. unfold view, now. cbn. rewrite E. reflexivity. Qed.

(** ** Parsers framed *)
Definition fine_out (h : heap) (x : hctx) (r : hout) : Prop :=
  match r with Ok (h', x', _) => near h (s_arr (h_stk x)) h' (h_stk x') /\ src_same x' x | _ => True end.
Lemma framed_fine p h x : framed p -> valid h (h_stk x) -> fine_out h x (p h x).
Proof. intros F V. exact (F h x V). Qed.
Lemma slice_fix c e : c_slice (fix_status c e) = c_slice c.
Proof. unfold fix_status. destruct c as [? ? ? ? ? [] ? ?], e; reflexivity. Qed.
Lemma light_framed cls p : framed p -> framed (h_light cls p).
Proof.
  intros F h x V. specialize (F h x V). unfold h_light. destruct (p h x) as [[[h' x'] e]|w|]; auto. destruct F as [N E].
  assert (S : c_slice (fix_status (h_ctx x') e) = c_slice (h_ctx x)) by (rewrite slice_fix; exact E).
  destruct (hst (h_fix_status x' e)); cbn; split; auto.
Qed.

(** [o] has come from [x0] at [h0]. *)
Definition come (h0 : heap) (x0 : hctx) (h : heap) (o : hctx) : Prop := near h0 (s_arr (h_stk x0)) h (h_stk o) /\ src_same o x0.
Lemma come_refl h x : valid h (h_stk x) -> come h x h x.
Proof. intros V. split; [auto with live|reflexivity]. Qed.
Lemma come_trans h0 x0 h o h1 o1 : valid h0 (h_stk x0) -> come h0 x0 h o -> come h o h1 o1 -> come h0 x0 h1 o1.
Proof. intros V [A B] [C D]. split; [eapply near_trans; eauto with live|]. unfold src_same in *. congruence. Qed.
Lemma come_fix h0 x0 h o e : come h0 x0 h o -> come h0 x0 h (h_fix_status o e).
Proof. intros [A B]. split; [exact A|]. unfold src_same in *. cbn. rewrite slice_fix. exact B. Qed.
Lemma come_hmap h0 x0 h o f : (forall c, c_slice (f c) = c_slice c) -> come h0 x0 h o -> come h0 x0 h (hmap f o).
Proof. intros H [A B]. split; [exact A|]. unfold src_same in *. cbn. rewrite H. exact B. Qed.
Lemma come_valid h0 x0 h o : come h0 x0 h o -> valid h (h_stk o).
Proof. intros [(_ & V & _) _]. exact V. Qed.
Lemma come_keep h0 x0 h o h1 s1 : valid h0 (h_stk x0) -> come h0 x0 h o -> near h (s_arr (h_stk o)) h1 s1 -> come h0 x0 h1 o.
Proof. intros V [A B] (K & _). split; [eapply near_here; eauto with live|exact B]. Qed.
Lemma come_old h0 x0 h o h1 s1 : valid h0 (h_stk x0) -> come h0 x0 h o -> near h (s_arr (h_stk o)) h1 s1 -> forall y, valid h0 (h_stk y) ->
  s_arr (h_stk y) = s_arr (h_stk x0) -> src_same y x0 -> come h0 x0 h1 y.
Proof. intros V [A B] (K & _) y Vy Ey Sy. split; [eapply near_back; eauto with live|exact Sy]. Qed.

Definition come_c (h0 : heap) (x0 : hctx) (r : hcres) : Prop :=
  match r with
  | HReturn (Ok (h, o, _)) => come h0 x0 h o
  | HReturn _ => True
  | HBreak h o => come h0 x0 h o
  | HEnd h o _ => come h0 x0 h o
  end.
Lemma children_framed ex cs : Forall framed cs -> forall h0 x0 h o num, valid h0 (h_stk x0) -> come h0 x0 h o ->
  come_c h0 x0 (h_children ex x0 cs h o num).
Proof.
  induction 1 as [|p cs F _ IH]; intros h0 x0 h o num V C; cbn [h_children]; [exact C|].
  pose proof (framed_fine p h o F (come_valid _ _ _ _ C)) as A. destruct (p h o) as [[[h1 o1] e]|w|]; cbn; auto.
  assert (C1 : come h0 x0 h1 (h_fix_status o1 e)) by (apply come_fix; eapply come_trans; eauto).
  destruct (hst (h_fix_status o1 e)).
  - destruct ex; [exact C1|]. apply IH; auto.
  - destruct ex.
    + apply IH; auto. destruct A as [A _]. eapply come_keep; eauto.
    + destruct A as [A _]. exact (come_old h0 x0 h o h1 _ V C A x0 V eq_refl eq_refl).
  - exact C1.
Qed.
Lemma call_framed fn num b h o : framed_opt (fun f => forall num b, framed (f num b)) fn -> valid h (h_stk o) -> fine_out h o (h_call_fn fn num b h o).
Proof.
  intros F V. destruct fn as [f|]; cbn; [|apply come_refl; auto]. pose proof (framed_fine _ h o (F num b) V) as A.
  destruct (f num b h o) as [[[h1 o1] e]|w|]; cbn; auto. apply (come_fix h o h1 o1 e A).
Qed.
Definition come_p (h0 : heap) (x0 : hctx) (r : hpres) : Prop :=
  match r with
  | HPReturn (Ok (h, o, _)) => come h0 x0 h o
  | HPReturn _ => True
  | HPDone h o _ => come h0 x0 h o
  end.
Lemma qty_slice k c : c_slice (set_qty c k) = c_slice c. Proof. reflexivity. Qed.
Lemma parent_framed q ex fn b cs : framed_opt (fun f => forall num b, framed (f num b)) fn -> Forall framed cs ->
  forall fuel h0 x0 h o count, valid h0 (h_stk x0) -> come h0 x0 h o -> come_p h0 x0 (h_parent fuel q ex fn b cs h o count).
Proof.
  intros Ff Fc. induction fuel as [|fuel IH]; intros h0 x0 h o count V C; cbn [h_parent]; destruct (more q count); cbn; auto.
  pose proof (children_framed ex cs Fc h o h o 0 (come_valid _ _ _ _ C) (come_refl _ _ (come_valid _ _ _ _ C))) as A.
  destruct (h_children ex o cs h o 0) as [[[[h1 o1] e]|w|]|h1 o1|h1 o1 num]; cbn in *; auto.
  - eapply come_trans; eauto.
  - eapply come_trans; eauto.
  - assert (C1 : come h0 x0 h1 o1) by (eapply come_trans; eauto).
    destruct (ex && _ && _); [destruct A as [A _]; eapply come_keep; eauto|].
    pose proof (call_framed fn (Z.of_nat num) b h1 (hmap (fun c => set_qty c count) o1) Ff (come_valid _ _ _ _ C1)) as B.
    destruct (h_call_fn fn (Z.of_nat num) b h1 (hmap (fun c => set_qty c count) o1)) as [[[h2 o2] e]|w|]; cbn in *; auto.
    assert (B' : come h1 o1 h2 o2) by exact B.
    assert (C2 : come h0 x0 h2 o2) by (eapply come_trans; eauto).
    destruct (hst o2); [apply IH; auto| |exact C2].
    assert (D : come h o h2 o2) by (eapply come_trans; [exact (come_valid _ _ _ _ C)|exact A|exact B']).
    destruct D as [D _]. eapply come_keep; eauto.
Qed.
Lemma trans_framed fuel c ts : Forall framed_trans ts -> forall h s, valid h s ->
  match h_run_trans fuel c ts h s with
  | Ok (h', inr s') => near h (s_arr s) h' s'
  | Ok (h', inl _) => kept h h' (s_arr s) 0
  | _ => True
  end.
Proof.
  induction 1 as [|t ts F _ IH]; intros h s V; cbn [h_run_trans]; [auto with live|].
  specialize (F fuel c h s V). destruct (t fuel c h s) as [[h1 [e|s1]]|w|]; auto.
  specialize (IH h1 s1 ltac:(apply F)). destruct (h_run_trans fuel c ts h1 s1) as [[h2 [e|s2]]|w|]; auto.
  - eapply near_kept; eauto with live.
  - eapply near_trans; eauto with live.
Qed.
Lemma after_slice f c k : c_slice (after_loop f c k) = c_slice c.
Proof. unfold after_loop. repeat match goal with |- context [if ?b then _ else _] => destruct b | |- context [match ?b with _ => _ end] => destruct b end; reflexivity. Qed.
Lemma near_append g h a s l : (a < length h)%nat -> forall h0, near h0 a h s -> (a < length h0)%nat ->
  near h0 a (fst (go_append g h s l)) (snd (go_append g h s l)).
Proof.
  intros La h0 N La0. destruct (go_append g h s l) as [h1 s1] eqn:E. cbn.
  destruct (append_spec g h s l h1 s1 ltac:(apply N) E) as (_ & V1 & K & M & _).
  eapply near_trans; [exact La0|exact N|]. split; [eapply kept_le; [exact K|lia]|]. split; [exact V1|].
  destruct M as [[M _]|M]; auto.
Qed.
Lemma base_framed g cls fn props cs tr fuel : framed_opt (fun f => forall num b, framed (f num b)) fn -> Forall framed cs ->
  framed_opt (Forall framed_trans) tr -> framed (h_base g cls fn props cs tr fuel).
Proof.
  intros Ff Fc Ft h x0 V. unfold h_base. set (f := flags_of props). set (x := hmap (fun c => set_cls c cls) x0).
  change (valid h (h_stk x)) in V.
  assert (Sx : src_same x x0) by reflexivity.
  set (xm := hmap (fun c => set_st c Matched) x).
  pose proof (parent_framed (f_qty f) (f_ex f) fn (s_len (h_stk x)) cs Ff Fc fuel h x h xm 0 V ltac:(apply come_hmap; [reflexivity|apply come_refl; exact V])) as A.
  change (s_arr (h_stk x0)) with (s_arr (h_stk x)). change (c_slice (h_ctx x0)) with (c_slice (h_ctx x)).
  destruct (h_parent fuel (f_qty f) (f_ex f) fn (s_len (h_stk x)) cs h xm 0) as [[[[h1 o1] e]|w|]|h1 o count]; cbn in A; auto.
  set (o1 := hmap (fun c => after_loop f c count) o).
  assert (C1 : come h x h1 o1) by (apply come_hmap; [intros; apply after_slice|exact A]).
  destruct (hst o1); try exact C1.
  pose proof (call_framed fn (-1) (s_len (h_stk x)) h1 (hmap (fun c => set_qty c count) o1) Ff (come_valid _ _ _ _ C1)) as B.
  destruct (h_call_fn fn (-1) (s_len (h_stk x)) h1 (hmap (fun c => set_qty c count) o1)) as [[[h2 o2] e]|w|]; auto.
  assert (C2 : come h x h2 o2) by (eapply come_trans; [exact V|exact C1|exact B]).
  destruct (hst o2); try exact C2.
  set (o3 := if f_rew f then x else o2).
  assert (C3 : come h x h2 o3).
  { unfold o3. destruct (f_rew f); [|exact C2]. eapply come_old; [exact V|exact C1|exact (proj1 B)|exact V|reflexivity|reflexivity]. }
  destruct tr as [ts|]; [|exact C3]. cbn in Ft.
  destruct (Nat.ltb_spec (s_len (h_stk o3)) (s_len (h_stk x))) as [|Hb]; [auto|].
  pose proof (come_valid _ _ _ _ C3) as V3.
  pose proof (trans_framed fuel (view h2 x) ts Ft h2 (from (h_stk o3) (s_len (h_stk x))) ltac:(apply valid_from; [exact V3|exact Hb])) as T.
  destruct (h_run_trans fuel (view h2 x) ts h2 (from (h_stk o3) (s_len (h_stk x)))) as [[h3 [e3|asts]]|w|]; auto.
  - split; [|apply C3]. destruct C3 as [N3 _]. cbn. eapply near_here; eauto with live.
  - assert (N3 : near h (s_arr (h_stk x)) h3 (upto (h_stk o3) (s_len (h_stk x)))).
    { destruct C3 as [N3 _]. destruct T as (T & _). cbn in T. pose proof (near_here _ _ _ _ _ (valid_lt _ _ V) N3 T) as (K & W & D).
      split; [exact K|]. split; [apply valid_upto; [exact W|exact Hb]|exact D]. }
    pose proof (near_append g h3 (s_arr (h_stk x)) (upto (h_stk o3) (s_len (h_stk x))) (elems h3 asts)) as N4.
    specialize (N4 ltac:(destruct N3 as (K & _); pose proof (kept_length _ _ _ _ K); pose proof (valid_lt _ _ V); lia) h N3 (valid_lt _ _ V)).
    destruct (go_append g h3 (upto (h_stk o3) (s_len (h_stk x))) (elems h3 asts)) as [h4 s4]. cbn in *. split; [exact N4|apply C3].
Qed.
Lemma behind_framed neg p : framed p -> forall k h0 h x i, valid h0 (h_stk x) -> come h0 x h x -> match h_look_behind neg p h x i k with Ok (h', x', _) => come h0 x h' x' | _ => True end.
Proof.
  intros F. induction k as [|k IH]; intros h0 h x i V C; cbn [h_look_behind]; [apply come_hmap; [reflexivity|exact C]|].
  destruct (Z.of_nat (c_pos (h_ctx x)) - i <? 0); [apply IH; auto|].
  pose proof (framed_fine p h (hmap (fun c => set_pos c (Z.to_nat (Z.of_nat (c_pos (h_ctx x)) - i))) x) F (come_valid _ _ _ _ C)) as A.
  destruct (p h (hmap (fun c => set_pos c (Z.to_nat (Z.of_nat (c_pos (h_ctx x)) - i))) x)) as [[[h1 o] e]|w|]; auto.
  assert (A' : come h x h1 o) by exact A.
  assert (C1 : come h0 x h1 o) by (eapply come_trans; eauto).
  assert (C2 : come h0 x h1 x) by (eapply come_keep; [exact V|exact C|exact (proj1 A')]).
  destruct e as [e|]; [exact C1|]. destruct (hst o).
  - destruct neg; [apply come_hmap; [reflexivity|exact C1]|exact C2].
  - apply IH; auto.
  - apply IH; auto.
Qed.
Lemma grouping_framed : Forall framed_trans [h_fresh GroupingTransform].
Proof.
  constructor; [|constructor]. intros n c h s V. unfold h_fresh. destruct (GroupingTransform n c (elems h s)) as [[e|l]|w|]; auto; [apply kept_refl|].
  destruct (alloc h (length l) l) as [h1 s1] eqn:E. apply alloc_spec in E. destruct E as (_ & V1 & K & Ea & _).
  split; [apply K; apply V|]. split; [exact V1|]. right. lia.
Qed.

Lemma forall_variadic {A} (P : A -> Prop) l : Forall P l -> framed_opt (Forall P) (variadic l).
Proof. intros F. destruct l; cbn; auto. Qed.
Lemma denote_framed g rho n : (forall k, framed (rho k)) -> forall e, framed_exp e -> framed (h_denote g rho n e).
Proof.
  intros R. fix IH 2. intros e F.
  assert (L : forall es, Forall framed_exp es -> Forall framed (map (h_denote g rho n) es)).
  { induction 1; cbn; constructor; auto. }
  destruct F; cbn [h_denote].
  - apply light_framed. auto.
  - apply base_framed; cbn; auto.
  - apply base_framed; cbn; auto. apply grouping_framed.
  - apply base_framed; cbn; auto.
  - apply base_framed; cbn; auto.
  - apply base_framed; cbn; auto.
  - intros h x V. pose proof (behind_framed neg (h_base g (if neg then ":base:LookBehindN" else ":base:LookBehind") None [PRewind] (map (h_denote g rho n) es) None n)
      ltac:(apply base_framed; cbn; auto) (Z.to_nat (mx - mn + 1)) h h x mn V (come_refl _ _ V)) as A. exact A.
  - apply base_framed; cbn; auto.
  - apply base_framed; cbn; auto. apply forall_variadic. auto.
  - apply light_framed. auto.
  - apply base_framed; cbn; auto.
Qed.
Lemma run_framed g henv : (forall k, framed_exp (henv k)) -> forall n e, framed_exp e -> framed (h_run g henv n e).
Proof.
  intros H n e F. unfold h_run. apply denote_framed; [|exact F]. clear e F.
  induction n as [|n IH]; intros k; cbn [h_run_env]; [intros h x V; exact I|]. apply (denote_framed g _ n IH); auto.
Qed.

(** ** Reading the source late makes no difference *)
Definition same (src : slice) (p' p : hrun) : Prop := forall h x, source_at src h x -> p' h x = p h x.
Lemma come_source src h x h1 x1 : source_at src h x -> come h x h1 x1 -> source_at src h1 x1.
Proof. intros S [N E]. eapply source_moves; eauto. Qed.
Lemma come_stays src h x y h1 x1 : source_at src h x -> source_at src h y -> come h x h1 x1 -> source_at src h1 y.
Proof. intros S Sy [N E]. eapply source_stays; [exact S|exact Sy|exact N]. Qed.
Lemma source_valid src h x : source_at src h x -> valid h (h_stk x). Proof. intros S. apply S. Qed.
Lemma source_fix src h x e : source_at src h x -> source_at src h (h_fix_status x e).
Proof. apply source_hmap. intros. apply slice_fix. Qed.
Lemma live_parser_same src p n : same src (live_parser src p n) (p n).
Proof. intros h x S. unfold live_parser. rewrite (now_same src h x S). reflexivity. Qed.
Lemma light_same src cls p' p : same src p' p -> same src (h_light cls p') (h_light cls p).
Proof. intros H h x S. unfold h_light. rewrite (H h x S). reflexivity. Qed.

Lemma children_same src ex cs' cs : Forall2 (same src) cs' cs -> Forall framed cs -> forall saved h o num, source_at src h o ->
  h_children ex saved cs' h o num = h_children ex saved cs h o num.
Proof.
  induction 1 as [|p' p cs' cs E _ IH]; intros F saved h o num S; cbn [h_children]; [reflexivity|]. inversion F as [|? ? Fp Fc]; subst.
  rewrite (E h o S). pose proof (framed_fine p h o Fp (source_valid _ _ _ S)) as A. destruct (p h o) as [[[h1 o1] e]|w|]; auto.
  assert (C1 : come h o h1 o1) by exact A.
  destruct (hst (h_fix_status o1 e)); auto; destruct ex; auto; apply IH; auto.
  - apply source_fix. eapply come_source; eauto.
  - eapply come_stays; eauto.
Qed.
Lemma call_same src fn num b h o : framed_opt (fun f => forall num b, framed (f num b)) fn -> source_at src h o ->
  h_call_fn (option_map (live_impl src) fn) num b h o = h_call_fn fn num b h o.
Proof. intros F S. destruct fn as [f|]; cbn; auto. unfold live_impl. rewrite (now_same src h o S). reflexivity. Qed.
Lemma parent_same src q ex fn b cs' cs : framed_opt (fun f => forall num b, framed (f num b)) fn -> Forall framed cs -> Forall2 (same src) cs' cs ->
  forall fuel h o count, source_at src h o ->
  h_parent fuel q ex (option_map (live_impl src) fn) b cs' h o count = h_parent fuel q ex fn b cs h o count.
Proof.
  intros Ff Fc E. induction fuel as [|fuel IH]; intros h o count S; cbn [h_parent]; destruct (more q count); auto.
  rewrite (children_same src ex cs' cs E Fc o h o 0 S).
  pose proof (children_framed ex cs Fc h o h o 0 (source_valid _ _ _ S) (come_refl _ _ (source_valid _ _ _ S))) as A.
  destruct (h_children ex o cs h o 0) as [r|h1 o1|h1 o1 num]; cbn in *; auto.
  assert (Ln : length cs' = length cs) by (clear - E; induction E; cbn; congruence). rewrite Ln.
  destruct (ex && _ && _); auto.
  assert (S1 : source_at src h1 (hmap (fun c => set_qty c count) o1)) by (apply source_hmap; [reflexivity|eapply come_source; eauto]).
  rewrite (call_same src fn (Z.of_nat num) b h1 _ Ff S1).
  pose proof (call_framed fn (Z.of_nat num) b h1 (hmap (fun c => set_qty c count) o1) Ff (source_valid _ _ _ S1)) as B.
  destruct (h_call_fn fn (Z.of_nat num) b h1 (hmap (fun c => set_qty c count) o1)) as [[[h2 o2] e]|w|]; auto.
  destruct (hst o2); auto. apply IH. eapply come_source; [exact S1|exact B].
Qed.
Lemma trans_same src fuel c ts : Forall framed_trans ts -> forall h s, source_at src h (mkH c s) ->
  h_run_trans fuel c (map (live_trans src) ts) h s = h_run_trans fuel c ts h s.
Proof.
  induction 1 as [|t ts F _ IH]; intros h s S; cbn [h_run_trans map]; auto.
  assert (E : now src h c = c). { pose proof (now_same src h (mkH c s) S) as K. unfold hmap in K. cbn in K. congruence. }
  unfold live_trans at 1. rewrite E. specialize (F fuel c h s (source_valid _ _ _ S)). destruct (t fuel c h s) as [[h1 [e|s1]]|w|]; auto.
  apply IH. eapply (come_source src h (mkH c s)); [exact S|]. split; [exact F|reflexivity].
Qed.
Lemma base_same src g cls fn props cs' cs tr fuel : framed_opt (fun f => forall num b, framed (f num b)) fn -> Forall framed cs -> Forall2 (same src) cs' cs ->
  framed_opt (Forall framed_trans) tr ->
  same src (h_base g cls (option_map (live_impl src) fn) props cs' (option_map (map (live_trans src)) tr) fuel) (h_base g cls fn props cs tr fuel).
Proof.
  intros Ff Fc E Ft h x0 S0. unfold h_base. set (f := flags_of props). set (x := hmap (fun c => set_cls c cls) x0).
  assert (S : source_at src h x) by (apply source_hmap; [reflexivity|exact S0]). pose proof (source_valid _ _ _ S) as V.
  set (xm := hmap (fun c => set_st c Matched) x).
  assert (Sm : source_at src h xm) by (apply source_hmap; [reflexivity|exact S]).
  rewrite (parent_same src (f_qty f) (f_ex f) fn (s_len (h_stk x)) cs' cs Ff Fc E fuel h xm 0 Sm).
  pose proof (parent_framed (f_qty f) (f_ex f) fn (s_len (h_stk x)) cs Ff Fc fuel h x h xm 0 V ltac:(apply come_hmap; [reflexivity|apply come_refl; exact V])) as A.
  destruct (h_parent fuel (f_qty f) (f_ex f) fn (s_len (h_stk x)) cs h xm 0) as [r|h1 o count]; cbn in A; auto.
  set (o1 := hmap (fun c => after_loop f c count) o).
  assert (C1 : come h x h1 o1) by (apply come_hmap; [intros; apply after_slice|exact A]).
  destruct (hst o1); auto.
  assert (S1 : source_at src h1 (hmap (fun c => set_qty c count) o1)) by (apply source_hmap; [reflexivity|eapply come_source; eauto]).
  rewrite (call_same src fn (-1) (s_len (h_stk x)) h1 _ Ff S1).
  pose proof (call_framed fn (-1) (s_len (h_stk x)) h1 (hmap (fun c => set_qty c count) o1) Ff (come_valid _ _ _ _ C1)) as B.
  destruct (h_call_fn fn (-1) (s_len (h_stk x)) h1 (hmap (fun c => set_qty c count) o1)) as [[[h2 o2] e]|w|]; auto.
  assert (C2 : come h x h2 o2) by (eapply come_trans; [exact V|exact C1|exact B]).
  destruct (hst o2); auto.
  set (o3 := if f_rew f then x else o2).
  assert (Sx2 : source_at src h2 x) by (exact (come_stays src h x x h2 o2 S S C2)).
  assert (S3 : source_at src h2 o3).
  { unfold o3. destruct (f_rew f); [exact Sx2|]. exact (come_source src h x h2 o2 S C2). }
  destruct tr as [ts|]; cbn [option_map]; auto. cbn in Ft.
  destruct (Nat.ltb_spec (s_len (h_stk o3)) (s_len (h_stk x))) as [|Hb]; auto.
  rewrite (trans_same src fuel (view h2 x) ts Ft h2 (from (h_stk o3) (s_len (h_stk x)))); auto.
  destruct S3 as (P1 & P2 & P3 & P4). destruct Sx2 as (_ & _ & _ & Q). split; [exact P1|]. split; [apply valid_from; [exact P2|exact Hb]|]. split; [exact P3|exact Q].
Qed.
Lemma behind_same src neg p' p : same src p' p -> framed p -> forall k h x i, source_at src h x -> h_look_behind neg p' h x i k = h_look_behind neg p h x i k.
Proof.
  intros E F. induction k as [|k IH]; intros h x i S; cbn [h_look_behind]; auto.
  destruct (Z.of_nat (c_pos (h_ctx x)) - i <? 0); [apply IH; auto|].
  set (y := hmap (fun c => set_pos c (Z.to_nat (Z.of_nat (c_pos (h_ctx x)) - i))) x).
  assert (Sy : source_at src h y) by (apply source_hmap; [reflexivity|exact S]).
  rewrite (E h y Sy). pose proof (framed_fine p h y F (source_valid _ _ _ Sy)) as A. destruct (p h y) as [[[h1 o] e]|w|]; auto.
  destruct e; auto. assert (S1 : source_at src h1 x) by (exact (come_stays src h y x h1 o Sy S A)). destruct (hst o); auto.
Qed.
Lemma variadic_map {A B} (f : A -> B) l : variadic (map f l) = option_map (map f) (variadic l).
Proof. destruct l; reflexivity. Qed.
Lemma denote_same src g rho' rho n : (forall k, framed (rho k)) -> (forall k, same src (rho' k) (rho k)) -> forall e, framed_exp e ->
  same src (h_denote g rho' n (live src e)) (h_denote g rho n e).
Proof.
  intros R Rs. fix IH 2. intros e F.
  assert (L : forall es, Forall framed_exp es -> Forall2 (same src) (map (h_denote g rho' n) (map (live src) es)) (map (h_denote g rho n) es)).
  { induction 1; cbn; constructor; auto. }
  assert (M : forall es, Forall framed_exp es -> Forall framed (map (h_denote g rho n) es)).
  { intros es H. rewrite Forall_map. eapply Forall_impl; [|exact H]. intros a Ha. apply denote_framed; auto. }
  destruct F as [cls fn Hf|es He|es He|es He|es He|es He|neg mn mx es He|t es He|e ts He Ht|k|cls fn props es ts Hf He Ht]; cbn [h_denote live].
  - apply light_same, live_parser_same.
  - apply (base_same src g _ None _ _ _ None n I (M _ He) (L _ He) I).
  - exact (base_same src g ":base:Group" None [] _ _ (Some [h_fresh GroupingTransform]) n I (M _ He) (L _ He) grouping_framed).
  - apply (base_same src g _ None _ _ _ None n I (M _ He) (L _ He) I).
  - apply (base_same src g _ None _ _ _ None n I (M _ He) (L _ He) I).
  - apply (base_same src g _ None _ _ _ None n I (M _ He) (L _ He) I).
  - intros h x S. apply (behind_same src neg); [|apply base_framed; cbn; auto|exact S].
    apply (base_same src g _ None _ _ _ None n I (M _ He) (L _ He) I).
  - apply (base_same src g _ None _ _ _ None n I (M _ He) (L _ He) I).
  - rewrite variadic_map. apply (base_same src g _ None); [exact I| | |apply forall_variadic; exact Ht].
    + constructor; [apply denote_framed; auto|constructor].
    + constructor; [apply IH; exact He|constructor].
  - apply light_same, Rs.
  - apply base_same; auto.
Qed.
Lemma live_run_same g henv src : (forall k, framed_exp (henv k)) -> forall n e, framed_exp e -> same src (live_run g henv src n e) (h_run g henv n e).
Proof.
  intros H n e F. unfold live_run, h_run.
  assert (G : forall m k, framed (h_run_env g henv m k)).
  { induction m as [|m IH]; intros k; cbn [h_run_env]; [intros h x V; exact I|]. apply (denote_framed g _ m IH); auto. }
  apply denote_same; auto. clear e F. induction n as [|n IH]; intros k; cbn [h_run_env]; [intros h x S; reflexivity|].
  apply (denote_same src g _ _ n (G n) IH); auto.
Qed.

(** ** ProductionRule *)
Lemma rules_same g n asts p rules' rules : Forall2 (fun r' r => forall m, same asts (r' m) (r m)) rules' rules -> Forall (fun r => forall m, framed (r m)) rules ->
  forall astx h, source_at asts h astx -> h_try_rules g n rules' astx asts p h = h_try_rules g n rules astx asts p h.
Proof.
  induction 1 as [|r' r rules' rules E _ IH]; intros F astx h S; cbn [h_try_rules]; auto. inversion F as [|? ? Fr Fs]; subst.
  set (y := hmap (fun c => set_pos c p) astx). assert (Sy : source_at asts h y) by (apply source_hmap; [reflexivity|exact S]).
  rewrite (E n h y Sy). pose proof (framed_fine _ h y (Fr n) (source_valid _ _ _ Sy)) as A. destruct (r n h y) as [[[h1 o] [e|]]|w|]; auto.
  assert (S1 : source_at asts h1 astx) by (exact (come_stays asts h y astx h1 o Sy S A)). destruct (hst o); auto.
Qed.
(** What the attempts leave alone. *)
Definition scan_kept (h0 : heap) (x : hctx) (r : hscan) : Prop :=
  match r with
  | HSErr h _ => kept h0 h (s_arr (h_stk x)) 0
  | HSHit h z => kept h0 h (s_arr (h_stk x)) 0 /\ valid h z /\ (length h0 <= s_arr z)%nat
  | HSNone h => kept h0 h (s_arr (h_stk x)) 0
  | _ => True
  end.
Lemma new_append g h s l h1 s1 h0 a : (a < length h0)%nat -> kept h0 h a 0 -> valid h s -> (length h0 <= s_arr s)%nat -> go_append g h s l = (h1, s1) ->
  kept h0 h1 a 0 /\ valid h1 s1 /\ (length h0 <= s_arr s1)%nat.
Proof.
  intros La K V L E. destruct (append_spec g h s l h1 s1 V E) as (_ & V1 & K1 & M & _).
  split; [eapply kept_new; [exact La|exact K|exact K1|exact L]|]. split; [exact V1|].
  pose proof (kept_length _ _ _ _ K). destruct M as [[M _]|M]; lia.
Qed.
Lemma rules_kept g n asts p rules : Forall (fun r => forall m, framed (r m)) rules -> forall astx h0 h, valid h0 (h_stk astx) -> kept h0 h (s_arr (h_stk astx)) 0 ->
  scan_kept h0 astx (h_try_rules g n rules astx asts p h).
Proof.
  induction 1 as [|r rules F _ IH]; intros astx h0 h V K; cbn [h_try_rules]; [exact K|].
  set (y := hmap (fun c => set_pos c p) astx). assert (Vy : valid h (h_stk y)) by (eapply kept_valid; [exact K|exact V]).
  pose proof (framed_fine _ h y (F n) Vy) as A. destruct (r n h y) as [[[h1 o] [e|]]|w|]; [| |exact I|exact I].
  - destruct A as [(A & _) _]. exact (kept_trans _ _ _ _ _ K A).
  - assert (K1 : kept h0 h1 (s_arr (h_stk astx)) 0) by (destruct A as [(A & _) _]; exact (kept_trans _ _ _ _ _ K A)).
    destruct (hst o); [|apply IH; auto|apply IH; auto].
    destruct (Nat.leb p (s_len asts) && Nat.leb (c_pos (h_ctx o)) (s_len asts)); [|exact I].
    pose proof (valid_lt _ _ V) as La.
    destruct (alloc h1 (s_len asts) []) as [h2 z0] eqn:E0. apply alloc_spec in E0. destruct E0 as (_ & V2 & K2 & Ez & _).
    assert (N2 : kept h0 h2 (s_arr (h_stk astx)) 0) by (eapply kept_trans; [exact K1|apply K2; pose proof (kept_length _ _ _ _ K1); lia]).
    pose proof (kept_length _ _ _ _ K1) as L1.
    destruct (go_append g h2 z0 (elems h2 (upto asts p))) as [h3 z1] eqn:E1. destruct (new_append g h2 z0 _ h3 z1 h0 _ La N2 V2 ltac:(lia) E1) as (N3 & V3 & L3).
    destruct (go_append g h3 z1 (elems h3 (h_stk o))) as [h4 z2] eqn:E2. destruct (new_append _ _ _ _ _ _ h0 _ La N3 V3 L3 E2) as (N4 & V4 & L4).
    destruct (go_append g h4 z2 (elems h4 (from asts (c_pos (h_ctx o))))) as [h5 z3] eqn:E3. destruct (new_append _ _ _ _ _ _ h0 _ La N4 V4 L4 E3) as (N5 & V5 & L5).
    exact (conj N5 (conj V5 L5)).
Qed.

Lemma source_at_kept src h x h1 : source_at src h x -> kept h h1 (s_arr (h_stk x)) 0 -> source_at src h1 x.
Proof.
  intros (V & Vx & D & E) K. assert (Es : elems h1 src = elems h src) by (eapply kept_elems; eauto).
  split; [eapply kept_valid; eauto|]. split; [eapply kept_valid; eauto|]. split; [exact D|congruence].
Qed.
Definition framed_prec (pr : hprec) : Prop := Forall (fun r => forall m, framed (r m)) (hpr_rules pr).
Definition same_prec (asts : slice) (pr' pr : hprec) : Prop :=
  hpr_rtol pr' = hpr_rtol pr /\ Forall2 (fun r' r => forall m, same asts (r' m) (r m)) (hpr_rules pr') (hpr_rules pr).
Lemma positions_kept g n pr asts : framed_prec pr -> forall k astx h0 h i, valid h0 (h_stk astx) -> kept h0 h (s_arr (h_stk astx)) 0 ->
  scan_kept h0 astx (h_try_positions g n pr astx asts i k h).
Proof.
  intros F. induction k as [|k IH]; intros astx h0 h i V K; cbn [h_try_positions]; [exact K|].
  pose proof (rules_kept g n asts (if hpr_rtol pr then (s_len asts - i)%nat else i) (hpr_rules pr) F astx h0 h V K) as A.
  destruct (h_try_rules g n (hpr_rules pr) astx asts (if hpr_rtol pr then (s_len asts - i)%nat else i) h); auto.
Qed.
Lemma positions_same g n pr' pr asts : same_prec asts pr' pr -> framed_prec pr -> forall k astx h i, source_at asts h astx ->
  h_try_positions g n pr' astx asts i k h = h_try_positions g n pr astx asts i k h.
Proof.
  intros [E R] F. induction k as [|k IH]; intros astx h i S; cbn [h_try_positions]; auto. rewrite E, (rules_same g n asts _ _ _ R F astx h S).
  pose proof (rules_kept g n asts (if hpr_rtol pr then (s_len asts - i)%nat else i) (hpr_rules pr) F astx h h (source_valid _ _ _ S) (kept_refl _ _ _)) as A.
  destruct (h_try_rules g n (hpr_rules pr) astx asts (if hpr_rtol pr then (s_len asts - i)%nat else i) h); auto. apply IH. eapply source_at_kept; eauto.
Qed.
Definition scan_grown (h0 : heap) (r : hscan) : Prop :=
  match r with
  | HSErr h _ => grown h0 h
  | HSHit h z => grown h0 h /\ valid h z /\ (length h0 <= s_arr z)%nat
  | HSNone h => grown h0 h
  | _ => True
  end.
Lemma new_source h asts tag h1 x : valid h asts -> h_new h (new_object_ctx (ast_slice (elems h asts)) tag) = (h1, x) ->
  source_at asts h1 x /\ grown h h1 /\ s_arr (h_stk x) = length h.
Proof.
  intros V E. unfold h_new in E. destruct (alloc h 1024 []) as [h2 s] eqn:Ea. injection E as <- <-. pose proof (alloc_grown _ _ _ _ _ Ea) as G.
  apply alloc_spec in Ea. destruct Ea as (_ & Vs & _ & Es & _). cbn. split; [|auto].
  split; [eapply grown_valid; eauto|]. split; [exact Vs|]. split; [cbn; pose proof (valid_lt _ _ V); lia|]. cbn. rewrite (grown_elems _ _ _ G V). reflexivity.
Qed.
Lemma precs_grown g n tag asts prs : Forall framed_prec prs -> forall h0 h, valid h asts -> grown h0 h -> scan_grown h0 (h_try_precedences g n prs tag asts h).
Proof.
  induction 1 as [|pr prs F _ IH]; intros h0 h V G; cbn [h_try_precedences]; [exact G|].
  destruct (h_new h (new_object_ctx (ast_slice (elems h asts)) tag)) as [h1 x] eqn:E. destruct (new_source _ _ _ _ _ V E) as (S & G1 & Ea).
  pose proof (positions_kept g n pr asts F (Datatypes.S (s_len asts)) x h1 h1 0 (source_valid _ _ _ S) (kept_refl _ _ _)) as A.
  assert (L : (length h0 <= s_arr (h_stk x))%nat) by (rewrite Ea; apply G).
  assert (G2 : grown h0 h1) by (eapply grown_trans; eauto).
  destruct (h_try_positions g n pr x asts 0 (Datatypes.S (s_len asts)) h1) as [h2 e|w| |h2 z|h2]; cbn in *; auto.
  - eapply kept_grown; eauto.
  - destruct A as (A & Vz & Lz). split; [eapply kept_grown; eauto|]. split; [exact Vz|]. pose proof (proj1 G2). lia.
  - apply IH; [|eapply kept_grown; eauto]. eapply kept_valid; [exact A|]. apply S.
Qed.
Lemma precs_same g n tag asts prs' prs : Forall2 (same_prec asts) prs' prs -> Forall framed_prec prs -> forall h, valid h asts ->
  h_try_precedences g n prs' tag asts h = h_try_precedences g n prs tag asts h.
Proof.
  induction 1 as [|pr' pr prs' prs E _ IH]; intros F h V; cbn [h_try_precedences]; auto. inversion F as [|? ? Fp Fs]; subst.
  destruct (h_new h (new_object_ctx (ast_slice (elems h asts)) tag)) as [h1 x] eqn:En. destruct (new_source _ _ _ _ _ V En) as (S & G1 & Ea).
  rewrite (positions_same g n pr' pr asts E Fp (Datatypes.S (s_len asts)) x h1 0 S).
  pose proof (positions_kept g n pr asts Fp (Datatypes.S (s_len asts)) x h1 h1 0 (source_valid _ _ _ S) (kept_refl _ _ _)) as A.
  destruct (h_try_positions g n pr x asts 0 (Datatypes.S (s_len asts)) h1) as [h2 e|w| |h2 z|h2]; auto.
  apply IH; auto. eapply kept_valid; [exact A|]. apply S.
Qed.
Lemma loop_same g n prs' prs check' check tag : (forall src, Forall2 (same_prec src) (prs' src) prs) -> Forall framed_prec prs ->
  (forall src m, same src (check' src m) (check m)) -> (forall m, framed (check m)) ->
  forall k asts h, valid h asts -> live_production_loop g n k prs' check' tag asts h = h_production_loop g n k prs check tag asts h.
Proof.
  intros E F Ec Fc. induction k as [|k IH]; intros asts h V; cbn [live_production_loop h_production_loop]; auto.
  rewrite (precs_same g n tag asts _ _ (E asts) F h V). pose proof (precs_grown g n tag asts prs F h h V (grown_refl h)) as A.
  assert (C : forall h1 asts1 (next' next : heap -> res (heap * (gerr + slice))), valid h1 asts1 -> (forall h3, valid h3 asts1 -> next' h3 = next h3) ->
    (let '(h2, x) := h_new h1 (new_object_ctx (ast_slice (elems h1 asts1)) tag) in
        match check' asts1 n h2 x with
        | Panic w => Panic w
        | Fuel => Fuel
        | Ok (h3, o, None) => match hst o with Matched => Ok (h3, inr asts1) | _ => next' h3 end
        | Ok (h3, _, Some _) => next' h3
        end) =
    (let '(h2, x) := h_new h1 (new_object_ctx (ast_slice (elems h1 asts1)) tag) in
        match check n h2 x with
        | Panic w => Panic w
        | Fuel => Fuel
        | Ok (h3, o, None) => match hst o with Matched => Ok (h3, inr asts1) | _ => next h3 end
        | Ok (h3, _, Some _) => next h3
        end)).
  { intros h1 asts1 next' next V1 N. destruct (h_new h1 (new_object_ctx (ast_slice (elems h1 asts1)) tag)) as [h2 x] eqn:En.
    destruct (new_source _ _ _ _ _ V1 En) as (S & _ & _). rewrite (Ec asts1 n h2 x S).
    pose proof (framed_fine _ h2 x (Fc n) (source_valid _ _ _ S)) as B. destruct (check n h2 x) as [[[h3 o] e]|w|]; auto.
    assert (V3 : valid h3 asts1) by (destruct B as [(B & _) _]; eapply kept_valid; [exact B|apply S]).
    destruct e; [apply N; exact V3|]. destruct (hst o); auto. }
  destruct (h_try_precedences g n prs tag asts h) as [h1 e|w| |h1 z|h1]; auto.
  - apply C; [apply A|]. intros h3 V3. apply IH. exact V3.
  - apply C; [|auto]. eapply grown_valid; eauto.
Qed.
Lemma loop_grown g n prs check tag : Forall framed_prec prs -> (forall m, framed (check m)) ->
  forall k asts h0 h, valid h asts -> grown h0 h ->
  match h_production_loop g n k prs check tag asts h with
  | Ok (h', inr z) => grown h0 h' /\ valid h' z /\ (z = asts \/ (length h0 <= s_arr z)%nat)
  | Ok (h', inl _) => grown h0 h'
  | _ => True
  end.
Proof.
  intros F Fc. induction k as [|k IH]; intros asts h0 h V G; cbn [h_production_loop]; auto.
  pose proof (precs_grown g n tag asts prs F h0 h V G) as A. pose proof (precs_grown g n tag asts prs F h h V (grown_refl h)) as A0.
  assert (C : forall h1 asts1, valid h1 asts1 -> grown h0 h1 ->
    let '(h2, x) := h_new h1 (new_object_ctx (ast_slice (elems h1 asts1)) tag) in
        match check n h2 x with
        | Ok (h3, o, _) => grown h0 h3 /\ valid h3 asts1
        | _ => True
        end).
  { intros h1 asts1 V1 G1. destruct (h_new h1 (new_object_ctx (ast_slice (elems h1 asts1)) tag)) as [h2 x] eqn:En.
    destruct (new_source _ _ _ _ _ V1 En) as (S & G2 & Ea). pose proof (framed_fine _ h2 x (Fc n) (source_valid _ _ _ S)) as B.
    destruct (check n h2 x) as [[[h3 o] e]|w|]; auto. destruct B as [(B & _) _]. split.
    - eapply kept_grown; [eapply grown_trans; eauto| |exact B]. rewrite Ea. apply G1.
    - eapply kept_valid; [exact B|apply S]. }
  destruct (h_try_precedences g n prs tag asts h) as [h1 e|w| |h1 z|h1]; auto.
  - destruct A as (A1 & A2 & A3). specialize (C h1 z A2 A1).
    destruct (h_new h1 (new_object_ctx (ast_slice (elems h1 z)) tag)) as [h2 x].
    assert (N : forall h3, grown h0 h3 /\ valid h3 z -> match h_production_loop g n k prs check tag z h3 with
      | Ok (h', inr z') => grown h0 h' /\ valid h' z' /\ (z' = asts \/ (length h0 <= s_arr z')%nat) | Ok (h', inl _) => grown h0 h' | _ => True end).
    { intros h3 [G3 V3]. specialize (IH z h0 h3 V3 G3). destruct (h_production_loop g n k prs check tag z h3) as [[h' [e'|z']]|w|]; auto.
      destruct IH as (I1 & I2 & [->|I3]); auto. }
    destruct (check n h2 x) as [[[h3 o] [e|]]|w|]; [exact (N h3 C)| |exact I|exact I].
    destruct (hst o); [|exact (N h3 C)|exact (N h3 C)]. destruct C as [C1 C2]. auto.
  - assert (V1 : valid h1 asts) by (eapply grown_valid; [exact A0|exact V]). specialize (C h1 asts V1 A).
    destruct (h_new h1 (new_object_ctx (ast_slice (elems h1 asts)) tag)) as [h2 x].
    destruct (check n h2 x) as [[[h3 o] [e|]]|w|]; auto; [apply C|]. destruct (hst o); try apply C. destruct C. auto.
Qed.

Lemma production_framed g prs check : Forall framed_prec prs -> (forall m, framed (check m)) -> framed_trans (h_production g prs check).
Proof.
  intros F Fc n c h s V. unfold h_production. pose proof (loop_grown g n prs check (c_tag c) F Fc n s h h V (grown_refl h)) as A.
  destruct (h_production_loop g n n prs check (c_tag c) s h) as [[h' [e|z]]|w|]; auto.
  - apply grown_kept; [exact A|apply V].
  - destruct A as (A & Vz & D). split; [apply grown_kept; [exact A|apply V]|]. split; [exact Vz|]. destruct D as [->|D]; auto.
Qed.
Lemma live_production_same g henv prs check : (forall k, framed_exp (henv k)) -> Forall (fun p => Forall framed_exp (gpr_rules p)) prs -> framed_exp check ->
  forall n c h s, valid h s -> live_production g henv prs check n c h s = snapshot_production g henv prs check n c h s.
Proof.
  intros He Fp Fc n c h s V. unfold live_production, snapshot_production, h_production. apply loop_same; auto.
  - intros src. clear -Fp He. induction Fp as [|p prs Fr _ IH]; cbn; constructor; auto. split; [reflexivity|]. cbn.
    induction Fr as [|e rules Fe _ IHr]; cbn; constructor; auto. intros m. apply live_run_same; auto.
  - clear -Fp He. rewrite Forall_map. eapply Forall_impl; [|exact Fp]. intros p Fr. unfold framed_prec. cbn. rewrite Forall_map.
    eapply Forall_impl; [|exact Fr]. intros e Fe m. apply run_framed; auto.
  - intros src m. apply live_run_same; auto.
  - intros m. apply run_framed; auto.
Qed.
Lemma snapshot_framed g henv prs check : (forall k, framed_exp (henv k)) -> Forall (fun p => Forall framed_exp (gpr_rules p)) prs -> framed_exp check ->
  framed_trans (snapshot_production g henv prs check).
Proof.
  intros He Fp Fc. apply production_framed; [|intros m; apply run_framed; auto].
  rewrite Forall_map. eapply Forall_impl; [|exact Fp]. intros p Fr. unfold framed_prec. cbn. rewrite Forall_map.
  eapply Forall_impl; [|exact Fr]. intros e Fe m. apply run_framed; auto.
Qed.

(** ** The parts of the library *)
Lemma faithful_framed ht t : faithful ht t -> framed_trans ht.
Proof.
  intros H n c h s V. specialize (H n c h s V). destruct (ht n c h s) as [[h' [e|s']]|w|], (t n c (elems h s)) as [[e'|l]|w'|]; try contradiction; auto.
  - destruct H as [_ H]. eapply kept_le; [exact H|lia].
  - destruct H as (_ & Vs & K & D). split; [eapply kept_le; [exact K|lia]|]. split; [exact Vs|]. destruct D as [[D _]|D]; auto.
Qed.
Lemma leaf_framed g fn n : (forall c o e, fn n c = Ok (o, e) -> c_slice o = c_slice c) -> framed (h_leaf g fn n).
Proof.
  intros H h x V. unfold h_leaf. destruct (fn n (view h x)) as [[o e]|w|] eqn:E; auto.
  pose proof (near_append g h (s_arr (h_stk x)) (h_stk x) (skipn (s_len (h_stk x)) (c_stack o)) (valid_lt _ _ V) h (near_refl _ _ V) (valid_lt _ _ V)) as N.
  destruct (go_append g h (h_stk x) (skipn (s_len (h_stk x)) (c_stack o))) as [h1 s1]. cbn in *. split; [exact N|]. rewrite (H _ _ _ E). reflexivity.
Qed.
Lemma zero_framed g ins n : framed (h_zero g ins n).
Proof.
  intros h x V. unfold h_zero. destruct (go_append g h (h_stk x) ins) as [h1 s1] eqn:E. destruct (append_spec g h (h_stk x) ins h1 s1 V E) as (_ & V1 & K & M & L).
  rewrite zero_patch_in_place. destruct (patch_spec (fun a => set_asp a (c_sp (h_ctx x))) (length ins) h1 s1 (s_len (h_stk x)) V1 ltac:(lia)) as (_ & V2 & K2 & _).
  cbn [h_stk h_ctx]. split; [|reflexivity].
  assert (N1 : near h (s_arr (h_stk x)) h1 s1) by (split; [eapply kept_le; [exact K|lia]|split; [exact V1|destruct M as [[M _]|M]; auto]]).
  eapply near_here; [apply V|exact N1|]. eapply kept_le; [exact K2|lia].
Qed.
Lemma match_framed g k cases n : Forall (fun cs => Forall framed_trans (hcase_let cs)) cases -> framed (h_match g k cases n).
Proof.
  intros F h x0 V. unfold h_match. set (x := hmap (fun c => set_st (set_len c 0) Unmatched) x0).
  change (valid h (h_stk x)) in V. change (s_arr (h_stk x0)) with (s_arr (h_stk x)). change (c_slice (h_ctx x0)) with (c_slice (h_ctx x)).
  change (s_len (h_stk x0)) with (s_len (h_stk x)).
  destruct (find (fun cs => hcase_if cs (elems h (h_stk x))) cases) as [cs|] eqn:Ef; [|split; [apply near_refl; exact V|reflexivity]].
  apply find_some in Ef. destruct Ef as [Ef _]. rewrite Forall_forall in F. specialize (F cs Ef).
  destruct (Z.ltb_spec (Z.of_nat (s_len (h_stk x)) - k) 0) as [|H0]; cbn [orb]; [exact I|].
  destruct (Z.ltb_spec (Z.of_nat (s_len (h_stk x))) (Z.of_nat (s_len (h_stk x)) - k)) as [|H1]; [exact I|].
  set (j := Z.to_nat (Z.of_nat (s_len (h_stk x)) - k)). assert (Hj : (j <= s_len (h_stk x))%nat) by (unfold j; lia).
  pose proof (trans_framed n (view h x) (hcase_let cs) F h (from (h_stk x) j) ltac:(apply valid_from; auto)) as T.
  destruct (h_run_trans n (view h x) (hcase_let cs) h (from (h_stk x) j)) as [[h1 [e|asts]]|w|]; auto.
  - split; [|reflexivity]. cbn. eapply near_here; [apply V|apply near_refl; exact V|exact T].
  - destruct T as (T & _). cbn in T.
    assert (N : near h (s_arr (h_stk x)) h1 (upto (h_stk x) j)).
    { split; [exact T|]. split; [apply valid_upto; [eapply kept_valid; [exact T|exact V]|exact Hj]|left; reflexivity]. }
    pose proof (near_append g h1 (s_arr (h_stk x)) (upto (h_stk x) j) (elems h1 asts) ltac:(pose proof (kept_length _ _ _ _ T); pose proof (valid_lt _ _ V); lia) h N (valid_lt _ _ V)) as N2.
    destruct (go_append g h1 (upto (h_stk x) j) (elems h1 asts)) as [h2 s2]. cbn in *. split; [exact N2|reflexivity].
Qed.

(** ** Grammars that implement grammars over lists *)
Lemma fold_all {A} (P : A -> Prop) l : fold_right (fun x q => x /\ q) True (map P l) <-> Forall P l.
Proof. induction l as [|a l IH]; cbn; [split; auto|]. rewrite IH. split; [intros [H1 H2]; auto|intros H; inversion H; auto]. Qed.
Lemma implements_framed g :
  (forall he e, implements g he e -> gram source_spec e -> framed_exp he) /\
  (forall hs es, implements_all g hs es -> Forall (gram source_spec) es -> Forall framed_exp hs).
Proof.
  apply implements_mut; cbn [gram EZero]; try (intros; constructor; rewrite ?fold_all in *; tauto).
  - intros cls fn A S. constructor. intros n. apply leaf_framed. intros c o e E. apply (S n c o e E).
  - intros ins S. constructor. intros n. apply zero_framed.
  - intros he e hts ts _ IH F S. constructor; [apply IH, S|]. clear -F. induction F; constructor; auto. eapply faithful_framed; eauto.
  - intros cls hfn fn props hs es hts ts M _ IH F S. constructor.
    + destruct M as [|f A]; [exact I|]. intros num b. unfold h_impl. apply (leaf_framed g (fun _ => f num b) 0). intros c o e E. apply (proj1 S num b c o e E).
    + apply IH. rewrite <- fold_all. apply S.
    + destruct hts as [hts|], ts as [ts|]; cbn in *; try contradiction; auto. clear -F. induction F; constructor; auto. eapply faithful_framed; eauto.
  - intros he e hs es _ IH _ IHs F. inversion F; subst. constructor; auto.
Qed.
Lemma live_faithful g henv env hprs prs hcheck check :
  (forall k, implements g (henv k) (env k) /\ gram source_spec (env k)) ->
  Forall2 (fun hp p => gpr_rtol hp = snd p /\ Forall2 (fun he e => implements g he e /\ gram source_spec e) (gpr_rules hp) (fst p)) hprs prs ->
  implements g hcheck check -> gram source_spec check ->
  faithful (live_production g henv hprs hcheck)
    (ProductionRule (map (fun p => mkPrec (map (fun e m => run env m e) (fst p)) (snd p)) prs) (fun m => run env m check)).
Proof.
  intros He Hp Hc Sc n c h s V.
  assert (Fe : forall k, framed_exp (henv k)) by (intros k; destruct (He k); eapply (proj1 (implements_framed g)); eauto).
  rewrite (live_production_same g henv hprs hcheck Fe); [| |eapply (proj1 (implements_framed g)); eauto|exact V].
  2:{ clear -Hp. induction Hp as [|hp p hprs prs [_ R] _ IH]; constructor; auto. clear -R. induction R as [|he e ? ? [I S] _ IHr]; constructor; auto. eapply (proj1 (implements_framed g)); eauto. }
  revert n c h s V. change (faithful (snapshot_production g henv hprs hcheck)
    (ProductionRule (map (fun p => mkPrec (map (fun e m => run env m e) (fst p)) (snd p)) prs) (fun m => run env m check))).
  unfold snapshot_production. apply production_faithful.
  - clear -Hp He. induction Hp as [|hp p hprs prs [Er R] _ IH]; cbn; constructor; auto. cbn. split; [exact Er|].
    clear -R He. induction R as [|he e ? ? [Im _] _ IHr]; cbn; constructor; auto. intros n. exists 0, 0, 0. apply copy_sound; auto. intros k. apply He.
  - intros n. exists 0, 0, 0. apply copy_sound; auto. intros k. apply He.
Qed.
