(** What stands before an error can be completed (C86). *)
From Verif Require Export L_Spacing S_Viable.
Local Notation never := (fun _ : arith => False).

Definition about (e : gerr) (y q : bytes) : Prop := match e with ENum _ _ _ => exists x, y = x ++ q /\ too_large x | _ => y = q end.
Notation one n := (49 :: repeat 41 n).
Definition opens (x : bytes) : Prop := exists c r, x = c :: r /\ (c = 40 \/ c = 49).
Lemma opens_clear x : opens x -> no_gap x /\ ~ begins [45] x /\ ~ begins [43] x.
Proof. intros (c & r & -> & Hc). split; [apply hard_start; unfold hard; cbn; lia|]. split; intros (t & E); injection E as E; lia. Qed.
Lemma opens_app p y t : opens p -> opens (p ++ y) /\ opens (p ++ t).
Proof. intros (c & r & -> & Hc). split; eexists; eexists; (split; [reflexivity|exact Hc]). Qed.
Lemma one_number k q : whole_gap k [] q -> (forall c u, k = c :: u -> ~ word_byte c) -> number_at (49 :: k) [49] q /\ int_numeral 10 (strip [49]) 1 /\ int64 1.
Proof.
  intros W N. split; [|split; [|unfold int64; lia]].
  - exists k, []. split; [reflexivity|]. split; [exact W|]. split; [|exact N]. exists [], [49]. split; [reflexivity|]. split; [left; reflexivity|]. right. exists 49, []. split; [reflexivity|]. split; [lia|constructor].
  - left. split; [discriminate|]. exists [1]. split; [|reflexivity]. constructor; [|constructor]. apply (d_num 10 1); lia.
Qed.
Lemma one_primary : primary_at never [49] true (Got (FLit 1) []).
Proof. destruct (one_number [] [] nothing_left ltac:(discriminate)) as (N & Iz & Hz). eapply pm_number; eauto. Qed.
Lemma operand_new num u k v ps x m f q : operand_at num u k v -> spelled (repeat [45] k) ps -> opens x -> primary_at never x m (Got f q) ->
  exists k' v' f', operand_at num (ps ++ x) k' v' /\ primary_at never v' m (Got f' q).
Proof.
  intros Oa S1 Ox Pm. destruct (opens_clear x Ox) as (Cl & N45 & N43).
  assert (Plain : (num = true -> ~ starts_number (ps ++ x)) -> exists k' v' f', operand_at num (ps ++ x) k' v' /\ primary_at never v' m (Got f' q)).
  { intros X. exists k, x, f. split; [apply oa_signs; [exact X|apply signs_again; assumption]|exact Pm]. }
  destruct num; [|apply Plain; discriminate]. clear Oa.
  assert (Kind : (exists t, x = 40 :: t) \/ exists w z, number_at x w q /\ int_numeral 10 (strip w) z /\ int64 z /\ m = true).
  { inversion Pm; subst; [right; eauto 8|left; eauto]. }
  destruct k as [|k]; cbn [repeat] in S1; inversion S1 as [|w b l s G S1']; subst.
  - cbn [app] in *. destruct Kind as [(t & ->)|(w & z & N & _)]; [apply Plain; intros _; apply open_no_number|]. exists 0%nat, x, f. split; [apply oa_number; eapply number_starts; exact N|exact Pm].
  - rewrite <- !app_assoc in *. cbn [app] in *. destruct (gap_first b G) as [->|(c & r & -> & Hc & _)].
    2: { apply Plain. intros _ X. apply minus_digit in X as (c' & r' & E & Hd). cbn [app] in E. injection E as <- _. apply Hc. left. exact Hd. }
    cbn [app] in *. destruct k as [|k]; cbn [repeat] in S1'; inversion S1' as [|w b l s' G' S1'']; subst.
    2: { apply Plain. intros _ X. apply minus_digit in X as (c' & r' & E & Hd). cbn [app] in E. injection E as <- _. lia. }
    cbn [app] in *. destruct Kind as [(t & ->)|(w & z & N & Iz & Hz & ->)].
    + apply Plain. intros _ X. apply minus_digit in X as (c' & r' & E & Hd). injection E as <- _. lia.
    + destruct (glue x w q z N N45 N43 Iz Hz) as (Ng & Ig & Hg). exists 0%nat, (45 :: x), (FLit (- z)). split; [apply oa_number; eapply number_starts; exact Ng|eapply pm_number; eauto].
Qed.
Lemma expression_clear x f : expression_at never x (Got f []) -> no_gap x.
Proof.
  intros X. destruct (proj1 (proj2 spaced_again) x _ X f [] eq_refl (or_introl eq_refl)) as (l & _ & Fl & (p & -> & Sp) & _). eapply spelled_clear; [exact Fl|exact Sp|apply empty_start].
Qed.
Lemma ends_op o t : ends (op_byte o :: t).
Proof. right. exists (op_byte o), t. split; [reflexivity|apply op_follower]. Qed.
Lemma same_op o t t' : same_start (op_byte o :: t) (op_byte o :: t').
Proof. right. exists (op_byte o), t, t'. split; [reflexivity|]. split; [reflexivity|apply op_follower]. Qed.
Lemma viable :
  (forall s num r, primary_at never s num r -> forall e q, r = Bad e q -> exists p y n, s = p ++ y /\ about e y q /\ opens (p ++ one n) /\ exists f, primary_at never (p ++ one n) num (Got f [])) /\
  (forall s r, expression_at never s r -> forall e q, r = Bad e q -> exists p y n, s = p ++ y /\ about e y q /\ exists f, expression_at never (p ++ one n) (Got f [])) /\
  (forall num s r, others_at never num s r -> forall e q, r = Bad e q -> exists o p y n, s = op_byte o :: p ++ y /\ about e y q /\ exists ol, others_at never num (op_byte o :: p ++ one n) (Got ol [])).
Proof.
  apply (reading_mut never
    (fun s num r => forall e q, r = Bad e q -> exists p y n, s = p ++ y /\ about e y q /\ opens (p ++ one n) /\ exists f, primary_at never (p ++ one n) num (Got f []))
    (fun s r => forall e q, r = Bad e q -> exists p y n, s = p ++ y /\ about e y q /\ exists f, expression_at never (p ++ one n) (Got f []))
    (fun num s r => forall e q, r = Bad e q -> exists o p y n, s = op_byte o :: p ++ y /\ about e y q /\ exists ol, others_at never num (op_byte o :: p ++ one n) (Got ol []))); try discriminate.
  - intros s w q z N Iz Hz e q0 E. injection E as <- <-. exists [], s, 0%nat. split; [reflexivity|]. split.
    + destruct N as (t & b & -> & (-> & G & _) & Iw & _). cbn [about]. exists (w ++ b). split; [rewrite <- app_assoc; reflexivity|]. exists w, b, z. auto.
    + split; [exists 49, []; auto|]. exists (FLit 1). exact one_primary.
  - intros t b u r r' W X IH C e q E. subst r'. inversion C as [|f0 q0 N|r0 Fa]; subst.
    + exists [40], q, 1%nat. split; [reflexivity|]. split; [reflexivity|]. split; [eexists; eexists; split; [reflexivity|left; reflexivity]|]. exists (FLit 1). cbn [app repeat].
      eapply (pm_group _ _ [] [49; 41] (Got (FLit 1) [41])).
      * split; [reflexivity|]. split; [constructor|]. apply hard_start. unfold hard. lia.
      * pose proof (proj1 (inside_end never []) _ _ _ one_primary I) as P1. cbn [app longer] in P1. eapply (xp_chain _ _ 0 [49; 41] true (FLit 1) [41] (Got [] [41])); [constructor; intros (t & E); discriminate|exact P1| |].
        { constructor. intros o (t & E). destruct o; discriminate. }
        { constructor; [repeat constructor|auto]. }
      * eapply cl_done. apply nothing_left.
    + destruct (IH e q eq_refl) as (p & y & n & -> & A & f & Xf). destruct W as (-> & G & _). exists (40 :: b ++ p), y, (Datatypes.S n). split; [cbn [app]; rewrite <- app_assoc; reflexivity|]. split; [exact A|].
      split; [eexists; eexists; split; [reflexivity|left; reflexivity]|]. exists f. cbn [app]. rewrite <- app_assoc.
      replace (p ++ one (Datatypes.S n)) with ((p ++ one n) ++ [41]) by (rewrite <- app_assoc; cbn [app]; rewrite <- repeat_cons; reflexivity).
      pose proof (proj1 (proj2 (inside_end never [])) _ _ Xf I) as P1. cbn [longer app] in P1. eapply pm_group; [apply gap_then; [exact G|]|exact P1|].
      * pose proof (expression_clear _ _ Xf) as Cx. destruct (p ++ one n) as [|c r] eqn:Ex; [destruct p; discriminate|]. destruct (proj1 (proj2 spaced_again) _ _ Xf f [] eq_refl (or_introl eq_refl)) as (l & Nl & Fl & (p1 & E1 & Sp) & _).
        rewrite app_nil_r in E1. rewrite E1. eapply spelled_clear; [exact Fl|exact Sp|]. apply hard_start. unfold hard. cbn. tauto.
      * eapply cl_done. apply nothing_left.
  - intros s k u Sg N e q E. injection E as <- <-. destruct (signs_lexemes _ _ _ Sg) as (ps & -> & Sps). exists ps, u, 0%nat. split; [reflexivity|]. split; [reflexivity|].
    exists (negated k (FLit 1)). eapply (xp_chain _ _ k [49] true (FLit 1) [] (Got [] [])); [|exact one_primary|apply others_end|constructor; [repeat constructor|auto]].
    apply signs_again; [exact Sps|apply hard_start; unfold hard; lia|intros (t & E); discriminate].
  - intros s k u num r Sg Pm IH Fa e q ->. destruct (IH e q eq_refl) as (p & y & n & -> & A & Ox & f & Pf). destruct (signs_lexemes _ _ _ Sg) as (ps & -> & Sps). exists (ps ++ p), y, n. split; [rewrite <- app_assoc; reflexivity|]. split; [exact A|].
    exists (negated k f). rewrite <- app_assoc. destruct (opens_clear _ Ox) as (Cl & N45 & _). eapply (xp_chain _ _ k (p ++ one n) num f [] (Got [] [])); [apply signs_again; assumption|exact Pf|apply others_end|constructor; [repeat constructor|auto]].
  - intros s k u num f q r r' Sg Pm IH Ot IHo C e q0 Er. destruct C as [ol t q1 Su Nt|ol t q1 Su St|r Fa]; [discriminate|discriminate|]. destruct r as [|e' q'|]; try discriminate Er; try contradiction. cbn [instead] in Er. injection Er as -> ->.
    destruct (IHo e q0 eq_refl) as (o & p & y & n & -> & A & ol & Ot').
    destruct (proj1 spaced_again _ _ _ Pm f _ eq_refl (ends_op o _)) as (lp & Nlp & Hm & Flp & (pp & Eu & Spp) & Agp). subst u. destruct (signs_lexemes _ _ _ Sg) as (ps & -> & Sps).
    destruct (Agp pp _ Spp (same_op o (p ++ y) (p ++ one n))) as (f' & Af & Pm'). destruct (sums_total (negated k f') ol) as (t & Su).
    exists (ps ++ pp ++ op_byte o :: p), y, n. split; [rewrite <- !app_assoc; reflexivity|]. split; [exact A|]. exists t. rewrite <- !app_assoc. cbn [app].
    eapply (xp_chain _ _ k (pp ++ op_byte o :: p ++ one n) num f' _ (Got ol [])); [|exact Pm'|exact Ot'|constructor; [exact Su|auto]]. apply signs_again; [exact Sps| |].
    + eapply spelled_clear; [exact Flp|exact Spp|apply hard_start, follower_hard, op_follower].
    + intros X. apply (signs_no_minus _ _ _ Sg). eapply first_same; eauto.
  - intros num o t b u k v (-> & G & _) Oa N e q E. injection E as <- <-. exists o, b, u, 0%nat. split; [reflexivity|]. split; [reflexivity|].
    eexists. eapply (ot_more never num o _ b [49] 0 [49] true (FLit 1) [] (Got [] [])); [apply gap_then; [exact G|apply hard_start; unfold hard; lia]| |exact one_primary|apply others_end].
    destruct num; [apply oa_number; eapply number_starts; exact (proj1 (one_number [] [] nothing_left ltac:(discriminate)))|apply oa_signs; [discriminate|constructor; intros (t & E); discriminate]].
  - intros num o t b u k v m r (-> & G & _) Oa Pm IH Fa e q E. destruct r as [|e' q'|]; try discriminate E; try contradiction. cbn [instead] in E. injection E as -> ->.
    destruct (IH e q eq_refl) as (p & y & n & -> & A & Ox & f & Pf).
    assert (Sg : exists ps, u = ps ++ p ++ y /\ spelled (repeat [45] k) ps) by (remember (p ++ y) as v eqn:Ev; destruct Oa as [u Su|num u k v N Sg]; [exists []; split; [reflexivity|constructor]|apply signs_lexemes; exact Sg]).
    destruct Sg as (ps & -> & Sps). destruct (operand_new num _ k _ ps (p ++ one n) m f [] Oa Sps Ox Pf) as (k' & v' & f' & Oa' & Pf').
    exists o, (b ++ ps ++ p), y, n. split; [rewrite <- !app_assoc; reflexivity|]. split; [exact A|]. eexists. rewrite <- !app_assoc.
    eapply (ot_more never num o _ b (ps ++ p ++ one n) k' v' m f' [] (Got [] [])); [apply gap_then; [exact G|]|exact Oa'|exact Pf'|apply others_end].
    eapply spelled_clear; [apply minus_lexemes|exact Sps|apply opens_clear; exact Ox].
  - intros num o t b u k v m f q r (-> & G & _) Oa Pm IH Ot IHo e q0 E. destruct r as [|e' q'|]; try discriminate E. cbn [before_all] in E. injection E as -> ->.
    destruct (IHo e q0 eq_refl) as (o' & p & y & n & -> & A & ol & Ot').
    destruct (proj1 spaced_again _ _ _ Pm f _ eq_refl (ends_op o' _)) as (lp & Nlp & Hm & Agp). pose proof Agp as (Flp & (pp & Ev & Spp) & _).
    assert (Sg : exists ps, u = ps ++ v /\ spelled (repeat [45] k) ps) by (destruct Oa as [u Su|num u k v N Sg]; [exists []; split; [reflexivity|constructor]|apply signs_lexemes; exact Sg]).
    destruct Sg as (ps & -> & Sps).
    assert (Sl : spelled (repeat [45] k ++ lp) (ps ++ pp)) by (apply spelled_app; eauto).
    destruct (operand_again num _ k v m f _ lp (ps ++ pp) _ Oa Pm Nlp Hm Agp Sl (same_op o' (p ++ y) (p ++ one n))) as (k' & v' & f' & Oa' & Pm' & _).
    exists o, (b ++ (ps ++ pp) ++ op_byte o' :: p), y, n. split; [rewrite Ev; rewrite <- !app_assoc; reflexivity|]. split; [exact A|]. eexists. rewrite <- !app_assoc. rewrite <- !app_assoc in Oa'. cbn [app] in *.
    eapply (ot_more never num o _ b _ k' v' m f' _ (Got ol [])); [apply gap_then; [exact G|]|exact Oa'|exact Pm'|exact Ot'].
    rewrite app_assoc. eapply spelled_clear; [apply Forall_app; split; [apply minus_lexemes|exact Flp]|exact Sl|apply hard_start, follower_hard, op_follower].
Qed.
Lemma error_viable s e p q : reading never postfix s (Failure (Some e) p q) -> exists p0 y n f, s = p0 ++ y /\ about e y q /\ read_as (p0 ++ one n) f.
Proof.
  intros R. inversion R as [| |b u e0 p0 q0 W X E|]; subst. destruct (proj1 (proj2 viable) _ _ X e q eq_refl) as (p1 & y & n & -> & A & f & Xf). destruct W as (E' & G & _).
  exists (b ++ p1), y, n, f. rewrite <- app_assoc. split; [rewrite E'; reflexivity|]. split; [exact A|]. exists b, (p1 ++ one n). rewrite <- app_assoc. split; [apply gap_then; [exact G|eapply expression_clear; exact Xf]|exact Xf].
Qed.
(** ** A formula followed by something else *)
Lemma operand_signs num u k v : operand_at num u k v -> exists ps, u = ps ++ v /\ spelled (repeat [45] k) ps.
Proof. intros [u' Su|num' u' k' v' N Sg]; [exists []; split; [reflexivity|constructor]|apply signs_lexemes; exact Sg]. Qed.
Definition op_or_end (p : bytes) : Prop := p = [] \/ exists o t, p = op_byte o :: t.
Lemma operand_cut num u k v m f q p f' : operand_at num u k v -> primary_at never v m (Got f q) -> v = p ++ q -> primary_at never p m (Got f' []) ->
  exists ps k' v' f'', u = ps ++ p ++ q /\ no_gap (ps ++ p) /\ operand_at num (ps ++ p) k' v' /\ primary_at never v' m (Got f'' []).
Proof.
  intros Oa Pm Ev Pp. destruct (operand_signs _ _ _ _ Oa) as (ps & Eu & Sps). subst v.
  destruct (proj1 spaced_again _ _ _ Pp f' [] eq_refl (or_introl eq_refl)) as (lp & Nlp & Hm & Agp). pose proof Agp as (Flp & (p1 & E1 & Sp1) & _). rewrite app_nil_r in E1. subst p1.
  assert (Cl : no_gap (ps ++ p)) by (eapply spelled_clear; [apply minus_lexemes|exact Sps|]; rewrite <- (app_nil_r p); eapply spelled_clear; [exact Flp|exact Sp1|apply empty_start]).
  assert (Oa' : operand_at num (ps ++ p) k p).
  { subst u. remember (p ++ q) as v eqn:Ev. remember (ps ++ v) as u eqn:Eu. destruct Oa as [u Su|num u k v N Sg].
    - cbn [repeat] in Sps. inversion Sps; subst ps. cbn [app] in *. subst. apply oa_number. destruct m; [|destruct Hm as (l & ->); inversion Sp1; subst; exfalso; cbn [app] in Su; apply (open_no_number _ Su)].
      destruct Hm as (w & z & _ & _ & Nv & _). eapply number_starts. exact Nv.
    - pose proof (signs_no_minus _ _ _ Sg) as Nm. subst u v. apply oa_signs; [|apply signs_again; [exact Sps| |]].
      + intros En X. apply (N En). clear -X Pm Pp Nlp Hm Flp Sp1 Sps.
        destruct X as (w & t & E & Iw & Nw). assert (Eq : ps ++ p ++ q = w ++ t ++ q) by (rewrite !app_assoc, E, <- !app_assoc; reflexivity). rewrite Eq. exists w, (t ++ q). split; [reflexivity|]. split; [exact Iw|].
        intros c r Ec. destruct t as [|c' t]; [|injection Ec as -> _; eapply Nw; reflexivity]. cbn [app] in Ec. subst q. rewrite app_nil_r in E.
        inversion Pm as [s0 w0 q0 z0 (t0 & b0 & Es & W0 & I0 & N0)| |]; subst.
        * destruct W0 as (-> & G0 & _). rewrite app_assoc in Es. apply app_inv_tail in Es. subst p. destruct (gap_first b0 G0) as [->|(d & r0 & -> & Hd & Nd)]; [apply (N0 c r); reflexivity|].
          exfalso. assert (HH : In d (ps ++ w0 ++ d :: r0)) by (apply in_app_iff; right; apply in_app_iff; right; left; reflexivity). destruct Iw as (g & dd & Ed & Sg & Sh). rewrite Ed in HH. apply in_app_iff in HH. destruct HH as [HH|HH].
          { unfold sign in Sg. destruct Sg as [Sg|[Sg|Sg]]; subst g; cbn [In] in HH; unfold hard in Hd; cbn [In] in Hd; lia. }
          { destruct Sh as [(r1 & -> & F)|(c1 & r1 & -> & Hc1 & F)]; destruct HH as [HH|HH]; try (unfold hard in Hd; lia); rewrite Forall_forall in F; specialize (F _ HH); cbn in F; unfold dec_digit in F; unfold hard, word_byte in *; lia. }
        * destruct Hm as (l & ->). inversion Sp1 as [|w1 b1 l1 s1 G1 S1 Ew Ep]; subst. exfalso.
          assert (HH : In 40 (ps ++ [40] ++ b1 ++ s1)) by (apply in_app_iff; right; left; reflexivity). destruct Iw as (g & dd & Ed & Sg & Sh). rewrite Ed in HH. apply in_app_iff in HH. destruct HH as [HH|HH].
          { unfold sign in Sg. destruct Sg as [Sg|[Sg|Sg]]; subst g; cbn [In] in HH; lia. }
          { destruct Sh as [(r1 & -> & F)|(c1 & r1 & -> & Hc1 & F)]; destruct HH as [HH|HH]; try lia; rewrite Forall_forall in F; specialize (F _ HH); cbn in F; unfold dec_digit in F; lia. }
      + rewrite <- (app_nil_r p). eapply spelled_clear; [exact Flp|exact Sp1|apply empty_start].
      + intros (t & E). apply Nm. exists (t ++ q). rewrite E. reflexivity. }
  exists ps, k, p, f'. auto.
Qed.
Lemma cut :
  (forall s num r, primary_at never s num r -> forall f q, r = Got f q -> exists p f', s = p ++ q /\ primary_at never p num (Got f' [])) /\
  (forall s r, expression_at never s r -> forall f q, r = Got f q -> exists p f', s = p ++ q /\ expression_at never p (Got f' [])) /\
  (forall num s r, others_at never num s r -> forall ol q, r = Got ol q -> exists p ol', s = p ++ q /\ op_or_end p /\ others_at never num p (Got ol' [])).
Proof.
  apply (reading_mut never
    (fun s num r => forall f q, r = Got f q -> exists p f', s = p ++ q /\ primary_at never p num (Got f' []))
    (fun s r => forall f q, r = Got f q -> exists p f', s = p ++ q /\ expression_at never p (Got f' []))
    (fun num s r => forall ol q, r = Got ol q -> exists p ol', s = p ++ q /\ op_or_end p /\ others_at never num p (Got ol' []))); try discriminate.
  - intros s w q z (t & b & -> & (-> & G & N) & Iw & Nw) Iz Hz f q0 E. injection E as <- <-. exists (w ++ b), (FLit z). split; [rewrite <- app_assoc; reflexivity|]. eapply pm_number; eauto.
    exists b, b. split; [reflexivity|]. split; [rewrite <- (app_nil_r b) at 1; apply gap_then; [exact G|apply empty_start]|]. split; [exact Iw|]. intros c u ->. eapply Nw. reflexivity.
  - intros t b u r r' W X IH C f q E. subst r'. inversion C as [f0 v b0 q0 W'| |r0 Fa]; subst; [|contradiction]. destruct W as (-> & G & _), W' as (-> & G' & _).
    assert (Ec : ends (41 :: b0 ++ q)) by (right; exists 41, (b0 ++ q); split; [reflexivity|unfold follower; cbn; tauto]).
    destruct (proj1 (proj2 spaced_again) _ _ X f _ eq_refl Ec) as (l & Nl & Fl & (p & -> & Sp) & Ag).
    assert (Sc : same_start (41 :: b0 ++ q) (41 :: b0)) by (right; exists 41, (b0 ++ q), b0; split; [reflexivity|]; split; [reflexivity|unfold follower; cbn; tauto]).
    destruct (Ag p _ Sp Sc) as (f' & _ & Xf). exists (40 :: b ++ p ++ 41 :: b0), f'. split; [cbn [app]; rewrite <- !app_assoc; reflexivity|].
    eapply pm_group; [apply gap_then; [exact G|eapply spelled_clear; [exact Fl|exact Sp|eapply same_clear; exact Sc]]|exact Xf|]. eapply (cl_done _ f' b0 b0 []). rewrite <- (app_nil_r b0) at 1. apply gap_then; [exact G'|apply empty_start].
  - intros s k u num r Sg Pm IH Fa f q ->. contradiction.
  - intros s k u num f q r r' Sg Pm IH Ot IHo C f0 q0 Er. destruct C as [ol t q1 Su Nt|ol t q1 Su St|r Fa]; [|discriminate|destruct r; discriminate || contradiction]. injection Er as -> ->.
    destruct (IHo ol q0 eq_refl) as (po & ol' & -> & Op & Ot'). destruct (signs_lexemes _ _ _ Sg) as (ps & -> & Sps). pose proof (signs_no_minus _ _ _ Sg) as Nm. destruct Op as [->|(o & po' & ->)].
    + destruct (IH f _ eq_refl) as (p & f' & -> & Pp). cbn [app]. exists (ps ++ p), (negated k f'). split; [rewrite <- app_assoc; reflexivity|].
      destruct (proj1 spaced_again _ _ _ Pp f' [] eq_refl (or_introl eq_refl)) as (lp & Nlp & _ & Flp & (p1 & E1 & Sp1) & _). rewrite app_nil_r in E1. subst p1.
      eapply (xp_chain _ _ k p num f' [] (Got [] [])); [|exact Pp|apply others_end|constructor; [repeat constructor|auto]]. apply signs_again; [exact Sps| |].
      * rewrite <- (app_nil_r p). eapply spelled_clear; [exact Flp|exact Sp1|apply empty_start].
      * intros (t' & E). apply Nm. exists (t' ++ q0). rewrite E. reflexivity.
    + cbn [app] in Pm. destruct (proj1 spaced_again _ _ _ Pm f _ eq_refl (ends_op o _)) as (lp & Nlp & _ & Flp & (pp & -> & Spp) & Agp).
      destruct (Agp pp _ Spp (same_op o (po' ++ q0) po')) as (f' & _ & Pm'). destruct (sums_total (negated k f') ol') as (t' & Su'). exists (ps ++ pp ++ op_byte o :: po'), t'. split; [rewrite <- !app_assoc; reflexivity|].
      eapply (xp_chain _ _ k _ num f' _ (Got ol' [])); [|exact Pm'|exact Ot'|constructor; [exact Su'|auto]]. apply signs_again; [exact Sps| |].
      * eapply spelled_clear; [exact Flp|exact Spp|apply hard_start, follower_hard, op_follower].
      * intros X. apply Nm. eapply first_same; eauto.
  - intros num s N ol q E. injection E as <- <-. exists [], []. split; [reflexivity|]. split; [left; reflexivity|apply others_end].
  - intros num o t b u k v m r W Oa Pm IH Fa ol q E. destruct r; discriminate || contradiction.
  - intros num o t b u k v m f q r (-> & G & _) Oa Pm IH Ot IHo ol0 q0 E. destruct r as [ol q1| |]; try discriminate. cbn [before_all] in E. injection E as <- <-.
    destruct (IHo ol q1 eq_refl) as (po & ol' & -> & Op & Ot'). destruct Op as [->|(o' & po' & ->)].
    + cbn [app] in *. destruct (IH f _ eq_refl) as (p & f' & Ev & Pp). destruct (operand_cut _ _ _ _ _ _ _ _ _ Oa Pm Ev Pp) as (ps & k' & v' & f'' & -> & Cl & Oa' & Pp').
      exists (op_byte o :: b ++ ps ++ p). eexists. split; [cbn [app]; rewrite <- !app_assoc; reflexivity|]. split; [right; eauto|].
      eapply (ot_more never num o _ b (ps ++ p) k' v' m f'' [] (Got [] [])); [apply gap_then; [exact G|exact Cl]|exact Oa'|exact Pp'|apply others_end].
    + cbn [app] in Pm. destruct (proj1 spaced_again _ _ _ Pm f _ eq_refl (ends_op o' _)) as (lp & Nlp & Hm & Agp). pose proof Agp as (Flp & (pp & Ev & Spp) & _).
      destruct (operand_signs _ _ _ _ Oa) as (ps & -> & Sps).
      assert (Sl : spelled (repeat [45] k ++ lp) (ps ++ pp)) by (apply spelled_app; eauto).
      destruct (operand_again num _ k v m f _ lp (ps ++ pp) _ Oa Pm Nlp Hm Agp Sl (same_op o' (po' ++ q1) po')) as (k' & v' & f' & Oa' & Pm' & _).
      exists (op_byte o :: b ++ (ps ++ pp) ++ op_byte o' :: po'). eexists. split; [rewrite Ev; cbn [app]; rewrite <- !app_assoc; reflexivity|]. split; [right; eauto|].
      eapply (ot_more never num o _ b _ k' v' m f' _ (Got ol' [])); [apply gap_then; [exact G|]|exact Oa'|exact Pm'|exact Ot'].
      eapply spelled_clear; [apply Forall_app; split; [apply minus_lexemes|exact Flp]|exact Sl|apply hard_start, follower_hard, op_follower].
Qed.
Lemma proper_prefix s p q : reading never postfix s (Failure None p q) -> exists p0 y f, s = p0 ++ y /\ y <> [] /\ read_as p0 f.
Proof.
  intros R. inversion R as [|b u f q0 W X N| |]; subst. destruct (proj1 (proj2 cut) _ _ X f q0 eq_refl) as (p1 & f' & -> & Xp). destruct W as (E' & G & _).
  exists (b ++ p1), q0, f'. split; [rewrite <- app_assoc; exact E'|]. split; [exact N|]. exists b, p1. split; [apply gap_then; [exact G|eapply expression_clear; exact Xp]|exact Xp].
Qed.
