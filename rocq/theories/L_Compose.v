(** Formulas are read inside parentheses as they are read alone (C84). *)
From Verif Require Export L_Agree S_Compose.
Local Notation never := (fun _ : arith => False).
Local Notation dz := divides_by_zero.

(** ** What a closing parenthesis ends *)
Lemma space_end q k : (forall x, space_char x -> ~ begins x q) -> forall x, space_char x -> ~ begins x (q ++ 41 :: k).
Proof.
  intros N x Hx (t & E). specialize (N x Hx). apply N. clear N. unfold space_char in Hx. cbn [In] in Hx.
  destruct q as [|c q]; cbn [app] in E; [exfalso; decompose [or] Hx; try contradiction; subst x; discriminate E|].
  decompose [or] Hx; try contradiction; subst x; cbn [app] in E; inversion E; subst; try (exists q; reflexivity); (destruct q as [|d q]; [discriminate|]); match goal with X : (_ :: _) ++ _ = _ |- _ => cbn [app] in X; inversion X; subst end; exists q; reflexivity.
Qed.
Lemma gap_end s b q k : whole_gap s b q -> whole_gap (s ++ 41 :: k) b (q ++ 41 :: k).
Proof. intros (-> & G & N). split; [rewrite <- app_assoc; reflexivity|]. split; [exact G|]. apply space_end. exact N. Qed.
Lemma word_no41 w : integer_word w -> ~ In 41 w.
Proof.
  intros (g & d & -> & Sg & Sh) I. apply in_app_iff in I. destruct I as [I|I].
  - unfold sign in Sg. destruct Sg as [Sg|[Sg|Sg]]; subst g; cbn [In] in I; lia.
  - destruct Sh as [(r & -> & F)|(c & r & -> & Hc & F)]; destruct I as [I|I]; try lia; rewrite Forall_forall in F; specialize (F _ I); cbn in F; unfold dec_digit in F; lia.
Qed.
Lemma number_end s w q k : number_at s w q -> number_at (s ++ 41 :: k) w (q ++ 41 :: k).
Proof.
  intros (t & b & -> & W & I & N). exists (t ++ 41 :: k), b. split; [rewrite <- app_assoc; reflexivity|]. split; [apply gap_end; exact W|]. split; [exact I|].
  intros c u E. destruct t as [|c' t]; cbn [app] in E; injection E as <- E; [unfold word_byte; lia|]. eapply N. reflexivity.
Qed.
Lemma starts_end s k : starts_number (s ++ 41 :: k) -> starts_number s.
Proof.
  intros (w & t & E & I & N). destruct (app_eq_app _ _ _ _ E) as (l & [[-> ->]|[-> E2]]).
  - exists w, l. split; [reflexivity|]. split; [exact I|]. intros b u ->. eapply N. reflexivity.
  - destruct l as [|c l]; cbn [app] in E2.
    + exists s, []. rewrite app_nil_r in *. split; [reflexivity|]. split; [exact I|discriminate].
    + exfalso. injection E2 as <- _. apply (word_no41 _ I). apply in_app_iff. right. left. reflexivity.
Qed.
Lemma starts_more s k : starts_number s -> starts_number (s ++ 41 :: k).
Proof.
  intros (w & t & -> & I & N). exists w, (t ++ 41 :: k). split; [rewrite <- app_assoc; reflexivity|]. split; [exact I|]. intros c u E. destruct t as [|c' t]; cbn [app] in E; injection E as <- E; [unfold word_byte; lia|]. eapply N. reflexivity.
Qed.
Lemma one_end b s k : b <> 41 -> ~ begins [b] s -> ~ begins [b] (s ++ 41 :: k).
Proof. intros Hb N (t & E). destruct s as [|c s]; cbn [app] in E; injection E as E1 E2; [congruence|]. apply N. exists s. subst. reflexivity. Qed.
Lemma signs_end s n q k : signs s n q -> signs (s ++ 41 :: k) n (q ++ 41 :: k).
Proof. induction 1 as [s N|t b u n q W H IH]; [constructor; apply one_end; [lia|exact N]|]. cbn [app]. eapply si_more; [apply gap_end; exact W|exact IH]. Qed.
Lemma operand_end num u n v k : operand_at num u n v -> operand_at num (u ++ 41 :: k) n (v ++ 41 :: k).
Proof. intros [u' S'|num' u' n' v' N S']; [apply oa_number, starts_more; exact S'|]. apply oa_signs; [intros E X; apply (N E); eapply starts_end; exact X|apply signs_end; exact S']. Qed.
(** ** Readings *)
Definition longer {A} (k : bytes) (r : part A) : part A := match r with Got x q => Got x (q ++ 41 :: k) | Bad e q => Bad e (q ++ 41 :: k) | Zero => Zero end.
Definition good {A} (r : part A) : Prop := match r with Bad _ _ => False | _ => True end.
Lemma inside_end stops k :
  (forall s num r, primary_at stops s num r -> good r -> primary_at stops (s ++ 41 :: k) num (longer k r)) /\
  (forall s r, expression_at stops s r -> good r -> expression_at stops (s ++ 41 :: k) (longer k r)) /\
  (forall num s r, others_at stops num s r -> good r -> others_at stops num (s ++ 41 :: k) (longer k r)).
Proof.
  apply (reading_mut stops (fun s num r => good r -> primary_at stops (s ++ 41 :: k) num (longer k r)) (fun s r => good r -> expression_at stops (s ++ 41 :: k) (longer k r))
    (fun num s r => good r -> others_at stops num (s ++ 41 :: k) (longer k r))); cbn [good]; try contradiction.
  - intros s w q z N I Hz _. eapply pm_number; eauto. apply number_end. exact N.
  - intros t b u r r' W _ IH C G. cbn [app]. eapply pm_group; [apply gap_end; exact W|apply IH|]; (inversion C as [f v b0 q W'|f q N|r0 F]; subst; [|contradiction|]).
    + exact I. 
    + exact G.
    + cbn [longer app]. eapply cl_done. apply gap_end. exact W'.
    + apply cl_failed. destruct r'; cbn in *; auto.
  - intros s n u num r S' _ IH F G. eapply xp_failed; [apply signs_end; exact S'|apply IH; exact G|]. destruct r; cbn in *; auto.
  - intros s n u num f q r r' S' _ IH _ IHo C G. assert (Gr : good r) by (inversion C as [l t q0 Su Nt|l t q0 Su St|r0 F]; subst; try exact I; destruct r; cbn in *; auto).
    eapply xp_chain; [apply signs_end; exact S'|apply IH; exact I|apply IHo; exact Gr|]. inversion C as [l t q0 Su Nt|l t q0 Su St|r0 F]; subst; cbn [longer].
    + constructor; assumption.
    + eapply cb_stop; eauto.
    + destruct r as [| |]; try contradiction. apply (cb_failed _ _ Zero). exact I.
  - intros num s N _. constructor. intros o. apply one_end; [destruct o; cbn; lia|apply N].
  - intros num o t b u n v m r W O' _ IH F G. destruct r as [| |]; try contradiction. cbn [app]. apply (ot_failed _ num o (t ++ 41 :: k) b (u ++ 41 :: k) n (v ++ 41 :: k) m Zero); [apply gap_end; exact W|apply operand_end; exact O'|apply IH; exact I|exact I].
  - intros num o t b u n v m f q r W O' _ IH _ IHo G. assert (Gr : good r) by (destruct r; auto). cbn [app].
    replace (longer k (before_all (o, negated n f) r)) with (before_all (o, negated n f) (longer k r)) by (destruct r; reflexivity).
    eapply ot_more; [apply gap_end; exact W|apply operand_end; exact O'|apply IH; exact I|apply IHo; exact Gr].
Qed.
Lemma no_space b q : In b [40; 41; 42; 43; 45; 47] -> whole_gap (b :: q) [] (b :: q).
Proof.
  intros I. split; [reflexivity|]. split; [constructor|]. intros x Hx (t & E). unfold space_char in Hx. cbn [In] in Hx, I. repeat (destruct Hx as [<-|Hx]; [cbn [app] in E; injection E as E _; lia|]). destruct Hx.
Qed.
Lemma nothing_left : whole_gap [] [] [].
Proof. split; [reflexivity|]. split; [constructor|]. intros x Hx (t & E). unfold space_char in Hx. cbn [In] in Hx. repeat (destruct Hx as [<-|Hx]; [discriminate E|]). destruct Hx. Qed.
Lemma group_primary s f k q b : read_as s f -> whole_gap k b q -> primary_at never (40 :: s ++ 41 :: k) false (Got f q).
Proof.
  intros (b0 & u & W & X) Wk. eapply pm_group; [apply gap_end; exact W|exact (proj1 (proj2 (inside_end never k)) _ _ X I)|]. cbn [longer app]. eapply cl_done. exact Wk.
Qed.
Lemma sums_one o f g : sums f [(o, g)] (FBin o f g).
Proof.
  assert (M : additive o \/ multiplicative o) by (destruct o; [left; left|left; right|right; left|right; right]; reflexivity). destruct M as [M|M].
  - apply (su_more f [] f o g [] g M); repeat constructor.
  - apply su_one. apply (pr_more f [] f o g M). constructor.
Qed.
Lemma others_end num : others_at never num [] (Got [] []).
Proof. constructor. intros o (t & E). discriminate. Qed.
Lemma no_minus s : signs (40 :: s) 0 (40 :: s).
Proof. constructor. intros (t & E). discriminate. Qed.
Lemma group_read s f : read_as s f -> read_as (grouped s) f.
Proof.
  intros H. exists [], (grouped s). split; [apply no_space; left; reflexivity|]. eapply (xp_chain _ _ 0 (grouped s) false f [] (Got [] [])); [apply no_minus|exact (group_primary s f [] [] [] H nothing_left)|apply others_end|].
  cbn [negated]. constructor; [repeat constructor|auto].
Qed.
Lemma neg_read s f : read_as s f -> read_as ([45] ++ grouped s) (FNeg f).
Proof.
  intros H. exists [], ([45] ++ grouped s). split; [apply no_space; cbn; tauto|]. eapply (xp_chain _ _ 1 (grouped s) false f [] (Got [] [])).
  - eapply (si_more (grouped s) [] (grouped s) 0); [apply no_space; left; reflexivity|apply no_minus].
  - exact (group_primary s f [] [] [] H nothing_left).
  - apply others_end.
  - cbn [negated]. constructor; [repeat constructor|auto].
Qed.
Lemma bin_read o s f t g : read_as s f -> read_as t g -> read_as (grouped s ++ [op_byte o] ++ grouped t) (FBin o f g).
Proof.
  intros Hs Ht. assert (E : grouped s ++ [op_byte o] ++ grouped t = 40 :: s ++ 41 :: ([op_byte o] ++ grouped t)) by (unfold grouped; cbn; rewrite <- app_assoc; reflexivity).
  rewrite E. exists [], (40 :: s ++ 41 :: ([op_byte o] ++ grouped t)). split; [apply no_space; left; reflexivity|].
  eapply (xp_chain _ _ 0 _ false f ([op_byte o] ++ grouped t) (Got [(o, g)] [])); [apply no_minus| | |cbn [negated]; constructor; [apply sums_one|auto]].
  - eapply group_primary; [exact Hs|]. cbn [app]. apply no_space. destruct o; cbn; tauto.
  - apply (ot_more never false o (grouped t) [] (grouped t) 0 (grouped t) false g [] (Got [] [])); [apply no_space; left; reflexivity| |exact (group_primary t g [] [] [] Ht nothing_left)|apply others_end].
    apply oa_signs; [discriminate|apply no_minus].
Qed.
(** A division by zero inside a parenthesis *)
Lemma crash_read s k : reading divides_by_zero evals s Crash -> reading divides_by_zero evals (40 :: s ++ 41 :: k) Crash.
Proof.
  intros H. inversion H as [| | |b u W X]; subst. eapply (rd_zero _ _ _ [] (40 :: s ++ 41 :: k)); [apply no_space; left; reflexivity|]. eapply (xp_failed _ _ 0 _ false Zero); [apply no_minus| |exact I].
  eapply pm_group; [apply gap_end; exact W|exact (proj1 (proj2 (inside_end dz k)) _ _ X I)|apply cl_failed; exact I].
Qed.
