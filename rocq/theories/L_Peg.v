(** Adequacy of the code's combinators with respect to [peg]. *)
From Verif Require Export S_Peg L_Fuel.

Scheme peg_mind := Induction for peg Sort Prop
  with pegs_mind := Induction for pegs Sort Prop
  with pegc_mind := Induction for pegc Sort Prop
  with pegr_mind := Induction for pegr Sort Prop
  with pegb_mind := Induction for pegb Sort Prop.
Combined Scheme peg_mutind from peg_mind, pegs_mind, pegc_mind, pegr_mind, pegb_mind.

(** ** Unfolding BaseParser for the exported combinators (fn = nil) *)

Lemma more_true t k : more t k = true <-> (t_max t < 0 \/ Z.of_nat k < t_max t).
Proof. unfold more. rewrite orb_true_iff, !Z.ltb_lt. tauto. Qed.
Lemma more_false t k : more t k = false <-> 0 <= t_max t <= Z.of_nat k.
Proof. unfold more. rewrite orb_false_iff, !Z.ltb_ge. tauto. Qed.

(** The contexts of one run differ only in these fields. *)
Definition okc (w : world) (c : ctx) : Prop := in_world w c /\ c_st c = Matched.

Lemma okc_set_qty w c q : okc w c -> okc w (set_qty c q). Proof. auto. Qed.
Lemma okc_cls w c s : okc w c -> okc w (set_cls c s). Proof. auto. Qed.
#[export] Hint Resolve okc_set_qty okc_cls : core.

(** Answer of one parser function agreeing with a judgement [J]. *)
Definition answers (w : world) (J : srcpos -> result -> Prop) (c : ctx) (a : out) : Prop :=
  match a with
  | Ok (o, err) => exists r, J (c_sp c) r /\ returns (c_stack c) o err r /\ in_world w o
  | _ => True
  end.
Definition sound1 (w : world) (e : pexp) (f : ctx -> out) : Prop :=
  forall c, okc w c -> answers w (peg w e) c (f c).

Lemma returns_status s o err r : returns s o err r ->
  fix_status o err = o \/ exists e, err = Some e.
Proof. destruct err; eauto. Qed.

Lemma fix_none o : fix_status o None = o. Proof. reflexivity. Qed.
Lemma fix_err o e : c_st o = Errored -> fix_status o (Some e) = o.
Proof. destruct o; simpl; intros; subst; reflexivity. Qed.

Lemma children_sound w es cs : Forall2 (sound1 w) es cs -> forall saved o num, okc w o ->
  match children_loop false saved cs o num with
  | CReturn (Ok (o1, err)) =>
      exists cur x, pegs w es (c_sp o) (RErr cur x) /\ returns [] o1 err (RErr cur x) /\ in_world w o1
  | CReturn _ => True
  | CBreak c => c = saved /\ pegs w es (c_sp o) RFail
  | CEnd o1 num1 => exists l, pegs w es (c_sp o) (RSucc (c_sp o1) l) /\
      c_stack o1 = c_stack o ++ l /\ okc w o1
  end.
Proof.
  induction 1 as [|e f es cs Hf Hcs IH]; intros saved o num Ho; simpl.
  - exists []. rewrite app_nil_r. split; [constructor|auto].
  - specialize (Hf o Ho). unfold answers in Hf. destruct (f o) as [[o1 err]|why|]; auto.
    destruct Hf as (r & Hp & Hr & Hw). destruct r as [cur l| |cur x]; simpl in Hr.
    + destruct Hr as (-> & Hst & Hsp & Hstk). rewrite fix_none, Hst. subst cur.
      specialize (IH saved o1 (S num) (conj Hw Hst)).
      destruct (children_loop false saved cs o1 (S num)) as [[[o2 err2]|why|]|c|o2 num2]; auto.
      * destruct IH as (cur2 & x & Hps & Hr & Hw2). exists cur2, x. split; [|auto]. eapply seq_err_later; eauto.
      * destruct IH as [-> Hps]. split; auto. eapply seq_fail_later; eauto.
      * destruct IH as (l2 & Hps & Hs & Ho2). exists (l ++ l2). split; [eapply seq_ok; eauto|].
        split; auto. rewrite Hs, Hstk, app_assoc. reflexivity.
    + destruct Hr as (-> & Hst). rewrite fix_none, Hst. split; auto. apply seq_fail; auto.
    + destruct Hr as (-> & Hst & Hsp). rewrite fix_err by auto. rewrite Hst.
      exists cur, x. split; [apply seq_err; auto|]. simpl; auto.
Qed.

Lemma choice_sound w es cs : Forall2 (sound1 w) es cs -> forall saved o num, okc w o ->
  match children_loop true saved cs o num with
  | CReturn (Ok (o1, err)) =>
      exists cur x, pegc w es (c_sp o) (RErr cur x) /\ returns [] o1 err (RErr cur x) /\ in_world w o1
  | CReturn _ => True
  | CBreak c => False
  | CEnd o1 num1 =>
      (num1 = num /\ o1 = o /\ pegc w es (c_sp o) RFail) \/
      (num1 = S num /\ exists l, pegc w es (c_sp o) (RSucc (c_sp o1) l) /\
      c_stack o1 = c_stack o ++ l /\ okc w o1)
  end.
Proof.
  induction 1 as [|e f es cs Hf Hcs IH]; intros saved o num Ho; simpl.
  - left. repeat split; constructor.
  - specialize (Hf o Ho). unfold answers in Hf. destruct (f o) as [[o1 err]|why|]; auto.
    destruct Hf as (r & Hp & Hr & Hw). destruct r as [cur l| |cur x]; simpl in Hr.
    + destruct Hr as (-> & Hst & Hsp & Hstk). rewrite fix_none, Hst. subst cur.
      right. split; auto. exists l. repeat split; auto; try apply Hw. apply ch_ok; auto.
    + destruct Hr as (-> & Hst). rewrite fix_none, Hst.
      specialize (IH saved o num Ho).
      destruct (children_loop true saved cs o num) as [[[o2 err2]|why|]|c|o2 num2]; auto.
      * destruct IH as (cur2 & x & Hps & Hr & Hw2). exists cur2, x. split; [|auto]. apply ch_next; auto.
      * destruct IH as [(-> & -> & Hc)|(-> & l & Hc & Hs & Ho2)]; [left|right]; repeat split; auto.
        -- apply ch_next; auto.
        -- exists l. repeat split; auto; try apply Ho2. apply ch_next; auto.
    + destruct Hr as (-> & Hst & Hsp). rewrite fix_err by auto. rewrite Hst.
      exists cur, x. split; [apply ch_err; auto|]. simpl; auto.
Qed.

(** The PARENT loop of sequences (thereExists = false, fn = nil). *)
Lemma parent_sound w t es cs bottom : Forall2 (sound1 w) es cs -> forall fuel o count, okc w o ->
  match parent_loop fuel t false None bottom cs o count with
  | PReturn (Ok (o1, err)) =>
      exists cur x, pegr w t es count (c_sp o) (inl (cur, x)) /\ returns [] o1 err (RErr cur x) /\ in_world w o1
  | PReturn _ => True
  | PDone o1 k => exists l, pegr w t es count (c_sp o) (inr (c_sp o1, l, k)) /\
      c_stack o1 = c_stack o ++ l /\ okc w o1
  end.
Proof.
  intros Hcs. induction fuel; intros o count Ho; simpl.
  - destruct (more t count) eqn:Hm; auto.
    exists []. rewrite app_nil_r. split; [|auto]. apply rep_limit. apply more_false; auto.
  - destruct (more t count) eqn:Hm.
    + apply more_true in Hm. pose proof (children_sound w es cs Hcs o o 0 Ho) as H.
      destruct (children_loop false o cs o 0) as [[[o1 err]|why|]|c|o1 num]; auto.
      * destruct H as (cur & x & Hp & Hr & Hw). exists cur, x. split; auto. apply rep_err; auto.
      * destruct H as [-> Hp]. exists []. rewrite app_nil_r. split; auto. apply rep_stop; auto.
      * destruct H as (l & Hp & Hs & Ho1). simpl.
        destruct Ho1 as [Hw1 Hst1]. rewrite Hst1.
        specialize (IHfuel (set_qty o1 count) (S count) (conj Hw1 Hst1)).
        destruct (parent_loop fuel t false None bottom cs (set_qty o1 count) (S count)) as [[[o2 err]|why|]|o2 k]; auto.
        -- destruct IHfuel as (cur & x & Hr & Hx). exists cur, x. split; auto. eapply rep_more_err; eauto.
        -- destruct IHfuel as (l2 & Hr & Hs2 & Ho2). exists (l ++ l2). split; [eapply rep_more; eauto|].
           split; auto. rewrite Hs2. simpl. rewrite Hs, app_assoc. reflexivity.
    + exists []. rewrite app_nil_r. split; auto. apply rep_limit. apply more_false; auto.
Qed.

(** Once: the loop of {1,1}. *)
Lemma pegr_once w es cur r : pegr w qtyOnce es 0 cur r ->
  match r with
  | inr (cur1, l, k) => (k = 1%nat /\ pegs w es cur (RSucc cur1 l)) \/
      (k = 0%nat /\ cur1 = cur /\ l = [] /\ pegs w es cur RFail)
  | inl (cur1, x) => pegs w es cur (RErr cur1 x)
  end.
Proof.
  intros H. inversion H; subst; simpl in *; try lia; auto.
  - inversion H2; subst; simpl in *; try lia. left. rewrite app_nil_r. auto.
  - inversion H2; subst; simpl in *; try lia.
Qed.

Lemma app_split_skip {A} (s l : list A) : skipn (length s) (s ++ l) = l.
Proof. rewrite skipn_app, skipn_all, Nat.sub_diag. reflexivity. Qed.
Lemma app_split_first {A} (s l : list A) : firstn (length s) (s ++ l) = s.
Proof. rewrite firstn_app, firstn_all, Nat.sub_diag. simpl. apply app_nil_r. Qed.


(** The end of BaseParser when nothing was negated and the count sufficed. *)
Definition finish (c : ctx) (tr : option (list trans)) (fuel : nat) (o : ctx) : out :=
  match tr with
  | None => Ok (o, None)
  | Some ts =>
      if Nat.ltb (length (c_stack o)) (length (c_stack c)) then Panic "slice bounds out of range"
      else match run_trans fuel c ts (skipn (length (c_stack c)) (c_stack o)) with
           | Panic w => Panic w
           | Fuel => Fuel
           | Ok (inl e) => Ok (set_st o Errored, Some e)
           | Ok (inr asts) => Ok (set_stack o (firstn (length (c_stack c)) (c_stack o) ++ asts), None)
           end
  end.

Lemma base_times cls t cs tr fuel c : forall props, flags_of props = mkFlags false false false t ->
  (forall o1 k, parent_loop fuel t false None (length (c_stack c)) cs (set_st (set_cls c cls) Matched) 0 = PDone o1 k -> c_st o1 = Matched) ->
  base_parser cls None props cs tr fuel c =
  match parent_loop fuel t false None (length (c_stack c)) cs (set_st (set_cls c cls) Matched) 0 with
  | PReturn r => r
  | PDone o k => if Z.of_nat k <? t_min t then Ok (set_st o Unmatched, None)
                 else finish (set_cls c cls) tr fuel (set_qty o k)
  end.
Proof.
  intros props Hf Hst. unfold base_parser. rewrite Hf. simpl.
  destruct (parent_loop _ _ _ _ _ _ _ _) as [r|o k]; [reflexivity|].
  specialize (Hst o k eq_refl). unfold after_loop. simpl.
  destruct (Z.ltb_spec (Z.of_nat k) (t_min t)) as [L|L].
  - replace (0 <=? t_min t) with true by (symmetry; apply Z.leb_le; lia). reflexivity.
  - rewrite andb_false_r, Hst. reflexivity.
Qed.

Lemma parent_st w t es cs bottom fuel o : Forall2 (sound1 w) es cs -> okc w o ->
  forall o1 k, parent_loop fuel t false None bottom cs o 0 = PDone o1 k -> c_st o1 = Matched.
Proof.
  intros Hcs Ho o1 k E. pose proof (parent_sound w t es cs bottom Hcs fuel o 0%nat Ho) as H.
  rewrite E in H. destruct H as (l & _ & _ & H). apply H.
Qed.

Lemma okc_start w c cls : okc w c -> okc w (set_st (set_cls c cls) Matched).
Proof. intros [H _]; split; auto. Qed.

Lemma repeat_sound w t es cs fuel : Forall2 (sound1 w) es cs ->
  sound1 w (ERepeat t es) (base_parser ":base:Repeat" None [PTimes t] cs None fuel).
Proof.
  intros Hcs c Ho. unfold answers. pose proof (okc_start w c ":base:Repeat" Ho) as Ho0.
  rewrite (base_times _ t) by (auto; eapply parent_st; eauto).
  pose proof (parent_sound w t es cs (length (c_stack c)) Hcs fuel _ 0%nat Ho0) as H.
  destruct (parent_loop _ _ _ _ _ _ _ _) as [[[o1 err]|why|]|o1 k]; auto.
  - destruct H as (cur & x & Hp & Hr & Hw). exists (RErr cur x). split; [apply peg_rep_err; auto|auto].
  - destruct H as (l & Hp & Hs & Hw & Hst). destruct (Z.ltb_spec (Z.of_nat k) (t_min t)) as [L|L]; simpl.
    + exists RFail. split; [eapply peg_rep_few; eauto|simpl; auto].
    + exists (RSucc (c_sp o1) l). split; [eapply peg_rep_ok; eauto|simpl; auto].
Qed.

(** FlatGroup, Group and Trans. *)
Lemma seq_form w es cs cls tr fuel c : Forall2 (sound1 w) es cs -> okc w c ->
  match base_parser cls None [] cs tr fuel c with
  | Ok (o, err) =>
      in_world w o /\
      ((pegs w es (c_sp c) RFail /\ returns [] o err RFail) \/
       (exists cur x, pegs w es (c_sp c) (RErr cur x) /\ returns [] o err (RErr cur x)) \/
       (exists l o1, pegs w es (c_sp c) (RSucc (c_sp o1) l) /\ okc w o1 /\
          c_stack o1 = c_stack c ++ l /\
          match tr with
          | None => o = o1 /\ err = None
          | Some ts =>
              match run_trans fuel (set_cls c cls) ts l with
              | Ok (inl e) => o = set_st o1 Errored /\ err = Some e
              | Ok (inr asts) => o = set_stack o1 (c_stack c ++ asts) /\ err = None
              | _ => False
              end
          end))
  | _ => True
  end.
Proof.
  intros Hcs Ho. pose proof (okc_start w c cls Ho) as Ho0.
  rewrite (base_times _ qtyOnce) by (auto; eapply parent_st; eauto).
  pose proof (parent_sound w qtyOnce es cs (length (c_stack c)) Hcs fuel _ 0%nat Ho0) as H.
  destruct (parent_loop _ _ _ _ _ _ _ _) as [[[o1 err]|why|]|o1 k]; auto.
  - destruct H as (cur & x & Hp & Hr & Hw). apply pegr_once in Hp. split; auto. right; left. exists cur, x. auto.
  - destruct H as (l & Hp & Hs & Hw & Hst). apply pegr_once in Hp. simpl in Hs.
    destruct Hp as [[-> Hp]|(-> & Hcur & -> & Hp)]; simpl.
    + destruct tr as [ts|]; simpl.
      * rewrite (proj2 (Nat.ltb_ge _ _)) by (rewrite Hs, app_length; lia).
        rewrite Hs, app_split_skip, app_split_first.
        destruct (run_trans fuel (set_cls c cls) ts l) as [[e|asts]|why|] eqn:E; auto;
          (split; [auto|]; right; right; exists l, (set_qty o1 1); rewrite E; repeat split; auto; apply Hw).
      * split; auto. right; right. exists l, (set_qty o1 1). repeat split; auto; apply Hw.
    + split; auto.
Qed.

Lemma look_sound w (neg : bool) es cs fuel : Forall2 (sound1 w) es cs ->
  sound1 w (if neg then ELookAheadN es else ELookAhead es)
   (base_parser (if neg then ":base:LookAheadN" else ":base:LookAhead") None
      (if neg then [PRewind; PNegative] else [PRewind]) cs None fuel).
Proof.
  intros Hcs c Ho. unfold answers. set (cls := if neg then ":base:LookAheadN"%string else ":base:LookAhead"%string).
  pose proof (okc_start w c cls Ho) as Ho0. unfold base_parser.
  replace (flags_of _) with (mkFlags neg false true qtyOnce) by (destruct neg; reflexivity). simpl.
  pose proof (parent_sound w qtyOnce es cs (length (c_stack c)) Hcs fuel _ 0%nat Ho0) as H.
  destruct (parent_loop _ _ _ _ _ _ _ _) as [[[o1 err]|why|]|o1 k]; auto.
  - destruct H as (cur & x & Hp & Hr & Hw). apply pegr_once in Hp. exists (RErr cur x).
    split; [|auto]. destruct neg; constructor; auto.
  - destruct H as (l & Hp & Hs & Hw & Hst). apply pegr_once in Hp. simpl in Hs.
    destruct Ho as [Hwc Hstc].
    destruct Hp as [[-> Hp]|(-> & Hcur & -> & Hp)]; destruct neg; unfold after_loop; simpl; rewrite ?Hst; simpl.
    + exists RFail. split; [eapply peg_not_fail; eauto|simpl; auto].
    + exists (RSucc (c_sp c) []). split; [eapply peg_and_ok; eauto|simpl; rewrite app_nil_r; auto].
    + exists (RSucc (c_sp c) []). split; [eapply peg_not_ok; eauto|simpl; rewrite app_nil_r; auto].
    + exists RFail. split; [eapply peg_and_fail; eauto|simpl; auto].
Qed.

Lemma first_sound w es cs fuel : Forall2 (sound1 w) es cs ->
  sound1 w (EFirst es) (base_parser ":base:First" None [PThereExists] cs None fuel).
Proof.
  intros Hcs c Ho. unfold answers. pose proof (okc_start w c ":base:First" Ho) as Ho0.
  unfold base_parser. simpl. destruct fuel; simpl; auto.
  pose proof (choice_sound w es cs Hcs (set_st (set_cls c ":base:First") Matched) _ 0%nat Ho0) as H.
  destruct (children_loop true _ cs _ 0) as [[[o1 err]|why|]|c1|o1 num]; auto; try contradiction.
  - destruct H as (cur & x & Hp & Hr & Hw). exists (RErr cur x). split; [|auto].
    destruct es; [inversion Hp|]. apply peg_first; auto.
  - destruct H as [(-> & -> & Hp)|(-> & l & Hp & Hs & Hw & Hst)].
    + inversion Hcs; subst; simpl.
      * destruct fuel; simpl.
        -- exists (RSucc (c_sp c) []). split; [constructor|]. split; [simpl; rewrite app_nil_r; auto|apply Ho].
        -- exists (RSucc (c_sp c) []). split; [constructor|]. split; [simpl; rewrite app_nil_r; auto|apply Ho].
      * exists RFail. split; [apply peg_first; auto|]. split; [simpl; auto|apply Ho].
    + rewrite andb_false_r. simpl. rewrite Hst. simpl.
      destruct es; [inversion Hp|].
      destruct fuel; simpl; rewrite ?Hst; simpl; rewrite ?Hst;
        (exists (RSucc (c_sp o1) l); split; [apply peg_first; auto|]; split; [simpl; auto|apply Hw]).
Qed.

Lemma behind_sound w (neg : bool) mn mx es cs fuel : Forall2 (sound1 w) es cs ->
  sound1 w (ELookBehind neg mn mx es) (look_behind_base neg mn mx cs fuel).
Proof.
  intros Hcs c Ho. unfold look_behind_base.
  set (cls := if neg then ":base:LookBehindN"%string else ":base:LookBehind"%string).
  assert (G : forall k i,
    match look_behind_loop neg (base_parser cls None [PRewind] cs None fuel) c i k with
    | Ok (o, err) => in_world w o /\
        ((pegb w es (behind (c_sp c) i k) RFail /\ o = set_st c (if neg then Matched else Unmatched) /\ err = None) \/
         (exists p, pegb w es (behind (c_sp c) i k) (RSucc p []) /\ err = None /\ if neg then c_st o = Unmatched else o = c) \/
         (exists cur x, pegb w es (behind (c_sp c) i k) (RErr cur x) /\ returns [] o err (RErr cur x)))
    | _ => True
    end).
  { induction k; intros i; simpl.
    - split; [apply Ho|]. left. repeat split. constructor.
    - unfold c_pos in *. destruct (Z.of_nat (sp_pos (c_sp c)) - i <? 0) eqn:Hq; [apply IHk|].
      set (c1 := set_pos c _). assert (Ho1 : okc w c1) by apply Ho.
      pose proof (okc_start w c1 cls Ho1) as Ho0.
      unfold base_parser at 1. simpl.
      pose proof (parent_sound w qtyOnce es cs (length (c_stack c)) Hcs fuel _ 0%nat Ho0) as H.
      destruct (parent_loop _ _ _ _ _ _ _ _) as [[[o1 err]|why|]|o1 k1]; auto.
      + destruct H as (cur & x & Hp & Hr & Hw). apply pegr_once in Hp. simpl in Hr.
        destruct Hr as (-> & Hst & Hsp). split; auto. right; right. exists cur, x. split; [apply lb_err; auto|].
        simpl; auto.
      + destruct H as (l & Hp & Hs & Hw & Hst). apply pegr_once in Hp.
        destruct Ho as [Hwc Hstc].
        destruct Hp as [[-> Hp]|(-> & Hcur & -> & Hp)]; unfold after_loop; simpl.
        * rewrite ?Hst; simpl; rewrite ?Hst; simpl.
          rewrite Hstc.
          destruct neg; (split; [auto|]; right; left; exists (c_sp c1); split; [eapply lb_ok; exact Hp|auto]).
        * specialize (IHk (i + 1)).
          destruct (look_behind_loop _ _ c (i+1) k) as [[o2 err2]|why|]; auto.
          destruct IHk as [Hw2 IH]. split; auto.
          destruct IH as [(Hb & E)|[(p & Hb & E)|(cur & x & Hb & E)]].
          -- left. split; auto. apply lb_next; auto.
          -- right; left. exists p. split; auto. apply lb_next; auto.
          -- right; right. exists cur, x. split; auto. apply lb_next; auto. }
  unfold answers. specialize (G (Z.to_nat (mx - mn + 1)) mn). fold cls.
  destruct (look_behind_loop _ _ c mn _) as [[o err]|why|]; auto.
  destruct G as [Hw [(Hb & -> & ->)|[(p & Hb & -> & E)|(cur & x & Hb & E)]]].
  - destruct neg; [exists (RSucc (c_sp c) [])|exists RFail];
      (split; [first [eapply peg_behindN_ok; exact Hb|eapply peg_behind_fail; exact Hb]|split; [simpl; rewrite ?app_nil_r; auto|auto]]).
  - destruct neg.
    + exists RFail. split; [eapply peg_behindN_fail; eauto|]. simpl; auto.
    + subst o. exists (RSucc (c_sp c) []). split; [eapply peg_behind_ok; eauto|]. split; [|auto].
      simpl. rewrite app_nil_r. destruct Ho; auto.
  - exists (RErr cur x). split; [apply peg_behind_err; auto|auto].
Qed.

Lemma leaf_sound w cls fn n : mono_parser fn /\ leaf_ok fn ->
  sound1 w (ELight cls fn) (light_base_parser cls (fn n)).
Proof.
  intros [_ Hl] c [(H1 & H2 & H3) Hst]. unfold answers, light_base_parser.
  destruct (Hl n c Hst) as [Hs Hw].
  replace (mkCtx (c_str c) (c_slice c) (c_sp c) 0 [] Matched "" (c_tag c)) with (fresh w (c_sp c)) in Hs
    by (unfold fresh; congruence).
  destruct (fn n c) as [[o e]|why|] eqn:E; auto.
  destruct (fn n (fresh w (c_sp c))) as [[o' e']|why|] eqn:E'; simpl in Hs; try contradiction.
  destruct Hs as (<- & Hsp & Hs1 & Hs2). destruct (Hw o e eq_refl) as (W1 & W2 & W3).
  exists (leaf_result o' e). split; [econstructor; eauto|].
  destruct e as [x|]; simpl.
  - split; [auto|]. unfold in_world; simpl. intuition congruence.
  - destruct (Hs1 eq_refl) as [Hst1 Hne]. rewrite <- Hst1.
    destruct (c_st o) eqn:Eo; simpl; try congruence.
    + split; [repeat split; auto|unfold in_world; simpl; intuition congruence].
    + split; [auto|unfold in_world; simpl; intuition congruence].
Qed.

Lemma run_trans_ctx n tr l c c' : allP trans_ok tr ->
  c_str c = c_str c' -> c_slice c = c_slice c' -> c_tag c = c_tag c' -> c_sp c = c_sp c' ->
  run_trans n c tr l = run_trans n c' tr l.
Proof.
  intros Ht H1 H2 H3 H4. revert l. induction tr as [|t tr IH]; intros l; simpl; [auto|].
  destruct Ht as [Ht Htr]. rewrite (Ht n c c' l) by auto.
  destruct (t n c' l) as [[e|l1]|why|]; auto.
Qed.

Lemma run_trans_pipeline n c tr : forall l r, run_trans n c tr l = Ok r -> pipeline c tr l r.
Proof.
  induction tr as [|t tr IH]; simpl; intros l r H.
  - inversion H; constructor.
  - destruct (t n c l) as [[e|l1]|why|] eqn:E; inversion H; subst.
    + eapply pl_err; eauto. + eapply pl_ok; eauto.
Qed.

Lemma allP_impl {A} (P Q : A -> Prop) l : (forall x, P x -> Q x) -> allP P l -> allP Q l.
Proof. intros H. induction l; simpl; intuition. Qed.

Lemma pegs_nil_inv w cur r : pegs w [] cur r -> r = RSucc cur [].
Proof. inversion 1; auto. Qed.
Lemma pegs_one w e cur r : pegs w [e] cur r -> peg w e cur r.
Proof.
  intros H. inversion H; subst; auto;
    match goal with H1 : pegs w [] _ _ |- _ => apply pegs_nil_inv in H1; inversion H1; subst end.
  rewrite app_nil_r. auto.
Qed.

Lemma denote_sound w e : peg_gram e -> forall rho n, (forall k, sound1 w (w_env w k) (rho k)) ->
  sound1 w e (denote rho n e).
Proof.
  unfold peg_gram. induction e using pexp_ind'; intros Hg rho nn Hrho; simpl in Hg |- *;
    unfold FlatGroup, Group, First, LookAhead, LookAheadN, Repeat, Trans, Indirect;
    try rewrite fold_and_Forall in Hg;
    try (assert (Hcs : Forall2 (sound1 w) es (map (denote rho nn) es)) by
      (rewrite <- (map_id es) at 1; apply Forall2_map; eapply Forall_impl;
         [|eapply Forall_mp; [exact H|first [exact Hg|exact (proj2 Hg)]]]; simpl; intros a Ha; apply Ha; assumption)).
  - apply leaf_sound; auto.
  - intros c Ho. unfold answers. pose proof (seq_form w es _ ":base:FlatGroup" None nn c Hcs Ho) as S.
    destruct (base_parser _ _ _ _ _ _ _) as [[o err]|why|]; auto.
    destruct S as [Hw [(Hp & Hr)|[(cur & x & Hp & Hr)|(l & o1 & Hp & Ho1 & Hs & -> & ->)]]].
    + exists RFail. split; [constructor; auto|auto].
    + exists (RErr cur x). split; [constructor; auto|auto].
    + exists (RSucc (c_sp o1) l). split; [constructor; auto|]. split; auto. simpl. destruct Ho1; auto.
  - intros c Ho. unfold answers. pose proof (seq_form w es _ ":base:Group" (Some [GroupingTransform]) nn c Hcs Ho) as S.
    destruct (base_parser _ _ _ _ _ _ _) as [[o err]|why|]; auto.
    destruct S as [Hw [(Hp & Hr)|[(cur & x & Hp & Hr)|(l & o1 & Hp & Ho1 & Hs & S)]]].
    + exists RFail. split; [constructor; auto|auto].
    + exists (RErr cur x). split; [constructor; auto|auto].
    + simpl in S. destruct S as [-> ->]. exists (RSucc (c_sp o1) [group_ast l]).
      split; [constructor; auto|]. split; auto. simpl. destruct Ho1; auto.
  - apply first_sound; auto.
  - apply (look_sound w false); auto.
  - apply (look_sound w true); auto.
  - apply behind_sound; auto.
  - apply repeat_sound; auto.
  - destruct Hg as [Hg1 Hg2]. intros c Ho. unfold answers.
    assert (Hcs : Forall2 (sound1 w) [e] [denote rho nn e]) by (constructor; auto).
    pose proof (seq_form w [e] _ ":base:Trans" (variadic tr) nn c Hcs Ho) as S.
    destruct (base_parser _ _ _ _ _ _ _) as [[o err]|why|]; auto.
    destruct S as [Hw [(Hp & Hr)|[(cur & x & Hp & Hr)|(l & o1 & Hp & Ho1 & Hs & S)]]].
    + exists RFail. split; [|auto]. apply pegs_one in Hp. constructor; auto.
    + exists (RErr cur x). split; [|auto]. apply pegs_one in Hp. constructor; auto.
    + assert (Hp' : peg w e (c_sp c) (RSucc (c_sp o1) l)).
      { apply pegs_one; auto. }
      destruct tr as [|t tr]; cbv [variadic] in S.
      * destruct S as [-> ->]. exists (RSucc (c_sp o1) l). split; [eapply peg_trans_ok; eauto; constructor|].
        split; auto. simpl. destruct Ho1; auto.
      * rewrite (run_trans_ctx nn (t :: tr) l (set_cls c ":base:Trans") (fresh w (c_sp c))) in S;
          [|eapply allP_impl; [|exact Hg2]; simpl; tauto|destruct Ho as [(E1 & E2 & E3) _]; simpl; congruence..].
        destruct (run_trans nn (fresh w (c_sp c)) (t :: tr) l) as [[x|asts]|why|] eqn:E; try contradiction;
          apply run_trans_pipeline in E; destruct S as [-> ->].
        -- exists (RErr (c_sp o1) x). split; [eapply peg_trans_bad; eauto|]. simpl; auto.
        -- exists (RSucc (c_sp o1) asts). split; [eapply peg_trans_ok; eauto|]. split; auto. simpl. destruct Ho1; auto.
  - intros c Ho. specialize (Hrho k c Ho). unfold answers, light_base_parser in *.
    destruct (rho k c) as [[o err]|why|]; auto. destruct Hrho as (r & Hp & Hr & Hw).
    exists r. split; [constructor; auto|]. split.
    + destruct r; simpl in *.
      * destruct Hr as (-> & Hst & Hr). simpl. rewrite Hst. simpl; auto.
      * destruct Hr as (-> & Hst). simpl. rewrite Hst. simpl; auto.
      * destruct Hr as (-> & Hst & Hr). simpl; auto.
    + destruct err; simpl; [apply Hw|]. destruct (c_st o); apply Hw.
  - destruct Hg as [[] _].
Qed.

Lemma run_env_sound w : peg_env w -> forall n k, sound1 w (w_env w k) (run_env (w_env w) n k).
Proof.
  intros He. induction n; intros k; [intros c _; simpl; auto|].
  simpl. apply denote_sound; auto.
Qed.

(** Soundness: whatever the code answers, the semantics derives. *)
Lemma run_sound w e n c o err : peg_env w -> peg_gram e -> okc w c ->
  run (w_env w) n e c = Ok (o, err) ->
  exists r, peg w e (c_sp c) r /\ returns (c_stack c) o err r /\ in_world w o.
Proof.
  intros He Hg Ho E. pose proof (denote_sound w e Hg _ n (run_env_sound w He n) c Ho) as H.
  unfold run in E. rewrite E in H. exact H.
Qed.
