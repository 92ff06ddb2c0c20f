(** torpn with Go's slice semantics gives the answers of torpn over lists. *)
From Verif Require Export M_TorpnMem L_World S_Heap.
From Verif Require Import L_Heap L_FormulaParse.
Open Scope nat_scope.

(** Nothing that existed has changed. *)
Definition le (h h1 : heap) : Prop := length h <= length h1 /\ forall i, i < length h -> cells h1 i = cells h i.
Definition arr_of (a : ast) : list nat :=
  match a_ty a with TListOfAst => match as_hdr (a_val a) with Ok s => [s_arr s] | _ => [] end | _ => [] end.
Definition listed (a : ast) (l : list ast) : ast := mkAst (a_op a) (a_cls a) TListOfAst (VAsts l) (a_sp a).
(** [a] stands for [a'] in the memory [h]; the array of a list was made after [k]. *)
Definition stands (k h : heap) (a a' : ast) : Prop :=
  (a_ty a <> TListOfAst /\ a = a') \/
  exists s, a_ty a = TListOfAst /\ a_val a = hdr s /\ a' = listed a (elems h s) /\ valid h s /\ length k <= s_arr s.
(** ... and no two lists share an array. *)
Definition rep (k h : heap) (l l' : list ast) : Prop := Forall2 (stands k h) l l' /\ NoDup (flat_map arr_of l).

Lemma as_hdr_hdr s : as_hdr (hdr s) = Ok s.
Proof. destruct s. unfold as_hdr, hdr. rewrite !Nat2Z.id. reflexivity. Qed.
Lemma le_refl h : le h h. Proof. split; auto. Qed.
Lemma le_trans a b c : le a b -> le b c -> le a c.
Proof. intros [A B] [C D]. split; [lia|]. intros i H. rewrite D by lia. auto. Qed.
Lemma le_valid h h1 s : le h h1 -> valid h s -> valid h1 s.
Proof. intros [A B] [C D]. split; [lia|]. rewrite B by auto. auto. Qed.
Lemma le_elems h h1 s : le h h1 -> valid h s -> elems h1 s = elems h s.
Proof. intros [A B] [C D]. unfold elems. rewrite B by auto. auto. Qed.
Lemma stands_mono k h h1 a a' : stands k h a a' -> le h h1 -> stands k h1 a a'.
Proof.
  intros [H|(s & A & B & C & D & E)] L; [left; auto|]. right. exists s. rewrite (le_elems _ _ _ L D). repeat (split; auto). all: eapply le_valid; eauto.
Qed.
Lemma stands_arr k h a a' x : stands k h a a' -> In x (arr_of a) -> length k <= x < length h.
Proof.
  intros [[H _]|(s & A & B & C & D & E)]; unfold arr_of.
  - destruct (a_ty a); try contradiction.
  - rewrite A, B, as_hdr_hdr. intros [<-|[]]. split; auto. apply D.
Qed.
Lemma stands_arrs k h l l' x : Forall2 (stands k h) l l' -> In x (flat_map arr_of l) -> length k <= x < length h.
Proof.
  induction 1 as [|a a' l l' H _ IH]; simpl; [tauto|]. rewrite in_app_iff. intros [K|K]; eauto using stands_arr.
Qed.
Lemma stands_from k k1 h a a' : stands k1 h a a' -> length k <= length k1 -> stands k h a a'.
Proof. intros [H|(s & A & B & C & D & E)] L; [left; auto|]. right. exists s. repeat split; auto; try apply D. lia. Qed.
Lemma Forall2_impl {A B} (P Q : A -> B -> Prop) l l' : (forall a b, P a b -> Q a b) -> Forall2 P l l' -> Forall2 Q l l'.
Proof. induction 2; constructor; auto. Qed.
Lemma rep_nil h h1 : le h h1 -> rep h h1 [] [].
Proof. intros _. split; constructor. Qed.
Lemma rep_mono k h h1 l l' : rep k h l l' -> le h h1 -> rep k h1 l l'.
Proof. intros [A B] L. split; auto. eapply Forall2_impl; [|exact A]. intros. eapply stands_mono; eauto. Qed.
Lemma nodup_app {A} (a b : list A) : NoDup a -> NoDup b -> (forall x, In x a -> In x b -> False) -> NoDup (a ++ b).
Proof.
  induction a as [|x a IH]; intros Ha Hb H; simpl; auto. inversion Ha; subst. constructor.
  - rewrite in_app_iff. intros [K|K]; [auto|]. eapply H; [left; reflexivity|eauto].
  - apply IH; auto. intros y K1 K2. eapply H; [right; eauto|eauto].
Qed.
Lemma rep_app k h1 h2 a a' b b' : le k h1 -> le h1 h2 -> rep k h1 a a' -> rep h1 h2 b b' -> rep k h2 (a ++ b) (a' ++ b').
Proof.
  intros Lk L [A A'] [B B']. split.
  - apply Forall2_app.
    + eapply Forall2_impl; [|exact A]. intros. eapply stands_mono; eauto.
    + eapply Forall2_impl; [|exact B]. intros. eapply stands_from; eauto. apply Lk.
  - rewrite flat_map_app. apply nodup_app; auto. intros x Ha Hb.
    pose proof (stands_arrs _ _ _ _ _ A Ha). pose proof (stands_arrs _ _ _ _ _ B Hb). lia.
Qed.
Lemma rep_len k h l l' : rep k h l l' -> length l = length l'.
Proof. intros [A _]. induction A; simpl; congruence. Qed.

Notation tsimT := (wtsim heap le rep).
Notation esimT := (wesim heap le rep).
Notation selfT := (self heap le rep).

(** ** Leaves *)
Definition plain_leaf (fn : light_fn) : Prop :=
  (forall c s, fn (set_stack c s) = match fn (set_stack c []) with Ok (o, e) => Ok (set_stack o (s ++ c_stack o), e) | Panic x => Panic x | Fuel => Fuel end) /\
  (forall c o e, fn (set_stack c []) = Ok (o, e) -> Forall (fun a => a_ty a <> TListOfAst) (c_stack o)).
Lemma plain_rep k h l : Forall (fun a => a_ty a <> TListOfAst) l -> rep k h l l.
Proof.
  intros H. assert (E : flat_map arr_of l = []).
  { induction H as [|a l Ha _ IH]; simpl; auto. rewrite IH. unfold arr_of. destruct (a_ty a); auto. contradiction. }
  split; [|rewrite E; constructor]. clear E. induction H; constructor; auto. left. auto.
Qed.
Lemma plain_adds fn : plain_leaf fn -> adds heap le rep fn.
Proof.
  intros [A B] c. exists (fn (set_stack c [])), (match fn (set_stack c []) with Ok (o, _) => c_stack o | _ => [] end). intros s. split.
  - rewrite A. destruct (fn (set_stack c [])) as [[o e]|x|]; reflexivity.
  - intros k w _. destruct (fn (set_stack c [])) as [[o e]|x|] eqn:E; try apply plain_rep; try constructor. eapply B; eauto.
Qed.
Ltac plain_tac := split; intros [str sl [pos len] q stk st0 cls0 tag];
  [intros s|intros o e]; cbn; repeat (leaf_split; cbn); rewrite ?app_nil_r; try reflexivity;
  try (intros K; try discriminate K; injection K as <- _; cbn; repeat constructor; cbn; discriminate).
Lemma plain_char cls test : plain_leaf (char_fn cls test).
Proof. unfold char_fn, with_rest, ret, push_str. plain_tac. Qed.
Lemma plain_class cc : plain_leaf (char_class_fn cc).
Proof.
  unfold char_class_fn, ret. split; intros [str sl [pos len] q stk st0 cls0 tag]; [intros s|intros o e]; rewrite ?char_class_loop_spec; cbn;
    destruct (find _ cc) as [x|]; cbn; rewrite ?app_nil_r; try reflexivity; intros [= <- _]; cbn; repeat constructor; cbn; discriminate.
Qed.
Lemma plain_wb word : plain_leaf (word_boundary_gen word).
Proof. unfold word_boundary_gen, with_rest, ret. plain_tac. Qed.
Lemma plain_error msg : plain_leaf (error_fn msg).
Proof. unfold error_fn. plain_tac. Qed.
Lemma plain_start : plain_leaf start_fn.
Proof. unfold start_fn. plain_tac. Qed.
Lemma plain_end : plain_leaf end_fn.
Proof. unfold end_fn, ret. plain_tac. Qed.

(** ** Transformers that do not touch the memory *)
Lemma concat_same k h l l' : Forall2 (stands k h) l l' -> concat_loop l = concat_loop l'.
Proof.
  induction 1 as [|a a' l l' H _ IH]; cbn [concat_loop]; auto. destruct H as [[_ <-]|(s & A & B & -> & _)]; [rewrite IH; reflexivity|].
  unfold listed. cbn [a_ty a_val]. rewrite A. reflexivity.
Qed.
Lemma stands_cls k h a a' : stands k h a a' -> a_cls a = a_cls a' /\ a_sp a = a_sp a' /\ a_ty a = a_ty a'.
Proof. intros [[_ <-]|(s & A & B & -> & _)]; auto. Qed.
Lemma concat_t : tsimT (pure_trans heap Concat) Concat.
Proof.
  intros n c c' k w l l' _ L [R N]. unfold pure_trans, Concat, concat_asts. destruct R as [|a a' l l' Ha R].
  - cbn. split; auto. apply plain_rep. repeat constructor. discriminate.
  - rewrite (concat_same k w (a :: l) (a' :: l')) by (constructor; auto). destruct (stands_cls _ _ _ _ Ha) as (-> & -> & _).
    destruct (concat_loop (a' :: l')) as [[e|t]|x|]; cbn; auto. split; auto. apply plain_rep. repeat constructor. discriminate.
Qed.
Lemma erase_t : tsimT (pure_trans heap Erase) Erase.
Proof. intros n c c' k w l l' _ L R. cbn. split; auto. apply rep_nil; auto. Qed.
Lemma class_t x : tsimT (pure_trans heap (ChangeClassName x)) (ChangeClassName x).
Proof.
  intros n c c' k w l l' _ L [R N]. unfold pure_trans, ChangeClassName. destruct R as [|a a' l l' Ha R]; cbn; (split; [auto|]).
  - apply rep_nil; auto.
  - split; [|exact N]. constructor; auto. destruct Ha as [[H <-]|(s & A & B & -> & D)]; [left; auto|]. right. exists s. auto.
Qed.
Lemma number_t : tsimT (pure_trans heap parseNumber) parseNumber.
Proof.
  intros n c c' k w l l' _ L [R N]. unfold pure_trans, parseNumber. destruct R as [|a a' l l' Ha R]; cbn; auto.
  destruct Ha as [[H <-]|(s & A & B & -> & D)].
  - destruct (a_val a); cbn; auto. destruct (parse_int s 10); cbn; auto. split; auto. apply plain_rep. repeat constructor. discriminate.
  - rewrite B. cbn. auto.
Qed.

(** ** Replacing some of the tokens *)
Lemma frame k h h1 a a' l l' b b' r r' : le k h -> rep k h (a ++ l ++ b) (a' ++ l' ++ b') -> length a = length a' -> length l = length l' ->
  length h <= length h1 -> (forall i, i < length h -> ~ In i (flat_map arr_of l) -> cells h1 i = cells h i) ->
  rep k h1 r r' -> (forall i, In i (flat_map arr_of r) -> In i (flat_map arr_of l) \/ length h <= i) ->
  le k h1 /\ rep k h1 (a ++ r ++ b) (a' ++ r' ++ b').
Proof.
  intros Lk [R N] La Ll Lh Hc [Rr Nr] Hr.
  assert (S : Forall2 (stands k h) a a' /\ Forall2 (stands k h) l l' /\ Forall2 (stands k h) b b').
  { apply Forall2_app_inv_l in R. destruct R as (x & y & Ra & Rb & E).
    assert (Ex : x = a' /\ y = l' ++ b').
    { assert (Lx : length x = length a') by (rewrite <- La; symmetry; clear -Ra; induction Ra; simpl; congruence).
      clear -E Lx. revert a' E Lx. induction x as [|z x IH]; intros [|z' a'] E Lx; simpl in *; try discriminate; auto.
      injection E as -> E. destruct (IH a' (eq_sym (eq_sym E))) as [-> ->]; auto. }
    destruct Ex as [-> ->]. split; auto. apply Forall2_app_inv_l in Rb. destruct Rb as (u & v & Ru & Rv & E').
    assert (Eu : u = l' /\ v = b').
    { assert (Lx : length u = length l') by (rewrite <- Ll; symmetry; clear -Ru; induction Ru; simpl; congruence).
      clear -E' Lx. revert l' E' Lx. induction u as [|z x IH]; intros [|z' a'] E Lx; simpl in *; try discriminate; auto.
      injection E as -> E. destruct (IH a' (eq_sym (eq_sym E))) as [-> ->]; auto. }
    destruct Eu as [-> ->]. auto. }
  destruct S as (Sa & Sl & Sb). rewrite !flat_map_app in N.
  assert (Keep : forall z z', Forall2 (stands k h) z z' -> (forall i, In i (flat_map arr_of z) -> ~ In i (flat_map arr_of l)) -> Forall2 (stands k h1) z z').
  { induction 1 as [|t t' z z' Ht _ IH]; intros Hd; constructor.
    - destruct Ht as [Ht|(s & A & B & C & D & E)]; [left; auto|]. right. exists s.
      assert (I : ~ In (s_arr s) (flat_map arr_of l)). { apply Hd. simpl. apply in_app_iff. left. unfold arr_of. rewrite A, B, as_hdr_hdr. left; auto. }
      destruct D as [D1 D2]. assert (Ec : cells h1 (s_arr s) = cells h (s_arr s)) by (apply Hc; auto).
      split; auto. split; auto. split; [rewrite C; unfold elems; rewrite Ec; reflexivity|]. split; auto. split; [lia|]. rewrite Ec. auto.
    - apply IH. intros i Hi. apply Hd. simpl. apply in_app_iff. auto. }
  assert (Da : forall i, In i (flat_map arr_of a) -> ~ In i (flat_map arr_of l)).
  { intros i Hi Hl. clear -N Hi Hl. induction (flat_map arr_of a) as [|x q IH]; simpl in *; [tauto|]. inversion N; subst.
    destruct Hi as [<-|Hi]; auto. apply H1. rewrite !in_app_iff. auto. }
  assert (Dab : forall i, In i (flat_map arr_of a) -> ~ In i (flat_map arr_of b)).
  { intros i Hi Hl. clear -N Hi Hl. induction (flat_map arr_of a) as [|x q IH]; simpl in *; [tauto|]. inversion N; subst.
    destruct Hi as [<-|Hi]; auto. apply H1. rewrite !in_app_iff. auto. }
  assert (N2 : NoDup (flat_map arr_of l ++ flat_map arr_of b)) by (clear -N; induction (flat_map arr_of a); simpl in *; auto; inversion N; auto).
  assert (Na : NoDup (flat_map arr_of a)).
  { clear -N. induction (flat_map arr_of a) as [|x q IH]; simpl in *; constructor; inversion N; subst; auto. intros K. apply H1. apply in_app_iff. auto. }
  assert (Nb : NoDup (flat_map arr_of b)) by (clear -N2; induction (flat_map arr_of l); simpl in *; auto; inversion N2; auto).
  assert (Db : forall i, In i (flat_map arr_of b) -> ~ In i (flat_map arr_of l)).
  { intros i Hi Hl. clear -N2 Hi Hl. induction (flat_map arr_of l) as [|x q IH]; simpl in *; [tauto|]. inversion N2; subst.
    destruct Hl as [<-|Hl]; auto. apply H1. rewrite !in_app_iff. auto. }
  split.
  - split; [destruct Lk; lia|]. intros i Hi. rewrite Hc; [apply Lk; auto|destruct Lk; lia|].
    intros K. pose proof (stands_arrs _ _ _ _ _ Sl K). lia.
  - split; [apply Forall2_app; [auto|apply Forall2_app; auto]|]. rewrite !flat_map_app. apply nodup_app; auto.
    + apply nodup_app; auto. intros x Hx Hb. destruct (Hr x Hx) as [K|K]; [eapply Db; eauto|]. pose proof (stands_arrs _ _ _ _ _ Sb Hb). lia.
    + intros x Hx. rewrite in_app_iff. intros [K|K]; [|eapply Dab; eauto].
      destruct (Hr x K) as [K2|K2]; [eapply Da; eauto|]. pose proof (stands_arrs _ _ _ _ _ Sa Hx). lia.
Qed.

(** ** The transformers of torpn *)
Lemma F2_split {A B} (P : A -> B -> Prop) a b a' b' : Forall2 P (a ++ b) (a' ++ b') -> length a = length a' -> Forall2 P a a' /\ Forall2 P b b'.
Proof.
  revert a'. induction a as [|x a IH]; intros [|x' a'] H L; simpl in *; try discriminate; auto.
  inversion H; subst. destruct (IH a') as [I1 I2]; auto.
Qed.
Lemma rep_mid k h a a' l l' b b' : rep k h (a ++ l ++ b) (a' ++ l' ++ b') -> length a = length a' -> length l = length l' -> Forall2 (stands k h) l l'.
Proof. intros [R _] La Ll. apply F2_split in R; auto. destruct R as [_ R]. apply F2_split in R; auto. tauto. Qed.
Definition tres (k : heap) (a a' b b' : list ast) (r : heap * res (gerr + list ast)) (r' : res (gerr + list ast)) : Prop :=
  match r, r' with
  | (h1, Ok (inr z)), Ok (inr z') => le k h1 /\ rep k h1 (a ++ z ++ b) (a' ++ z' ++ b')
  | (h1, Ok (inl e)), Ok (inl e') => e = e' /\ le k h1
  | (_, Panic x), Panic y => x = y
  | (_, Fuel), Fuel => True
  | _, _ => False
  end.
Definition opsim (ok : list ast -> Prop) (t : wtrans heap) (t' : trans) : Prop :=
  forall n c c' k h a a' l l' b b', le k h -> rep k h (a ++ l ++ b) (a' ++ l' ++ b') -> length a = length a' -> length l = length l' -> ok l ->
  tres k a a' b b' (t n c h l) (t' n c' l').
Lemma stands_str k h a a' s : stands k h a a' -> a_val a = VStr s -> a = a'.
Proof. intros [[_ H]|(x & A & B & _)] E; auto. rewrite B in E. discriminate. Qed.
Lemma stands_str_of k h l l' i : Forall2 (stands k h) l l' -> str_of l i = str_of l' i.
Proof.
  intros H. revert i. unfold str_of. induction H as [|a a' l l' Ha _ IH]; intros [|i]; cbn [nth_error]; auto.
  destruct Ha as [[_ ->]|(s & A & B & -> & _)]; auto. rewrite B. reflexivity.
Qed.
Lemma slice_stands k h s l : valid h s -> length k <= s_arr s -> elems h s = l -> rep k h [slice_ast s] [list_ast l].
Proof.
  intros V L <-. split.
  - constructor; [|constructor]. right. exists s. auto.
  - unfold slice_ast, arr_of. cbn [flat_map a_ty a_val]. rewrite as_hdr_hdr. repeat constructor. auto.
Qed.
Lemma slice_arrs s i : In i (flat_map arr_of [slice_ast s]) -> i = s_arr s.
Proof. unfold slice_ast, arr_of. cbn [flat_map a_ty a_val]. rewrite as_hdr_hdr. intros [<-|[]]. auto. Qed.

Section Growth.
Variable g : growth.
Definition unary_ok (l : list ast) : Prop := exists op x s, l = [op; x] /\ a_val op = VStr s.
Lemma unary_t : opsim unary_ok (mem_unary g) transformUnaryOp.
Proof.
  intros n c c' k h a a' l l' b b' Lk R La Ll (op & x & s & -> & Es).
  pose proof (rep_mid _ _ _ _ _ _ _ _ R La Ll) as F. inversion F as [|? op' ? l1 Hop F1]; subst. inversion F1 as [|? x' ? l2 Hx F2]; subst. inversion F2; subst.
  assert (op = op') by (eapply stands_str; eauto). subst op'.
  unfold mem_unary, transformUnaryOp, ast_at, bind. cbn [nth_error].
  destruct Hx as [[Hn <-]|(sl & A & B & -> & V & Lv)].
  - destruct (a_ty x); try (cbn; auto; fail); [|contradiction].
    unfold str_of. cbn [nth_error]. rewrite Es. destruct (as_int (a_val x)) as [z|e|]; unfold tok; cbn [tres]; auto.
    eapply frame; eauto. { apply plain_rep. repeat constructor. discriminate. } cbn. tauto.
  - unfold listed. cbn [a_ty a_val as_asts]. rewrite A, B, as_hdr_hdr.
    destruct (go_append g h sl [op]) as [h1 s1] eqn:Ea. destruct (append_spec _ _ _ _ _ _ V Ea) as (E1 & V1 & K & M & _).
    assert (Lm : length k <= s_arr s1) by (destruct M as [[-> _]|M]; [auto|destruct Lk; lia]).
    unfold tok; cbn [tres]. eapply frame; eauto.
    + apply K.
    + intros i Hi Hn. apply K; auto. intros ->. apply Hn. cbn [flat_map]. rewrite !in_app_iff. right. left. unfold arr_of. rewrite A, B, as_hdr_hdr. left. auto.
    + apply slice_stands; auto.
    + intros i Hi. apply slice_arrs in Hi. subst i. destruct M as [[-> _]|M]; [|right; auto]. left. cbn [flat_map]. rewrite !in_app_iff. right. left.
      unfold arr_of. rewrite A, B, as_hdr_hdr. left. auto.
Qed.
Lemma kept_le h h1 h2 i m : le h h1 -> kept h1 h2 i m -> length h <= i -> le h h2.
Proof. intros [A B] (C & _ & D & _) H. split; [lia|]. intros j Hj. rewrite D by lia. auto. Qed.
Lemma operand_t k h h1 ret x x' : le h h1 -> valid h1 ret -> length h <= s_arr ret -> stands k h x x' ->
  match mem_operand g h1 ret x, M_Torpn.operand x' with
  | (h2, Ok (inr s)), Ok (inr l) => le h h2 /\ valid h2 s /\ length h <= s_arr s /\ elems h2 s = elems h1 ret ++ l
  | (h2, Ok (inl e)), Ok (inl e') => e = e' /\ le h h2
  | (_, Panic e), Panic e' => e = e'
  | _, _ => False
  end.
Proof.
  intros L V Lr Hx. assert (App : forall new h2 s, go_append g h1 ret new = (h2, s) ->
    le h h2 /\ valid h2 s /\ length h <= s_arr s /\ elems h2 s = elems h1 ret ++ new).
  { intros new h2 s E. destruct (append_spec _ _ _ _ _ _ V E) as (E1 & V1 & K & M & _). split; [eapply kept_le; eauto|]. split; auto. split; auto.
    destruct M as [[-> _]|M]; auto. destruct L. lia. }
  unfold mem_operand, M_Torpn.operand. destruct Hx as [[Hn <-]|(sl & A & B & -> & Vx & Lv)].
  - destruct (a_ty x); try (cbn; auto; fail); [|contradiction]. destruct (go_append g h1 ret [x]) as [h2 s] eqn:E. cbn. apply App. auto.
  - unfold listed. cbn [a_ty a_val as_asts bind]. rewrite A, B, as_hdr_hdr, (le_elems _ _ _ L Vx).
    destruct (go_append g h1 ret (elems h sl)) as [h2 s] eqn:E. cbn. apply App. auto.
Qed.
Definition binary_ok (l : list ast) : Prop := length l = 3.
Lemma binary_t : opsim binary_ok (mem_binary g) transformBinaryOp.
Proof.
  intros n c c' k h a a' l l' b b' Lk R La Ll Hl. destruct l as [|x [|op [|y [|]]]]; try discriminate Hl.
  pose proof (rep_mid _ _ _ _ _ _ _ _ R La Ll) as F. unfold mem_binary, transformBinaryOp, bind. rewrite (stands_str_of _ _ _ _ 1 F).
  inversion F as [|? x' ? l1 Hx F1]; subst. inversion F1 as [|? op' ? l2 Hop F2]; subst. inversion F2 as [|? y' ? l3 Hy F3]; subst. inversion F3; subst.
  destruct (str_of [x'; op'; y'] 1) as [s|e|] eqn:Es; cbn [tres]; auto.
  assert (op = op').
  { destruct Hop as [[_ H]|(sl & A & B & -> & _)]; auto. unfold str_of, listed in Es. cbn in Es. discriminate. }
  subst op'. clear Es s. destruct (alloc h 3 []) as [h0 ret] eqn:Ea. destruct (alloc_spec _ _ _ _ _ Ea) as (E0 & V0 & K0 & S0 & _ & _ & _ & L0).
  assert (L1 : le h h0). { split; [lia|]. intros i Hi. destruct (K0 i (length (cells h0 i)) Hi) as (_ & B & _ & D).
    rewrite firstn_all in D. rewrite D. rewrite firstn_all2; auto. rewrite (B i Hi). auto. }
  unfold ast_at. cbn [nth_error]. pose proof (operand_t k h h0 ret x x' L1 V0 ltac:(lia) Hx) as O1.
  destruct (mem_operand g h0 ret x) as [h1 [[e|s1]|e|]], (M_Torpn.operand x') as [[e'|l1]|e'|]; try contradiction; try exact O1; [split; [apply O1|eapply le_trans; [exact Lk|apply O1]]|].
  destruct O1 as (L2 & V1 & A1 & E1). pose proof (operand_t k h h1 s1 y y' L2 V1 A1 Hy) as O2.
  destruct (mem_operand g h1 s1 y) as [h2 [[e|s2]|e|]], (M_Torpn.operand y') as [[e'|l2]|e'|]; try contradiction; try exact O2; [split; [apply O2|eapply le_trans; [exact Lk|apply O2]]|].
  destruct O2 as (L3 & V2 & A2 & E2). destruct (go_append g h2 s2 [op]) as [h3 s3] eqn:E3.
  destruct (append_spec _ _ _ _ _ _ V2 E3) as (E4 & V3 & K & M & _).
  assert (L4 : le h h3) by (eapply kept_le; eauto).
  assert (A3 : length h <= s_arr s3) by (destruct M as [[-> _]|M]; [auto|destruct L3; lia]).
  unfold tok; cbn [tres]. eapply frame; eauto.
  - apply L4.
  - intros i Hi _. apply L4. auto.
  - apply slice_stands; auto. { destruct Lk. lia. } rewrite E4, E2, E1, E0. simpl. rewrite app_assoc. reflexivity.
  - intros i Hi. apply slice_arrs in Hi. subst i. right. auto.
Qed.

(** ** The patterns of the rules *)
Section Patterns.
Variable rho : nat -> ctx -> out.
(** A parser that takes one token, if it is [good]. *)
Definition takes (good : ast -> res bool) (f : ctx -> out) : Prop := forall asts c, c_slice c = Some (ast_slice asts) ->
  match nth_error asts (c_pos c) with
  | None => exists o, f c = Ok (o, None) /\ c_st o = Unmatched
  | Some a =>
      match good a with
      | Ok true => exists o, f c = Ok (o, None) /\ c_st o = Matched /\ c_stack o = c_stack c ++ [a] /\ c_pos o = c_pos c + 1 /\ c_slice o = c_slice c
      | Ok false => exists o, f c = Ok (o, None) /\ c_st o = Unmatched
      | Panic x => f c = Panic x
      | Fuel => False
      end
  end.
Lemma parent_done n q ex fn b cs o k : more q k = false -> parent_loop n q ex fn b cs o k = PDone o k.
Proof. intros H. destruct n; cbn [parent_loop]; rewrite H; reflexivity. Qed.
Lemma w_parent_done {W} n q ex fn bt cs (w : W) o k : more q k = false -> w_parent n q ex fn bt cs w o k = (w, PDone o k).
Proof. intros H. destruct n; cbn [w_parent]; rewrite H; reflexivity. Qed.
Lemma not_shorter (l : list ast) : match length l with 0 => false | S m' => length l + 1 <=? m' end = false.
Proof. change ((length l + 1 <? length l) = false). apply Nat.ltb_ge. lia. Qed.
Lemma nth_map_ast (asts : list ast) p : nth_error (map VAst asts) p = option_map VAst (nth_error asts p).
Proof. revert p. induction asts as [|a l IH]; intros [|p]; simpl; auto. Qed.
Lemma any_takes m : takes (fun _ => Ok true) (denote rho (S m) anyOperand).
Proof.
  intros asts [str sl [pos len] q stk st cls tag] E. cbn in E. subst sl. unfold anyOperand, OAny, lift.
  cbn [denote map]. unfold Trans, base_parser, variadic. cbn. unfold light_base_parser, obj_any_fn, with_slice. cbn. rewrite nth_map_ast.
  unfold c_pos. cbn. destruct (nth_error asts pos) as [a|]; cbn.
  - rewrite parent_done by reflexivity. cbn. rewrite app_length. cbn. rewrite not_shorter, skipn_len, firstn_len. cbn.
    eexists. split; [reflexivity|]. cbn. auto.
  - eexists. split; [reflexivity|]. reflexivity.
Qed.
Definition op_good (cls : string) (ops : list bytes) (a : ast) : res bool :=
  match makeOpMatcher cls ops (VAst a) with Some b => Ok b | None => Panic "interface conversion" end.
Lemma op_takes cls ops m : takes (op_good cls ops) (denote rho (S m) (isOperator cls ops)).
Proof.
  intros asts [str sl [pos len] q stk st cls0 tag] E. cbn in E. subst sl. unfold isOperator, lift, op_good.
  cbn [denote map]. unfold Trans, base_parser, variadic. cbn. unfold light_base_parser, op_class_fn, obj_classFn_fn, with_slice. cbn. rewrite nth_map_ast.
  unfold c_pos. cbn. destruct (nth_error asts pos) as [a|]; cbn.
  - destruct (if String.eqb (a_cls a) cls then _ else _) as [[|]|]; cbn; auto.
    + rewrite parent_done by reflexivity. cbn. rewrite app_length. cbn. rewrite not_shorter, skipn_len, firstn_len. cbn.
      eexists. split; [reflexivity|]. cbn. auto.
    + eexists. split; [reflexivity|]. reflexivity.
  - eexists. split; [reflexivity|]. reflexivity.
Qed.

(** A sequence of them in a FlatGroup *)
Fixpoint matches (goods : list (ast -> res bool)) (asts : list ast) : res (option (list ast)) :=
  match goods with
  | [] => Ok (Some [])
  | p :: goods' =>
      match asts with
      | [] => Ok None
      | a :: asts' =>
          match p a with
          | Ok true => match matches goods' asts' with Ok (Some l) => Ok (Some (a :: l)) | r => r end
          | Ok false => Ok None
          | Panic x => Panic x
          | Fuel => Fuel
          end
      end
  end.
Lemma skipn_nth {A} (l : list A) p : match nth_error l p with None => skipn p l = [] | Some a => skipn p l = a :: skipn (p + 1) l end.
Proof. revert p. induction l as [|x l IH]; intros [|p]; simpl; auto. apply IH. Qed.
Lemma children_matches sv asts goods fs : Forall2 takes goods fs -> forall c num, c_slice c = Some (ast_slice asts) ->
  match matches goods (skipn (c_pos c) asts) with
  | Ok None => children_loop false sv fs c num = CBreak sv
  | Ok (Some l) => exists o, children_loop false sv fs c num = CEnd o (num + length fs) /\ c_stack o = c_stack c ++ l /\ c_pos o = c_pos c + length l /\
      (c_st c = Matched -> c_st o = Matched)
  | Panic x => children_loop false sv fs c num = CReturn (Panic x)
  | Fuel => False
  end.
Proof.
  induction 1 as [|p f goods fs Hp _ IH]; intros c num E; cbn [matches children_loop length].
  - exists c. rewrite app_nil_r, !Nat.add_0_r. auto.
  - pose proof (Hp asts c E) as T. pose proof (skipn_nth asts (c_pos c)) as N. destruct (nth_error asts (c_pos c)) as [a|]; rewrite N.
    2: { destruct T as (o & -> & Eo). cbn. rewrite Eo. reflexivity. }
    destruct (p a) as [[|]|x|]; [..|contradiction].
    + destruct T as (o & -> & Eo & Es & Ep & El). cbn [fix_status]. rewrite Eo. specialize (IH o (S num)). rewrite El, Ep in IH. specialize (IH E).
      destruct (matches goods (skipn (c_pos c + 1) asts)) as [[l|]|x|]; auto. destruct IH as (o1 & -> & Es1 & Ep1 & Em). exists o1.
      split; [f_equal; lia|]. rewrite Es1, Es, Ep1. split; [rewrite <- app_assoc; reflexivity|]. split; [cbn; lia|]. intros _. auto.
    + destruct T as (o & -> & Eo). cbn. rewrite Eo. reflexivity.
    + rewrite T. reflexivity.
Qed.
Lemma flat_matches m goods fs asts c : Forall2 takes goods fs -> c_slice c = Some (ast_slice asts) ->
  match matches goods (skipn (c_pos c) asts) with
  | Ok None => exists o, FlatGroup fs (S m) c = Ok (o, None) /\ c_st o = Unmatched
  | Ok (Some l) => exists o, FlatGroup fs (S m) c = Ok (o, None) /\ c_st o = Matched /\ c_stack o = c_stack c ++ l /\ c_pos o = c_pos c + length l
  | Panic x => FlatGroup fs (S m) c = Panic x
  | Fuel => False
  end.
Proof.
  intros H E. unfold FlatGroup, base_parser. cbn [flags_of fold_left f_qty f_ex f_rew f_neg]. cbv zeta.
  set (c1 := set_st (set_cls c ":base:FlatGroup") Matched).
  assert (E1 : c_slice c1 = Some (ast_slice asts)) by (destruct c; exact E).
  assert (P1 : c_pos c1 = c_pos c) by (destruct c; reflexivity). assert (S1 : c_stack c1 = c_stack c) by (destruct c; reflexivity).
  pose proof (children_matches c1 asts goods fs H c1 0 E1) as K. rewrite P1, S1 in K.
  cbn [parent_loop]. change (more qtyOnce 0) with true. cbv iota.
  destruct (matches goods (skipn (c_pos c) asts)) as [[l|]|x|]; [..|contradiction].
  - destruct K as (o & -> & Es & Ep & Em). cbn [andb call_fn]. specialize (Em eq_refl).
    assert (Q : forall o k, c_st (set_qty o k) = c_st o) by (intros z; destruct z; reflexivity). rewrite Q, Em.
    rewrite parent_done by reflexivity. unfold after_loop. cbn [f_qty f_neg t_min qtyOnce]. cbn [Z.of_nat Pos.of_succ_nat].
    change ((0 <=? 1)%Z && (1 <? 1)%Z) with false. cbv iota. rewrite !Q, Em. eexists. split; [reflexivity|].
    rewrite !Q, !stack_qty. split; auto.
  - rewrite K. unfold after_loop. cbn [f_qty f_neg t_min qtyOnce]. change ((0 <=? 1)%Z && (Z.of_nat 0 <? 1)%Z) with true. cbv iota.
    assert (Q : c_st (set_st c1 Unmatched) = Unmatched) by reflexivity. rewrite Q. eexists. split; [reflexivity|]. exact Q.
  - rewrite K. reflexivity.
Qed.
End Patterns.

(** ** The rules *)
Definition respects (p : ast -> res bool) : Prop := forall k h a a', stands k h a a' -> p a = p a'.
Lemma matches_same goods k h l l' : Forall respects goods -> Forall2 (stands k h) l l' ->
  match matches goods l, matches goods l' with
  | Ok None, Ok None => True
  | Ok (Some z), Ok (Some z') => z = firstn (length goods) l /\ z' = firstn (length goods) l' /\ length z = length goods /\ length z' = length goods
  | Panic x, Panic y => x = y
  | Fuel, Fuel => True
  | _, _ => False
  end.
Proof.
  intros Hg. revert l l'. induction Hg as [|p goods Hp _ IH]; intros l l' F; cbn [matches]; [cbn; auto|].
  destruct F as [|a a' l l' Ha F]; [exact I|]. rewrite <- (Hp _ _ _ _ Ha). destruct (p a) as [[|]|x|]; auto. specialize (IH l l' F).
  destruct (matches goods l) as [[z|]|x|], (matches goods l') as [[z'|]|y|]; auto. destruct IH as (-> & -> & A & B). cbn [firstn length]. auto.
Qed.
Lemma any_respects : respects (fun _ => Ok true).
Proof. intros k h a a' _. reflexivity. Qed.
Lemma op_respects cls ops : respects (op_good cls ops).
Proof.
  intros k h a a' [[_ <-]|(s & A & B & -> & _)]; auto. unfold op_good, makeOpMatcher, listed. cbn [a_cls a_val]. rewrite B. destruct (String.eqb (a_cls a) cls); auto.
Qed.
Lemma skipn_stands k h l l' p : Forall2 (stands k h) l l' -> Forall2 (stands k h) (skipn p l) (skipn p l').
Proof. intros H. revert p. induction H; intros [|p]; simpl; auto. Qed.
Lemma cut {A} (l : list A) p j : l = firstn p l ++ firstn j (skipn p l) ++ skipn (p + j) l.
Proof. rewrite <- skipn_twice, (firstn_skipn j), firstn_skipn. reflexivity. Qed.

Section Rule.
Variables (es : list pexp) (goods : list (ast -> res bool)) (ok : list ast -> Prop) (t : wtrans heap) (t' : trans).
Hypothesis es_goods : forall rho m, Forall2 takes goods (map (denote rho (S m)) es).
Hypothesis goods_same : Forall respects goods.
Hypothesis goods_ok : forall l z, matches goods l = Ok (Some z) -> ok z.
Hypothesis tt : opsim ok t t'.
Lemma rule_t : rule_sim heap le rep (fun n => w_run (fun _ => WPure EUnmatched) n (WTrans (WPure (EFlatGroup es)) [t])) (fun n => run no_rules n (ETrans (EFlatGroup es) [t'])).
Proof.
  intros n tag k h asts asts' p Lk R. unfold w_run, run. cbn [w_denote denote]. unfold Trans, w_base, base_parser. cbn [variadic flags_of fold_left f_qty f_ex f_rew f_neg]. cbv zeta.
  destruct n as [|m]; [exact I|]. cbn [w_parent parent_loop]. change (more qtyOnce 0) with true. cbv iota.
  cbn [w_children children_loop]. unfold w_pure. unfold run. cbn [denote].
  set (rho1 := run_env (fun _ => EUnmatched) (S m)). set (rho2 := run_env no_rules (S m)).
  set (c := set_cls (octx asts tag p) ":base:Trans"). set (c' := set_cls (octx asts' tag p) ":base:Trans").
  pose proof (flat_matches rho1 m goods _ asts (set_st c Matched) (es_goods rho1 m) eq_refl) as P.
  pose proof (flat_matches rho2 m goods _ asts' (set_st c' Matched) (es_goods rho2 m) eq_refl) as P'.
  change (c_pos (set_st c Matched)) with p in P. change (c_pos (set_st c' Matched)) with p in P'.
  change (c_stack (set_st c Matched)) with (@nil ast) in P. change (c_stack (set_st c' Matched)) with (@nil ast) in P'.
  pose proof (matches_same goods k h _ _ goods_same (skipn_stands _ _ _ _ p (proj1 R))) as M.
  pose proof (goods_ok (skipn p asts)) as Gok.
  destruct (matches goods (skipn p asts)) as [[z|]|x|], (matches goods (skipn p asts')) as [[z'|]|y|]; try contradiction.
  - destruct P as (o & -> & So & Ko & Po), P' as (o' & -> & So' & Ko' & Po'). destruct M as (Ez & Ez' & Lz & Lz'). specialize (Gok z eq_refl).
    cbn [fix_status]. rewrite So, So'. cbn [andb call_fn]. rewrite !st_qty, So, So'.
    rewrite (parent_done m) by reflexivity.
    rewrite w_parent_done by reflexivity. unfold after_loop. cbn [f_qty f_neg t_min qtyOnce].
    change ((0 <=? 1)%Z && (Z.of_nat 1 <? 1)%Z) with false. cbv iota. rewrite !st_qty, So, So'.
    change (length (c_stack c)) with 0. change (length (c_stack c')) with 0. change (_ <? 0) with false. change (_ <? 0) with false. cbv iota. cbn [skipn firstn app].
    rewrite !stack_qty, Ko, Ko'. cbn [w_run_trans run_trans app].
    pose proof (rep_len _ _ _ _ R) as Lr. rewrite (cut asts p (length goods)) in R. rewrite (cut asts' p (length goods)) in R. rewrite <- Ez, <- Ez' in R.
    assert (La : length (firstn p asts) = length (firstn p asts')).
    { rewrite !firstn_length, Lr. reflexivity. }
    pose proof (tt (S m) c c' k h _ _ _ _ _ _ Lk R La ltac:(congruence) Gok) as T. unfold tres in T.
    destruct (t (S m) c h z) as [h1 [[e|r]|x|]], (t' (S m) c' z') as [[e'|r']|y|]; try contradiction; try exact T.
    destruct T as (L1 & R1). 
    assert (Pq : forall o s, c_pos (set_stack (set_qty (set_qty o 0) 1) s) = c_pos o) by (intros u; destruct u; reflexivity).
    assert (Sq : forall o s, c_st (set_stack (set_qty (set_qty o 0) 1) s) = c_st o) by (intros u; destruct u; reflexivity).
    rewrite !Sq, !Pq, !stack_stack, So, So', Po, Po', Lz, Lz'. auto.
  - destruct P as (o & -> & So), P' as (o' & -> & So'). cbn [fix_status]. rewrite So, So'. cbn. auto.
  - rewrite P, P'. exact M.
Qed.
End Rule.

Lemma unary_goods : forall l z, matches [op_good "UnaryOperator" [bs "-"]; fun _ => Ok true] l = Ok (Some z) -> unary_ok z.
Proof.
  intros [|op [|x l]] z; cbn [matches]; try discriminate.
  - destruct (op_good _ _ op) as [[|]|y|]; discriminate.
  - destruct (op_good _ _ op) as [[|]|y|] eqn:E; try discriminate. intros [= <-]. exists op, x. revert E. unfold op_good, makeOpMatcher.
    destruct (String.eqb _ _); [|discriminate]. destruct (a_val op); try discriminate. eauto.
Qed.
Lemma binary_goods ops : forall l z, matches [fun _ => Ok true; op_good "BinaryOperator" ops; fun _ => Ok true] l = Ok (Some z) -> binary_ok z.
Proof.
  intros [|x [|op [|y l]]] z; cbn [matches]; try discriminate; destruct (op_good _ _ op) as [[|]|u|] eqn:E; try discriminate.
  intros [= <-]. reflexivity.
Qed.
Lemma unary_rule_t : rule_sim heap le rep (fun n => w_run (fun _ => WPure EUnmatched) n (WTrans (WPure unary_pat) [mem_unary g])) (fun n => run no_rules n (unary_rule transformUnaryOp)).
Proof.
  unfold unary_pat, unary_rule. eapply rule_t; [| |exact unary_goods|exact unary_t].
  - intros rho m. repeat apply Forall2_cons; [apply op_takes|apply any_takes|constructor].
  - repeat apply Forall_cons; [apply op_respects|apply any_respects|constructor].
Qed.
Lemma binary_rule_t ops : rule_sim heap le rep (fun n => w_run (fun _ => WPure EUnmatched) n (WTrans (WPure (binary_pat ops)) [mem_binary g])) (fun n => run no_rules n (binary_rule ops transformBinaryOp)).
Proof.
  unfold binary_pat, binary_rule. eapply rule_t; [| |exact (binary_goods ops)|exact binary_t].
  - intros rho m. repeat apply Forall2_cons; [apply any_takes|apply op_takes|apply any_takes|constructor].
  - repeat apply Forall_cons; [apply any_respects|apply op_respects|apply any_respects|constructor].
Qed.
Lemma check_t : same_check (fun n => run no_rules n prod_check).
Proof.
  intros [|m] tag l l' L; [exact I|].
  destruct l as [|a [|b l]], l' as [|a' [|b' l']]; try discriminate L; destruct m; vm_compute; auto.
Qed.
Lemma prod_t : tsimT (mem_prod g) torpn_prod.
Proof.
  unfold mem_prod, torpn_prod, formulaProductionRules, precedences. eapply sim_production; [exact rep_len|exact check_t|].
  repeat (constructor; [split; [cbn [wpr_rules pr_rules mem_level level]; constructor; [|constructor]|reflexivity]|]); [| | |constructor].
  - apply unary_rule_t.
  - apply binary_rule_t.
  - apply binary_rule_t.
Qed.

(** ** The grammar *)
Ltac self_tac := repeat match goal with
  | |- self _ _ _ _ _ (EFlatGroup _) => eapply self_flat; eauto using le_refl, le_trans, rep_nil, rep_mono, rep_app, rep_len
  | |- self _ _ _ _ _ (EFirst _) => eapply self_first; eauto using le_refl, le_trans, rep_nil, rep_mono, rep_app, rep_len
  | |- self _ _ _ _ _ (ERepeat _ _) => eapply self_repeat; eauto using le_refl, le_trans, rep_nil, rep_mono, rep_app, rep_len
  | |- self _ _ _ _ _ (ETrans _ _) => eapply self_trans; eauto using le_refl, le_trans, rep_nil, rep_mono, rep_app, rep_len
  | |- self _ _ _ _ _ (ELight _ _) => eapply self_light; eauto using le_refl, le_trans, rep_nil, rep_mono, rep_app, rep_len; apply plain_adds;
      first [apply plain_char|apply plain_class|apply plain_wb|apply plain_error|apply plain_start|apply plain_end]
  | |- Forall _ [] => constructor
  | |- Forall _ (_ :: _) => constructor
  | |- wtsim _ _ _ _ _ => solve [auto using concat_t, erase_t, class_t, number_t]
  end.
Ltac pure_tac := formula_unfold; self_tac.
Section Pure.
Variables (rho : nat -> ctx -> out) (n : nat).
Lemma unop_t : selfT rho n (EZeroOrMore [unaryOperator]). Proof. pure_tac. Qed.
Lemma simple_t : selfT rho n simpleExpression. Proof. pure_tac. Qed.
Lemma binop_t : selfT rho n binaryOperator. Proof. pure_tac. Qed.
Lemma err_t msg : selfT rho n (EError msg). Proof. pure_tac. Qed.
Lemma paren_t s : selfT rho n (erase (SCharClass [s])). Proof. pure_tac. Qed.
Lemma sp_t : selfT rho n (erase sp_0). Proof. pure_tac. Qed.
Lemma start_t : selfT rho n EStart. Proof. pure_tac. Qed.
Lemma end_t : selfT rho n SEnd. Proof. pure_tac. Qed.
End Pure.
Section Exp.
Variables (rho : nat -> wfn heap) (rho' : nat -> ctx -> out) (n : nat).
Hypothesis rho_t : forall k, wsim heap le rep (rho k) (rho' k).
Lemma pure_t e : denote (run_env (fun _ => EUnmatched) n) n e = denote rho' n e -> (forall r, selfT r n e) -> esimT rho rho' n (WPure e) e.
Proof. intros E H. unfold wesim. cbn [w_denote]. unfold run. rewrite <- E. apply H. Qed.
Lemma eflat es es' : Forall2 (esimT rho rho' n) es es' -> esimT rho rho' n (WFlatGroup es) (EFlatGroup es').
Proof. apply wsim_flat; [exact le_refl|exact le_trans|exact rep_nil|exact rep_mono|exact rep_app|exact rep_len]. Qed.
Lemma efirst es es' : Forall2 (esimT rho rho' n) es es' -> esimT rho rho' n (WFirst es) (EFirst es').
Proof. apply wsim_first; [exact le_refl|exact le_trans|exact rep_nil|exact rep_mono|exact rep_app|exact rep_len]. Qed.
Lemma erepeat t es es' : Forall2 (esimT rho rho' n) es es' -> esimT rho rho' n (WRepeat t es) (ERepeat t es').
Proof. apply wsim_repeat; [exact le_refl|exact le_trans|exact rep_nil|exact rep_mono|exact rep_app|exact rep_len]. Qed.
Lemma etrans e e' ts ts' : esimT rho rho' n e e' -> Forall2 tsimT ts ts' -> esimT rho rho' n (WTrans e ts) (ETrans e' ts').
Proof. apply wsim_trans; [exact le_refl|exact le_trans|exact rep_nil|exact rep_mono|exact rep_app|exact rep_len]. Qed.
Lemma eind k : esimT rho rho' n (WIndirect k) (EIndirect k).
Proof. apply wsim_indirect. apply rho_t. Qed.
Ltac wsim_tac := repeat match goal with
  | |- wesim _ _ _ _ _ _ (WPure _) _ => apply pure_t; [reflexivity|intros r; auto using unop_t, simple_t, binop_t, err_t, paren_t, sp_t, start_t, end_t]
  | |- wesim _ _ _ _ _ _ (WFlatGroup _) _ => apply eflat
  | |- wesim _ _ _ _ _ _ (WFirst _) _ => apply efirst
  | |- wesim _ _ _ _ _ _ (WRepeat _ _) _ => apply erepeat
  | |- wesim _ _ _ _ _ _ (WTrans _ _) _ => apply etrans
  | |- wesim _ _ _ _ _ _ (WIndirect _) _ => apply eind
  | |- Forall2 _ [] _ => constructor
  | |- Forall2 _ (_ :: _) _ => constructor
  | |- wtsim _ _ _ _ _ => exact prod_t
  end.
Lemma expression_t : esimT rho rho' n (mem_expression g) (expression torpn_prod).
Proof. unfold mem_expression, expression, expressionInner. wsim_tac. Qed.
Lemma grouped_t : esimT rho rho' n (mem_grouped g) (groupedExpresion torpn_prod).
Proof.
  unfold mem_grouped, groupedExpresion. apply eflat. apply Forall2_cons; [wsim_tac|]. apply Forall2_cons; [|constructor].
  apply efirst. apply Forall2_cons; [|wsim_tac]. apply eflat. apply Forall2_cons; [wsim_tac|]. apply Forall2_cons; [apply expression_t|]. wsim_tac.
Qed.
Lemma program_t : esimT rho rho' n (mem_program g) (program torpn_prod).
Proof.
  unfold mem_program, program. apply eflat. apply Forall2_cons; [wsim_tac|]. apply Forall2_cons; [wsim_tac|]. apply Forall2_cons; [apply expression_t|]. wsim_tac.
Qed.
End Exp.

(** ** Parse *)
Lemma run_t n s h : osim heap le rep h [] [] (w_run (fun _ => mem_grouped g) n (mem_program g) h (new_string_ctx s))
  (run (grouped_env torpn_prod) n (program torpn_prod) (new_string_ctx s)).
Proof.
  apply (program_t _ _ n); [|reflexivity|reflexivity]. intros k. apply (wsim_run_env heap le rep (fun _ => mem_grouped g) (grouped_env torpn_prod)).
  intros rho rho' m j H. apply grouped_t. exact H.
Qed.
Lemma ceq_fail {A} s o o' e : ceq o o' -> parse_fail (A := A) s o e = parse_fail s o' e.
Proof. intros H. unfold parse_fail. rewrite (ceq_pos _ _ H). reflexivity. Qed.
Lemma answer_t k h a a' : stands k h a a' -> mem_answer h a = rpn_answer a'.
Proof.
  intros [[Hn <-]|(s & A & B & -> & _)]; unfold mem_answer, rpn_answer.
  - destruct (a_ty a); auto. contradiction.
  - unfold listed. cbn [a_ty a_val as_asts bind]. rewrite A, B, as_hdr_hdr. reflexivity.
Qed.
Theorem mem_parse h n s : mem_Parse g h n s = torpn_Parse n s.
Proof.
  unfold mem_Parse, torpn_Parse, parse_with. pose proof (run_t n s h) as S. unfold osim in S.
  destruct (w_run _ n _ h (new_string_ctx s)) as [h1 [[o [e|]]|x|]], (run _ n _ (new_string_ctx s)) as [[o' [e'|]]|y|]; try contradiction; auto.
  - destruct S as (E & C & _). injection E as ->. apply ceq_fail. auto.
  - destruct S as (E & _). discriminate.
  - destruct S as (E & _). discriminate.
  - destruct S as (_ & C & _ & G). rewrite <- (ceq_st _ _ C). destruct (c_st o); try (apply ceq_fail; auto).
    destruct (G eq_refl eq_refl) as (_ & l & l' & -> & -> & [F _]). cbn [app]. destruct F as [|a a' l l' Ha F]; auto.
    rewrite (answer_t _ _ _ _ Ha). reflexivity.
  - congruence.
Qed.
(** What the program had before is as it was. *)
Theorem mem_kept h n s h1 r : w_run (fun _ => mem_grouped g) n (mem_program g) h (new_string_ctx s) = (h1, Ok r) -> firstn (length h) h1 = h.
Proof.
  intros E. pose proof (run_t n s h) as S. unfold osim in S. rewrite E in S. destruct r as [o e].
  destruct (run _ n _ (new_string_ctx s)) as [[o' e']|y|]; try contradiction.
  destruct S as (_ & _ & [L1 L2] & _). clear -L1 L2. revert h1 L1 L2.
  induction h as [|x h IH]; intros [|y h1] L1 L2; cbn [length firstn] in *; auto; [lia|]. f_equal.
  - exact (L2 0 ltac:(lia)).
  - apply IH; [lia|]. intros i Hi. exact (L2 (S i) ltac:(lia)).
Qed.
End Growth.
