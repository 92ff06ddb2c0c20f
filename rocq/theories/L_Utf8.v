(** Facts about UTF-8 decoding and encoding. *)
From Verif Require Export S_Text M_Utf8.
From Coq Require Export ZifyBool ZifyNat.

Ltac rng := unfold second_ok, is_cont, in_rng in *.

Lemma decode_len s : (snd (decode_rune s) <= length s)%nat.
Proof.
  unfold decode_rune. destruct s as [|b0 [|b1 [|b2 [|b3 s]]]]; simpl;
  repeat match goal with |- context [if ?b then _ else _] => destruct b end; simpl; lia.
Qed.
Lemma decode_zero s : snd (decode_rune s) = 0%nat <-> s = [].
Proof.
  unfold decode_rune. split; [|intros ->; auto]. destruct s as [|b0 [|b1 [|b2 [|b3 s]]]]; simpl; auto;
  repeat match goal with |- context [if ?b then _ else _] => destruct b end; simpl; discriminate.
Qed.

Lemma char_len r cs : utf8_char r cs -> (0 < length cs <= 4)%nat.
Proof. destruct 1; simpl; lia. Qed.

(** Decoding a well-formed character. *)
Lemma decode_char r cs s : utf8_char r cs -> decode_rune (cs ++ s) = (r, length cs).
Proof.
  destruct 1; cbn [app decode_rune length]; rng;
  repeat (match goal with |- context [if ?b then _ else _] =>
    lazymatch b with
    | context [if _ then _ else _] => fail
    | _ => first [replace b with true by lia | replace b with false by lia | destruct b eqn:?]
    end end; cbn iota; cbn [andb]);
  try lia; f_equal; try lia.
Qed.

Lemma decode_inv s r l : decode_rune s = (r, l) ->
  (s = [] /\ r = 65533 /\ l = 0%nat) \/
  (exists cs s', s = cs ++ s' /\ utf8_char r cs /\ l = length cs) \/
  (s <> [] /\ r = 65533 /\ l = 1%nat) \/
  (exists b s', s = b :: s' /\ b < 0 /\ r = b /\ l = 1%nat).
Proof.
  assert (A1 : forall b0 s, b0 < 128 -> 0 <= b0 -> exists cs s', b0 :: s = cs ++ s' /\ utf8_char b0 cs /\ 1%nat = length cs).
  { intros b0 s0 H H0. exists [b0], s0. repeat split. constructor; lia. }
  unfold decode_rune, RuneError. destruct s as [|b0 s]; [intros H; inversion H; auto|].
  destruct (b0 <? 128) eqn:E0.
  { intros H; inversion H; subst. destruct (Z.ltb_spec r 0); [right; right; right; exists r, s; auto|].
    right; left. apply A1; lia. }
  destruct (in_rng 194 223 b0) eqn:E1.
  { destruct s as [|b1 s]; [intros H; inversion H; right; right; left; repeat split; congruence|].
    destruct (is_cont b1) eqn:C1; intros H; inversion H; [|right; right; left; repeat split; congruence].
    right; left. exists [b0; b1], s. split; auto. split; auto. rng.
    replace [b0; b1] with [192 + (b0 - 192); 128 + (b1 - 128)] by (repeat f_equal; lia).
    constructor; lia. }
  destruct (in_rng 224 239 b0) eqn:E2.
  { destruct s as [|b1 [|b2 s]]; try (intros H; inversion H; right; right; left; repeat split; congruence).
    destruct (second_ok b0 b1 && is_cont b2) eqn:C1; intros H; inversion H; [|right; right; left; repeat split; congruence].
    right; left. exists [b0; b1; b2], s. split; auto. split; auto. rng.
    replace [b0; b1; b2] with [224 + (b0 - 224); 128 + (b1 - 128); 128 + (b2 - 128)] by (repeat f_equal; lia).
    destruct (b0 =? 224) eqn:?; [constructor; lia|].
    destruct (b0 =? 237) eqn:?; [constructor; lia|].
    destruct (b0 =? 240) eqn:?; [lia|]. destruct (b0 =? 244) eqn:?; [lia|]. constructor; lia. }
  destruct (in_rng 240 244 b0) eqn:E3.
  { destruct s as [|b1 [|b2 [|b3 s]]]; try (intros H; inversion H; right; right; left; repeat split; congruence).
    destruct (second_ok b0 b1 && is_cont b2 && is_cont b3) eqn:C1; intros H; inversion H; [|right; right; left; repeat split; congruence].
    right; left. exists [b0; b1; b2; b3], s. split; auto. split; auto. rng.
    replace [b0; b1; b2; b3] with [240 + (b0 - 240); 128 + (b1 - 128); 128 + (b2 - 128); 128 + (b3 - 128)] by (repeat f_equal; lia).
    destruct (b0 =? 224) eqn:?; [lia|]. destruct (b0 =? 237) eqn:?; [lia|].
    destruct (b0 =? 240) eqn:?; [constructor; lia|]. destruct (b0 =? 244) eqn:?; constructor; lia. }
  intros H; inversion H; right; right; left; repeat split; congruence.
Qed.

Lemma encode_char r cs : utf8_char r cs -> encode_rune r = cs.
Proof.
  destruct 1; unfold encode_rune, valid_rune, RuneError; rng;
  match goal with |- context [if ?b then ?x else 65533] => replace b with true by lia end; cbv zeta.
  - replace (r <? 128) with true by lia. reflexivity.
  - replace (a * 64 + b <? 128) with false by lia. replace (a * 64 + b <? 2048) with true by lia.
    replace ((a * 64 + b) / 64) with a by (apply (Z.div_unique _ _ _ b); lia).
    replace ((a * 64 + b) mod 64) with b by (apply (Z.mod_unique _ _ a); lia). reflexivity.
  - set (v := a * 4096 + b * 64 + c) in *.
    replace (v <? 128) with false by lia. replace (v <? 2048) with false by lia. replace (v <? 65536) with true by lia.
    replace (v / 4096) with a by (apply (Z.div_unique _ _ _ (b * 64 + c)); lia).
    replace (v / 64) with (a * 64 + b) by (apply (Z.div_unique _ _ _ c); lia).
    replace ((a * 64 + b) mod 64) with b by (apply (Z.mod_unique _ _ a); lia).
    replace (v mod 64) with c by (apply (Z.mod_unique _ _ (a * 64 + b)); lia). reflexivity.
  - set (v := a * 262144 + b * 4096 + c * 64 + d) in *.
    replace (v <? 128) with false by lia. replace (v <? 2048) with false by lia. replace (v <? 65536) with false by lia.
    replace (v / 262144) with a by (apply (Z.div_unique _ _ _ (b * 4096 + c * 64 + d)); lia).
    replace (v / 4096) with (a * 64 + b) by (apply (Z.div_unique _ _ _ (c * 64 + d)); lia).
    replace (v / 64) with (a * 4096 + b * 64 + c) by (apply (Z.div_unique _ _ _ d); lia).
    replace ((a * 64 + b) mod 64) with b by (apply (Z.mod_unique _ _ a); lia).
    replace ((a * 4096 + b * 64 + c) mod 64) with c by (apply (Z.mod_unique _ _ (a * 64 + b)); lia).
    replace (v mod 64) with d by (apply (Z.mod_unique _ _ (a * 4096 + b * 64 + c)); lia). reflexivity.
Qed.

(** Every scalar value has its encoding. *)
Lemma char_exists r : scalar r -> exists cs, utf8_char r cs.
Proof.
  intros [H1 H2].
  pose proof (Z.div_mod r 64 ltac:(lia)) as D0. pose proof (Z.mod_pos_bound r 64 ltac:(lia)) as B0.
  set (q0 := r / 64) in *. set (m0 := r mod 64) in *.
  pose proof (Z.div_mod q0 64 ltac:(lia)) as D1. pose proof (Z.mod_pos_bound q0 64 ltac:(lia)) as B1.
  set (q1 := q0 / 64) in *. set (m1 := q0 mod 64) in *.
  pose proof (Z.div_mod q1 64 ltac:(lia)) as D2. pose proof (Z.mod_pos_bound q1 64 ltac:(lia)) as B2.
  set (q2 := q1 / 64) in *. set (m2 := q1 mod 64) in *.
  destruct (Z.ltb_spec r 128); [eexists; constructor; lia|].
  destruct (Z.ltb_spec r 2048); [replace r with (q0 * 64 + m0) by lia; eexists; constructor; lia|].
  destruct (Z.ltb_spec r 65536); [replace r with (q1 * 4096 + m1 * 64 + m0) by lia; eexists; constructor; lia|].
  replace r with (q2 * 262144 + m2 * 4096 + m1 * 64 + m0) by lia. eexists; constructor; lia.
Qed.
Lemma char_scalar r cs : utf8_char r cs -> scalar r.
Proof. unfold scalar. destruct 1; lia. Qed.
Lemma encode_valid r : scalar r -> utf8_char r (encode_rune r).
Proof. intros H. destruct (char_exists r H) as [cs Hc]. rewrite (encode_char _ _ Hc). auto. Qed.
Lemma encode_invalid r : ~ scalar r -> encode_rune r = [239; 191; 189].
Proof.
  unfold scalar, encode_rune, valid_rune. intros H. rng.
  match goal with |- context [if ?b then ?x else _] => replace b with false by lia end. reflexivity.
Qed.

(** The decoder meets its specification, on bytes. *)
Lemma decode_next s r l : Forall is_byte s -> decode_rune s = (r, l) -> next_char s r l.
Proof.
  intros Hb Hd. destruct (decode_inv s r l Hd) as [(-> & -> & ->)|[(cs & s' & -> & Hc & ->)|[(Hn & -> & ->)|(b & s' & -> & Hb0 & _)]]].
  - constructor.
  - constructor; auto.
  - destruct s as [|b s]; [congruence|]. constructor. intros r cs s' Hc E. rewrite E in Hd.
    rewrite (decode_char r cs s' Hc) in Hd. inversion Hd; subst.
    inversion Hc; subst; simpl in *; try lia; try discriminate.
  - inversion Hb; subst. unfold is_byte in *. lia.
Qed.
Lemma next_decode s r l : Forall is_byte s -> next_char s r l -> decode_rune s = (r, l).
Proof.
  intros Hb H. destruct (decode_rune s) as [r' l'] eqn:E. apply decode_next in E; auto.
  destruct H as [|r cs s Hc|b s H].
  - simpl in E. inversion E; auto. apply char_len in H0. destruct cs; simpl in *; [lia|discriminate].
  - remember (cs ++ s) as t eqn:Et. destruct E as [|r' cs' s' Hc'|b s' H'].
    + apply char_len in Hc. destruct cs; simpl in *; [lia|discriminate].
    + rewrite <- (decode_char r' cs' s' Hc'), Et. symmetry. rewrite (decode_char r cs s Hc). reflexivity.
    + exfalso. eapply H'; eauto.
  - inversion E; subst; auto. exfalso. eapply H; eauto.
Qed.
