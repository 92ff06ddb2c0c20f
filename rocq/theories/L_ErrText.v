(** The messages of failed parses (C57). *)
From Verif Require Import L_LineCol L_Marshal L_Formula L_Torpn.
From Verif Require Export M_Err S_ErrText.

Lemma joined_count ls : Forall (fun p : bytes * bytes => plain (fst p) /\ (snd p = [10] \/ snd p = [13; 10] \/ snd p = [13])) ls -> (length ls <= length (joined ls))%nat.
Proof.
  unfold joined. induction 1 as [|(l, t) ls [_ H] _ IH]; simpl; [lia|]. simpl in H. rewrite !app_length. destruct H as [->|[->| ->]]; simpl; lia.
Qed.

Lemma quote_plain s : Forall (fun b => 48 <= b < 58 \/ b = 43 \/ b = 45) s -> Quote s = Some ([34] ++ s ++ [34]).
Proof.
  intros H. unfold Quote. replace (forallb (fun b => b <? 128) s) with true.
  2:{ symmetry. apply forallb_forall. intros b Hb. rewrite Forall_forall in H. specialize (H b Hb). apply Z.ltb_lt. lia. }
  replace (flat_map quote_byte s) with s; [reflexivity|]. induction H as [|b s Hb _ IH]; [reflexivity|]. simpl. rewrite <- IH.
  unfold quote_byte. destruct (Z.eqb_spec b 34); [lia|]. destruct (Z.eqb_spec b 92); [lia|]. simpl.
  destruct (Z.leb_spec 32 b); [|lia]. destruct (Z.ltb_spec b 127); [|lia]. reflexivity.
Qed.
Lemma numeral_chars w z : int_numeral 10 w z -> Forall (fun b => 48 <= b < 58 \/ b = 43 \/ b = 45) w.
Proof.
  assert (D : forall s y, numeral 10 s y -> Forall (fun b => 48 <= b < 58 \/ b = 43 \/ b = 45) s).
  { intros s y (_ & ds & H & _). induction H as [|b d s ds Hd _ IH]; constructor; auto. inversion Hd; subst; lia. }
  intros [H|[(t & -> & H)|(t & -> & H)]]; [eauto| |]; (constructor; [lia|eauto]).
Qed.

Lemma says_text y t : says (Some y) t -> (forall w, y = ENum "ParseInt" w true -> Forall (fun b => 48 <= b < 58 \/ b = 43 \/ b = 45) w) -> error_text y = Some t.
Proof.
  intros H F. inversion H; subst; [reflexivity|]. cbn [error_text]. change (String.eqb "ParseInt" "ParseInt") with true. cbv iota. unfold num_text.
  rewrite quote_plain by (apply F; reflexivity). cbn [app]. rewrite <- app_assoc. reflexivity.
Qed.

Lemma message_told x lc p q t : GetLineAndColPosition (p ++ q) (length p) 4 = Ok lc -> Z.of_nat (length (p ++ q)) < 10 ^ 19 -> says x t ->
  (forall w, x = Some (ENum "ParseInt" w true) -> Forall (fun b => 48 <= b < 58 \/ b = 43 \/ b = 45) w) ->
  exists m, message x lc = Some m /\ told t p q m.
Proof.
  intros G L Y F. destruct (lines_total p) as (ls & last & Hl). destruct (line_end q) as (rest & Hr & _).
  pose proof (lines_plain _ _ _ Hl) as Pl. pose proof (lines_joined _ _ _ Hl) as J.
  destruct (linecol_ok (p ++ q) (length p) 4 ls last rest) as (r & G' & E1 & E2 & E3 & E4 & E5).
  { rewrite app_length. lia. } { rewrite firstn_len_app. exact Hl. } { rewrite skipn_app, skipn_all, Nat.sub_diag. exact Hr. }
  change (Z.of_nat 4) with 4 in G'. rewrite G in G'. injection G' as ->. pose proof (joined_count _ Pl) as Jc.
  assert (Lp : (length p = length (joined ls) + length last)%nat) by (rewrite J at 1; apply app_length).
  rewrite app_length in L. rewrite E2 in E3.
  exists (t ++ [10] ++ bs " --> Line " ++ Itoa (lc_line r) ++ bs ", Col " ++ Itoa (lc_col r) ++ [10] ++ lc_src r). split.
  - unfold message. destruct x as [y|]; [rewrite (says_text y t Y)|inversion Y; reflexivity]; [reflexivity|].
    intros w ->. apply F. reflexivity.
  - exists ls, last, rest, (Itoa (lc_line r)), (Itoa (lc_col r)). split; [exact Hl|]. split; [exact Hr|]. rewrite E5. unfold Itoa.
    replace (Z.of_nat (lc_line r)) with (1 + Z.of_nat (length ls)) by lia. replace (Z.of_nat (lc_col r)) with (1 + Z.of_nat (length last)) by lia.
    split; [apply int_canonical; lia|]. split; [apply int_canonical; lia|]. reflexivity.
Qed.

Lemma explains_message s x lc : explains s x lc -> Z.of_nat (length s) < 10 ^ 19 -> exists m, message x lc = Some m /\ explained s m.
Proof.
  intros [(-> & G & W)|(p & q & y & -> & -> & B & G)] L.
  - destruct (message_told None lc [] s (bs "Parse failed") G L) as (m & E & T); [constructor|discriminate|]. exists m. split; [exact E|]. left. auto.
  - assert (S : exists t, says (Some y) t) by (destruct B; eexists; constructor). destruct S as (t & S).
    destruct (message_told (Some y) lc p q t G L S) as (m & E & T).
    { intros w Ew. injection Ew as ->. inversion B; subst. eapply numeral_chars. eassumption. }
    exists m. split; [exact E|]. right. exists p, q, y, t. auto.
Qed.
