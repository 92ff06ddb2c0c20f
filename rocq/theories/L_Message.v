(** Messages of failed parses can be read back (C91). *)
From Verif Require Import L_ErrText L_LineOrder L_FormulaLex L_Trans.
From Verif Require Export M_Err S_ErrText.

(** The errors of the examples. *)
Inductive known : option gerr -> Prop :=
| kn_none : known None
| kn_value : known (Some (EText "Value required"))
| kn_operand : known (Some (EText "Error in the expression after the binary operator"))
| kn_group : known (Some (EText "Error in grouped expression"))
| kn_eof : known (Some (EText "Unexpected EOF"))
| kn_range : forall w, Forall (fun b => 48 <= b < 58 \/ b = 43 \/ b = 45) w -> known (Some (ENum "ParseInt" w true)).

Lemma bounded s : (line_of (places s first_place) <= 1 + length s)%nat /\ (col_of (places s first_place) <= 1 + length s)%nat.
Proof.
  induction s as [|b s [A B]] using rev_ind; [cbn; lia|]. rewrite places_app, app_length. change (places [b] ?x) with (place_step x b). destruct (places s first_place) as [[l c] cr]. unfold line_of, col_of, place_step in *. cbn [fst snd] in *. cbn [length].
  destruct (b =? 13); [cbn; lia|]. destruct (b =? 10); [|cbn; lia]. destruct cr; cbn; lia.
Qed.
Lemma cut_eq (k : Z) (a b x y : bytes) : ~ In k a -> ~ In k b -> a ++ k :: x = b ++ k :: y -> a = b /\ x = y.
Proof.
  revert b. induction a as [|c a IH]; intros [|d b] Na Nb E; cbn in E.
  - injection E as ->. auto.
  - injection E as -> _. exfalso. apply Nb. left. reflexivity.
  - injection E as -> _. exfalso. apply Na. left. reflexivity.
  - injection E as -> E. destruct (IH b) as [-> ->]; auto; intros I; [apply Na|apply Nb]; right; exact I.
Qed.
Lemma itoa_numeral n : Z.of_nat n < 10 ^ 20 -> numeral 10 (Itoa n) (Z.of_nat n).
Proof. intros H. unfold Itoa. destruct (L_Marshal.int_canonical (Z.of_nat n)) as [(_ & C & _)|(N & _)]; [lia|exact C|lia]. Qed.
Lemma digits_no k s z : numeral 10 s z -> k < 48 \/ 57 < k -> ~ In k s.
Proof. intros (_ & ds & F & _) K I. revert ds F. induction s as [|c s IH]; intros ds F; [destruct I|]. inversion F as [|? d ? ds' D F' E1 E2]; subst. destruct I as [->|I]; [inversion D; subst; lia|]. eauto. Qed.
Lemma itoa_inj a b : Z.of_nat a < 10 ^ 20 -> Z.of_nat b < 10 ^ 20 -> Itoa a = Itoa b -> a = b.
Proof. intros A B E. pose proof (itoa_numeral a A) as X. rewrite E in X. pose proof (numeral_func 10 _ _ _ ltac:(lia) X (itoa_numeral b B)). lia. Qed.

Lemma known_says x : known x -> exists t, says x t /\ ~ In 10 t /\ (match x with Some y => error_text y | None => Some (bs "Parse failed") end) = Some t.
Proof.
  intros K. assert (N : forall l : bytes, existsb (Z.eqb 10) l = false -> ~ In 10 l).
  { intros l E I. assert (X : existsb (Z.eqb 10) l = true) by (apply existsb_exists; exists 10; auto). congruence. }
  destruct K as [| | | | |w F]; (eexists; split; [constructor|]); try (split; [apply N; reflexivity|reflexivity]).
  split; [|apply says_text; [constructor|intros w' E; injection E as <-; exact F]]. intros I. rewrite !in_app_iff in I. destruct I as [I|[I|[I|[I|I]]]].
  - revert I. apply N. reflexivity.
  - cbn in I. lia.
  - rewrite Forall_forall in F. specialize (F 10 I). lia.
  - cbn in I. lia.
  - revert I. apply N. reflexivity.
Qed.
Definition first_line (x : option gerr) : bytes :=
  match x with
  | None => bs "Parse failed"
  | Some (EText m) => bs m
  | Some (ENum _ w _) => bs "strconv.ParseInt: parsing " ++ [34] ++ w ++ [34] ++ bs ": value out of range"
  | _ => []
  end.
Lemma says_line x t : says x t -> t = first_line x.
Proof. intros []; reflexivity. Qed.
Lemma says_once x y t : known x -> known y -> says x t -> says y t -> x = y.
Proof.
  intros Kx Ky Sx Sy. apply says_line in Sx, Sy. rewrite Sx in Sy. clear Sx t. destruct Kx as [| | | | |w F], Ky as [| | | | |w' F']; try reflexivity; try discriminate Sy.
  unfold first_line in Sy. do 2 apply app_inv_head in Sy. apply app_inv_tail in Sy. subst w'. reflexivity.
Qed.
Lemma message_once s1 s2 p1 p2 x1 x2 lc1 lc2 m : Z.of_nat (length s1) < 10 ^ 19 -> Z.of_nat (length s2) < 10 ^ 19 -> known x1 -> known x2 ->
  GetLineAndColPosition s1 p1 4 = Ok lc1 -> GetLineAndColPosition s2 p2 4 = Ok lc2 -> message x1 lc1 = Some m -> message x2 lc2 = Some m ->
  x1 = x2 /\ lc_line lc1 = lc_line lc2 /\ lc_col lc1 = lc_col lc2 /\ lc_src lc1 = lc_src lc2.
Proof.
  intros L1 L2 K1 K2 G1 G2 M1 M2. destruct (known_says x1 K1) as (t1 & S1 & N1 & E1), (known_says x2 K2) as (t2 & S2 & N2 & E2). unfold message in M1, M2. rewrite E1 in M1. rewrite E2 in M2. rewrite <- M2 in M1. injection M1 as M. clear M2 m E1 E2.
  assert (B1 : Z.of_nat (lc_line lc1) < 10 ^ 20 /\ Z.of_nat (lc_col lc1) < 10 ^ 20).
  { apply reported in G1 as (P & -> & ->). destruct (bounded (firstn p1 s1)). rewrite firstn_length in *. lia. }
  assert (B2 : Z.of_nat (lc_line lc2) < 10 ^ 20 /\ Z.of_nat (lc_col lc2) < 10 ^ 20).
  { apply reported in G2 as (P & -> & ->). destruct (bounded (firstn p2 s2)). rewrite firstn_length in *. lia. }
  apply cut_eq in M as [-> M]; [|assumption|assumption]. injection M as M.
  destruct B1 as [B1 C1], B2 as [B2 C2].
  apply cut_eq in M as [EL M]; [|apply (digits_no 44 _ _ (itoa_numeral _ B1)); lia|apply (digits_no 44 _ _ (itoa_numeral _ B2)); lia].
  injection M as M. apply cut_eq in M as [EC M]; [|apply (digits_no 10 _ _ (itoa_numeral _ C1)); lia|apply (digits_no 10 _ _ (itoa_numeral _ C2)); lia].
  split; [exact (says_once _ _ _ K1 K2 S1 S2)|]. split; [exact (itoa_inj _ _ B1 B2 EL)|]. split; [exact (itoa_inj _ _ C1 C2 EC)|exact M].
Qed.
Lemma explains_known s x lc : explains s x lc -> known x /\ exists p, GetLineAndColPosition s p 4 = Ok lc.
Proof.
  intros [(-> & G & _)|(p & q & y & -> & -> & B & G)]; (split; [|eauto]); [constructor|]. inversion B; subst; try constructor. eapply numeral_chars. eassumption.
Qed.
