(** C92: the tokens of extra take few parser calls. *)
From Verif Require Import S_Depth L_Depth L_CountMax L_CountUnits P_Rec L_Formula L_Extra M_Extra.

Lemma nothing_frugal k : gram (frugal str_size (fun _ => False) (fun _ => False)) (no_rules k).
Proof. apply frugal_of; [apply (string_pos anyT); unfold no_rules, EUnmatched; lib_tac|exact I]. Qed.
Definition modest (e : pexp) : Prop := peg_gram e /\ gram (frugal str_size (fun _ => False) (fun _ => False)) e.
Lemma modest_cost e n c o err : modest e -> (c_pos c <= length (c_str c))%nat -> c_st c = Matched -> run no_rules n e c = Ok (o, err) ->
  (cost no_rules n e c <= most (fun _ => 0%nat) (length (c_str c)) e)%nat.
Proof.
  intros [G F] L M R. refine (cost_most str_size (fun _ => False) (fun _ => False) (fun _ => 0%nat) no_rules n e c o err _ nothing_frugal _ _ G F L M R); try (intros k []). exact nr_gram.
Qed.
Ltac extra_unfold := cbv delta [BinaryNumberStr OctalNumberStr HexNumberStr IntegerNumberStr FloatNumberStr NumericStr AsciiIdentifierStr UnicodeIdentifierStr DateStr DateTimeStr TimeStr
  exponentStr int_part dig_us opt_sign date_part hm_part seconds_part zone_part sq cc1 cc2 range erase EZeroOrMore EOneOrMore EZeroOrOnce EOnce EZero SNumber SAlpha SAlnum SSeq SCharClass SCharRange SCharClassFn] beta; cbn [app].
Ltac modest_tac := split; [extra_unfold; gram_tac|apply frugal_of; [apply (string_pos anyT); extra_unfold; lib_tac|]; cbn; repeat split; try (intros H; exfalso; lia); intros _; eexists; (split; [left; reflexivity|eats_tac])].
Lemma m1 : modest BinaryNumberStr. Proof. modest_tac. Qed.
Lemma m2 : modest OctalNumberStr. Proof. modest_tac. Qed.
Lemma m3 : modest HexNumberStr. Proof. modest_tac. Qed.
Lemma m4 : modest IntegerNumberStr. Proof. modest_tac. Qed.
Lemma m5 : modest FloatNumberStr. Proof. modest_tac. Qed.
Lemma m6 : modest NumericStr. Proof. modest_tac. Qed.
Lemma m7 : modest AsciiIdentifierStr. Proof. modest_tac. Qed.
Lemma m8 u : modest (UnicodeIdentifierStr u). Proof. modest_tac. Qed.
Lemma m9 : modest DateStr. Proof. modest_tac. Qed.
Lemma m10 : modest DateTimeStr. Proof. modest_tac. Qed.
Lemma m11 : modest TimeStr. Proof. modest_tac. Qed.
Lemma m12 u : modest (UnicodeWordBoundary u).
Proof. split; [unfold UnicodeWordBoundary; gram_tac|apply frugal_of; [apply (string_pos anyT); unfold UnicodeWordBoundary; lib_tac|exact I]]. Qed.

(** The tokens with a number of calls for every byte of the text and a number more. *)
Definition budget (u : utables) : list (pexp * nat * nat) :=
  [(BinaryNumberStr, 4, 8); (OctalNumberStr, 4, 8); (HexNumberStr, 6, 13); (IntegerNumberStr, 6, 17); (FloatNumberStr, 32, 82); (NumericStr, 18, 45);
   (AsciiIdentifierStr, 3, 10); (UnicodeIdentifierStr u, 3, 10); (UnicodeWordBoundary u, 0, 1); (DateStr, 1, 12); (DateTimeStr, 1, 52); (TimeStr, 0, 28)]%nat.
(** No token makes more calls than its budget, wherever it is called and whether it matches or not. *)
Theorem C92_calls : forall u e a b, In (e, a, b) (budget u) -> forall n c o err, (c_pos c <= length (c_str c))%nat -> c_st c = Matched -> run no_rules n e c = Ok (o, err) ->
  (cost no_rules n e c <= a * length (c_str c) + b)%nat.
Proof.
  intros u e a b I n c o err L M R.
  assert (X : modest e /\ (most (fun _ => 0%nat) (length (c_str c)) e <= a * length (c_str c) + b)%nat); [|destruct X as [X Y]; pose proof (modest_cost e n c o err X L M R); lia].
  clear -I. generalize (length (c_str c)). intros N. unfold budget in I. cbn [In] in I.
  repeat (destruct I as [I|I]; [injection I as <- <- <-; split; [first [exact m1|exact m2|exact m3|exact m4|exact m5|exact m6|exact m7|exact (m8 u)|exact m9|exact m10|exact m11|exact (m12 u)]|cbn; lia]|]). destruct I.
Qed.
Print Assumptions C92_calls.
(** And they nest at most eleven calls deep. *)
Theorem C92_depth : forall u e a b, In (e, a, b) (budget u) -> forall env n c, (nesting env n e c <= 11)%nat.
Proof.
  intros u e a b I env n c. assert (X : rule_free e /\ (height e <= 11)%nat).
  { unfold budget in I. cbn [In] in I. repeat (destruct I as [I|I]; [injection I as <- <- <-; split; [cbn; tauto|cbn; lia]|]). destruct I. }
  destruct X as [X Y]. etransitivity; [|exact Y]. apply nesting_upto with (P := fun _ => True); [|exact Logic.I]. apply static_upto. exact X.
Qed.
Print Assumptions C92_depth.

(** A float without point and exponent is refused after 49 calls, where 32 * 5 + 82 are allowed; a
    time of day with nine digits behind the seconds takes 26 of 28; the depth of eleven is reached. *)
Definition calls_of (e : pexp) (s : string) : nat := cost no_rules 60 e (new_string_ctx (bs s)).
Example C92_example :
  (exists o, run no_rules 60 FloatNumberStr (new_string_ctx (bs "12345")) = Ok (o, None) /\ c_st o = Unmatched) /\ calls_of FloatNumberStr "12345" = 49%nat /\
  (exists o, run no_rules 60 TimeStr (new_string_ctx (bs "12:34:56.123456789")) = Ok (o, None) /\ c_st o = Matched) /\ calls_of TimeStr "12:34:56.123456789" = 26%nat /\
  calls_of BinaryNumberStr "1011" = 14%nat /\ nesting no_rules 60 FloatNumberStr (new_string_ctx (bs "1.5e7_")) = 11%nat.
Proof. repeat split; try (eexists; split); vm_compute; reflexivity. Qed.
