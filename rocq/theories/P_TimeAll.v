(** C67: ParseTime and ParseDateTime (extra/transformers.go) on every text. *)
From Verif Require Import S_Time L_Extra L_Time L_TimeAll.

(** Each text has an instant by the rules in S_Time, which is the result, or the result is
    an error. *)
Theorem C67_time_texts : forall strict mk, reads_time (ParseTime strict mk) mk ":extra:Time" (fun _ => True) loose_time_value.
Proof. exact all_times. Qed.
Print Assumptions C67_time_texts.
Theorem C67_date_time_texts : forall strict mk,
  reads_time (ParseDateTime strict mk) mk ":extra:DateTime" (fun _ => True) (loose_date_time_value strict).
Proof. exact all_date_times. Qed.
Print Assumptions C67_date_time_texts.
(** A text has at most one instant. *)
Theorem C67_one_instant : forall s t t',
  (loose_time_value s t -> loose_time_value s t' -> t = t') /\
  (forall strict, loose_date_time_value strict s t -> loose_date_time_value strict s t' -> t = t').
Proof.
  intros s t t'. split; [|intros strict]; intros H H'.
  - apply (parse_time_all true) in H, H'. congruence.
  - apply parse_date_time_all in H, H'. congruence.
Qed.
Print Assumptions C67_one_instant.
(** What Go 1.20 and later accept had the same instant before. *)
Theorem C67_go_versions : forall s t, loose_date_time_value true s t -> loose_date_time_value false s t.
Proof.
  intros s t (D & T & Zn & td & tt & secs & E & HD & HT & (b & sg & H & M & h & m & EZ & Hb & Hh & Hm & Es) & Et).
  assert (W : forall hi x y, offset_num true hi x y -> offset_num false hi x y)
    by (intros hi x y [(Q & _)|(Q & _)]; [left; split; [exact Q|discriminate]|discriminate]).
  exists D, T, Zn, td, tt, secs. repeat (split; [assumption|]). split; [|assumption].
  exists b, sg, H, M, h, m. repeat (split; [auto|]). assumption.
Qed.
Print Assumptions C67_go_versions.
(** The layout is not enforced: ParseTime accepts a one-digit hour, a comma and a sign in the
    fraction; ParseDateTime before Go 1.20 accepts signs inside of the offset. *)
Theorem C67_layout_refuted : forall mk n c,
  (exists s a, a_val a = VStr s /\ (forall h m se ns, ~ time_text s h m se ns) /\
     forall strict, ParseTime strict mk n c [a] = Ok (inr [mkAst 0 ":extra:Time" TAny (mk (mkTime 18000 7)) (mkSP 0 0)])) /\
  (exists s a, a_val a = VStr s /\ (forall t, ~ date_time_value false s t) /\
     ParseDateTime false mk n c [a] = Ok (inr [mkAst 0 ":extra:DateTime" TAny (mk (mkTime 3300 0)) (mkSP 0 0)])).
Proof.
  intros mk n c. split.
  - exists (bs "5:00:00,+00000007"), (mkAst 0 "" TString (VStr (bs "5:00:00,+00000007")) (mkSP 0 0)). split; [reflexivity|]. split.
    + intros h m se ns (H & M & S & N & E & (LH & FH & _) & _). destruct H as [|a [|b [|? ?]]]; try discriminate LH.
      injection E as <- <- _. inversion FH as [|? ? _ F]; subst. inversion F as [|? ? D _]; subst. unfold dec_digit in D. lia.
    + intros [|]; reflexivity.
  - exists (bs "1970-01-01T00:00:00.000000000+-1:+5"), (mkAst 0 "" TString (VStr (bs "1970-01-01T00:00:00.000000000+-1:+5")) (mkSP 0 0)). split; [reflexivity|]. split.
    + intros t (D & T & Zn & td & tt & sg & zh & zm & E & _ & _ & (b & H & M & -> & _ & (LH & FH & _) & (LM & FM & _)) & _).
      assert (E' : (D ++ [84] ++ T) ++ (b :: H ++ [58] ++ M) = bs "1970-01-01T00:00:00.000000000" ++ bs "+-1:+5")
        by (rewrite <- app_assoc; exact (eq_sym E)).
      destruct (app_len_eq (D ++ [84] ++ T) (bs "1970-01-01T00:00:00.000000000") (b :: H ++ [58] ++ M) (bs "+-1:+5")) as (_ & Q); [|exact E'|].
      { apply (f_equal (@length Z)) in E'. rewrite !app_length in *. cbn [length] in E'. rewrite !app_length, LH, LM in E'. cbn in E' |- *. lia. }
      destruct H as [|a1 [|a2 [|? ?]]]; try discriminate LH. injection Q as _ -> _ _. inversion FH as [|? ? D1 _]; subst. unfold dec_digit in D1. lia.
    + reflexivity.
Qed.
Print Assumptions C67_layout_refuted.

Example C67_met : loose_time_value (bs "5:00:00,+00000007") (mkTime 18000 7) /\
  loose_date_time_value true (bs "2024-02-29T7:08:09,000000001-24:60") (mkTime 1709280489 1).
Proof.
  split.
  - apply (parse_time_all true). vm_compute. reflexivity.
  - apply parse_date_time_all. vm_compute. reflexivity.
Qed.
