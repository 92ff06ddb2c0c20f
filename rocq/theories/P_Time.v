(** Property theorems for extra/transformers.go: C49-C52. *)
From Verif Require Import S_Time L_Extra L_Time.

(** ** C49: dates *)
(** The day numbers used below exist for exactly the dates of the calendar and are unique. *)
Theorem C49_calendar : forall a,
  (valid_date a <-> exists k, day_no a k) /\ (forall k k', day_no a k -> day_no a k' -> k = k').
Proof.
  intros a. split; [split|].
  - intros V. exists (dayz a). apply day_no_ex. exact V.
  - intros (k & H). exact (day_no_valid a k H).
  - intros k k' H H'. apply day_no_dayz in H, H'. congruence.
Qed.
Print Assumptions C49_calendar.

Theorem C49_parse_date : forall strict mk,
  reads_time (ParseDate strict mk) mk ":extra:Date" (fun _ => True) date_value.
Proof. exact reads_date. Qed.
Print Assumptions C49_parse_date.

Theorem C49_date_token : forall strict mk,
  instant_token (ETrans DateStr [ParseDate strict mk]) mk ":extra:Date" (outL verbatim date_word) date_value.
Proof. exact instant_date. Qed.
Print Assumptions C49_date_token.

(** Without an AST, or if the last one holds no string, all three panic. *)
Theorem C49_panics : forall strict mk t n c l, In t [ParseDate strict mk; ParseTime strict mk; ParseDateTime strict mk] ->
  (l = [] \/ exists l' a, l = l' ++ [a] /\ forall s, a_val a <> VStr s) -> exists w, t n c l = Panic w.
Proof.
  intros strict mk t n c l Ht Hl.
  assert (E : exists w, last_text l = Panic w).
  { destruct Hl as [->|(l' & a & -> & Na)]; [eexists; reflexivity|]. unfold last_text.
    destruct (l' ++ [a]) as [|b r] eqn:El; [destruct l'; discriminate|].
    assert (La : last r b = a). { destruct l' as [|x l']; simpl in El; injection El as <- <-; [reflexivity|apply last_last]. }
    rewrite La. destruct (a_val a) eqn:Ev; try (eexists; reflexivity). exfalso. eapply Na. reflexivity. }
  destruct E as (w & E). exists w. simpl in Ht.
  destruct Ht as [<-|[<-|[<-|[]]]]; unfold ParseDate, ParseTime, ParseDateTime, time_trans; rewrite E; reflexivity.
Qed.
Print Assumptions C49_panics.

Definition tv (t : gtime) : value := VCons (mkAst 0 "" TInt (VInt (t_unix t)) (mkSP 0 0)) (mkAst 0 "" TInt (VInt (t_nsec t)) (mkSP 0 0)).
Definition tc : ctx := new_string_ctx (bs "2024-02-29T12:34:56.789+09:00 .").
Definition ta (s : string) : ast := mkAst 3 "x" TString (VStr (bs s)) (mkSP 1 2).
Example C49_example :
  ParseDate true tv 0%nat tc [ta "zzz"; ta "2000-02-29"] =
    Ok (inr [mkAst 0 ":extra:Date" TAny (tv (mkTime 951782400 0)) (mkSP 0 0)]) /\
  (exists e, ParseDate true tv 0%nat tc [ta "1900-02-29"] = Ok (inl e)) /\
  ParseDate true tv 0%nat tc [ta "0000-01-01"] =
    Ok (inr [mkAst 0 ":extra:Date" TAny (tv (mkTime (-62167219200) 0)) (mkSP 0 0)]) /\
  (exists w, ParseDate true tv 0%nat tc [] = Panic w).
Proof. repeat split; try (vm_compute; reflexivity); eexists; vm_compute; reflexivity. Qed.
Example C49_example_calendar : day_no (1970, 3, 1) 59 /\ day_no (1969, 12, 31) (-1) /\ ~ valid_date (1900, 2, 29).
Proof.
  split; [|split].
  - apply day_no_iff. split; [exists 31; split; [apply ml_31; simpl; auto|lia]|reflexivity].
  - apply (dn_prev _ (1970, 1, 1) 0); [constructor|apply (tm_year 1969)].
  - intros (n & Hn & Hd). apply month_daysIn in Hn. destruct Hn as [_ ->]. change (daysIn 2 1900) with 28 in Hd. lia.
Qed.

(** ** C50: times of day *)
Theorem C50_parse_time : forall strict mk,
  reads_time (ParseTime strict mk) mk ":extra:Time" fixed_time time_value.
Proof. exact reads_clock. Qed.
Print Assumptions C50_parse_time.

Theorem C50_time_token : forall strict mk,
  instant_token (ETrans TimeStr [ParseTime strict mk]) mk ":extra:Time" timeL time_value.
Proof. exact instant_time. Qed.
Print Assumptions C50_time_token.

Example C50_example :
  ParseTime true tv 0%nat tc [ta "23:59:07.000000120"] =
    Ok (inr [mkAst 0 ":extra:Time" TAny (tv (mkTime 86347 120)) (mkSP 0 0)]) /\
  (exists e, ParseTime true tv 0%nat tc [ta "24:00:00.000000000"] = Ok (inl e)) /\
  fixed_time (bs "23:59:07.000000120").
Proof.
  split; [vm_compute; reflexivity|]. split; [eexists; vm_compute; reflexivity|].
  apply (time_fixed (bs "23:59:07.00000012")). exists (bs "23:59"). split.
  - exists 50, 51, 53, 57. unfold dec_digit. repeat split; lia.
  - right. exists 48, 55. unfold dec_digit. split; [lia|]. split; [lia|]. right. exists (bs "00000012").
    split; [simpl; lia|]. split; [apply digs; reflexivity|]. split; reflexivity.
Qed.

(** ** C51: dates with times *)
Theorem C51_parse_date_time : forall strict mk,
  reads_time (ParseDateTime strict mk) mk ":extra:DateTime" (fun o => exists w, date_timeL w o) (date_time_value strict).
Proof. exact reads_date_time. Qed.
Print Assumptions C51_parse_date_time.

Theorem C51_date_time_token : forall strict mk,
  instant_token (ETrans DateTimeStr [ParseDateTime strict mk]) mk ":extra:DateTime" date_timeL (date_time_value strict).
Proof. exact instant_date_time. Qed.
Print Assumptions C51_date_time_token.

Example C51_example :
  (exists o, run (fun _ => EFirst []) 40 (ETrans DateTimeStr [ParseDateTime true tv]) tc = Ok (o, None) /\
     c_st o = Matched /\ c_pos o = 29%nat /\
     c_stack o = [mkAst 0 ":extra:DateTime" TAny (tv (mkTime 1709177696 789000000)) (mkSP 0 0)]) /\
  (exists e, ParseDateTime true tv 0%nat tc [ta "2024-02-29T12:34:56.789000000+25:00"] = Ok (inl e)) /\
  (exists x, ParseDateTime false tv 0%nat tc [ta "2024-02-29T12:34:56.789000000+25:00"] = Ok (inr [x])).
Proof.
  split; [|split].
  - eexists. split; [vm_compute; reflexivity|]. repeat split; vm_compute; reflexivity.
  - eexists. vm_compute. reflexivity.
  - eexists. vm_compute. reflexivity.
Qed.

(** ** C52: which accepted tokens have an instant *)
(** Four year digits without a sign and a day of the calendar. *)
Theorem C52_dates : forall w, date_word w ->
  ((exists t, date_value w t) <-> exists a, date_text w a /\ valid_date a).
Proof.
  intros w _. split.
  - intros (t & a & k & H1 & H2 & _). eauto.
  - intros (a & H1 & H2). destruct (proj1 (proj1 (C49_calendar a)) H2) as (k & Hk). eexists. exists a, k. eauto.
Qed.
Print Assumptions C52_dates.

(** Every hour up to 23 with every second up to 59. *)
Theorem C52_times : forall w o h m se ns, timeL w o -> time_text o h m se ns ->
  ((exists t, time_value o t) <-> h <= 23 /\ se <= 59).
Proof. exact times_with_value. Qed.
Print Assumptions C52_times.

(** The tokens accept dates, times and offsets that cannot be converted: years from
    10000 on, negative years, the leap second 23:59:60 and the midnight 24:00. *)
Theorem C52_total_refuted : forall strict mk n c,
  (exists w, date_word w /\ (exists y, w = y ++ bs "-01-01" /\ Forall dec_digit y) /\
     exists a e, a_val a = VStr w /\ ParseDate strict mk n c [a] = Ok (inl e)) /\
  (exists w y, date_word w /\ w = 45 :: y /\ (exists t, date_value y t) /\
     exists a e, a_val a = VStr w /\ ParseDate strict mk n c [a] = Ok (inl e)) /\
  (exists w o a e, timeL w o /\ w = bs "23:59:60" /\ a_val a = VStr o /\ ParseTime strict mk n c [a] = Ok (inl e)) /\
  (exists w o a e, timeL w o /\ w = bs "24:00" /\ a_val a = VStr o /\ ParseTime strict mk n c [a] = Ok (inl e)).
Proof. exact tokens_without_value. Qed.
Print Assumptions C52_total_refuted.
