(** C95: dates and times are ordered as their texts. *)
From Verif Require Import L_TimeOrder.

(** [answers p mk cls s x]: the transformer [p] turns an AST with the text [s] into the instant [x]. *)
Definition answers (p : trans) (mk : gtime -> value) (cls : string) (s : bytes) (x : gtime) : Prop :=
  exists n c l a, a_val a = VStr s /\ p n c (l ++ [a]) = Ok (inr [mkAst 0 cls TAny (mk x) (mkSP 0 0)]).

(** ParseDate, on texts of any kind. *)
Theorem C95_dates : forall strict mk s t x y, (forall x y, mk x = mk y -> x = y) ->
  answers (ParseDate strict mk) mk ":extra:Date" s x -> answers (ParseDate strict mk) mk ":extra:Date" t y ->
  (before s t <-> earlier x y) /\ (s = t <-> x = y).
Proof.
  intros strict mk s t x y I (n & c & l & a & A & E) (n' & c' & l' & a' & A' & E').
  apply (answer_value _ _ _ _ _ _ _ _ _ _ _ I (reads_date strict mk) A Logic.I) in E. apply (answer_value _ _ _ _ _ _ _ _ _ _ _ I (reads_date strict mk) A' Logic.I) in E'.
  apply by_cases; [exact earlier_irrefl|exact earlier_asym|]. destruct (date_value_cases s t x y E E') as [(Q & B & _)|[Q|(Q & B & _)]]; [left|right; left; exact Q|right; right]; (split; [left; lia|exact B]).
Qed.
Print Assumptions C95_dates.
(** ParseTime, on the texts that TimeStr returns. *)
Theorem C95_times : forall strict mk s t x y, (forall x y, mk x = mk y -> x = y) -> fixed_time s -> fixed_time t ->
  answers (ParseTime strict mk) mk ":extra:Time" s x -> answers (ParseTime strict mk) mk ":extra:Time" t y ->
  (before s t <-> earlier x y) /\ (s = t <-> x = y).
Proof.
  intros strict mk s t x y I F G (n & c & l & a & A & E) (n' & c' & l' & a' & A' & E').
  apply (answer_value _ _ _ _ _ _ _ _ _ _ _ I (reads_clock strict mk) A F) in E. apply (answer_value _ _ _ _ _ _ _ _ _ _ _ I (reads_clock strict mk) A' G) in E'.
  apply by_cases; [exact earlier_irrefl|exact earlier_asym|]. destruct (time_value_cases s t x y E E') as [(Q & B & _)|[Q|(Q & B & _)]]; auto.
Qed.
Print Assumptions C95_times.
(** ParseDateTime, on the texts that DateTimeStr returns, with one offset. *)
Theorem C95_date_times : forall strict mk u v z x y, (forall x y, mk x = mk y -> x = y) -> length z = 6%nat ->
  (exists w, date_timeL w (u ++ z)) -> (exists w, date_timeL w (v ++ z)) ->
  answers (ParseDateTime strict mk) mk ":extra:DateTime" (u ++ z) x -> answers (ParseDateTime strict mk) mk ":extra:DateTime" (v ++ z) y ->
  (before (u ++ z) (v ++ z) <-> earlier x y) /\ (u ++ z = v ++ z <-> x = y).
Proof.
  intros strict mk u v z x y I L F G (n & c & l & a & A & E) (n' & c' & l' & a' & A' & E').
  apply (answer_value _ _ _ _ _ _ _ _ _ _ _ I (reads_date_time strict mk) A F) in E. apply (answer_value _ _ _ _ _ _ _ _ _ _ _ I (reads_date_time strict mk) A' G) in E'.
  apply by_cases; [exact earlier_irrefl|exact earlier_asym|]. exact (date_time_cases strict u v z x y L E E').
Qed.
Print Assumptions C95_date_times.

Definition kept (t : gtime) : value := VCons (mkAst 0 "" TInt (VInt (t_unix t)) (mkSP 0 0)) (mkAst 0 "" TInt (VInt (t_nsec t)) (mkSP 0 0)).
Lemma kept_once x y : kept x = kept y -> x = y.
Proof. destruct x, y. unfold kept. cbn. intros [= -> ->]. reflexivity. Qed.
Definition text_ast (s : string) : ast := mkAst 3 "x" TString (VStr (bs s)) (mkSP 1 2).
Ltac answered s := exists 0%nat, (new_string_ctx []), [], (text_ast s); split; [reflexivity|vm_compute; reflexivity].
(** 0[h]:00 on the first of January 2024 at the offset +0[z]:00. *)
Definition midnight (h z : Z) : bytes := bs "2024-01-01" ++ [84] ++ ([48; h; 58; 48; 48] ++ [58; 48; 48; 46] ++ zeros 9) ++ [43; 48; z; 58; 48; 48].
Lemma midnight_word h z : dec_digit h -> dec_digit z -> exists w, date_timeL w (midnight h z).
Proof.
  intros H Hz. eexists. exists (bs "2024-01-01"), [48; h; 58; 48; 48], ([48; h; 58; 48; 48] ++ [58; 48; 48; 46] ++ zeros 9), [43; 48; z; 58; 48; 48], [43; 48; z; 58; 48; 48].
  split; [|split; [|split; [|split; reflexivity]]].
  - exists [], (bs "2024"), 48, 49, 48, 49. unfold dec_digit. repeat split; try lia; [left; reflexivity|cbn; lia|cbn; repeat constructor; lia].
  - exists [48; h; 58; 48; 48]. split; [exists 48, h, 48, 48; unfold dec_digit in *; repeat split; lia|left; split; reflexivity].
  - right. exists 43, 48, z, 48, 48. unfold dec_digit in *. repeat split; lia.
Qed.
(** With different offsets the order of the texts says nothing, and equal instants have several texts. *)
Theorem C95_offsets_refuted : exists s t t' x y,
  (exists w, date_timeL w s) /\ (exists w, date_timeL w t) /\ (exists w, date_timeL w t') /\
  answers (ParseDateTime true kept) kept ":extra:DateTime" s x /\ answers (ParseDateTime true kept) kept ":extra:DateTime" t y /\
  answers (ParseDateTime true kept) kept ":extra:DateTime" t' x /\ before s t /\ earlier y x /\ s <> t'.
Proof.
  exists (midnight 48 48), (midnight 56 57), (midnight 57 57), (mkTime 1704067200 0), (mkTime 1704063600 0).
  repeat (split; [apply midnight_word; unfold dec_digit; lia|]).
  split; [answered ("2024-01-01T00:00:00.000000000+00:00"%string)|]. split; [answered ("2024-01-01T08:00:00.000000000+09:00"%string)|].
  split; [answered ("2024-01-01T09:00:00.000000000+09:00"%string)|]. split; [unfold midnight; do 2 apply before_skip; do 1 apply bf_same; apply bf_less; lia|].
  split; [left; cbn; lia|discriminate].
Qed.
Print Assumptions C95_offsets_refuted.
(** Nor do texts that ParseTime accepts but TimeStr does not return. *)
Theorem C95_other_times_refuted : exists s t x y,
  answers (ParseTime true kept) kept ":extra:Time" s x /\ answers (ParseTime true kept) kept ":extra:Time" t y /\ before s t /\ earlier y x.
Proof.
  exists (bs "10:00:00.000000000"), (bs "5:00:00.000000000"), (mkTime 36000 0), (mkTime 18000 0).
  split; [answered ("10:00:00.000000000"%string)|]. split; [answered ("5:00:00.000000000"%string)|]. split; [apply bf_less; reflexivity|left; cbn; lia].
Qed.
Print Assumptions C95_other_times_refuted.

(** Leap days, ends of months and fractions of seconds. *)
Example C95_example :
  answers (ParseDate true kept) kept ":extra:Date" (bs "2024-02-29") (mkTime 1709164800 0) /\
  answers (ParseDate true kept) kept ":extra:Date" (bs "2024-03-01") (mkTime 1709251200 0) /\ before (bs "2024-02-29") (bs "2024-03-01") /\
  answers (ParseTime true kept) kept ":extra:Time" (bs "09:59:59.999999999") (mkTime 35999 999999999) /\
  answers (ParseTime true kept) kept ":extra:Time" (bs "10:00:00.000000000") (mkTime 36000 0) /\
  fixed_time (bs "09:59:59.999999999") /\ fixed_time (bs "10:00:00.000000000") /\
  (forall x y, kept x = kept y -> x = y).
Proof.
  split; [answered ("2024-02-29"%string)|]. split; [answered ("2024-03-01"%string)|]. split; [do 6 apply bf_same; apply bf_less; reflexivity|].
  split; [answered ("09:59:59.999999999"%string)|]. split; [answered ("10:00:00.000000000"%string)|].
  split; [|split; [|exact kept_once]].
  - exists (bs "09:59"), 53, 57, (bs "999999999"). split; [exists 48, 57, 53, 57; unfold dec_digit; repeat split; lia|]. unfold dec_digit. repeat split; try lia. cbn. repeat constructor; lia.
  - exists (bs "10:00"), 48, 48, (bs "000000000"). split; [exists 49, 48, 48, 48; unfold dec_digit; repeat split; lia|]. unfold dec_digit. repeat split; try lia. cbn. repeat constructor; lia.
Qed.
