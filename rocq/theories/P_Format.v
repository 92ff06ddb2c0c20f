(** C71: floats in the CSV example.  Marshal writes strconv.FormatFloat(x, 'g', -1, 64), Unmarshal
    reads strconv.ParseFloat(text, 64) and stores it by reflect.Value.SetFloat. *)
From Verif Require Import L_FormatUse L_Single.
From Verif Require Import P_Marshal.

(** The text is a shortest decimal that rounds to the number, the nearest one of that length,
    in the layout of the format g. *)
Theorem C71_text : forall x, a_double x -> float_text x (FormatFloat x).
Proof. intros x A. exact (proj1 (format_text x A)). Qed.
Print Assumptions C71_text.

(** ParseFloat gives the number back, with the sign of zero, infinities and NaN. *)
Theorem C71_read_back : forall x, a_double x -> strconv_ParseFloat64 (FormatFloat x) = inr x.
Proof. intros x A. exact (proj2 (format_text x A)). Qed.
Print Assumptions C71_read_back.

(** So different numbers have different texts. *)
Theorem C71_text_injective : forall x y, a_double x -> a_double y -> FormatFloat x = FormatFloat y -> x = y.
Proof. intros x y A B E. apply C71_read_back in A. apply C71_read_back in B. rewrite E, B in A. injection A as ->. reflexivity. Qed.
Print Assumptions C71_text_injective.

(** A float32 field gets the nearest float32, ties to even; numbers too large become infinite.
    A float32 is kept. *)
Theorem C71_narrow : forall x, a_double x -> single_of x (to_float32 x).
Proof. exact to_float32_ok. Qed.
Print Assumptions C71_narrow.
Theorem C71_narrow_same : forall x, a_single x -> to_float32 x = x.
Proof. exact single_kept. Qed.
Print Assumptions C71_narrow_same.

(** Marshal, then Unmarshal restores rows with any floats. *)
Definition float_values (fields : list field) (vals : list gval) : Prop :=
  Forall2 (fun f v => forall bits x, fd_kind f = KFloat bits -> v = GFloat x -> if bits =? 32 then a_single x else a_double x) fields vals.
Definition string_values_safe (vals : list gval) : Prop := forall s, In (GStr s) vals -> safe_cell s.
Definition enough_cells (cols : list bytes) (vals : list gval) : Prop := (2 <= length cols)%nat \/ (vals <> [] /\ ~ In (GStr []) vals).
Lemma values_double fields vals x : Forall2 (fun f v => fits (fd_kind f) v) fields vals -> float_values fields vals -> In (GFloat x) vals -> a_double x.
Proof.
  intros F. revert F. induction 1 as [|f v fs vs Fi F IH]; intros V I; [contradiction|]. inversion V as [|? ? ? ? V1 V2]; subst. destruct I as [->|I]; [|auto].
  inversion Fi as [| | |bits y K E|]; subst. pose proof (V1 _ _ (eq_sym K) eq_refl) as D. destruct (bits =? 32); [apply D|exact D].
Qed.
Theorem C71_round_trip : forall order order' cols fields rows, any_order order -> any_order order' ->
  NoDup (map fd_name fields) -> NoDup cols -> ~ In [] cols -> separate fields -> plain_struct fields ->
  (forall f c, In f fields -> own_column f c -> In c cols) -> cols <> [] -> rows <> [] -> Forall safe_cell cols ->
  Forall (Forall2 (fun f v => fits (fd_kind f) v) fields) rows -> Forall (float_values fields) rows ->
  Forall string_values_safe rows -> Forall (enough_cells cols) rows ->
  exists s n0, Marshal FormatFloat order cols fields rows = Ok s /\
    forall n, (n0 <= n)%nat -> Unmarshal strconv_ParseFloat64 to_float32 n order' fields (ToCsv [cols] ++ [10] ++ s) = Ok (inr (Some rows)).
Proof.
  intros order order' cols fields rows O O' Nn Nc Ne Sep Pl Cov Cn Rn Sc Fit Fl St En.
  assert (D : forall vals x, In vals rows -> In (GFloat x) vals -> a_double x).
  { intros vals x I J. rewrite Forall_forall in Fit, Fl. exact (values_double fields vals x (Fit _ I) (Fl _ I) J). }
  apply C45_round_trip_partial; auto; rewrite Forall_forall in *; intros vals I.
  - split; [exact (St _ I)|]. intros x J. exact (proj2 (format_bytes x (D _ _ I J))).
  - destruct (En _ I) as [L|[L1 L2]]; [left; exact L|right]. split; [exact L1|]. split; [exact L2|]. intros x J. exact (proj1 (format_bytes x (D _ _ I J))).
  - specialize (Fl _ I). unfold floats_return. clear - Fl. induction Fl as [|f v fs vs H F IH]; constructor; [|exact IH].
    intros bits x K E. specialize (H bits x K E). exists x. destruct (bits =? 32).
    + split; [apply C71_read_back, H|]. symmetry. apply C71_narrow_same. exact H.
    + split; [apply C71_read_back, H|reflexivity].
Qed.
Print Assumptions C71_round_trip.

(** ** What is wrong *)
(** The number stored in a float32 field is rounded twice: it need not be the float32 nearest to
    the number in the text. *)
Definition twice : bytes := bs "1.000000059604644775390626".
Definition one_single : spec_float := S754_finite false 4503599627370496 (-52).
Definition next_single : spec_float := S754_finite false 4503600164241408 (-52).
Theorem C71_float32_refuted : exists x, strconv_ParseFloat64 twice = inr x /\ to_float32 x = one_single /\
  a_single one_single /\ a_single next_single /\
  distance 1000000059604644775390626 (10 ^ 24) next_single < distance 1000000059604644775390626 (10 ^ 24) one_single.
Proof.
  eexists. split; [vm_compute; reflexivity|]. split; [vm_compute; reflexivity|]. split; [|split].
  - split; [split; [vm_compute; repeat split; discriminate|left; vm_compute; discriminate]|]. exists (2 ^ 23), (-23). repeat split; vm_compute; try reflexivity; discriminate.
  - split; [split; [vm_compute; repeat split; discriminate|left; vm_compute; discriminate]|]. exists (2 ^ 23 + 1), (-23). repeat split; vm_compute; try reflexivity; discriminate.
  - vm_compute. reflexivity.
Qed.
Print Assumptions C71_float32_refuted.

(** ** The hypotheses are met *)
Definition parsed (s : bytes) : spec_float := match strconv_ParseFloat64 s with inr x => x | inl _ => S754_nan end.
Example C71_some_texts : forallb (fun p => bytes_eqb (FormatFloat (parsed (fst p))) (snd p))
  [(bs "1e23", bs "1e+23"); (bs "123456", bs "123456"); (bs "1234567", bs "1.234567e+06"); (bs "0.0001", bs "0.0001");
   (bs "0.00001", bs "1e-05"); (bs "4.9e-324", bs "5e-324"); (bs "0.1", bs "0.1"); (bs "100000000000000000000000", bs "1e+23");
   (bs "123456789012345678901", bs "1.2345678901234568e+20"); (bs "-2.5", bs "-2.5"); (bs "1.7976931348623157e308", bs "1.7976931348623157e+308");
   (bs "2.2250738585072014e-308", bs "2.2250738585072014e-308"); (bs "9007199254740993", bs "9.007199254740992e+15"); (bs "-0", bs "-0");
   (bs "inf", bs "+Inf"); (bs "-inf", bs "-Inf"); (bs "nan", bs "NaN"); (bs "100000", bs "100000"); (bs "1e21", bs "1e+21"); (bs "20", bs "20")] = true.
Proof. vm_compute. reflexivity. Qed.
Example C71_some_double : a_double (parsed (bs "0.1")) /\ a_double (S754_infinity true) /\ a_double (parsed (bs "5e-324")) /\
  ~ a_single (parsed (bs "0.1")) /\ a_single next_single.
Proof.
  assert (E : parsed (bs "0.1") = S754_finite false 7205759403792794 (-56)) by (vm_compute; reflexivity). rewrite E.
  assert (E' : parsed (bs "5e-324") = S754_finite false 1 (-1074)) by (vm_compute; reflexivity). rewrite E'.
  split; [split; [split; [reflexivity|lia]|left; vm_compute; discriminate]|]. split; [exact I|]. split; [split; [split; [reflexivity|lia]|right; reflexivity]|]. split.
  - intros S. apply C71_narrow_same in S. vm_compute in S. discriminate.
  - destruct C71_float32_refuted as (x & _ & _ & _ & S & _). exact S.
Qed.
Definition float_fields : list field := [mkFd (bs "Name") (bs "name") KString true; mkFd (bs "F") (bs "f") (KFloat 64) true; mkFd (bs "G") [] (KFloat 32) true].
Definition float_cols : list bytes := [bs "G"; bs "f"; bs "name"].
Definition float_rows : list (list gval) := [[GStr (bs "x"); GFloat (parsed (bs "0.1")); GFloat next_single]; [GStr []; GFloat S754_nan; GFloat (S754_infinity true)]].
Example C71_some_rows : exists s, Marshal FormatFloat in_order float_cols float_fields float_rows = Ok s /\
  s = bs "1.0000001192092896,0.1,x" ++ [10] ++ bs "-Inf,NaN," /\
  Unmarshal strconv_ParseFloat64 to_float32 300 backwards float_fields (ToCsv [float_cols] ++ [10] ++ s) = Ok (inr (Some float_rows)) /\
  Forall (float_values float_fields) float_rows.
Proof.
  eexists. split; [vm_compute; reflexivity|]. split; [vm_compute; reflexivity|]. split; [vm_compute; reflexivity|].
  destruct C71_some_double as (D1 & D2 & _ & _ & S). unfold float_rows, float_values. revert D1. generalize (parsed (bs "0.1")). intros p D1.
  repeat (constructor; [repeat constructor|]); try constructor; intros bits x K E; try discriminate; injection K as <-; injection E as <-; cbn [Z.eqb Pos.eqb]; auto.
  split; [exact I|]. exists 0, 0. cbn. repeat split; lia.
Qed.
Example C71_some_narrow : to_float32 (parsed (bs "3.5e38")) = S754_infinity false /\ FormatFloat (to_float32 (parsed (bs "0.1"))) = bs "0.10000000149011612" /\
  FormatFloat (to_float32 (parsed (bs "1e-45"))) = bs "1.401298464324817e-45" /\ to_float32 (parsed (bs "-1e-60")) = S754_zero true /\
  FormatFloat (to_float32 (parsed (bs "3.402823567797336e38"))) = bs "3.4028234663852886e+38" /\ to_float32 (parsed (bs "3.4028235677973366e38")) = S754_infinity false.
Proof. do 5 (split; [vm_compute; reflexivity|]). vm_compute. reflexivity. Qed.
