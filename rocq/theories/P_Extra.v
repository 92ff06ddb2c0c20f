(** Property theorems for extra/extra.go: C31-C35. *)
From Verif Require Import L_Extra P_Core.

(** ** C31 *)
Theorem C31_binary : token BinaryNumberStr ":extra:BinaryNumberStr" (outL strip (spaced bin_digit)).
Proof. exact binary_token. Qed.
Print Assumptions C31_binary.
Theorem C31_octal : token OctalNumberStr ":extra:OctalNumberStr" (outL strip (spaced oct_digit)).
Proof. exact octal_token. Qed.
Print Assumptions C31_octal.
Theorem C31_hexadecimal : token HexNumberStr ":extra:HexNumberStr" (outL strip (spaced hex_digit)).
Proof. exact hex_token. Qed.
Print Assumptions C31_hexadecimal.
(** There is such a word exactly where the rest starts with a digit. *)
Theorem C31_where : forall D rest,
  (exists w o t, rest = w ++ t /\ outL strip (spaced D) w o) <-> exists d t, rest = d :: t /\ D d.
Proof. exact spaced_exists. Qed.
Print Assumptions C31_where.

Definition text_of (e : pexp) (s : string) : option (nat * list (string * value)) :=
  match run no_env 99 e (new_string_ctx (bs s)) with
  | Ok (o, None) => match c_st o with
                    | Matched => Some (c_pos o, map (fun a => (a_cls a, a_val a)) (c_stack o))
                    | _ => None
                    end
  | _ => None
  end.
Example C31_example : text_of HexNumberStr "dE_0_fg1" = Some (6%nat, [(":extra:HexNumberStr"%string, VStr (bs "dE0f"))])
  /\ text_of BinaryNumberStr "10_2" = Some (3%nat, [(":extra:BinaryNumberStr"%string, VStr (bs "10"))])
  /\ text_of OctalNumberStr "_7" = None.
Proof. repeat split; vm_compute; reflexivity. Qed.

(** ** C32 *)
Theorem C32_integer : token IntegerNumberStr ":extra:IntegerNumberStr" (outL strip integer_word).
Proof. exact integer_token. Qed.
Print Assumptions C32_integer.
Theorem C32_where : forall rest,
  (exists w o t, rest = w ++ t /\ outL strip integer_word w o) <->
  exists s d t, rest = s ++ d :: t /\ sign s /\ dec_digit d.
Proof. exact integer_exists. Qed.
Print Assumptions C32_where.
(** The text denotes an integer, and ParseInt of it is that integer when it fits. *)
Theorem C32_value : forall w, integer_word w ->
  exists z, int_numeral 10 (strip w) z /\ (int64 z -> parse_int (strip w) 10 = inr z).
Proof.
  intros w H. destruct (integer_numeral w H) as [z Hz]. exists z. split; auto. intros Hr.
  apply parse_int_ok; [lia|auto].
Qed.
Print Assumptions C32_value.
Example C32_example : integer_word (bs "-1_000_") /\ int_numeral 10 (bs "-1000") (-1000) /\
  text_of IntegerNumberStr "-1_000_x" = Some (7%nat, [(":extra:IntegerNumberStr"%string, VStr (bs "-1000"))]) /\
  text_of IntegerNumberStr "0_12" = Some (2%nat, [(":extra:IntegerNumberStr"%string, VStr (bs "0"))]).
Proof.
  split; [|split; [|split; vm_compute; reflexivity]].
  - exists [45], (bs "1_000_"). split; [reflexivity|]. split; [right; right; reflexivity|]. right. exists 49, (bs "_000_"). split; [reflexivity|].
    split; [lia|]. change (bs "_000_") with [95; 48; 48; 48; 95].
    repeat (apply Forall_cons; [unfold dec_digit; lia|]); apply Forall_nil.
  - right. right. exists (bs "1000"). split; [reflexivity|]. split; [discriminate|]. exists [1; 0; 0; 0]. split; [|reflexivity].
    repeat apply Forall2_cons; try (apply (d_num 10 1); lia); try (apply (d_num 10 0); lia). apply Forall2_nil.
Qed.

(** ** C33 *)
Theorem C33_float : token FloatNumberStr ":extra:FloatNumberStr" (outL strip float_word).
Proof. exact float_token. Qed.
Print Assumptions C33_float.
Theorem C33_numeric : token NumericStr ":extra:NumericStr" (outL strip numeric_word).
Proof. exact numeric_token. Qed.
Print Assumptions C33_numeric.
(** Acceptable to a decimal float parser when the mantissa has a digit.  Missing: the
    words without one, see the refutation below. *)
Theorem C33_acceptable_partial : forall w, float_word w \/ numeric_word w -> has_mantissa_digit w -> decimal_float (strip w).
Proof. intros w [H|H]; [exact (float_decimal w H)|exact (numeric_decimal w H)]. Qed.
Print Assumptions C33_acceptable_partial.
(** "._" is accepted and yields ".", which no decimal float parser accepts. *)
Lemma dot_not_decimal : ~ decimal_float [46].
Proof.
  intros (s & i & p & f & x & E & Hs & Hi & Hp & Hf & N & Hx).
  assert (L : (length i + length f = 0)%nat).
  { destruct i as [|b i].
    - destruct f as [|b f]; [exfalso; apply N; reflexivity|]. exfalso. destruct Hp as [->|[-> K]]; [|discriminate].
      apply (f_equal (@length Z)) in E. rewrite !app_length in E. simpl in E. lia.
    - exfalso. inversion Hi as [|? ? Hb _]; subst. destruct Hs as [->|[->| ->]]; inversion E; subst; unfold dec_digit in Hb; lia. }
  destruct i, f; try discriminate. apply N. reflexivity.
Qed.
Theorem C33_acceptable_refuted : exists s,
  text_of FloatNumberStr s = Some (2%nat, [(":extra:FloatNumberStr"%string, VStr [46])]) /\
  text_of NumericStr s = Some (2%nat, [(":extra:NumericStr"%string, VStr [46])]) /\ ~ decimal_float [46].
Proof. exists "._"%string. split; [vm_compute; reflexivity|]. split; [vm_compute; reflexivity|exact dot_not_decimal]. Qed.
Print Assumptions C33_acceptable_refuted.
Example C33_example :
  text_of FloatNumberStr "-1_2.5_e+0_3x" = Some (12%nat, [(":extra:FloatNumberStr"%string, VStr (bs "-12.5e+03"))]) /\
  text_of FloatNumberStr "12" = None /\
  text_of FloatNumberStr ".5e" = Some (2%nat, [(":extra:FloatNumberStr"%string, VStr (bs ".5"))]) /\
  text_of NumericStr "12.e" = Some (3%nat, [(":extra:NumericStr"%string, VStr (bs "12."))]) /\
  has_mantissa_digit (bs "12.e").
Proof.
  split; [vm_compute; reflexivity|]. split; [vm_compute; reflexivity|]. split; [vm_compute; reflexivity|]. split; [vm_compute; reflexivity|].
  exists [], 49, (bs "2.e"). split; [reflexivity|]. unfold dec_digit. simpl. lia.
Qed.

(** ** C34 *)
Theorem C34_ascii : token AsciiIdentifierStr ":extra:IdentifierStr" (outL verbatim ascii_ident).
Proof. exact ascii_ident_token. Qed.
Print Assumptions C34_ascii.
(** U+FFFD, by which malformed bytes are read, must not be an identifier character. *)
Theorem C34_unicode : forall u, ~ id_start u 65533 -> ~ id_continue u 65533 ->
  token (UnicodeIdentifierStr u) ":extra:IdentifierStr" (outL verbatim (unicode_ident u)).
Proof. exact unicode_ident_token. Qed.
Print Assumptions C34_unicode.
(** Tables with the Latin, Greek and CJK letters only, for the examples. *)
Definition demo_tables : utables :=
  let no := fun _ : Z => false in
  mkUT (fun r => ((65 <=? r) && (r <=? 90)) || ((97 <=? r) && (r <=? 122)) || ((913 <=? r) && (r <=? 969)) || ((19968 <=? r) && (r <=? 40959)))
       no no no no (fun r => (48 <=? r) && (r <=? 57)) (fun r => r =? 95) no no no.
Example C34_example : ~ id_start demo_tables 65533 /\ ~ id_continue demo_tables 65533 /\
  text_of AsciiIdentifierStr "a1_$.b" = Some (4%nat, [(":extra:IdentifierStr"%string, VStr (bs "a1_$"))]) /\
  text_of AsciiIdentifierStr "1a" = None /\
  match run no_env 99 (UnicodeIdentifierStr demo_tables) (new_string_ctx [206; 177; 229; 173; 151; 49; 32]) with  (* alpha, U+5B57, 1 *)
  | Ok (o, None) => c_st o = Matched /\ c_pos o = 6%nat | _ => False end.
Proof.
  unfold id_start, id_continue, in_table. split; [intros [H _]; cbn in H; intuition discriminate|].
  split; [intros [H _]; cbn in H; intuition discriminate|]. split; [vm_compute; reflexivity|]. split; [vm_compute; reflexivity|].
  vm_compute. auto.
Qed.

(** ** C35 *)
Theorem C35_date : token DateStr ":extra:DateStr" (outL verbatim date_word).
Proof. exact date_token. Qed.
Print Assumptions C35_date.
Theorem C35_time : token TimeStr ":extra:TimeStr" timeL.
Proof. exact time_token. Qed.
Print Assumptions C35_time.
Theorem C35_date_time : token DateTimeStr ":extra:DateTimeStr" date_timeL.
Proof. exact date_time_token. Qed.
Print Assumptions C35_date_time.
Theorem C35_fixed_format : forall w o, timeL w o -> fixed_time o.
Proof. exact time_fixed. Qed.
Print Assumptions C35_fixed_format.
Example C35_example :
  text_of TimeStr "12:34" = Some (5%nat, [(":extra:TimeStr"%string, VStr (bs "12:34:00.000000000"))]) /\
  text_of TimeStr "12:34:56.0120" = Some (13%nat, [(":extra:TimeStr"%string, VStr (bs "12:34:56.012000000"))]) /\
  text_of DateStr "-12345-12-31x" = Some (12%nat, [(":extra:DateStr"%string, VStr (bs "-12345-12-31"))]) /\
  text_of DateTimeStr "2020-01-02T03:04:05Z" = Some (20%nat, [(":extra:DateTimeStr"%string, VStr (bs "2020-01-02T03:04:05.000000000+00:00"))]).
Proof. repeat split; vm_compute; reflexivity. Qed.
