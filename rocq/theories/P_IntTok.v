(** C58, C59: integer tokens with their values, and Go integer literals. *)
From Verif Require Import L_Extra L_Trans L_IntTok P_Core P_Trans.
From Verif Require P_Extra.

(** ** C58 *)
Theorem C58_binary : integer_value_token (ETrans BinaryNumberStr [ParseIntRadix 2]) ":extra:BinaryNumberStr"
    (outL strip (spaced bin_digit)) TInt VInt (int_numeral 2) int64.
Proof. apply int_value_token; [lia|exact binary_token|xgram]. Qed.
Print Assumptions C58_binary.
Theorem C58_octal : integer_value_token (ETrans OctalNumberStr [ParseIntRadix 8]) ":extra:OctalNumberStr"
    (outL strip (spaced oct_digit)) TInt VInt (int_numeral 8) int64.
Proof. apply int_value_token; [lia|exact octal_token|xgram]. Qed.
Print Assumptions C58_octal.
Theorem C58_hexadecimal : integer_value_token (ETrans HexNumberStr [ParseIntRadix 16]) ":extra:HexNumberStr"
    (outL strip (spaced hex_digit)) TInt VInt (int_numeral 16) int64.
Proof. apply int_value_token; [lia|exact hex_token|xgram]. Qed.
Print Assumptions C58_hexadecimal.
Theorem C58_integer : integer_value_token (ETrans IntegerNumberStr [ParseInt]) ":extra:IntegerNumberStr"
    (outL strip integer_word) TInt VInt (int_numeral 10) int64.
Proof. apply int_value_token; [lia|exact integer_token|xgram]. Qed.
Print Assumptions C58_integer.
(** The same with the unsigned transformers; a minus sign is an error then. *)
Theorem C58_binary_uint : integer_value_token (ETrans BinaryNumberStr [ParseUintRadix 2]) ":extra:BinaryNumberStr"
    (outL strip (spaced bin_digit)) TUint VUint (uint_numeral 2) uint64.
Proof. apply uint_value_token; [lia|exact binary_token|xgram|intros w s; apply (strip_spaced _ 2), bin_digit_ok]. Qed.
Print Assumptions C58_binary_uint.
Theorem C58_octal_uint : integer_value_token (ETrans OctalNumberStr [ParseUintRadix 8]) ":extra:OctalNumberStr"
    (outL strip (spaced oct_digit)) TUint VUint (uint_numeral 8) uint64.
Proof. apply uint_value_token; [lia|exact octal_token|xgram|intros w s; apply (strip_spaced _ 8), oct_digit_ok]. Qed.
Print Assumptions C58_octal_uint.
Theorem C58_hexadecimal_uint : integer_value_token (ETrans HexNumberStr [ParseUintRadix 16]) ":extra:HexNumberStr"
    (outL strip (spaced hex_digit)) TUint VUint (uint_numeral 16) uint64.
Proof. apply uint_value_token; [lia|exact hex_token|xgram|intros w s; apply (strip_spaced _ 16), hex_digit_ok]. Qed.
Print Assumptions C58_hexadecimal_uint.
Theorem C58_integer_uint : integer_value_token (ETrans IntegerNumberStr [ParseUint]) ":extra:IntegerNumberStr"
    (outL strip integer_word) TUint VUint (uint_numeral 10) uint64.
Proof. apply uint_value_token; [lia|exact integer_token|xgram|exact strip_integer]. Qed.
Print Assumptions C58_integer_uint.
(** Every word of digits has a value, so that only large values and signs are errors. *)
Theorem C58_values : forall w,
  (spaced bin_digit w -> exists z, numeral 2 (strip w) z) /\ (spaced oct_digit w -> exists z, numeral 8 (strip w) z) /\
  (spaced hex_digit w -> exists z, numeral 16 (strip w) z) /\ (integer_word w -> exists z, int_numeral 10 (strip w) z).
Proof.
  intros w. split; [apply spaced_value, bin_digit_ok|]. split; [apply spaced_value, oct_digit_ok|]. split; [apply spaced_value, hex_digit_ok|apply integer_numeral].
Qed.
Print Assumptions C58_values.
Definition value_at (e : pexp) (s : string) : option (nat * list (string * value)) + bool :=
  match run no_env 99 e (new_string_ctx (bs s)) with
  | Ok (o, None) => inl (match c_st o with
                    | Matched => Some (c_pos o, map (fun a => (a_cls a, a_val a)) (c_stack o))
                    | _ => None
                    end)
  | Ok (_, Some _) => inr true
  | _ => inr false
  end.
Example C58_example :
  value_at (ETrans HexNumberStr [ParseIntRadix 16]) "f_F_g" = inl (Some (4%nat, [(":extra:HexNumberStr"%string, VInt 255)])) /\
  value_at (ETrans HexNumberStr [ParseUintRadix 16]) "ffff_ffff_ffff_ffff" = inl (Some (19%nat, [(":extra:HexNumberStr"%string, VUint 18446744073709551615)])) /\
  value_at (ETrans HexNumberStr [ParseIntRadix 16]) "ffff_ffff_ffff_ffff" = inr true /\
  value_at (ETrans OctalNumberStr [ParseIntRadix 8]) "_7" = inl None /\
  value_at (ETrans IntegerNumberStr [ParseInt]) "-1_000_" = inl (Some (7%nat, [(":extra:IntegerNumberStr"%string, VInt (-1000))])) /\
  value_at (ETrans IntegerNumberStr [ParseUint]) "-1" = inr true.
Proof. repeat split; vm_compute; reflexivity. Qed.

(** ** C59 *)
(** With radix 0 the transformers read the integer literals of the Go language. *)
Theorem C59_parse_int : forall n c l ss, Forall2 string_ast l ss ->
  (exists z, signed_literal (concat ss) z /\ int64 z /\
     ParseIntRadix 0 n c l = Ok (inr [mkAst 0 (head_cls l) TInt (VInt z) (head_sp l)])) \/
  ((forall z, signed_literal (concat ss) z -> ~ int64 z) /\ exists e, ParseIntRadix 0 n c l = Ok (inl e)).
Proof. exact ParseInt_literal. Qed.
Print Assumptions C59_parse_int.
Theorem C59_parse_uint : forall n c l ss, Forall2 string_ast l ss ->
  (exists z, plus_literal (concat ss) z /\ uint64 z /\
     ParseUintRadix 0 n c l = Ok (inr [mkAst 0 (head_cls l) TUint (VUint z) (head_sp l)])) \/
  (concat ss <> [] /\ (forall z, plus_literal (concat ss) z -> ~ uint64 z) /\ exists e, ParseUintRadix 0 n c l = Ok (inl e)) \/
  (concat ss = [] /\ ParseUintRadix 0 n c l = Panic "index out of range").
Proof. exact ParseUint_literal. Qed.
Print Assumptions C59_parse_uint.
Theorem C59_literal_unique : forall s z z', go_literal s z -> go_literal s z' -> z = z'.
Proof. exact literal_func. Qed.
Print Assumptions C59_literal_unique.
(** Any radix that is neither 0 nor in 2..36 is refused. *)
Theorem C59_other_radix : forall n c base l ss, base <> 0 -> ~ 2 <= base <= 36 -> Forall2 string_ast l ss ->
  (exists e, ParseIntRadix base n c l = Ok (inl e)) /\
  (concat ss <> [] -> exists e, ParseUintRadix base n c l = Ok (inl e)).
Proof.
  intros n c base l ss Nz Hb H.
  assert (U : forall s, exists e, parse_uint s base = inl e).
  { intros s. unfold parse_uint. destruct s; [eauto|]. replace ((2 <=? base) && (base <=? 36)) with false by lia. replace (base =? 0) with false by lia. eauto. }
  unfold ParseIntRadix, ParseUintRadix. rewrite !(with_concat_ok _ _ _ H). split.
  - unfold parse_int. destruct (concat ss) as [|x s]; [eexists; reflexivity|].
    destruct (x =? 43); [|destruct (x =? 45)]; match goal with |- context [parse_uint ?t base] => destruct (U t) as [e ->] end; eexists; reflexivity.
  - destruct (concat ss) as [|x s]; [congruence|]. intros _. destruct (U (if x =? 43 then s else x :: s)) as [e ->]. eexists; reflexivity.
Qed.
Print Assumptions C59_other_radix.
Definition int_of (s : string) : option Z :=
  match ParseIntRadix 0 0%nat cx [sa "x" (bs s) 0] with Ok (inr [a]) => match a_val a with VInt z => Some z | _ => None end | _ => None end.
Example C59_example : map int_of ["0"; "42"; "1_000"; "-0x_fF"; "0b1_01"; "0o17"; "017"; "0_7"; "+0X1"]%string =
    map Some [0; 42; 1000; -255; 5; 15; 15; 7; 1] /\
  map int_of ["0x"; "0b2"; "08"; "1__0"; "_1"; "1_"; "0x1_"; "0__7"; ""; "-"; "9223372036854775808"]%string = repeat None 11 /\
  signed_literal (bs "-0x_fF") (-255).
Proof.
  split; [vm_compute; reflexivity|]. split; [vm_compute; reflexivity|]. right. right. exists (bs "0x_fF"). split; [reflexivity|].
  apply (gl_hex 120 [95] [102; 70] [15; 15]); [left; reflexivity|right; reflexivity|].
  apply sp_next; [apply (d_lower 16 15); lia|]. apply sp_last. apply (d_upper 16 15); lia.
Qed.
