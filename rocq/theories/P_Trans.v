(** Property theorems for the transformers: C20-C24. *)
From Verif Require Import L_Trans P_Core.

Definition cx : ctx := new_string_ctx [].
Definition sa (cls : string) (s : bytes) (p : nat) : ast := mkAst 0 cls TString (VStr s) (mkSP p 0).

(** ** C20 *)
Theorem C20_concat : forall n c l ss, Forall2 string_ast l ss ->
  Concat n c l = Ok (inr [text_ast l (concat ss)]).
Proof. exact concat_ok. Qed.
Print Assumptions C20_concat.

(** On ASTs whose String tag is truthful Concat fails exactly when some AST is not a
    string, and names the type of the first such one. *)
Theorem C20_concat_fails : forall n c l, Forall typed l ->
  (exists ss, Forall2 string_ast l ss) \/
  (exists l1 ss a l2, l = l1 ++ a :: l2 /\ Forall2 string_ast l1 ss /\ a_ty a <> TString /\
     Concat n c l = Ok (inl (EBadType (a_ty a)))).
Proof.
  exact (fun n c l H => match typed_split l H with
    | or_introl K => or_introl K
    | or_intror (ex_intro _ l1 (ex_intro _ ss (ex_intro _ a (ex_intro _ l2 (conj E (conj H1 H2)))))) =>
        or_intror (ex_intro _ l1 (ex_intro _ ss (ex_intro _ a (ex_intro _ l2 (conj E (conj H1 (conj H2
          (eq_trans (f_equal (Concat n c) E) (concat_bad n c l1 ss a l2 H1 H2)))))))))
    end).
Qed.
Print Assumptions C20_concat_fails.

Theorem C20_trim : forall n c l ss, Forall2 string_ast l ss -> Forall is_byte (concat ss) ->
  exists t, Trim n c l = Ok (inr [text_ast l t]) /\ trimmed (concat ss) t.
Proof.
  exact (fun n c l ss H Hb => ex_intro _ (trim_both (concat ss))
    (conj (with_concat_ok l ss _ H) (trim_both_ok (concat ss) Hb))).
Qed.
Print Assumptions C20_trim.
Theorem C20_trim_start : forall n c l ss, Forall2 string_ast l ss -> Forall is_byte (concat ss) ->
  exists t, TrimStart n c l = Ok (inr [text_ast l t]) /\ trimmed_start (concat ss) t.
Proof.
  exact (fun n c l ss H Hb => ex_intro _ (trim_left (concat ss))
    (conj (with_concat_ok l ss _ H) (trim_left_ok _ (concat ss) Hb (le_n _)))).
Qed.
Print Assumptions C20_trim_start.
Theorem C20_trim_end : forall n c l ss, Forall2 string_ast l ss -> Forall is_byte (concat ss) ->
  exists t, TrimEnd n c l = Ok (inr [text_ast l t]) /\ trimmed_end (concat ss) t.
Proof.
  exact (fun n c l ss H Hb => ex_intro _ (trim_right (concat ss))
    (conj (with_concat_ok l ss _ H) (trim_right_ok _ (concat ss) Hb (le_n _)))).
Qed.
Print Assumptions C20_trim_end.
(** The specification leaves no choice. *)
Theorem C20_trim_unique : forall s t t',
  (trimmed_start s t -> trimmed_start s t' -> t = t') /\ (trimmed_end s t -> trimmed_end s t' -> t = t').
Proof. exact (fun s t t' => conj (trimmed_start_func s t t') (trimmed_end_func s t t')). Qed.
Print Assumptions C20_trim_unique.

(** " \t" "a b" NBSP " " -> "a b"; class and position of the first AST. *)
Example C20_example :
  Trim 0%nat cx [sa "x" (bs " " ++ [9]) 3; sa "y" (bs "a b") 5; sa "z" ([194; 160] ++ bs " ") 8] =
    Ok (inr [sa "x" (bs "a b") 3]) /\
  Concat 0%nat cx [sa "x" (bs "a") 3; mkAst 0 "i" TInt (VInt 1) sp0] = Ok (inl (EBadType TInt)).
Proof. split; vm_compute; reflexivity. Qed.
Example C20_example_hyps :
  Forall2 string_ast [sa "x" (bs " ") 3; sa "y" (bs "a b") 5] [bs " "; bs "a b"] /\
  Forall typed [sa "x" (bs "a") 3; mkAst 0 "i" TInt (VInt 1) sp0].
Proof. split; repeat constructor; unfold typed; simpl; eauto; discriminate. Qed.

(** ** C21 *)
Theorem C21_parse_int : forall n c base l ss, 2 <= base <= 36 -> Forall2 string_ast l ss ->
  (exists z, int_numeral base (concat ss) z /\ int64 z /\
     ParseIntRadix base n c l = Ok (inr [mkAst 0 (head_cls l) TInt (VInt z) (head_sp l)])) \/
  ((forall z, int_numeral base (concat ss) z -> ~ int64 z) /\
     exists e, ParseIntRadix base n c l = Ok (inl e)).
Proof. exact ParseInt_ok. Qed.
Print Assumptions C21_parse_int.

(** ParseUint: the same, except for the empty text. *)
Theorem C21_parse_uint_partial : forall n c base l ss, 2 <= base <= 36 -> Forall2 string_ast l ss -> concat ss <> [] ->
  (exists z, uint_numeral base (concat ss) z /\ uint64 z /\
     ParseUintRadix base n c l = Ok (inr [mkAst 0 (head_cls l) TUint (VUint z) (head_sp l)])) \/
  ((forall z, uint_numeral base (concat ss) z -> ~ uint64 z) /\
     exists e, ParseUintRadix base n c l = Ok (inl e)).
Proof. exact ParseUint_ok. Qed.
Print Assumptions C21_parse_uint_partial.

Theorem C21_numeral_unique : forall base s z z', 2 <= base <= 36 -> numeral base s z -> numeral base s z' -> z = z'.
Proof. exact numeral_func. Qed.
Print Assumptions C21_numeral_unique.

(** With no text at all ParseUint panics, so this is all it can do. *)
Theorem C21_parse_uint_exact : forall n c base l ss, 2 <= base <= 36 -> Forall2 string_ast l ss ->
  (exists z, uint_numeral base (concat ss) z /\ uint64 z /\
     ParseUintRadix base n c l = Ok (inr [mkAst 0 (head_cls l) TUint (VUint z) (head_sp l)])) \/
  (concat ss <> [] /\ (forall z, uint_numeral base (concat ss) z -> ~ uint64 z) /\ exists e, ParseUintRadix base n c l = Ok (inl e)) \/
  (concat ss = [] /\ ParseUintRadix base n c l = Panic "index out of range").
Proof.
  intros n c base l ss Hb H. destruct (list_eq_dec Z.eq_dec (concat ss) []) as [E|E].
  - right. right. split; [exact E|]. unfold ParseUintRadix. rewrite (with_concat_ok _ _ _ H), E. reflexivity.
  - destruct (ParseUint_ok n c base l ss Hb H E) as [A|[A B]]; auto.
Qed.
Print Assumptions C21_parse_uint_exact.

(** On the empty text ParseUint panics instead of returning an error. *)
Theorem C21_parse_uint_refuted : exists l ss w, Forall2 string_ast l ss /\ ParseUint 0%nat cx l = Panic w.
Proof. exists [sa "x" [] 0], [[]]. eexists. split; [repeat constructor|vm_compute; reflexivity]. Qed.
Print Assumptions C21_parse_uint_refuted.

Example C21_example :
  ParseInt 0%nat cx [sa "x" (bs "-922337203685477") 0; sa "y" (bs "5808") 9] =
    Ok (inr [mkAst 0 "x" TInt (VInt (-9223372036854775808)) (mkSP 0 0)]) /\
  (exists e, ParseInt 0%nat cx [sa "x" (bs "9223372036854775808") 0] = Ok (inl e)) /\
  ParseIntRadix 16 0%nat cx [sa "x" (bs "7fF") 0] = Ok (inr [mkAst 0 "x" TInt (VInt 2047) (mkSP 0 0)]) /\
  ParseUint 0%nat cx [sa "x" (bs "+18446744073709551615") 0] =
    Ok (inr [mkAst 0 "x" TUint (VUint 18446744073709551615) (mkSP 0 0)]) /\
  (exists e, ParseUint 0%nat cx [sa "x" (bs "18446744073709551616") 0] = Ok (inl e)).
Proof. repeat split; try (vm_compute; reflexivity); eexists; vm_compute; reflexivity. Qed.
Example C21_example_numeral : numeral 16 (bs "7fF") 2047.
Proof.
  split; [discriminate|]. exists [7; 15; 15]. split; [|reflexivity]. cbn.
  constructor; [apply (d_num 16 7); lia|]. constructor; [apply (d_lower 16 15); lia|].
  constructor; [apply (d_upper 16 15); lia|constructor].
Qed.

(** ** C22 *)
Definition int_ast (z : Z) : ast := mkAst 0 "i" TInt (VInt z) (mkSP 4 1).

(** Inside the int32 range. *)
Theorem C22_string_from_int_partial : forall n c op cls ty z sp l, int32 z ->
  exists s, StringFromInt n c (mkAst op cls ty (VInt z) sp :: l) = Ok (inr [mkAst 0 cls TString (VStr s) sp]) /\
    rune_text z s.
Proof.
  exact (fun n c op cls ty z sp l H => ex_intro _ (encode_rune z)
    (conj (f_equal (fun x => Ok (inr [mkAst 0 cls TString (VStr (encode_rune x)) sp])) (to_int32_id z H)) (encode_text z))).
Qed.
Print Assumptions C22_string_from_int_partial.
Theorem C22_string_from_rune : forall n c op cls ty r sp l,
  exists s, StringFromRune n c (mkAst op cls ty (VRune r) sp :: l) = Ok (inr [mkAst 0 cls TString (VStr s) sp]) /\
    rune_text r s.
Proof.
  exact (fun n c op cls ty r sp l => ex_intro _ (encode_rune r) (conj eq_refl (encode_text r))).
Qed.
Print Assumptions C22_string_from_rune.
Theorem C22_round_trip : forall n c op cls ty z sp l, int32 z ->
  exists a, RuneFromInt n c (mkAst op cls ty (VInt z) sp :: l) = Ok (inr [a]) /\ tag_agrees a /\
    exists b, IntFromRune n c [a] = Ok (inr [b]) /\ a_val b = VInt z /\ a_cls b = cls /\ a_sp b = sp.
Proof.
  exact (fun n c op cls ty z sp l H =>
    ex_intro _ (mkAst 0 cls TAny (VRune (to_int32 z)) sp) (conj eq_refl (conj I
      (ex_intro _ (mkAst 0 cls TString (VInt (to_int32 z)) sp)
        (conj eq_refl (conj (f_equal VInt (to_int32_id z H)) (conj eq_refl eq_refl))))))).
Qed.
Print Assumptions C22_round_trip.

(** Outside of the int32 range: the int32 that is congruent modulo 2^32 is taken. *)
Theorem C22_string_from_int_exact : forall n c op cls ty z sp l,
  exists r s, int32 r /\ (z - r) mod 2 ^ 32 = 0 /\ rune_text r s /\
    StringFromInt n c (mkAst op cls ty (VInt z) sp :: l) = Ok (inr [mkAst 0 cls TString (VStr s) sp]) /\
    RuneFromInt n c (mkAst op cls ty (VInt z) sp :: l) = Ok (inr [mkAst 0 cls TAny (VRune r) sp]).
Proof.
  intros n c op cls ty z sp l. exists (to_int32 z), (encode_rune (to_int32 z)). split; [|split; [|split; [apply encode_text|split; reflexivity]]].
  - unfold int32, to_int32. change (2 ^ 31) with 2147483648. pose proof (Z.mod_pos_bound (z + 2147483648) 4294967296 ltac:(lia)). lia.
  - unfold to_int32. change (2 ^ 32) with 4294967296. pose proof (Z.div_mod (z + 2147483648) 4294967296 ltac:(lia)) as D.
    replace (z - ((z + 2147483648) mod 4294967296 - 2147483648)) with (((z + 2147483648) / 4294967296) * 4294967296) by lia. apply Z.mod_mul. lia.
Qed.
Print Assumptions C22_string_from_int_exact.

(** IntFromRune tags its integer result as a string. *)
Theorem C22_int_from_rune_tag_refuted : exists l a,
  IntFromRune 0%nat cx l = Ok (inr [a]) /\ ~ tag_agrees a.
Proof. exists [mkAst 0 "r" TRune (VRune 65) sp0]. eexists. split; [reflexivity|]. intros []. Qed.
Print Assumptions C22_int_from_rune_tag_refuted.
(** 2^32 + 65 is no code point, but its text is "A". *)
Theorem C22_string_from_int_refuted : exists z s,
  StringFromInt 0%nat cx [int_ast z] = Ok (inr [mkAst 0 "i" TString (VStr s) (mkSP 4 1)]) /\ int64 z /\ ~ rune_text z s.
Proof.
  exists 4294967361, [65]. split; [vm_compute; reflexivity|]. split; [unfold int64; lia|].
  intros [H|[_ H]].
  - apply char_scalar in H. unfold scalar in H. lia.
  - apply encode_char in H. vm_compute in H. discriminate.
Qed.
Print Assumptions C22_string_from_int_refuted.

Example C22_example :
  StringFromInt 0%nat cx [int_ast 8364] = Ok (inr [mkAst 0 "i" TString (VStr [226; 130; 172]) (mkSP 4 1)]) /\
  StringFromInt 0%nat cx [int_ast 55296] = Ok (inr [mkAst 0 "i" TString (VStr [239; 191; 189]) (mkSP 4 1)]) /\
  int32 8364 /\ int32 (-5).
Proof. split; [vm_compute; reflexivity|]. split; [vm_compute; reflexivity|]. unfold int32. lia. Qed.

(** ** C23 *)
Theorem C23_erase : forall n c l, Erase n c l = Ok (inr []).
Proof. exact (fun n c l => eq_refl). Qed.
Print Assumptions C23_erase.
(** Element 0 is changed in the named fields only; the rest is untouched; an empty
    list stays empty. *)
Theorem C23_first_element : forall n c op cls ty v sp l o s t x,
  SetOpCode o n c (mkAst op cls ty v sp :: l) = Ok (inr (mkAst o cls ty v sp :: l)) /\
  ChangeClassName s n c (mkAst op cls ty v sp :: l) = Ok (inr (mkAst op s ty v sp :: l)) /\
  SetOpCodeAndClassName o s n c (mkAst op cls ty v sp :: l) = Ok (inr (mkAst o s ty v sp :: l)) /\
  SetValue t x n c (mkAst op cls ty v sp :: l) = Ok (inr (mkAst op cls t x sp :: l)) /\
  SetOpCode o n c [] = Ok (inr []) /\ ChangeClassName s n c [] = Ok (inr []) /\
  SetOpCodeAndClassName o s n c [] = Ok (inr []) /\ SetValue t x n c [] = Ok (inr []).
Proof.
  exact (fun n c op cls ty v sp l o s t x => conj eq_refl (conj eq_refl (conj eq_refl (conj eq_refl
    (conj eq_refl (conj eq_refl (conj eq_refl eq_refl))))))).
Qed.
Print Assumptions C23_first_element.
Theorem C23_ends : forall n c a l,
  (exists a', Prepend a n c l = Ok (inr (a' :: l)) /\ exists p, a' = set_asp a p) /\
  (exists a', Push a n c l = Ok (inr (l ++ [a'])) /\ exists p, a' = set_asp a p) /\
  Pop n c (l ++ [a]) = Ok (inr l) /\ Pop n c [] = Ok (inr []).
Proof. exact list_ends_ok. Qed.
Print Assumptions C23_ends.
(** Exchange never exchanges: with two or more elements it panics. *)
Theorem C23_exchange_refuted : forall n c l, (2 <= length l)%nat -> exists w, Exchange n c l = Panic w.
Proof. exact exchange_panics. Qed.
Print Assumptions C23_exchange_refuted.
(** Roll never rotates: it returns its argument. *)
Theorem C23_roll_refuted : (forall k n c l, Roll k n c l = Ok (inr l)) /\
  exists k l, (0 < k < Z.of_nat (length l)) /\ ~ rolled k l l.
Proof. exact roll_is_identity. Qed.
Print Assumptions C23_roll_refuted.

Example C23_example :
  Pop 0%nat cx [sa "x" [] 1; sa "y" [] 2] = Ok (inr [sa "x" [] 1]) /\
  Prepend (sa "p" [] 0) 0%nat cx [sa "x" [] 1; sa "y" [] 2] = Ok (inr [sa "p" [] 1; sa "x" [] 1; sa "y" [] 2]) /\
  Push (sa "p" [] 0) 0%nat cx [sa "x" [] 1; sa "y" [] 2] = Ok (inr [sa "x" [] 1; sa "y" [] 2; sa "p" [] 2]).
Proof. repeat split; vm_compute; reflexivity. Qed.

(** ** C24 *)
(** On a non-empty list the inserted AST takes the neighbour's position, whatever
    happened before. *)
Theorem C24_prepend_partial : forall v calls x l,
  nth_result prepend_step v calls (x :: l) = set_asp v (a_sp x) :: x :: l.
Proof. exact prepend_history. Qed.
Print Assumptions C24_prepend_partial.
Theorem C24_push_partial : forall v calls l x,
  nth_result push_step v calls (l ++ [x]) = l ++ [x; set_asp v (a_sp x)].
Proof. exact push_history. Qed.
Print Assumptions C24_push_partial.
(** On an empty list it takes the position used in the last call with a non-empty
    list, not the one written in the argument. *)
Theorem C24_prepend_stale : forall v calls x l k,
  nth_result prepend_step v (calls ++ (x :: l) :: repeat [] k) [] = [set_asp v (a_sp x)].
Proof. exact prepend_stale. Qed.
Print Assumptions C24_prepend_stale.
Theorem C24_push_stale : forall v calls l x k,
  nth_result push_step v (calls ++ (l ++ [x]) :: repeat [] k) [] = [set_asp v (a_sp x)].
Proof. exact push_stale. Qed.
Print Assumptions C24_push_stale.
Theorem C24_refuted : exists v calls,
  nth_result prepend_step v calls [] <> [v] /\ nth_result push_step v calls [] <> [v].
Proof.
  exists (sa "p" [] 0), [[sa "x" [] 7]]. vm_compute. split; discriminate.
Qed.
Print Assumptions C24_refuted.
Example C24_example :
  nth_result push_step (sa "p" [] 0) [[sa "x" [] 7]; []] [sa "y" [] 9] = [sa "y" [] 9; sa "p" [] 9] /\
  nth_result push_step (sa "p" [] 0) [[sa "x" [] 7]; []] [] = [sa "p" [] 7].
Proof. split; vm_compute; reflexivity. Qed.

(** ** C47 *)
(** ToSlice returns one AST that holds the converted values of all ASTs, each at its own
    index and nothing else; class and position are those of the first AST. *)
Theorem C47_to_slice : forall n c sl l vs, c_slice c = Some sl ->
  Forall2 (fun a v => sl_set sl (a_val a) = Some v) l vs ->
  ToSlice n c l = Ok (inr [mkAst 0 (head_cls l) TListOfAny (sl_mk sl vs) (head_sp l)]).
Proof. exact to_slice_ok. Qed.
Print Assumptions C47_to_slice.
(** It panics exactly when there is no source slice or some value cannot be stored. *)
Theorem C47_to_slice_panics : forall n c l, (exists w, ToSlice n c l = Panic w) <->
  (c_slice c = None \/ exists sl a, c_slice c = Some sl /\ In a l /\ sl_set sl (a_val a) = None).
Proof. exact to_slice_panics. Qed.
Print Assumptions C47_to_slice_panics.
(** GroupingTransform wraps the list as it is; TransformError always fails with its text. *)
Theorem C47_grouping : forall n c l, GroupingTransform n c l = Ok (inr [mkAst 0 ":base:Group" TListOfAst (VAsts l) sp0]).
Proof. exact (fun n c l => eq_refl). Qed.
Print Assumptions C47_grouping.
Theorem C47_transform_error : forall s n c l, TransformError s n c l = Ok (inl (EText s)).
Proof. exact (fun s n c l => eq_refl). Qed.
Print Assumptions C47_transform_error.
(** A source whose Set refuses everything but strings. *)
Definition str_slice : slicelike := mkSL [] (fun _ _ => None) (fun v => match v with VStr s => Some (VStr s) | _ => None end)
  (fun vs => VStrs (flat_map (fun v => match v with VStr s => [s] | _ => [] end) vs)).
Example C47_example :
  ToSlice 0%nat (new_object_ctx str_slice VNil) [sa "x" (bs "a") 1; sa "y" (bs "b") 2] =
    Ok (inr [mkAst 0 "x" TListOfAny (VStrs [bs "a"; bs "b"]) (mkSP 1 0)]) /\
  exists w, ToSlice 0%nat (new_object_ctx str_slice VNil) [sa "x" (bs "a") 1; mkAst 0 "" TNil VNil sp0] = Panic w.
Proof. split; [reflexivity|eexists; reflexivity]. Qed.
