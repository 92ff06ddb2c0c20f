(** Specifications for the transformers (C20-C24). *)
From Verif Require Export S_Core S_Text.

(** ** C20 *)
Definition string_ast (a : ast) (s : bytes) : Prop := a_ty a = TString /\ a_val a = VStr s.
(** The AST with text [s] that takes class and position from the head of [l]. *)
Definition head_cls (l : list ast) : string := match l with [] => "" | a :: _ => a_cls a end.
Definition head_sp (l : list ast) : srcpos := match l with [] => sp0 | a :: _ => a_sp a end.
Definition text_ast (l : list ast) (s : bytes) : ast := mkAst 0 (head_cls l) TString (VStr s) (head_sp l).

(** The eight characters of the cut set. *)
Definition space (r : Z) : Prop := In r [9; 10; 11; 12; 13; 32; 133; 160].
Definition spaces (s : bytes) : Prop := exists rs, utf8 rs s /\ Forall space rs.
Definition starts_with_space (s : bytes) : Prop := exists r cs t, space r /\ utf8_char r cs /\ s = cs ++ t.
Definition ends_with_space (s : bytes) : Prop := exists r cs t, space r /\ utf8_char r cs /\ s = t ++ cs.
Definition trimmed_start (s t : bytes) : Prop := exists p, s = p ++ t /\ spaces p /\ ~ starts_with_space t.
Definition trimmed_end (s t : bytes) : Prop := exists p, s = t ++ p /\ spaces p /\ ~ ends_with_space t.
Definition trimmed (s t : bytes) : Prop := exists p q, s = p ++ t ++ q /\ spaces p /\ spaces q /\
  ~ starts_with_space t /\ ~ ends_with_space t.

(** ** C21 *)
(** The value of one digit: 0-9, then letters of either case from 10 on. *)
Inductive digit (base : Z) : Z -> Z -> Prop :=
| d_num : forall d, 0 <= d <= 9 -> d < base -> digit base (48 + d) d
| d_lower : forall d, 10 <= d <= 35 -> d < base -> digit base (97 + (d - 10)) d
| d_upper : forall d, 10 <= d <= 35 -> d < base -> digit base (65 + (d - 10)) d.
(** Positional value, most significant digit first. *)
Fixpoint positional (base : Z) (ds : list Z) : Z :=
  match ds with
  | [] => 0
  | d :: ds' => d * base ^ Z.of_nat (length ds') + positional base ds'
  end.
(** [s] writes the natural number [z]. *)
Definition numeral (base : Z) (s : bytes) (z : Z) : Prop :=
  s <> [] /\ exists ds, Forall2 (digit base) s ds /\ z = positional base ds.
(** Signed and optionally plus-signed numerals. *)
Definition int_numeral (base : Z) (s : bytes) (z : Z) : Prop :=
  numeral base s z \/ (exists t, s = 43 :: t /\ numeral base t z) \/
  (exists t, s = 45 :: t /\ numeral base t (- z)).
Definition uint_numeral (base : Z) (s : bytes) (z : Z) : Prop :=
  numeral base s z \/ (exists t, s = 43 :: t /\ numeral base t z).
Definition int64 (z : Z) : Prop := - 2 ^ 63 <= z < 2 ^ 63.
Definition uint64 (z : Z) : Prop := 0 <= z < 2 ^ 64.

(** ** C22 *)
Definition int32 (z : Z) : Prop := - 2 ^ 31 <= z < 2 ^ 31.
(** The Type tag and the dynamic type of Value agree. *)
Definition tag_agrees (a : ast) : Prop :=
  match a_ty a, a_val a with
  | TAny, _ => True
  | TNil, VNil | TRune, VRune _ | TInt, VInt _ | TUint, VUint _ | TFloat, VFloat _ | TBool, VBool _
  | TString, VStr _ | TAstCons, VCons _ _ | TListOfAst, VAsts _ | TFunction, VFunc _ => True
  | TListOfAny, (VSlice _ | VStrs _ | VStrss _ | VAsts _) => True
  | _, _ => False
  end.
(** "the UTF-8 encoding of a valid code point and U+FFFD otherwise" *)
Definition rune_text (z : Z) (s : bytes) : Prop :=
  utf8_char z s \/ (~ scalar z /\ utf8_char 65533 s).

(** ** C23 *)
(** Rotation as drawn in the comment of Roll: |0|1|2|..|n-1| -> |k|..|n-1|0|..|k-1|. *)
Definition rolled (n : Z) (l l' : list ast) : Prop :=
  (0 <= n /\ exists a b, l = a ++ b /\ Z.of_nat (length a) = n /\ l' = b ++ a) \/
  (n < 0 /\ exists a b, l = a ++ b /\ Z.of_nat (length b) = - n /\ l' = b ++ a).

(** ** C24 *)
(** Calling one transformer value again and again: [step] threads the captured
    variable; the last result is what the last call returns. *)
Fixpoint history (step : ast -> list ast -> ast * list ast) (var : ast) (calls : list (list ast)) : ast :=
  match calls with
  | [] => var
  | l :: calls' => history step (fst (step var l)) calls'
  end.
Definition nth_result (step : ast -> list ast -> ast * list ast) (var : ast) (calls : list (list ast)) (l : list ast) : list ast :=
  snd (step (history step var calls) l).
