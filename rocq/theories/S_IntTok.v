(** Specifications for integer tokens and Go integer literals (C58, C59). *)
From Verif Require Export S_Extra S_Trans.

(** A parser that reads the longest word of [R] and returns the integer its text stands
    for, as an AST of type [ty]; an error where it has no value or none that fits. *)
Definition integer_value_token (e : pexp) (cls : string) (R : tlang) (ty : asttype) (mk : Z -> value)
    (value_of : bytes -> Z -> Prop) (fits : Z -> Prop) : Prop :=
  forall env c, (forall k, peg_gram (env k)) -> Forall is_byte (c_str c) -> (c_pos c <= length (c_str c))%nat ->
  c_st c = Matched ->
  exists n o err, run env n e c = Ok (o, err) /\
    ((exists w s z a, longest R (skipn (c_pos c) (c_str c)) w s /\ value_of s z /\ fits z /\ err = None /\
        c_st o = Matched /\ c_pos o = (c_pos c + length w)%nat /\ c_stack o = c_stack c ++ [a] /\
        a_cls a = cls /\ a_ty a = ty /\ a_val a = mk z) \/
     (exists w s, longest R (skipn (c_pos c) (c_str c)) w s /\ (forall z, value_of s z -> ~ fits z) /\
        err <> None /\ c_st o = Errored) \/
     (no_word R (skipn (c_pos c) (c_str c)) /\ err = None /\ c_st o = Unmatched)).

(** ** Go integer literals (Go language specification, "Integer literals") *)
(** Digits of a base with single underscores between them. *)
Inductive separated (base : Z) : bytes -> list Z -> Prop :=
| sp_last : forall b d, digit base b d -> separated base [b] [d]
| sp_next : forall b d t ds, digit base b d -> separated base t ds -> separated base (b :: t) (d :: ds)
| sp_under : forall b d t ds, digit base b d -> separated base t ds -> separated base (b :: 95 :: t) (d :: ds).
Definition one_underscore (u : bytes) : Prop := u = [] \/ u = [95].
Inductive go_literal : bytes -> Z -> Prop :=
| gl_zero : go_literal [48] 0
| gl_decimal : forall b t ds, b <> 48 -> separated 10 (b :: t) ds -> go_literal (b :: t) (positional 10 ds)
| gl_binary : forall x u t ds, x = 98 \/ x = 66 -> one_underscore u -> separated 2 t ds -> go_literal (48 :: x :: u ++ t) (positional 2 ds)
| gl_octal : forall x u t ds, x = 111 \/ x = 79 -> one_underscore u -> separated 8 t ds -> go_literal (48 :: x :: u ++ t) (positional 8 ds)
| gl_old_octal : forall u t ds, one_underscore u -> separated 8 t ds -> go_literal (48 :: u ++ t) (positional 8 ds)
| gl_hex : forall x u t ds, x = 120 \/ x = 88 -> one_underscore u -> separated 16 t ds -> go_literal (48 :: x :: u ++ t) (positional 16 ds).
(** With a sign. *)
Definition signed_literal (s : bytes) (z : Z) : Prop :=
  go_literal s z \/ (exists t, s = 43 :: t /\ go_literal t z) \/ (exists t, s = 45 :: t /\ go_literal t (- z)).
Definition plus_literal (s : bytes) (z : Z) : Prop := go_literal s z \/ exists t, s = 43 :: t /\ go_literal t z.
