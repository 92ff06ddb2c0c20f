(** Specification of UTF-8 text, independent of the decoder of the model. *)
From Verif Require Export M_Types.

(** The well-formed encoding of a Unicode scalar value (Unicode, table 3-6). *)
Inductive utf8_char : Z -> bytes -> Prop :=
| u_1 : forall r, 0 <= r < 128 -> utf8_char r [r]
| u_2 : forall a b, 0 <= a < 32 -> 0 <= b < 64 -> 128 <= a * 64 + b ->
    utf8_char (a * 64 + b) [192 + a; 128 + b]
| u_3 : forall a b c, 0 <= a < 16 -> 0 <= b < 64 -> 0 <= c < 64 ->
    2048 <= a * 4096 + b * 64 + c -> ~ (55296 <= a * 4096 + b * 64 + c <= 57343) ->
    utf8_char (a * 4096 + b * 64 + c) [224 + a; 128 + b; 128 + c]
| u_4 : forall a b c d, 0 <= a < 8 -> 0 <= b < 64 -> 0 <= c < 64 -> 0 <= d < 64 ->
    65536 <= a * 262144 + b * 4096 + c * 64 + d <= 1114111 ->
    utf8_char (a * 262144 + b * 4096 + c * 64 + d) [240 + a; 128 + b; 128 + c; 128 + d].

(** Unicode scalar values. *)
Definition scalar (r : Z) : Prop := 0 <= r <= 1114111 /\ ~ (55296 <= r <= 57343).

(** [utf8 rs s]: the bytes [s] are the well-formed text with characters [rs]. *)
Inductive utf8 : list Z -> bytes -> Prop :=
| u_nil : utf8 [] []
| u_cons : forall r cs rs s, utf8_char r cs -> utf8 rs s -> utf8 (r :: rs) (cs ++ s).

Definition valid_text (s : bytes) : Prop := exists rs, utf8 rs s.
(** Position [p] of [s] lies between two characters. *)
Definition boundary (s : bytes) (p : nat) : Prop :=
  (p <= length s)%nat /\ valid_text (firstn p s) /\ valid_text (skipn p s).

(** What UTF-8 decoding of the start of a byte string must deliver, for any byte
    string: nothing at the end; the character if one is there; and U+FFFD with
    width one at a byte that starts no well-formed character. *)
Inductive next_char : bytes -> Z -> nat -> Prop :=
| nc_end : next_char [] 65533 0
| nc_char : forall r cs s, utf8_char r cs -> next_char (cs ++ s) r (length cs)
| nc_bad : forall b s, (forall r cs s', utf8_char r cs -> b :: s <> cs ++ s') ->
    next_char (b :: s) 65533 1.
