(** Specification of the error texts (C64). *)
From Verif Require Export S_Text S_NumErr S_FloatAll M_Quote.

(** [q], between double quotes, is an interpreted string literal of the Go language for
    the bytes [s].  (Octal escapes and carriage returns are left out.) *)
Definition escapes : list (Z * Z) :=
  [(97, 7); (98, 8); (102, 12); (110, 10); (114, 13); (116, 9); (118, 11); (92, 92); (34, 34)].
Inductive literal_text : bytes -> bytes -> Prop :=
| lt_end : literal_text [] []
| lt_char : forall r cs q s, utf8_char r cs -> 32 <= r -> r <> 127 -> r <> 34 -> r <> 92 -> literal_text q s -> literal_text (cs ++ q) (cs ++ s)
| lt_escape : forall e b q s, In (e, b) escapes -> literal_text q s -> literal_text (92 :: e :: q) (b :: s)
| lt_byte : forall h l x y q s, digit 16 h x -> digit 16 l y -> literal_text q s -> literal_text (92 :: 120 :: h :: l :: q) (16 * x + y :: s)
| lt_u : forall hs ds cs q s, Forall2 (digit 16) hs ds -> length hs = 4%nat -> utf8_char (positional 16 ds) cs ->
    literal_text q s -> literal_text (92 :: 117 :: hs ++ q) (cs ++ s)
| lt_U : forall hs ds cs q s, Forall2 (digit 16) hs ds -> length hs = 8%nat -> utf8_char (positional 16 ds) cs ->
    literal_text q s -> literal_text (92 :: 85 :: hs ++ q) (cs ++ s).
(** What is known about IsPrint: no control character is printed. *)
Definition prints (isprint : Z -> bool) : Prop := forall r, isprint r = true -> 32 <= r /\ r <> 127.
Definition prints_ascii (isprint : Z -> bool) : Prop := forall r, 0 <= r < 128 -> isprint r = ((32 <=? r) && (r <? 127)).

(** The text of a failed conversion: transformer, text, function of strconv, text read by
    it, and cause. *)
Definition number_message (who fn : string) (str num : bytes) (range : bool) (m : bytes) : Prop :=
  exists q, literal_text q num /\
    m = bs "Transformer:" ++ bs who ++ bs ":Bad number format:" ++ str ++ bs ":strconv." ++ bs fn ++ bs ": parsing " ++
        [34] ++ q ++ [34] ++ bs ": " ++ (if range then bs "value out of range" else bs "invalid syntax").
