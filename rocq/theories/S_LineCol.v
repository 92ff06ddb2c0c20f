(** Specification of line and column positions (C30). *)
From Verif Require Export M_LineCol.

Definition plain (l : bytes) : Prop := Forall (fun b => b <> 13 /\ b <> 10) l.
(** [lines pre ls last]: the text [pre] consists of the terminated lines [ls] (each
    with its terminator LF, CR or CRLF) and the unterminated line [last].  A CR
    directly followed by LF is not a terminator of its own. *)
Inductive lines : bytes -> list (bytes * bytes) -> bytes -> Prop :=
| ln_last : forall l, plain l -> lines l [] l
| ln_lf : forall l r ls last, plain l -> lines r ls last -> lines (l ++ 10 :: r) ((l, [10]) :: ls) last
| ln_crlf : forall l r ls last, plain l -> lines r ls last -> lines (l ++ 13 :: 10 :: r) ((l, [13; 10]) :: ls) last
| ln_cr : forall l r ls last, plain l -> (forall t, r <> 10 :: t) -> lines r ls last ->
    lines (l ++ 13 :: r) ((l, [13]) :: ls) last.
(** The text of terminated lines. *)
Definition joined (ls : list (bytes * bytes)) : bytes := flat_map (fun p => fst p ++ snd p) ls.

(** Tabs become [n] blanks. *)
Fixpoint expand (n : nat) (s : bytes) : bytes :=
  match s with
  | [] => []
  | b :: r => (if Z.eq_dec b 9 then repeat 32 n else [b]) ++ expand n r
  end.
(** The first line of the rest of the source. *)
Definition line_rest (s l : bytes) : Prop := plain l /\ (s = l \/ exists b t, s = l ++ b :: t /\ (b = 13 \/ b = 10)).

(** The report: the previous line if there is one, the line with the position marked
    [ > ], and a caret line whose carets stand under the byte at the position. *)
Definition report (n : nat) (ls : list (bytes * bytes)) (last rest : bytes) : bytes :=
  match rev ls with
  | [] => bs " > | " ++ expand n (last ++ rest) ++ [10]
  | (l, t) :: _ =>
      bs "   | " ++ expand n l ++ t ++ bs " > | " ++ expand n (last ++ rest) ++
      (if list_eq_dec Z.eq_dec t [13] then [13] else [10])
  end ++ bs "   | " ++ repeat 32 (length (expand n last)) ++ bs "^^^^".
