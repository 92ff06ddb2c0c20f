(** How a CSV text is read: relations over the remaining text, without parsers,
    positions or syntax trees (C36, C37). *)
From Verif Require Export M_Types S_Text S_Trans S_Str.

(** The next character of any text, as stored (U+FFFD for a malformed byte), and the
    text after it. *)
Definition take_char (s v t : bytes) : Prop :=
  exists r l, next_char s r l /\ (0 < l)%nat /\ utf8_char r v /\ t = skipn l s.
Definition begins (p s : bytes) : Prop := exists t, s = p ++ t.

(** The characters between cells and rows. *)
Definition line_break (w : bytes) : Prop := In w [[10]; [11]; [12]; [13]; [194; 133]].
Definition break_char (w : bytes) : Prop := w = [44] \/ line_break w.
Definition at_break (s : bytes) : Prop := exists w, break_char w /\ begins w s.
Definition at_line_break (s : bytes) : Prop := exists w, line_break w /\ begins w s.
Definition blank_char (w : bytes) : Prop := In w [[9]; [32]; [194; 160]].

(** [run_of P s t]: [t] is what remains of [s] after as many pieces of [P] as possible. *)
Inductive run_of (P : bytes -> Prop) : bytes -> bytes -> Prop :=
| ro_stop : forall s, (forall w, P w -> ~ begins w s) -> run_of P s s
| ro_more : forall w s t, P w -> run_of P s t -> run_of P (w ++ s) t.

(** An answer with the text read and the rest; None is a missing closing quote. *)
Definition answer (A : Type) := option (A * bytes).
Definition add {A : Type} (f : A -> A) (a : answer A) : answer A :=
  match a with Some (x, t) => Some (f x, t) | None => None end.

(** After an opening quote. *)
Inductive inside : bytes -> answer bytes -> Prop :=
| in_eof : inside [] None
| in_double : forall t a, inside t a -> inside (34 :: 34 :: t) a
| in_close : forall t, ~ begins [34] t -> inside (34 :: t) (Some ([], t))
| in_char : forall s v t a, ~ begins [34] s -> take_char s v t -> inside t a ->
    inside s (add (fun x => v ++ x) a).
(** Quoted parts, with blanks around them, side by side. *)
Inductive quoted : bytes -> answer bytes -> Prop :=
| q_eof : forall s t, run_of blank_char s (34 :: t) -> inside t None -> quoted s None
| q_last : forall s t o t1 t2, run_of blank_char s (34 :: t) -> inside t (Some (o, t1)) ->
    run_of blank_char t1 t2 -> ~ begins [34] t2 -> quoted s (Some (o, t2))
| q_more : forall s t o t1 t2 a, run_of blank_char s (34 :: t) -> inside t (Some (o, t1)) ->
    run_of blank_char t1 t2 -> quoted t2 a -> quoted s (add (fun x => o ++ x) a).
(** An unquoted cell, before trimming. *)
Inductive unquoted : bytes -> bytes -> bytes -> Prop :=
| uq_stop : forall s, s = [] \/ at_break s -> unquoted s [] s
| uq_char : forall s v t x t1, ~ at_break s -> take_char s v t -> unquoted t x t1 ->
    unquoted s (v ++ x) t1.
Inductive read_cell : bytes -> answer bytes -> Prop :=
| rc_quoted : forall s a, quoted s a -> read_cell s a
| rc_plain : forall s t x t1 c, run_of blank_char s t -> ~ begins [34] t ->
    unquoted s x t1 -> trimmed x c -> read_cell s (Some (c, t1)).
(** Cells separated by commas. *)
Inductive read_row : bytes -> answer (list bytes) -> Prop :=
| rr_eof : forall s, read_cell s None -> read_row s None
| rr_last : forall s c t, read_cell s (Some (c, t)) -> ~ begins [44] t -> read_row s (Some ([c], t))
| rr_more : forall s c t a, read_cell s (Some (c, 44 :: t)) -> read_row t a ->
    read_row s (add (cons c) a).
(** Rows separated by one or more line breaks. *)
Inductive table := Table (rows : list (list bytes)) | Unclosed | Junk.
Definition on_table (f : list (list bytes) -> list (list bytes)) (t : table) : table :=
  match t with Table rows => Table (f rows) | other => other end.
Inductive read_rows : bytes -> table -> Prop :=
| rt_eof : forall s, read_row s None -> read_rows s Unclosed
| rt_last : forall s r, read_row s (Some (r, [])) -> read_rows s (Table [r])
| rt_junk : forall s r t, read_row s (Some (r, t)) -> t <> [] -> ~ at_line_break t -> read_rows s Junk
| rt_more : forall s r t t1 a, read_row s (Some (r, t)) -> at_line_break t -> run_of line_break t t1 ->
    read_rows t1 a -> read_rows s (on_table (cons r) a).
(** Rows of no text at the end are dropped. *)
Definition textless (r : list bytes) : Prop := r = [] \/ r = [[]].
Definition without_tail (rows kept : list (list bytes)) : Prop :=
  exists tail, rows = kept ++ tail /\ Forall textless tail /\
    (forall l r, kept = l ++ [r] -> ~ textless r).
Inductive read_csv : bytes -> table -> Prop :=
| rd_table : forall s rows kept, read_rows s (Table rows) -> without_tail rows kept -> read_csv s (Table kept)
| rd_eof : forall s, read_rows s Unclosed -> read_csv s Unclosed
| rd_junk : forall s, read_rows s Junk -> read_csv s Junk.

(** ** C36: what comes back from a table that was written as CSV *)
(** The cell contains a comma or line break and is therefore written in quotes. *)
Definition has_break (c : bytes) : Prop := exists p t, c = p ++ t /\ at_break t.
(** A cell written without quotes that does not look like the start of a quoted one. *)
Definition readable (c : bytes) : Prop := has_break c \/ exists t, run_of blank_char c t /\ ~ begins [34] t.
(** Quoted cells lose their double quotes, unquoted cells the space around them, both
    have malformed bytes replaced by U+FFFD. *)
Inductive comes_back : bytes -> bytes -> Prop :=
| cb_quoted : forall c rs d, has_break c -> chars c rs -> utf8 (remove Z.eq_dec 34 rs) d -> comes_back c d
| cb_plain : forall c rs x d, ~ has_break c -> chars c rs -> utf8 rs x -> trimmed x d -> comes_back c d.
(** A row of no cells is one empty cell. *)
Inductive row_back : list bytes -> list bytes -> Prop :=
| rb_none : row_back [] [[]]
| rb_cells : forall r r', r <> [] -> Forall2 comes_back r r' -> row_back r r'.
(** Rows of no text after the first row are lost. *)
Inductive later_back : list (list bytes) -> list (list bytes) -> Prop :=
| lb_nil : later_back [] []
| lb_skip : forall r rs out, textless r -> later_back rs out -> later_back (r :: rs) out
| lb_keep : forall r rs r' out, ~ textless r -> row_back r r' -> later_back rs out ->
    later_back (r :: rs) (r' :: out).
Inductive table_back : list (list bytes) -> list (list bytes) -> Prop :=
| tb_nil : table_back [] []
| tb_rows : forall r rs r' out kept, row_back r r' -> later_back rs out ->
    without_tail (r' :: out) kept -> table_back (r :: rs) kept.

(** The tables that survive. *)
Definition safe_cell (c : bytes) : Prop := valid_text c /\
  ((has_break c /\ ~ In 34 c) \/ (~ has_break c /\ trimmed c c /\ ~ begins [34] c)).
Definition safe_table (rows : list (list bytes)) : Prop :=
  Forall (fun r => r <> [] /\ Forall safe_cell r) rows /\
  match rows with
  | [] => True
  | r :: rs => Forall (fun x => x <> [[]]) rs /\ (rs = [] -> r <> [[]])
  end.
