(** Specifications for error reports (C57). *)
From Verif Require Export S_Core S_Formula M_LineCol.

(** The parser itself raises the error [x] at the position [p]: a leaf returns it, or a
    transformer does after the parser it is applied to has matched up to [p]. *)
Inductive raises (env : nat -> pexp) : nat -> pexp -> ctx -> gerr -> srcpos -> Prop :=
| ra_leaf : forall n cls fn c o x, fn n c = Ok (o, Some x) -> raises env n (ELight cls fn) c x (c_sp o)
| ra_trans : forall n e ts1 t ts2 c o l x, (0 < n)%nat -> run env n e (enter ":base:Trans" c) = Ok (o, None) -> c_st o = Matched ->
    (length (c_stack c) <= length (c_stack o))%nat ->
    run_trans n (set_cls c ":base:Trans") ts1 (skipn (length (c_stack c)) (c_stack o)) = Ok (inr l) ->
    t n (set_cls c ":base:Trans") l = Ok (inl x) ->
    raises env n (ETrans e (ts1 ++ t :: ts2)) c x (c_sp o).

(** Combinators that give up where they started. *)
Definition gives_up (e : pexp) : Prop :=
  match e with EFlatGroup _ | EGroup _ | EFirst _ | ELookAhead _ | ETrans _ _ => True | _ => False end.

(** Grammars of the exported combinators whose leaves return an error value with every
    status Error. *)
Definition comb_spec : gspec := mkGS (fun _ fn => honest_leaf fn) (fun _ => True) anyZ anyR anyI noBase.

(** ** Where the formula example puts its errors *)
(** Letters, digits, "_" and "$" glue a number to what follows. *)
Definition word_byte (b : Z) : Prop := 65 <= b <= 90 \/ 97 <= b <= 122 \/ 48 <= b <= 57 \/ b = 95 \/ b = 36.
Definition starts_number (s : bytes) : Prop :=
  exists w t, s = w ++ t /\ integer_word w /\ (forall b u, t = b :: u -> ~ word_byte b).
(** Neither a number nor a parenthesis follows. *)
Definition no_operand (s : bytes) : Prop := ~ begins [40] s /\ ~ starts_number s.
Inductive minus_signs : bytes -> Prop :=
| ms_nil : minus_signs []
| ms_more : forall b m, gap b -> minus_signs m -> minus_signs ([45] ++ b ++ m).
(** [blames p q x]: between the texts [p] and [q] it is right to report [x]. *)
Inductive blames : bytes -> bytes -> gerr -> Prop :=
| bl_value : forall p b q, p = [] \/ (exists r, p = r ++ [40]) \/ (exists r, p = r ++ [45]) -> gap b -> no_operand q ->
    blames (p ++ b) q (EText "Value required")
| bl_operand : forall p o b m q, gap b -> minus_signs m -> no_operand q ->
    blames (p ++ [op_byte o] ++ b) (m ++ q) (EText "Error in the expression after the binary operator")
| bl_group : forall p b t f q, gap b -> exprT t f -> ~ begins [41] q -> (forall o, ~ begins [op_byte o] q) ->
    blames (p ++ [40]) (b ++ t ++ q) (EText "Error in grouped expression")
| bl_range : forall p w b q z, integer_word w -> gap b -> int_numeral 10 (strip w) z -> ~ int64 z ->
    blames (p ++ w ++ b) q (ENum "ParseInt" (strip w) true).
(** The report of a failed parse of [s]: either something follows a formula, which is
    always reported for the start of the text, or an error where it is right. *)
Definition explains (s : bytes) (x : option gerr) (lc : linecol) : Prop :=
  (x = None /\ GetLineAndColPosition s 0 4 = Ok lc /\
     exists t r f, s = t ++ r /\ formula t f /\ r <> [] /\ forall o, ~ begins [op_byte o] r) \/
  (exists p q y, x = Some y /\ s = p ++ q /\ blames p q y /\ GetLineAndColPosition s (length p) 4 = Ok lc).
