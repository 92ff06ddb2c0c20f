(** What the formula examples answer to any text at all, without parsers, positions or
    syntax trees of the library (C62). *)
From Verif Require Export S_Formula S_Err.

(** ** Tokens *)
(** The spaces at the start of [s], all of them, are [b]. *)
Definition whole_gap (s b q : bytes) : Prop := s = b ++ q /\ gap b /\ forall x, space_char x -> ~ begins x q.
(** [s] starts with the number [w], then spaces, then [q]. *)
Definition number_at (s w q : bytes) : Prop :=
  exists t b, s = w ++ t /\ whole_gap t b q /\ integer_word w /\ forall c u, t = c :: u -> ~ word_byte c.
(** [s] starts with exactly [k] minus signs, with spaces after each, then [q]. *)
Inductive signs : bytes -> nat -> bytes -> Prop :=
| si_none : forall s, ~ begins [45] s -> signs s 0 s
| si_more : forall t b u k q, whole_gap t b u -> signs u k q -> signs (45 :: t) (Datatypes.S k) q.
Fixpoint negated (k : nat) (f : arith) : arith := match k with 0%nat => f | Datatypes.S j => FNeg (negated j f) end.

(** ** Precedence *)
(** Multiplications and divisions from the left. *)
Inductive products (f : arith) : list (fop * arith) -> arith -> Prop :=
| pr_one : products f [] f
| pr_more : forall l t o g, multiplicative o -> products f l t -> products f (l ++ [(o, g)]) (FBin o t g).
(** Additions and subtractions of products from the left. *)
Inductive sums (f : arith) : list (fop * arith) -> arith -> Prop :=
| su_one : forall l t, products f l t -> sums f l t
| su_more : forall l t o g m u, additive o -> sums f l t -> products g m u -> sums f (l ++ (o, g) :: m) (FBin o t u).

(** ** Reading *)
(** Something was read and [q] is left, or an error belongs between what is before [q]
    and [q], or a formula was met that cannot be computed. *)
Inductive part (A : Type) := Got (x : A) (q : bytes) | Bad (e : gerr) (q : bytes) | Zero.
Arguments Got {A}. Arguments Bad {A}. Arguments Zero {A}.
Definition failed {A : Type} (r : part A) : Prop := match r with Got _ _ => False | _ => True end.
Definition before_all {A : Type} (x : A) (r : part (list A)) : part (list A) :=
  match r with Got l q => Got (x :: l) q | Bad e q => Bad e q | Zero => Zero end.
Definition instead {A B : Type} (r : part A) : part B :=
  match r with Got _ _ => Zero | Bad e q => Bad e q | Zero => Zero end.
(** After the inside of a parenthesis that was followed by [t]. *)
Inductive closing (t : bytes) : part arith -> part arith -> Prop :=
| cl_done : forall f v b q, whole_gap v b q -> closing t (Got f (41 :: v)) (Got f q)
| cl_open : forall f q, ~ begins [41] q -> closing t (Got f q) (Bad (EText "Error in grouped expression") t)
| cl_failed : forall r, failed r -> closing t r r.
(** A chain of operands is put together, or one of its formulas cannot be computed. *)
Inductive combined (stops : arith -> Prop) (f : arith) : part (list (fop * arith)) -> part arith -> Prop :=
| cb_done : forall l t q, sums f l t -> ~ stops t -> combined stops f (Got l q) (Got t q)
| cb_stop : forall l t q, sums f l t -> stops t -> combined stops f (Got l q) Zero
| cb_failed : forall r, failed r -> combined stops f r (instead r).
(** Where the operand after an operator starts.  After a number a number may have a sign
    of its own, otherwise minus signs are operators. *)
Inductive operand_at : bool -> bytes -> nat -> bytes -> Prop :=
| oa_number : forall u, starts_number u -> operand_at true u 0 u
| oa_signs : forall num u k v, (num = true -> ~ starts_number u) -> signs u k v -> operand_at num u k v.

Section Reading.
Variable stops : arith -> Prop.
(** [primary_at s num r]: the number ([num]) or the parenthesis at the start of [s].
    [expression_at s r]: the longest expression at the start of [s].
    [others_at num s r]: the operators and operands that follow a number or a parenthesis. *)
Inductive primary_at : bytes -> bool -> part arith -> Prop :=
| pm_number : forall s w q z, number_at s w q -> int_numeral 10 (strip w) z -> int64 z -> primary_at s true (Got (FLit z) q)
| pm_range : forall s w q z, number_at s w q -> int_numeral 10 (strip w) z -> ~ int64 z ->
    primary_at s true (Bad (ENum "ParseInt" (strip w) true) q)
| pm_group : forall t b u r r', whole_gap t b u -> expression_at u r -> closing t r r' -> primary_at (40 :: t) false r'
with expression_at : bytes -> part arith -> Prop :=
| xp_none : forall s k u, signs s k u -> no_operand u -> expression_at s (Bad (EText "Value required") u)
| xp_failed : forall s k u num r, signs s k u -> primary_at u num r -> failed r -> expression_at s r
| xp_chain : forall s k u num f q r r', signs s k u -> primary_at u num (Got f q) -> others_at num q r ->
    combined stops (negated k f) r r' -> expression_at s r'
with others_at : bool -> bytes -> part (list (fop * arith)) -> Prop :=
| ot_end : forall num s, (forall o, ~ begins [op_byte o] s) -> others_at num s (Got [] s)
| ot_none : forall num o t b u k v, whole_gap t b u -> operand_at num u k v -> no_operand v ->
    others_at num (op_byte o :: t) (Bad (EText "Error in the expression after the binary operator") u)
| ot_failed : forall num o t b u k v m r, whole_gap t b u -> operand_at num u k v -> primary_at v m r -> failed r ->
    others_at num (op_byte o :: t) (instead r)
| ot_more : forall num o t b u k v m f q r, whole_gap t b u -> operand_at num u k v -> primary_at v m (Got f q) -> others_at m q r ->
    others_at num (op_byte o :: t) (before_all (o, negated k f) r).
End Reading.

(** The answer to a text: a value, an error (none for "Parse failed") between two parts
    of the text, or a division by zero. *)
Inductive answer (A : Type) := Value (x : A) | Failure (e : option gerr) (p q : bytes) | Crash.
Arguments Value {A}. Arguments Failure {A}. Arguments Crash {A}.
Inductive reading {A : Type} (stops : arith -> Prop) (yields : arith -> A -> Prop) (s : bytes) : answer A -> Prop :=
| rd_value : forall b u f x, whole_gap s b u -> expression_at stops u (Got f []) -> yields f x -> reading stops yields s (Value x)
| rd_more : forall b u f q, whole_gap s b u -> expression_at stops u (Got f q) -> q <> [] -> reading stops yields s (Failure None [] s)
| rd_bad : forall b u e p q, whole_gap s b u -> expression_at stops u (Bad e q) -> s = p ++ q -> reading stops yields s (Failure (Some e) p q)
| rd_zero : forall b u, whole_gap s b u -> expression_at stops u Zero -> reading stops yields s Crash.
Scheme primary_at_mut := Minimality for primary_at Sort Prop
  with expression_at_mut := Minimality for expression_at Sort Prop
  with others_at_mut := Minimality for others_at Sort Prop.
Combined Scheme reading_mut from primary_at_mut, expression_at_mut, others_at_mut.
