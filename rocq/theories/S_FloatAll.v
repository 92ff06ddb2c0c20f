(** Specification of strconv.ParseFloat for every text (C63): the floating-point literals
    of the Go language with an optional sign, and the words for infinity and NaN. *)
From Verif Require Export S_Float S_IntTok M_FloatAll.

(** An optional sign. *)
Definition signed (sg : bytes) (neg : bool) : Prop :=
  ((sg = [] \/ sg = [43]) /\ neg = false) \/ (sg = [45] /\ neg = true).
(** A word of small letters, written with small or capital letters. *)
Definition spelled (w s : bytes) : Prop := Forall2 (fun l b => b = l \/ b = l - 32) w s.
Definition infinity_text (s : bytes) (neg : bool) : Prop :=
  exists sg w, s = sg ++ w /\ signed sg neg /\ (spelled (bs "inf") w \/ spelled (bs "infinity") w).
Definition nan_text (s : bytes) : Prop := spelled (bs "nan") s.

(** No digits, or digits with single underscores between them. *)
Definition digit_group (base : Z) (t : bytes) (ds : list Z) : Prop := (t = [] /\ ds = []) \/ separated base t ds.
Definition point_part (p f : bytes) : Prop := p = [46] \/ (p = [] /\ f = []).
(** The exponent: a letter, a sign, decimal digits. *)
Definition exponent_part (letter : Z) (x : bytes) (ex : Z) : Prop :=
  exists c sg neg t ds, x = c :: sg ++ t /\ (c = letter \/ c = letter - 32) /\ signed sg neg /\ separated 10 t ds /\
    ex = (if neg : bool then -1 else 1) * positional 10 ds.
(** [s] is a literal for (-1)^neg * m * b^k; [ex] is the exponent as written. *)
Inductive float_literal (s : bytes) (neg : bool) (m : Z) : Z -> Z -> Z -> Prop :=
| fl_decimal : forall sg i p f x di df ex,
    s = sg ++ i ++ p ++ f ++ x -> signed sg neg ->
    digit_group 10 i di -> point_part p f -> digit_group 10 f df -> di ++ df <> [] ->
    m = positional 10 (di ++ df) -> ((x = [] /\ ex = 0) \/ exponent_part 101 x ex) ->
    float_literal s neg m 10 (ex - Z.of_nat (length df)) ex
| fl_hex : forall sg y u i p f x di df ex,
    s = sg ++ 48 :: y :: (u ++ i) ++ p ++ f ++ x -> signed sg neg -> (y = 120 \/ y = 88) ->
    one_underscore u -> (u = [] \/ i <> []) ->
    digit_group 16 i di -> point_part p f -> digit_group 16 f df -> di ++ df <> [] ->
    m = positional 16 (di ++ df) -> exponent_part 112 x ex ->
    float_literal s neg m 2 (ex - 4 * Z.of_nat (length df)) ex.

(** [r] is n/d rounded to the nearest float64, ties to even, or the range error. *)
Definition nearest (neg : bool) (n d : Z) (r : numerr + spec_float) : Prop :=
  (exists x, r = inr x /\ rounded n d x /\ negative x = neg /\ ~ too_large n d) \/ (r = inl ErrRange /\ too_large n d).
Definition numer_of (neg : bool) (m b k : Z) : Z := (if neg then -1 else 1) * (m * b ^ Z.max k 0).
Definition denom_of (b k : Z) : Z := b ^ Z.max (- k) 0.

(** The answer ParseFloat has to give.  Go reads exponents of six and more digits
    inexactly, which matters only for texts of thousands of bytes. *)
Definition float_answer (s : bytes) (r : numerr + spec_float) : Prop :=
  (forall neg, infinity_text s neg -> r = inr (S754_infinity neg)) /\
  (nan_text s -> r = inr S754_nan) /\
  (forall neg m b k ex, float_literal s neg m b k ex -> Z.abs ex < 100000 \/ Z.of_nat (length s) <= 2000 ->
     nearest neg (numer_of neg m b k) (denom_of b k) r) /\
  (forall neg m b k ex, float_literal s neg m b k ex -> r <> inl ErrSyntax) /\
  ((forall neg, ~ infinity_text s neg) -> ~ nan_text s -> (forall neg m b k ex, ~ float_literal s neg m b k ex) ->
     r = inl ErrSyntax).

(** A parser that reads the longest word of [R] and hands its text to ParseFloat: the
    float64, or the error with the text and whether it is out of range. *)
Definition parsed_token (e : pexp) (cls : string) (R : tlang) : Prop :=
  forall env c, (forall k, peg_gram (env k)) -> Forall is_byte (c_str c) -> (c_pos c <= length (c_str c))%nat ->
  c_st c = Matched ->
  exists n o err, run env n e c = Ok (o, err) /\
    ((exists w s r, longest R (skipn (c_pos c) (c_str c)) w s /\ float_answer s r /\
        match r with
        | inr x => err = None /\ c_st o = Matched /\ c_pos o = (c_pos c + length w)%nat /\
            exists a, c_stack o = c_stack c ++ [a] /\ a_cls a = cls /\ a_ty a = TFloat /\ a_val a = VFloat x
        | inl er => err = Some (ENum "ParseFloat" s (is_range er)) /\ c_st o = Errored
        end) \/
     (no_word R (skipn (c_pos c) (c_str c)) /\ err = None /\ c_st o = Unmatched)).
