(** Specifications for the literal, identifier, date and time parsers (C31-C35).
    The words are described byte by byte; no parsers are mentioned except as the
    subject of [token]. *)
From Verif Require Export S_Lang S_Trans S_Core M_Extra.

(** The parser [e], run on any source at any position inside it, terminates without
    an error.  It matches iff some prefix of the rest of the source is a word of [R];
    then it consumes the longest such prefix and appends exactly one AST, with class
    [cls], type String and the text that belongs to the consumed word. *)
Definition token (e : pexp) (cls : string) (R : tlang) : Prop :=
  forall env c, (forall k, peg_gram (env k)) -> Forall is_byte (c_str c) -> (c_pos c <= length (c_str c))%nat ->
  c_st c = Matched ->
  exists n o, run env n e c = Ok (o, None) /\
    ((exists w t a, longest R (skipn (c_pos c) (c_str c)) w t /\
        c_st o = Matched /\ c_pos o = (c_pos c + length w)%nat /\ c_stack o = c_stack c ++ [a] /\
        a_cls a = cls /\ a_ty a = TString /\ a_val a = VStr t) \/
     (no_word R (skipn (c_pos c) (c_str c)) /\ c_st o = Unmatched)).

(** Words whose text is [f] of the word. *)
Definition outL (f : bytes -> bytes) (W : bytes -> Prop) : tlang := fun w o => W w /\ o = f w.
(** The text without underscores. *)
Definition strip (s : bytes) : bytes := filter (fun b => negb (b =? 95)) s.
Definition verbatim (s : bytes) : bytes := s.

(** ** C31 *)
Definition bin_digit (b : Z) : Prop := 48 <= b <= 49.
Definition oct_digit (b : Z) : Prop := 48 <= b <= 55.
Definition dec_digit (b : Z) : Prop := 48 <= b <= 57.
Definition hex_digit (b : Z) : Prop := 48 <= b <= 57 \/ 65 <= b <= 70 \/ 97 <= b <= 102.
(** A digit followed by digits and underscores. *)
Definition spaced (D : Z -> Prop) (w : bytes) : Prop :=
  exists d r, w = d :: r /\ D d /\ Forall (fun b => D b \/ b = 95) r.

(** ** C32 *)
Definition sign (w : bytes) : Prop := w = [] \/ w = [43] \/ w = [45].
(** 0_* or [1-9][0-9_]* *)
Definition int_shape (w : bytes) : Prop :=
  (exists r, w = 48 :: r /\ Forall (fun b => b = 95) r) \/
  (exists d r, w = d :: r /\ 49 <= d <= 57 /\ Forall (fun b => dec_digit b \/ b = 95) r).
Definition integer_word (w : bytes) : Prop := exists s b, w = s ++ b /\ sign s /\ int_shape b.

(** ** C33 *)
Definition exponent_word (w : bytes) : Prop :=
  exists e s b, w = e :: s ++ b /\ (e = 69 \/ e = 101) /\ sign s /\ spaced dec_digit b.
Definition opt_exponent (w : bytes) : Prop := w = [] \/ exponent_word w.
Definition digits_ (w : bytes) : Prop := Forall (fun b => dec_digit b \/ b = 95) w.
(** The mantissa of a float without an exponent: a point is there. *)
Definition point_mantissa (m : bytes) : Prop :=
  (exists i f, m = i ++ 46 :: f /\ int_shape i /\ digits_ f) \/
  (exists f, m = 46 :: f /\ f <> [] /\ digits_ f).
Definition float_word (w : bytes) : Prop := exists s m x, w = s ++ m ++ x /\ sign s /\
  ((point_mantissa m /\ opt_exponent x) \/ (int_shape m /\ exponent_word x)).
Definition numeric_word (w : bytes) : Prop := exists s m x, w = s ++ m ++ x /\ sign s /\
  (point_mantissa m \/ int_shape m) /\ opt_exponent x.
(** What a decimal float parser accepts: sign, digits with at most one point and at
    least one digit, optional exponent with at least one digit. *)
Definition decimal_float (w : bytes) : Prop := exists s i p f x, w = s ++ i ++ p ++ f ++ x /\ sign s /\
  Forall dec_digit i /\ (p = [46] \/ (p = [] /\ f = [])) /\ Forall dec_digit f /\ i ++ f <> [] /\
  (x = [] \/ exists e s' ds, x = e :: s' ++ ds /\ (e = 69 \/ e = 101) /\ sign s' /\ ds <> [] /\ Forall dec_digit ds).
(** The number has a digit before its exponent. *)
Definition has_mantissa_digit (w : bytes) : Prop :=
  exists pre d post, w = pre ++ d :: post /\ dec_digit d /\ ~ In 69 pre /\ ~ In 101 pre.

(** ** C34 *)
Definition ascii_letter (b : Z) : Prop := 65 <= b <= 90 \/ 97 <= b <= 122.
Definition ascii_ident (w : bytes) : Prop := exists b r, w = b :: r /\
  (ascii_letter b \/ b = 95 \/ b = 36) /\ Forall (fun x => ascii_letter x \/ dec_digit x \/ x = 95 \/ x = 36) r.
Definition in_table (t : Z -> bool) (r : Z) : Prop := t r = true.
Definition id_start (u : utables) (r : Z) : Prop :=
  (in_table (ut_L u) r \/ in_table (ut_Nl u) r \/ in_table (ut_Other_ID_Start u) r) /\
  ~ in_table (ut_Pattern_Syntax u) r /\ ~ in_table (ut_Pattern_White_Space u) r.
Definition id_continue (u : utables) (r : Z) : Prop :=
  (in_table (ut_L u) r \/ in_table (ut_Nl u) r \/ in_table (ut_Other_ID_Start u) r \/
   in_table (ut_Mn u) r \/ in_table (ut_Mc u) r \/ in_table (ut_Nd u) r \/ in_table (ut_Pc u) r \/
   in_table (ut_Other_ID_Continue u) r \/ r = 8204 \/ r = 8205) /\
  ~ in_table (ut_Pattern_Syntax u) r /\ ~ in_table (ut_Pattern_White_Space u) r.
Definition unicode_ident (u : utables) (w : bytes) : Prop := exists r rs, utf8 (r :: rs) w /\
  (r = 95 \/ r = 36 \/ id_start u r) /\ Forall (fun x => x = 36 \/ id_continue u x) rs.

(** ** C35 *)
(** [-]yyyy..-mm-dd with month digits [01][0-9] and day digits [0-3][0-9]. *)
Definition date_word (w : bytes) : Prop := exists s y m1 m2 d1 d2,
  w = s ++ y ++ [45; m1; m2; 45; d1; d2] /\ (s = [] \/ s = [45]) /\
  (4 <= length y)%nat /\ Forall dec_digit y /\ 48 <= m1 <= 49 /\ dec_digit m2 /\ 48 <= d1 <= 51 /\ dec_digit d2.
(** hh:mm *)
Definition clock (w : bytes) : Prop := exists h1 h2 m1 m2,
  w = [h1; h2; 58; m1; m2] /\ 48 <= h1 <= 50 /\ dec_digit h2 /\ 48 <= m1 <= 53 /\ dec_digit m2.
Definition zeros (n : nat) : bytes := repeat 48 n.
(** hh:mm, hh:mm:ss or hh:mm:ss.f.. with one to nine fraction digits, in the fixed
    format hh:mm:ss.fffffffff. *)
Definition timeL : tlang := fun w o => exists h, clock h /\
  ((w = h /\ o = h ++ [58; 48; 48; 46] ++ zeros 9) \/
   (exists s1 s2, 48 <= s1 <= 54 /\ dec_digit s2 /\
     ((w = h ++ [58; s1; s2] /\ o = h ++ [58; s1; s2; 46] ++ zeros 9) \/
      (exists f, (1 <= length f <= 9)%nat /\ Forall dec_digit f /\
        w = h ++ [58; s1; s2; 46] ++ f /\ o = h ++ [58; s1; s2; 46] ++ f ++ zeros (9 - length f))))).
Definition zoneL : tlang := fun w o =>
  (w = [90] /\ o = [43; 48; 48; 58; 48; 48]) \/
  (exists s h1 h2 m1 m2, (s = 43 \/ s = 45) /\ dec_digit h1 /\ dec_digit h2 /\ 48 <= m1 <= 53 /\ dec_digit m2 /\
     w = [s; h1; h2; 58; m1; m2] /\ o = w).
Definition date_timeL : tlang := fun w o => exists d t t' z z',
  date_word d /\ timeL t t' /\ zoneL z z' /\ w = d ++ [84] ++ t ++ z /\ o = d ++ [84] ++ t' ++ z'.
(** hh:mm:ss.fffffffff *)
Definition fixed_time (o : bytes) : Prop := exists h s1 s2 f,
  clock h /\ o = h ++ [58; s1; s2; 46] ++ f /\ dec_digit s1 /\ dec_digit s2 /\ length f = 9%nat /\ Forall dec_digit f.
