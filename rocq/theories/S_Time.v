(** Specifications for extra/transformers.go (C49-C51): the proleptic Gregorian
    calendar by its succession of days, and what the texts denote. *)
From Verif Require Export S_Extra M_Time.

(** ** The calendar *)
Definition leap (y : Z) : Prop :=
  (exists k, y = 4 * k) /\ ((forall k, y <> 100 * k) \/ exists k, y = 400 * k).
Inductive month_len (y : Z) : Z -> Z -> Prop :=
| ml_31 m : In m [1; 3; 5; 7; 8; 10; 12] -> month_len y m 31
| ml_30 m : In m [4; 6; 9; 11] -> month_len y m 30
| ml_29 : leap y -> month_len y 2 29
| ml_28 : ~ leap y -> month_len y 2 28.
Definition date := (Z * Z * Z)%type.                        (* year, month, day *)
Definition valid_date (a : date) : Prop :=
  let '(y, m, d) := a in exists n, month_len y m n /\ 1 <= d <= n.
Inductive tomorrow : date -> date -> Prop :=
| tm_day y m d n : month_len y m n -> 1 <= d < n -> tomorrow (y, m, d) (y, m, d + 1)
| tm_month y m n : month_len y m n -> m < 12 -> tomorrow (y, m, n) (y, m + 1, 1)
| tm_year y : tomorrow (y, 12, 31) (y + 1, 1, 1).
(** The number of days after 1970-01-01. *)
Inductive day_no : date -> Z -> Prop :=
| dn_epoch : day_no (1970, 1, 1) 0
| dn_next a b k : day_no a k -> tomorrow a b -> day_no b (k + 1)
| dn_prev a b k : day_no b k -> tomorrow a b -> day_no a (k - 1).

(** ** Texts *)
(** [n] decimal digits with value [x]. *)
Definition dec (n : nat) (s : bytes) (x : Z) : Prop :=
  length s = n /\ Forall dec_digit s /\ x = fold_left (fun v b => 10 * v + (b - 48)) s 0.
(** yyyy-mm-dd *)
Definition date_text (s : bytes) (a : date) : Prop := let '(y, m, d) := a in
  exists Y M D, s = Y ++ [45] ++ M ++ [45] ++ D /\ dec 4 Y y /\ dec 2 M m /\ dec 2 D d.
(** hh:mm:ss.nnnnnnnnn *)
Definition time_text (s : bytes) (h m se ns : Z) : Prop :=
  exists H M S N, s = H ++ [58] ++ M ++ [58] ++ S ++ [46] ++ N /\ dec 2 H h /\ dec 2 M m /\ dec 2 S se /\ dec 9 N ns.
(** +hh:mm or -hh:mm *)
Definition zone_text (s : bytes) (sg h m : Z) : Prop :=
  exists b H M, s = b :: H ++ [58] ++ M /\ ((b = 43 /\ sg = 1) \/ (b = 45 /\ sg = -1)) /\ dec 2 H h /\ dec 2 M m.

(** The instants the texts denote. *)
Definition date_value (s : bytes) (t : gtime) : Prop := exists a k,
  date_text s a /\ valid_date a /\ day_no a k /\ t = mkTime (86400 * k) 0.
Definition time_value (s : bytes) (t : gtime) : Prop := exists h m se ns,
  time_text s h m se ns /\ h < 24 /\ m < 60 /\ se < 60 /\ t = mkTime (3600 * h + 60 * m + se) ns.
(** [strict]: offsets of 25 hours and more are no offsets (Go 1.20 and later). *)
Definition date_time_value (strict : bool) (s : bytes) (t : gtime) : Prop :=
  exists D T Zn td tt sg zh zm, s = D ++ [84] ++ T ++ Zn /\ date_value D td /\ time_value T tt /\
    zone_text Zn sg zh zm /\ zm < 60 /\ (strict = true -> zh <= 24) /\
    t = mkTime (t_unix td + t_unix tt - sg * (3600 * zh + 60 * zm)) (t_nsec tt).

(** What time.Parse makes of other texts.  The hour may be one digit; the fraction follows a
    period or a comma, and may be a sign with eight digits if that is not negative; before
    Go 1.20 hours and minutes of the offset may be a sign with one digit, and any size. *)
Definition loose_frac (s : bytes) (ns : Z) : Prop := exists p N, s = p :: N /\ (p = 46 \/ p = 44) /\
  (dec 9 N ns \/ (exists M, N = 43 :: M /\ dec 8 M ns) \/ (exists M, N = 45 :: M /\ dec 8 M 0 /\ ns = 0)).
Definition loose_time (s : bytes) (h m se ns : Z) : Prop :=
  exists H M S F, s = H ++ [58] ++ M ++ [58] ++ S ++ F /\ (dec 1 H h \/ dec 2 H h) /\ dec 2 M m /\ dec 2 S se /\ loose_frac F ns.
Definition offset_num (strict : bool) (hi : Z) (s : bytes) (x : Z) : Prop :=
  (dec 2 s x /\ (strict = true -> x <= hi)) \/
  (strict = false /\ exists d, (s = 43 :: d /\ dec 1 d x) \/ (s = 45 :: d /\ dec 1 d (- x))).
Definition loose_zone (strict : bool) (s : bytes) (secs : Z) : Prop :=
  exists b sg H M h m, s = b :: H ++ [58] ++ M /\ ((b = 43 /\ sg = 1) \/ (b = 45 /\ sg = -1)) /\
    offset_num strict 24 H h /\ offset_num strict 60 M m /\ secs = sg * (3600 * h + 60 * m).
Definition loose_time_value (s : bytes) (t : gtime) : Prop := exists h m se ns,
  loose_time s h m se ns /\ h < 24 /\ m < 60 /\ se < 60 /\ t = mkTime (3600 * h + 60 * m + se) ns.
Definition loose_date_time_value (strict : bool) (s : bytes) (t : gtime) : Prop :=
  exists D T Zn td tt secs, s = D ++ [84] ++ T ++ Zn /\ date_value D td /\ loose_time_value T tt /\ loose_zone strict Zn secs /\
    t = mkTime (t_unix td + t_unix tt - secs) (t_nsec tt).

(** The transformer maps a text of [D] to the instant [V] gives it, and to an error if
    there is none.  Only the last AST counts. *)
Definition reads_time (t : trans) (mk : gtime -> value) (cls : string) (D : bytes -> Prop) (V : bytes -> gtime -> Prop) : Prop :=
  forall n c l a s, a_val a = VStr s -> D s ->
  (exists x, V s x /\ t n c (l ++ [a]) = Ok (inr [mkAst 0 cls TAny (mk x) (mkSP 0 0)])) \/
  ((forall x, ~ V s x) /\ exists e, t n c (l ++ [a]) = Ok (inl e)).

(** A parser that reads the longest word of [R] and returns the instant it denotes. *)
Definition instant_token (e : pexp) (mk : gtime -> value) (cls : string) (R : tlang) (V : bytes -> gtime -> Prop) : Prop :=
  forall env c, (forall k, peg_gram (env k)) -> Forall is_byte (c_str c) -> (c_pos c <= length (c_str c))%nat ->
  c_st c = Matched ->
  exists n o err, run env n e c = Ok (o, err) /\
    ((exists w s x, longest R (skipn (c_pos c) (c_str c)) w s /\ V s x /\ err = None /\
        c_st o = Matched /\ c_pos o = (c_pos c + length w)%nat /\
        c_stack o = c_stack c ++ [mkAst 0 cls TAny (mk x) (mkSP 0 0)]) \/
     (exists w s, longest R (skipn (c_pos c) (c_str c)) w s /\ (forall x, ~ V s x) /\
        err <> None /\ c_st o = Errored) \/
     (no_word R (skipn (c_pos c) (c_str c)) /\ err = None /\ c_st o = Unmatched)).
