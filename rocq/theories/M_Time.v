(** Model of extra/transformers.go and of the part of the Go standard library it
    uses: time.Parse for the two layouts that occur, time.Date and Time.UTC.
    Simplification: the layouts are given as chunks; the chunking done by
    time.nextStdChunk of "2006-01-02" and "2006-01-02T15:04:05.000000000-07:00" is
    read off by hand.  The text of a *time.ParseError is not modelled. *)
From Verif Require Export M_StrTrans M_Extra.

(** A time.Time in UTC: seconds since 1970-01-01T00:00:00Z and nanoseconds. *)
Record gtime := mkTime { t_unix : Z; t_nsec : Z }.

(** time/format.go, the chunks of a layout. *)
Inductive chunk := LLit (b : Z) | LYear | LMonth | LDay | LHour | LMinute | LSecond | LFrac9 | LZone.

(** The variables of time.parse. *)
Record fields := mkF { f_year : Z; f_month : Z; f_day : Z; f_hour : Z; f_min : Z; f_sec : Z; f_nsec : Z; f_zone : Z }.
Definition fields0 : fields := mkF 0 1 1 0 0 0 0 0.

(** time.isDigit(s, 0) *)
Definition is_dig (b : Z) : bool := (48 <=? b) && (b <=? 57).

(** time.getnum *)
Definition getnum (s : bytes) (fixed : bool) : option (Z * bytes) :=
  match s with
  | a :: r =>
      if is_dig a then
        match r with
        | b :: r' => if is_dig b then Some ((a - 48) * 10 + (b - 48), r')
                     else if fixed then None else Some (a - 48, r)
        | [] => if fixed then None else Some (a - 48, r)
        end
      else None
  | [] => None
  end.

(** time.leadingInt followed by the test that nothing is left.  Its overflow test is
    left out: at most nine bytes are read. *)
Fixpoint all_digits (x : Z) (s : bytes) : option Z :=
  match s with
  | [] => Some x
  | b :: r => if is_dig b then all_digits (x * 10 + (b - 48)) r else None
  end.
(** time.atoi: note that an empty text after the sign is 0. *)
Definition time_atoi (s : bytes) : option Z :=
  match s with
  | [] => Some 0
  | b :: r =>
      if b =? 45 then option_map Z.opp (all_digits 0 r)
      else if b =? 43 then all_digits 0 r else all_digits 0 s
  end.

(** A field in a range; out of range is a ParseError. *)
Definition ranged (lo hi : Z) (k : option (Z * bytes)) : option (Z * bytes) :=
  match k with
  | Some (x, r) => if (lo <=? x) && (x <=? hi) then Some (x, r) else None
  | None => None
  end.

(** stdNumColonTZ: sign hh:mm.  [strict]: since Go 1.20 hour and minute have to be two
    digits and are range checked (hour <= 24, minute <= 60). *)
Definition zone_num (strict : bool) (a b hi : Z) : option Z :=
  if strict then
    match ranged 0 hi (getnum [a; b] true) with Some (x, _) => Some x | None => None end
  else time_atoi [a; b].
Definition zone (strict : bool) (s : bytes) : option (Z * bytes) :=
  match s with
  | sg :: h1 :: h2 :: c :: m1 :: m2 :: r =>
      if c =? 58 then
        match zone_num strict h1 h2 24, zone_num strict m1 m2 60 with
        | Some h, Some m =>
            let off := (h * 60 + m) * 60 in
            if sg =? 43 then Some (off, r) else if sg =? 45 then Some (- off, r) else None
        | _, _ => None
        end
      else None
  | _ => None
  end.

(** time.parseNanoseconds with ten bytes: "." (or ",") and nine digits. *)
Definition frac9 (s : bytes) : option (Z * bytes) :=
  match s with
  | p :: r =>
      if ((p =? 46) || (p =? 44)) && Nat.leb 9 (length r) then
        match time_atoi (firstn 9 r) with
        | Some x => if x <? 0 then None else Some (x, skipn 9 r)
        | None => None
        end
      else None
  | [] => None
  end.

(** stdLongYear: four bytes, the first a digit. *)
Definition year4 (s : bytes) : option (Z * bytes) :=
  match s with
  | a :: b :: c :: d :: r =>
      if is_dig a then
        match time_atoi [a; b; c; d] with Some y => Some (y, r) | None => None end
      else None
  | _ => None
  end.

Definition put {A B} (k : option (A * bytes)) (f : A -> bytes -> option B) : option B :=
  match k with Some (x, r) => f x r | None => None end.

(** The loop of time.parse. *)
Fixpoint time_loop (strict : bool) (layout : list chunk) (s : bytes) (f : fields) : option fields :=
  let '(mkF y mo d h mi se ns z) := f in
  match layout with
  | [] => match s with [] => Some f | _ => None end
  | LLit b :: l =>
      match s with
      | x :: r => if x =? b then time_loop strict l r f else None
      | [] => None
      end
  | LYear :: l => put (year4 s) (fun x r => time_loop strict l r (mkF x mo d h mi se ns z))
  | LMonth :: l => put (ranged 1 12 (getnum s true)) (fun x r => time_loop strict l r (mkF y x d h mi se ns z))
  | LDay :: l => put (getnum s true) (fun x r => time_loop strict l r (mkF y mo x h mi se ns z))
  | LHour :: l => put (ranged 0 23 (getnum s false)) (fun x r => time_loop strict l r (mkF y mo d x mi se ns z))
  | LMinute :: l => put (ranged 0 59 (getnum s true)) (fun x r => time_loop strict l r (mkF y mo d h x se ns z))
  | LSecond :: l => put (ranged 0 59 (getnum s true)) (fun x r => time_loop strict l r (mkF y mo d h mi x ns z))
  | LFrac9 :: l => put (frac9 s) (fun x r => time_loop strict l r (mkF y mo d h mi se x z))
  | LZone :: l => put (zone strict s) (fun x r => time_loop strict l r (mkF y mo d h mi se ns x))
  end.

(** time.isLeap *)
Definition isLeap (y : Z) : bool := (Z.rem y 4 =? 0) && (negb (Z.rem y 100 =? 0) || (Z.rem y 400 =? 0)).
(** time.daysBefore *)
Definition daysBefore : list Z := [0; 31; 59; 90; 120; 151; 181; 212; 243; 273; 304; 334; 365].
Definition days_before (m : Z) : Z := nth (Z.to_nat m) daysBefore 0.
(** time.daysIn *)
Definition daysIn (m y : Z) : Z :=
  if (m =? 2) && isLeap y then 29 else days_before m - days_before (m - 1).

(** time/time.go *)
Definition absoluteZeroYear : Z := -292277022399.
Definition absoluteToInternal : Z := (absoluteZeroYear - 1) / 400 * 146097 * 86400.  (* (zero - 1) * 365.2425 days *)
Definition internalToUnix : Z := - ((1969 * 365 + 1969 / 4 - 1969 / 100 + 1969 / 400) * 86400).

(** time.daysSinceEpoch *)
Definition daysSinceEpoch (year : Z) : Z :=
  let y := year - absoluteZeroYear in
  let n4 := y / 400 in
  let y1 := y - 400 * n4 in
  let n1 := y1 / 100 in
  let y2 := y1 - 100 * n1 in
  let n0 := y2 / 4 in
  let y3 := y2 - 4 * n0 in
  146097 * n4 + 36524 * n1 + 1461 * n0 + 365 * y3.

(** time.Date for fields in range.  The uint64 and int64 sums are taken in Z: the
    last one is far inside int64, and wrapping commutes with sums. *)
Definition date_unix (f : fields) : Z :=
  let '(mkF y mo d h mi se ns z) := f in
  let days := daysSinceEpoch y + days_before (mo - 1)
              + (if isLeap y && (3 <=? mo) then 1 else 0) + (d - 1) in
  days * 86400 + (h * 3600 + mi * 60 + se) + (absoluteToInternal + internalToUnix).

(** time.Parse, followed by Time.UTC.  Looking up a local zone with the offset that
    was read changes the Location only, which UTC() replaces. *)
Definition time_parse (strict : bool) (layout : list chunk) (s : bytes) : option gtime :=
  match time_loop strict layout s fields0 with
  | Some f =>
      if (f_day f <? 1) || (daysIn (f_month f) (f_year f) <? f_day f) then None
      else Some (mkTime (date_unix f - f_zone f) (f_nsec f))
  | None => None
  end.

Definition date_layout : list chunk := [LYear; LLit 45; LMonth; LLit 45; LDay].
Definition date_time_layout : list chunk :=
  date_layout ++ [LLit 84; LHour; LLit 58; LMinute; LLit 58; LSecond; LFrac9; LZone].

(** [asts[len(asts)-1].Value.(string)] *)
Definition last_text (asts : list ast) : res bytes :=
  match asts with
  | [] => Panic "index out of range"
  | a :: r => match as_str (a_val (last r a)) with
              | Some s => Ok s
              | None => Panic "interface conversion"
              end
  end.

(** The common part.  [mk] is the dynamic value of a time.Time. *)
Definition time_trans (strict : bool) (mk : gtime -> value) (cls : string) (layout : list chunk)
    (pre post : bytes) : trans := fun _ _ asts =>
  match last_text asts with
  | Ok s =>
      match time_parse strict layout (pre ++ s ++ post) with
      | Some t => tok [mkAst 0 cls TAny (mk t) sp0]
      | None => terr (EText "parsing time")
      end
  | Panic w => Panic w
  | Fuel => Fuel
  end.

(** extra/transformers.go:10-21 *)
Definition ParseDate (strict : bool) (mk : gtime -> value) : trans :=
  time_trans strict mk ":extra:Date" date_layout [] [].
(** extra/transformers.go:23-35 *)
Definition ParseDateTime (strict : bool) (mk : gtime -> value) : trans :=
  time_trans strict mk ":extra:DateTime" date_time_layout [] [].
(** extra/transformers.go:37-48 *)
Definition ParseTime (strict : bool) (mk : gtime -> value) : trans :=
  time_trans strict mk ":extra:Time" date_time_layout (bs "1970-01-01T") (bs "+00:00").
