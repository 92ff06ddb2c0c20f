(** Model of base/util.go: GetLineAndColPosition. *)
From Verif Require Export M_Types.

(** base/types.go: LineAndColPosition *)
Record linecol := mkLC { lc_index : nat; lc_line : nat; lc_col : nat; lc_pos : nat; lc_src : bytes }.
(** The loop variables of lines 8-12. *)
Record scan_st := mkSS { ss_prev : nat; ss_idx : nat; ss_line : nat; ss_col : nat; ss_tabs : nat }.

(** base/util.go:14-37.  The first argument is [src[i:pos.Position]]; the check that
    the position is inside the source (where [src[i]] would panic) is made by the
    caller below, before the loop instead of on reaching the end. *)
Fixpoint scan (rest : bytes) (i : nat) (s : scan_st) : scan_st :=
  match rest with
  | [] => s
  | b :: r1 =>
      if b =? 13 then
        match r1 with
        | b2 :: r2 =>
            if b2 =? 10
            then scan r2 (i + 2) (mkSS (ss_idx s) (i + 2) (ss_line s + 1) 1 0)
            else scan r1 (i + 1) (mkSS (ss_idx s) (i + 1) (ss_line s + 1) 1 0)
        | [] => scan r1 (i + 1) (mkSS (ss_idx s) (i + 1) (ss_line s + 1) 1 0)
        end
      else if b =? 10 then scan r1 (i + 1) (mkSS (ss_idx s) (i + 1) (ss_line s + 1) 1 0)
      else if b =? 9 then scan r1 (i + 1) (mkSS (ss_prev s) (ss_idx s) (ss_line s) (ss_col s + 1) (ss_tabs s + 1))
      else scan r1 (i + 1) (mkSS (ss_prev s) (ss_idx s) (ss_line s) (ss_col s + 1) (ss_tabs s))
  end.
(** base/util.go:39-49: how far [endIndex] moves over [src[pos.Position:]]. *)
Fixpoint to_line_end (rest : bytes) : nat :=
  match rest with
  | [] => 0%nat
  | b :: r => if (b =? 13) || (b =? 10) then 0%nat else S (to_line_end r)
  end.
(** strings.Repeat(" ", n), which panics for a negative count *)
Definition spaces_of (n : Z) : bytes := repeat 32 (Z.to_nat n).
(** strings.ReplaceAll(s, "\t", t) *)
Definition replace_tabs (t s : bytes) : bytes := flat_map (fun b => if b =? 9 then t else [b]) s.
(** strings.Contains(s, string(b)) for a single byte *)
Definition contains_byte (b : Z) (s : bytes) : bool := existsb (fun x => x =? b) s.
(** strings.Replace(s, string(b), t, 1) for a single byte *)
Fixpoint replace_once (b : Z) (t s : bytes) : bytes :=
  match s with
  | [] => []
  | x :: r => if x =? b then t ++ r else x :: replace_once b t r
  end.

(** base/util.go:7-75 *)
Definition GetLineAndColPosition (src : bytes) (pos : nat) (tab : Z) : res linecol :=
  if Nat.ltb (length src) pos then Panic "index out of range" else
  let s := scan (firstn pos src) 0 (mkSS 0 0 1 1 0) in
  let fin := (pos + to_line_end (skipn pos src))%nat in
  let guide := Z.max 0 (Z.of_nat (ss_col s) - 1 + Z.of_nat (ss_tabs s) * (tab - 1)) in
  if tab <? 0 then Panic "strings: negative Repeat count" else
  let e0 := firstn (fin - ss_prev s) (skipn (ss_prev s) src) in
  let e1 := replace_tabs (spaces_of tab) e0 in
  let e2 :=
    if contains_byte 10 e1 then bs "   | " ++ replace_once 10 (10 :: bs " > | ") e1 ++ [10]
    else if contains_byte 13 e1 then bs "   | " ++ replace_once 13 (13 :: bs " > | ") e1 ++ [13]
    else bs " > | " ++ e1 ++ [10] in
  Ok (mkLC (ss_idx s) (ss_line s) (ss_col s) pos (e2 ++ bs "   | " ++ spaces_of guide ++ bs "^^^^")).
