(** Model of the parts of Go's unicode/utf8 and of the conversion string(rune)
    used by string/parsers.go and extra/extra.go (Go standard library,
    unicode/utf8/utf8.go: DecodeRuneInString, EncodeRune; trusted reading). *)
From Verif Require Export M_Types.

Definition RuneError : Z := 65533. (* 0xFFFD *)

Definition in_rng (lo hi b : Z) : bool := (lo <=? b) && (b <=? hi).
Definition is_cont (b : Z) : bool := in_rng 128 191 b.

(** Accept ranges of the second byte, utf8.go acceptRanges / first. *)
Definition second_ok (b0 b1 : Z) : bool :=
  if b0 =? 224 then in_rng 160 191 b1        (* E0: A0..BF *)
  else if b0 =? 237 then in_rng 128 159 b1   (* ED: 80..9F *)
  else if b0 =? 240 then in_rng 144 191 b1   (* F0: 90..BF *)
  else if b0 =? 244 then in_rng 128 143 b1   (* F4: 80..8F *)
  else is_cont b1.

(** utf8.DecodeRuneInString: rune and width; (RuneError,0) on empty input and
    (RuneError,1) on an invalid encoding. *)
Definition decode_rune (s : bytes) : Z * nat :=
  match s with
  | [] => (RuneError, 0%nat)
  | b0 :: s1 =>
      if b0 <? 128 then (b0, 1%nat)
      else if in_rng 194 223 b0 then
        match s1 with
        | b1 :: _ => if is_cont b1 then ((b0 - 192) * 64 + (b1 - 128), 2%nat)
                     else (RuneError, 1%nat)
        | _ => (RuneError, 1%nat)
        end
      else if in_rng 224 239 b0 then
        match s1 with
        | b1 :: b2 :: _ =>
            if second_ok b0 b1 && is_cont b2
            then ((b0 - 224) * 4096 + (b1 - 128) * 64 + (b2 - 128), 3%nat)
            else (RuneError, 1%nat)
        | _ => (RuneError, 1%nat)
        end
      else if in_rng 240 244 b0 then
        match s1 with
        | b1 :: b2 :: b3 :: _ =>
            if second_ok b0 b1 && is_cont b2 && is_cont b3
            then ((b0 - 240) * 262144 + (b1 - 128) * 4096 + (b2 - 128) * 64 + (b3 - 128), 4%nat)
            else (RuneError, 1%nat)
        | _ => (RuneError, 1%nat)
        end
      else (RuneError, 1%nat)
  end.

(** A Unicode scalar value (utf8.ValidRune). *)
Definition valid_rune (r : Z) : bool :=
  (in_rng 0 55295 r) || (in_rng 57344 1114111 r).

(** string(r) for a rune r: UTF-8 encoding, U+FFFD for invalid runes. *)
Definition encode_rune (r0 : Z) : bytes :=
  let r := if valid_rune r0 then r0 else RuneError in
  if r <? 128 then [r]
  else if r <? 2048 then [192 + r / 64; 128 + r mod 64]
  else if r <? 65536 then [224 + r / 4096; 128 + (r / 64) mod 64; 128 + r mod 64]
  else [240 + r / 262144; 128 + (r / 4096) mod 64; 128 + (r / 64) mod 64; 128 + r mod 64].

(** utf8.RuneStart: [b&0xC0 != 0x80]. *)
Definition rune_start (b : Z) : bool := negb (is_cont b).

(** utf8.DecodeLastRuneInString.  Go scans back at most UTFMax = 4 bytes for a
    RuneStart byte and decodes there; when none is found, or the decoded width
    does not reach the end, the result is (RuneError, 1). *)
Fixpoint last_start (s : bytes) (fuel k : nat) : option nat :=
  match fuel with
  | O => None
  | S f =>
      if Nat.ltb (length s) k then None
      else if rune_start (nth (length s - k) s 0) then Some k
      else last_start s f (S k)
  end.
Definition decode_last_rune (s : bytes) : Z * nat :=
  match s with
  | [] => (RuneError, 0%nat)
  | _ =>
      let b := last s 0 in
      if b <? 128 then (b, 1%nat)
      else
        match last_start s 3 2 with
        | None => (RuneError, 1%nat)
        | Some k =>
            let '(r, size) := decode_rune (skipn (length s - k) s) in
            if Nat.eqb size k then (r, size) else (RuneError, 1%nat)
        end
  end.
