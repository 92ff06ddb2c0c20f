(** Model of the minimal parser of _docs/introduction.md and of main.go. *)
From Verif Require Export M_Err M_Csv M_Extra.

(** _docs/introduction.md:66-79, program; [e] is the parser between Start and End, in the document
    [letters]. *)
Definition intro_program (e : pexp) : pexp := EFlatGroup [EStart; e; SEnd].
Definition letters : pexp := ETrans (EOneOrMore [SAlpha]) [Concat].
(** 92-97 and 104-109: the text of the error. *)
Definition intro_fail (s : bytes) (o : ctx) (err : option gerr) : res (option bytes + bytes) :=
  match GetLineAndColPosition s (c_pos o) 4 with
  | Ok lc => Ok (inl (message err lc))
  | Panic w => Panic w
  | Fuel => Fuel
  end.
(** 88-111, Parse; [n] is the fuel of the parser. *)
Definition intro_Parse (n : nat) (e : pexp) (s : bytes) : res (option bytes + bytes) :=
  match run (fun _ => EUnmatched) n (intro_program e) (new_string_ctx s) with
  | Panic w => Panic w
  | Fuel => Fuel
  | Ok (o, Some x) => intro_fail s o (Some x)
  | Ok (o, None) =>
      match c_st o with
      | Matched =>
          match c_stack o with
          | [] => Panic "index out of range"
          | a :: _ => match a_val a with VStr t => Ok (inr t) | _ => Panic "interface conversion" end
          end
      | _ => intro_fail s o None
      end
  end.

(** fmt.Println (Go standard library) of a [][]string and of a string. *)
Fixpoint spaced_out (l : list bytes) : bytes :=
  match l with [] => [] | [x] => x | x :: r => x ++ [32] ++ spaced_out r end.
Definition bracketed (l : list bytes) : bytes := [91] ++ spaced_out l ++ [93].
Definition Println_rows (rows : list (list bytes)) : bytes := bracketed (map bracketed rows) ++ [10].
Definition Println_string (s : bytes) : bytes := s ++ [10].
(** main.go:10-23 for the text [s] in line 11: what is written to the standard output and to the
    standard error, and the exit status. *)
Definition main_with (n : nat) (s : bytes) : res (bytes * option bytes * Z) :=
  match Parse n s with
  | Ok (inl e) => Ok ([], message (ce_err e) (ce_pos e), -1)                        (* Fprintln adds LF *)
  | Ok (inr x) => Ok (Println_rows x ++ Println_string (ToCsv x), Some [], 0)
  | Panic w => Panic w
  | Fuel => Fuel
  end.
Definition main_text : bytes := bs "0,1,2,3,4,5,6,7,8,9" ++ [10] ++ bs "0,1,2,3,4,5,6,7,8,9".
