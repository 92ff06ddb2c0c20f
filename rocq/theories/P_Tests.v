(** The tests of the repository and the examples of its README files, replayed on the model.  They
    are not claims: they check the model against the answers that the authors expect. *)
From Verif Require Import M_Formula M_Torpn M_Equal M_CsvAny M_Intro.
From Verif Require P_Quote.

(** ** string/parsers_1_test.go:12-70, TestSeq *)
Definition test_seq (s text : bytes) (o : ctx) : Prop := run (fun _ => EUnmatched) 10 (SSeq s) (new_string_ctx text) = Ok (o, None).
Example test_seq_1 : exists o a, test_seq (bs "abc") (bs "abc") o /\ c_st o = Matched /\ c_stack o = [a] /\
  item_equals (VAst a) (VAst (mkAst 0 ":string:Seq" TString (VStr (bs "abc")) sp0)) = Some true.
Proof. do 2 eexists. split; [vm_compute; reflexivity|]. split; [reflexivity|]. split; reflexivity. Qed.
Example test_seq_2 : exists o, test_seq (bs "abc") (bs "abd") o /\ c_st o = Unmatched.
Proof. eexists. split; [vm_compute; reflexivity|reflexivity]. Qed.

(** ** _examples/csv/test_1_test.go *)
Definition q (s : string) : bytes := [34] ++ bs s ++ [34].
Example test_csv_1 : Parse 300 (bs "foo,bar") = Ok (inr [[bs "foo"; bs "bar"]]).
Proof. vm_compute. reflexivity. Qed.
Example test_csv_2 : Parse 300 (q "foo" ++ bs "," ++ q "bar") = Ok (inr [[bs "foo"; bs "bar"]]).
Proof. vm_compute. reflexivity. Qed.
Example test_csv_3 : Parse 300 (bs "foo,bar" ++ [13; 10] ++ bs "1,2") = Ok (inr [[bs "foo"; bs "bar"]; [bs "1"; bs "2"]]).
Proof. vm_compute. reflexivity. Qed.
Example test_csv_4 : Parse 300 (q "foo" ++ bs "," ++ q "bar" ++ [13; 10] ++ q "1" ++ bs "," ++ q "2") = Ok (inr [[bs "foo"; bs "bar"]; [bs "1"; bs "2"]]).
Proof. vm_compute. reflexivity. Qed.
Example test_csv_5 : exists e, Parse 300 (q "foo" ++ bs "," ++ q "bar" ++ [13; 10] ++ q "1" ++ bs "," ++ [34] ++ bs "2") = Ok (inl e).
Proof. eexists. vm_compute. reflexivity. Qed.

(** ** _examples/formula/formula_test.go *)
Definition answers_all (l : list (string * Z)) : bool :=
  forallb (fun p => match formula_Parse 300 (bs (fst p)) with Ok (inr v) => v =? snd p | _ => false end) l.
Example test_formula : answers_all
  [("17", 17); (" 17 ", 17); ("----17", 17); ("17+19", 36); (" 17 + 19 ", 36);
   ("(1*2+3)*(4-5*6)+7", -123); (" ( 1 * 2 + 3) * ( 4 - 5 * 6 ) + 7 ", -123);
   ("7+(1*2+3)*(4-5*6)", -123); (" 7 + ( 1 * 2 + 3 ) * ( 4 - 5 * 6 ) ", -123);
   ("-7+(1*2+3)*(4-5*6)", -137); ("-7+-(1*2+3)*(4-5*6)", 123); ("-7+-(1*2+3)*-(4-5*6)", -137)]%string = true.
Proof. vm_compute. reflexivity. Qed.
Example test_formula_error : exists e, formula_Parse 300 (bs "-7+-(1*2+a3)*-(4-5*6)") = Ok (inl e).
Proof. eexists. vm_compute. reflexivity. Qed.

(** ** _examples/torpn/torpn_test.go *)
Definition op (s : string) : value := VStr (bs s).
Definition rpn (s : string) (l : list value) : Prop := torpn_Parse 300 (bs s) = Ok (inr (inr l)).
Example test_torpn :
  rpn "1+2*3" [VInt 1; VInt 2; VInt 3; op "*"; op "+"] /\
  rpn "(1+2)*3" [VInt 1; VInt 2; op "+"; VInt 3; op "*"] /\
  rpn "((((1+2)))*3)" [VInt 1; VInt 2; op "+"; VInt 3; op "*"] /\
  rpn "-1-2*-3" [VInt (-1); VInt 2; VInt (-3); op "*"; op "-"] /\
  rpn "-(1+2)*3" [VInt 1; VInt 2; op "+"; op "-"; VInt 3; op "*"] /\
  rpn "--(1+2)*3" [VInt 1; VInt 2; op "+"; op "-"; op "-"; VInt 3; op "*"] /\
  rpn "3+5*7+11" [VInt 3; VInt 5; VInt 7; op "*"; op "+"; VInt 11; op "+"] /\
  rpn "(3+5)*(7+11)" [VInt 3; VInt 5; op "+"; VInt 7; VInt 11; op "+"; op "*"] /\
  rpn "13" [VInt 13].
Proof. repeat match goal with |- _ /\ _ => split; [vm_compute; reflexivity|] end. vm_compute. reflexivity. Qed.

(** ** _examples/csv/README.md *)
Definition Foobar : list field := [mkFd (bs "XFoo") (bs "Foo") KString true; mkFd (bs "Bar") [] KString true; mkFd (bs "XBaz") (bs "Baz") (KInt 64) true].
Example readme_parse : Parse 300 (bs "a,b,c" ++ [10] ++ bs "1,2,3") = Ok (inr [[bs "a"; bs "b"; bs "c"]; [bs "1"; bs "2"; bs "3"]]).
Proof. vm_compute. reflexivity. Qed.
Example readme_unmarshal : UnmarshalAny P_Quote.print_ascii 300 (fun _ m => m) (ShPtr false (ShSlice (ShStruct Foobar))) (bs "Foo,Bar,Baz" ++ [10] ++ bs "1,2,3") =
  Ok (inr (Some [[GStr (bs "1"); GStr (bs "2"); GInt 3]])).
Proof. vm_compute. reflexivity. Qed.
Example readme_marshal : MarshalAny (fun _ m => m) [bs "Foo"; bs "Bar"; bs "Baz"] (ShSlice (ShStruct Foobar))
    [[GStr (bs "foo0"); GStr (bs "bar0"); GInt 0]; [GStr (bs "foo1"); GStr (bs "bar1"); GInt 1]] =
  Ok (inr (bs "foo0,bar0,0" ++ [10] ++ bs "foo1,bar1,1")).
Proof. vm_compute. reflexivity. Qed.
Example readme_to_csv : ToCsv [[bs "a"; bs "b"; bs "c"]] = bs "a,b,c".
Proof. vm_compute. reflexivity. Qed.
