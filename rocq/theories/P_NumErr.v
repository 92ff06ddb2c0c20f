(** The errors of the integer transformers (C21). *)
From Verif Require Import S_NumErr L_Trans L_NumErr.

(** A text that is too large is out of range, even if it is malformed further on; every other text
    that is no number is a syntax error. *)
Theorem C21_int_error : forall n c base l ss e, 2 <= base <= 36 -> Forall2 string_ast l ss ->
  (ParseIntRadix base n c l = Ok (inl e) <-> exists range, e = ENum "parseIntImpl" (concat ss) range /\ int_fault base (concat ss) range).
Proof.
  intros n c base l ss e Hb H. unfold ParseIntRadix. rewrite (with_concat_ok _ _ _ H). split.
  - destruct (parse_int (concat ss) base) as [er|z] eqn:P; [|discriminate]. intros E. injection E as <-. eexists. split; [reflexivity|]. apply parse_int_error; auto.
  - intros (r & -> & F). destruct (fault_int _ _ _ Hb F) as (er & -> & <-). reflexivity.
Qed.
Print Assumptions C21_int_error.
Theorem C21_uint_error : forall n c base l ss e, 2 <= base <= 36 -> Forall2 string_ast l ss ->
  (ParseUintRadix base n c l = Ok (inl e) <->
   exists t range, e = ENum "parseUintImpl" (concat ss) range /\ concat ss <> [] /\
     (concat ss = 43 :: t \/ (concat ss = t /\ forall u, t <> 43 :: u)) /\ uint_fault base t range).
Proof.
  intros n c base l ss e Hb H. unfold ParseUintRadix. rewrite (with_concat_ok _ _ _ H). destruct (concat ss) as [|x s].
  - split; [discriminate|]. intros (t & r & _ & N & _). congruence.
  - assert (U : forall t, (x :: s = 43 :: t \/ (x :: s = t /\ forall u, t <> 43 :: u)) <-> (if x =? 43 then s else x :: s) = t).
    { intros t. destruct (Z.eqb_spec x 43) as [->|N]; split.
      - intros [E|[<- F]]; [congruence|elim (F s); reflexivity].
      - intros ->. auto.
      - intros [E|[E F]]; congruence.
      - intros <-. right. split; [reflexivity|]. intros u. congruence. }
    split.
    + destruct (parse_uint _ base) as [er|z] eqn:P; [|discriminate]. intros E. injection E as <-. do 2 eexists. split; [reflexivity|]. split; [discriminate|].
      split; [apply U; reflexivity|]. apply parse_uint_error; auto.
    + intros (t & r & -> & _ & Ht & F). apply U in Ht. match goal with |- context [parse_uint ?u base] => replace u with t by (symmetry; exact Ht) end. destruct (fault_uint _ _ _ Hb F) as (er & -> & <-). reflexivity.
Qed.
Print Assumptions C21_uint_error.
Example C21_error_example :
  ParseInt 0%nat (new_string_ctx []) [mkAst 0 "" TString (VStr (bs "-99999999999999999999x")) sp0] = Ok (inl (ENum "parseIntImpl" (bs "-99999999999999999999x") true)) /\
  ParseInt 0%nat (new_string_ctx []) [mkAst 0 "" TString (VStr (bs "9999999999999999999x")) sp0] = Ok (inl (ENum "parseIntImpl" (bs "9999999999999999999x") false)) /\
  ParseUint 0%nat (new_string_ctx []) [mkAst 0 "" TString (VStr (bs "++1")) sp0] = Ok (inl (ENum "parseUintImpl" (bs "++1") false)).
Proof. repeat split; vm_compute; reflexivity. Qed.
