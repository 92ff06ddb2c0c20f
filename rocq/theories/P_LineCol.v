(** Property theorems for line and column reporting: C30. *)
From Verif Require Import L_LineCol.

(** For every source, position inside it and tab size [n]: with the text before the
    position split into lines, the report is as specified. *)
Theorem C30_line_and_column : forall src pos n ls last rest, (pos <= length src)%nat ->
  lines (firstn pos src) ls last -> line_rest (skipn pos src) rest ->
  exists r, GetLineAndColPosition src pos (Z.of_nat n) = Ok r /\
    lc_line r = (1 + length ls)%nat /\ lc_index r = length (joined ls) /\
    lc_col r = (pos - lc_index r + 1)%nat /\ lc_pos r = pos /\ lc_src r = report n ls last rest.
Proof. exact linecol_ok. Qed.
Print Assumptions C30_line_and_column.

(** Every text can be split so. *)
Theorem C30_lines_exist : forall pre, exists ls last, lines pre ls last /\ pre = joined ls ++ last.
Proof. intros pre. destruct (lines_total pre) as (ls & last & H). exists ls, last. split; auto. apply lines_joined. auto. Qed.
Print Assumptions C30_lines_exist.
Theorem C30_rest_exists : forall s, exists l, line_rest s l.
Proof. intros s. destruct (line_end s) as (l & H & _). exists l. auto. Qed.
Print Assumptions C30_rest_exists.

(** It panics exactly outside of the source or for a negative tab size. *)
Theorem C30_no_panic : forall src pos tab,
  (exists r, GetLineAndColPosition src pos tab = Ok r) <-> (pos <= length src)%nat /\ 0 <= tab.
Proof. exact linecol_panics. Qed.
Print Assumptions C30_no_panic.

(** "ab", CRLF, TAB, "cd", CR at "d" with tab size 4 *)
Definition demo : bytes := [97; 98; 13; 10; 9; 99; 100; 13].
Example C30_example : lines (firstn 6 demo) [([97; 98], [13; 10])] [9; 99] /\ line_rest (skipn 6 demo) [100] /\
  GetLineAndColPosition demo 6 4 = Ok (mkLC 4 2 3 6
    (bs "   | ab" ++ [13; 10] ++ bs " > |     cd" ++ [10] ++ bs "   |      ^^^^")).
Proof.
  split; [|split].
  - apply (ln_crlf [97; 98] [9; 99]); [repeat constructor; lia|]. constructor. repeat constructor; lia.
  - split; [repeat constructor; lia|]. right. exists 13, []. auto.
  - vm_compute. reflexivity.
Qed.
