(** C94: the numbers and operators that torpn.Parse answers with are those of the text. *)
From Verif Require Import L_Operands.

(** The numbers of the answer are, but for their signs, the numerals of the text in order. *)
Theorem C94_numbers : forall s l ws, Forall is_byte s -> torpn_answers s (inr (inr l)) -> runs s ws ->
  Forall2 (fun w z => numeral 10 (strip w) (Z.abs z)) ws (ints l).
Proof.
  intros s l ws Hb A R. destruct (torpn_shows s l Hb A) as (f & ((us & R' & W) & _) & P & L). rewrite (runs_func s ws R us R').
  rewrite <- (postfix_ints f l P L) in W. clear - W. revert us W. induction (ints l) as [|z r IH]; intros us W; inversion W; subst; constructor; auto.
Qed.
Print Assumptions C94_numbers.
(** Every text has its numerals, and only one list of them. *)
Theorem C94_numerals : forall s, exists! ws, runs s ws.
Proof. intros s. destruct (runs_total s) as (l & R). exists l. split; auto. intros m M. exact (runs_func s l R m M). Qed.
Print Assumptions C94_numerals.
(** There is nothing else than numbers and operators, as many multiplications and
    divisions as signs for them, and no more additions and subtractions. *)
Theorem C94_operators : forall s l, Forall is_byte s -> torpn_answers s (inr (inr l)) -> Forall item l /\
  uses 42 l = times 42 s /\ uses 47 l = times 47 s /\ (uses 43 l <= times 43 s)%nat /\ (uses 45 l <= times 45 s)%nat.
Proof.
  intros s l Hb A. destruct (torpn_shows s l Hb A) as (f & (_ & T1 & T2 & T3 & T4) & P & L). destruct (postfix_uses f l P L) as (U & V).
  split; [eapply postfix_items; eauto|]. rewrite T1, T2, T3. change 42 with (op_byte OMul) at 1. change 47 with (op_byte ODiv) at 1. change 43 with (op_byte OAdd) at 1.
  rewrite !U by discriminate. repeat split; auto; apply V.
Qed.
Print Assumptions C94_operators.
(** The answer is never longer than the text. *)
Theorem C94_size : forall s l, Forall is_byte s -> torpn_answers s (inr (inr l)) -> (length l <= length s)%nat.
Proof.
  intros s l Hb A. destruct (C94_operators s l Hb A) as (F & U1 & U2 & U3 & U4). destruct (runs_total s) as (ws & R).
  assert (E : length ws = length (ints l)) by (pose proof (C94_numbers s l ws Hb A R) as K; clear - K; induction K; cbn; auto). rewrite (items_size l F). pose proof (runs_size s ws R). lia.
Qed.
Print Assumptions C94_size.

(** The signs of the numbers and the order of the operators are not those of the text. *)
Example C94_example : torpn_answers (bs "-1_0*(2 - -3)") (inr (inr [VInt (-10); VInt 2; VInt (-3); VStr (bs "-"); VStr (bs "*")])) /\
  runs (bs "-1_0*(2 - -3)") [bs "1_0"; bs "2"; bs "3"].
Proof.
  split.
  - apply (parse_stable torpn_prod torpn_good rpn_answer 60%nat); [vm_compute; reflexivity|discriminate].
  - assert (D : forall c, ~ digit_byte c <-> ((48 <=? c) && (c <=? 57) || (c =? 95))%bool = false) by (intros; unfold digit_byte; lia).
    assert (G : forall w, forallb (fun c => (48 <=? c) && (c <=? 57) || (c =? 95))%bool w = true -> Forall digit_byte w)
      by (intros w E; rewrite forallb_forall in E; apply Forall_forall; intros c I; specialize (E c I); unfold digit_byte; lia).
    assert (X : forall w c s l, w <> [] -> Forall digit_byte w -> ~ digit_byte c -> runs s l -> runs (w ++ c :: s) (w :: l))
      by (intros; apply ru_run; auto; [intros ? ? [= <- <-]; auto|apply ru_other; auto]).
    apply ru_other; [apply D; reflexivity|]. apply (X (bs "1_0") 42 (bs "(2 - -3)")); [discriminate|apply G; reflexivity|apply D; reflexivity|].
    apply ru_other; [apply D; reflexivity|]. apply (X (bs "2") 32 (bs "- -3)")); [discriminate|apply G; reflexivity|apply D; reflexivity|].
    do 3 (apply ru_other; [apply D; reflexivity|]). apply (X (bs "3") 41 []); [discriminate|apply G; reflexivity|apply D; reflexivity|constructor].
Qed.
