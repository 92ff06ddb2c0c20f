(** C77: how many parser calls a parse makes. *)
From Verif Require Import S_Count L_CountMax L_CountMin L_CsvCount P_Rec.

(** A counted run answers what the run answers, whatever has been counted before. *)
Theorem C77_same : forall env n e k c, snd (krun env n e k c) = run env n e c.
Proof. exact krun_same. Qed.
Print Assumptions C77_same.

(** No more calls than the grammar allows for on an input of this length, provided every round of an unbounded repetition
    consumes input. *)
Theorem C77_bound : forall sz eat refs rho env n e c o err,
  (forall k, peg_gram (env k)) -> (forall k, gram (frugal sz eat refs) (env k)) -> (forall k, eat k -> eats sz eat (env k)) ->
  (forall k, refs k -> (most rho (sz (c_str c) (c_slice c)) (env k) <= rho k)%nat) ->
  peg_gram e -> gram (frugal sz eat refs) e -> in_bounds sz c -> c_st c = Matched -> run env n e c = Ok (o, err) ->
  (cost env n e c <= most rho (sz (c_str c) (c_slice c)) e)%nat.
Proof. exact cost_most. Qed.
Print Assumptions C77_bound.

(** Without recursion the number of calls is at most a polynomial in the length of the input. *)
Theorem C77_polynomial : forall sz eat env K e,
  tiered sz eat env -> peg_gram e -> gram (frugal sz eat (fun j => (j < K)%nat)) e ->
  exists C D, forall n c o err, in_bounds sz c -> c_st c = Matched -> run env n e c = Ok (o, err) ->
    (cost env n e c <= C * S (sz (c_str c) (c_slice c)) ^ D)%nat.
Proof. exact cost_poly. Qed.
Print Assumptions C77_polynomial.

(** It need not be linear. *)
Theorem C77_linear_refuted : forall env n, (forall j, peg_gram (env j)) -> exists n0, forall m, (n0 <= m)%nat -> exists o,
  run env m look_far (new_string_ctx (repeat 97 n)) = Ok (o, None) /\ c_st o = Matched /\ c_pos o = n /\
  (2 * cost env m look_far (new_string_ctx (repeat 97%Z n)) = n * n + 9 * n + 10)%nat.
Proof. intros env n He. exact (look_far_cost env n He). Qed.
Print Assumptions C77_linear_refuted.

(** The rules of numbers separated by commas, such as "12,3". *)
Definition list_rules (k : nat) : pexp :=
  match k with
  | O => EOneOrMore [SNumber]
  | 1%nat => EFlatGroup [EZeroOrMore [EIndirect 0; SSeq (bs ",")]; EIndirect 0]
  | _ => EUnmatched
  end.
Definition list_eats (k : nat) : Prop := k = 0%nat.
Lemma list_pos k : gram (pos_spec str_size) (list_rules k).
Proof. apply (string_pos anyT). destruct k as [|[|k]]; cbn [list_rules]; unfold EOneOrMore, EZeroOrMore, SNumber, SSeq, EUnmatched; lib_tac. Qed.
Lemma list_tiered : tiered str_size list_eats list_rules.
Proof.
  split; [intros k ->; eats_tac|]. intros k. split.
  - destruct k as [|[|k]]; cbn [list_rules]; unfold EOneOrMore, EZeroOrMore, SNumber, SSeq, EUnmatched; gram_tac.
  - apply frugal_of; [apply list_pos|]. destruct k as [|[|k]]; cbn [list_rules].
    + cbn. repeat split. intros _. exists SNumber. split; [auto|eats_tac].
    + cbn. repeat split; try lia. intros _. exists (SSeq (bs ",")). split; [auto|eats_tac].
    + exact I.
Qed.
Example C77_list_example : tiered str_size list_eats list_rules /\ peg_gram (EIndirect 1) /\ gram (frugal str_size list_eats (fun j => (j < 2)%nat)) (EIndirect 1) /\
  (exists o, run list_rules 20 (EIndirect 1) (new_string_ctx (bs "12,3")) = Ok (o, None) /\ c_st o = Matched /\ c_pos o = 4%nat) /\
  cost list_rules 20 (EIndirect 1) (new_string_ctx (bs "12,3")) = 18%nat /\
  rule_most list_rules 4 2 1 = 49%nat.
Proof.
  split; [exact list_tiered|]. split; [exact I|]. split; [cbn; lia|]. split; [eexists; split; [vm_compute; reflexivity|split; reflexivity]|].
  split; vm_compute; reflexivity.
Qed.
Example C77_bound_example : let rho k := match k with O => 6 | 1 => 49 | _ => 1 end%nat in
  (forall k, gram (frugal str_size list_eats (fun _ => True)) (list_rules k)) /\
  (forall k, True -> (most rho (str_size (bs "12,3") None) (list_rules k) <= rho k)%nat) /\
  most rho 4 (EIndirect 1) = 50%nat.
Proof.
  cbv zeta. split; [|split; [|reflexivity]].
  - intros k. eapply frugal_more; [|apply list_tiered]. auto.
  - intros [|[|k]] _; cbn [list_rules]; vm_compute; lia.
Qed.

(** With recursion it need not be: a parser that has failed is called again by the next alternative. *)
Theorem C77_exponential : forall k, exists n0, forall n, (n0 <= n)%nat -> exists o,
  run slow_rules n sum_slow (new_string_ctx (nested k)) = Ok (o, None) /\ c_st o = Matched /\ c_pos o = length (nested k) /\
  (cost slow_rules n sum_slow (new_string_ctx (nested k)) + 15 = 28 * 2 ^ k)%nat.
Proof.
  intros k. destruct (slow_cost k) as (n0 & H). exists n0. intros n Hn. destruct (H n Hn) as (o & err & R & (-> & Hs & Hp) & C). eauto.
Qed.
Print Assumptions C77_exponential.
(** No polynomial bounds it. *)
Theorem C77_polynomial_refuted : forall C D, exists s n o,
  run slow_rules n sum_slow (new_string_ctx s) = Ok (o, None) /\ c_st o = Matched /\
  (C * S (length s) ^ D < cost slow_rules n sum_slow (new_string_ctx s))%nat.
Proof.
  intros C D. destruct (outgrows C D) as (k & L). destruct (C77_exponential k) as (n & H). destruct (H n (le_n n)) as (o & R & Hs & _ & E).
  exists (nested k), n, o. split; [exact R|]. split; [exact Hs|]. rewrite nested_length. replace (S (2 * k + 1))%nat with (2 * k + 2)%nat by lia. lia.
Qed.
Print Assumptions C77_polynomial_refuted.

(** The laws of C76 turn these rules into rules with the same answers to all inputs, and a number of calls linear on the same inputs. *)
Theorem C77_factored :
  (forall k, rewrites (slow_rules k) (fast_rules k)) /\
  (forall c, c_st c = Matched -> same_answers slow_rules sum_slow fast_rules sum_fast c) /\
  forall k, exists n0, forall n, (n0 <= n)%nat -> exists o,
    run fast_rules n sum_fast (new_string_ctx (nested k)) = Ok (o, None) /\ c_st o = Matched /\ c_pos o = length (nested k) /\
    (cost fast_rules n sum_fast (new_string_ctx (nested k)) = 11 * k + 10)%nat.
Proof.
  split; [exact sums_rewrite|]. split.
  - intros c Hc. apply refactored_run; auto using slow_gram, fast_gram, sums_rewrite.
    + exact (slow_gram 0).
    + exact (fast_gram 0).
    + exact (sums_rewrite 0).
  - intros k. destruct (fast_cost k) as (n0 & H). exists n0. intros n Hn. destruct (H n Hn) as (o & err & R & (-> & Hs & Hp) & C). eauto.
Qed.
Print Assumptions C77_factored.
Example C77_sums_example : nested 3 = bs "(((1)))" /\
  cost slow_rules 40 sum_slow (new_string_ctx (nested 3)) = 209%nat /\ cost fast_rules 40 sum_fast (new_string_ctx (nested 3)) = 43%nat /\
  cost fast_rules 40 sum_fast (new_string_ctx (bs "1+(1+1)")) = 41%nat.
Proof. repeat split; vm_compute; reflexivity. Qed.

(** The CSV example makes at most 53 calls for every byte, and 67 more, be the text well formed or not. *)
Theorem C77_csv : forall s n o err, Forall is_byte s -> run (fun _ => EUnmatched) n document (new_string_ctx s) = Ok (o, err) ->
  (cost (fun _ => EUnmatched) n document (new_string_ctx s) <= 53 * length s + 67)%nat.
Proof. exact csv_cost. Qed.
Print Assumptions C77_csv.
Example C77_csv_example : let s := bs "a,""b""""c"", d" ++ [10] ++ bs "e" in
  (exists o, run (fun _ => EUnmatched) 40 document (new_string_ctx s) = Ok (o, None) /\ c_st o = Matched /\ c_pos o = length s) /\
  cost (fun _ => EUnmatched) 40 document (new_string_ctx s) = 162%nat.
Proof. split; [eexists; split; [vm_compute; reflexivity|split; reflexivity]|vm_compute; reflexivity]. Qed.
