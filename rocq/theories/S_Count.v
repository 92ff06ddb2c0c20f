(** Specifications for C77: how many parser calls a parse makes. *)
From Verif Require Export M_Count S_Rec S_Laws M_Str M_Trans.

(** At most this many calls are made on an input of length [N], if rule [k] takes at most [rho k]: the calls of the parts
    are added up, those of a repetition are multiplied by its greatest possible number of rounds, those of a look-behind
    by the number of positions it tries. *)
Fixpoint most (rho : nat -> nat) (N : nat) (e : pexp) {struct e} : nat :=
  match e with
  | ELight _ _ => 1
  | EFlatGroup es | EGroup es | EFirst es | ELookAhead es | ELookAheadN es => S (list_sum (map (most rho N) es))
  | ELookBehind _ mn mx es => Z.to_nat (mx - mn + 1) * S (list_sum (map (most rho N) es))
  | ERepeat t es => S ((if (t_max t <? 0)%Z then S N else Z.to_nat (t_max t)) * list_sum (map (most rho N) es))
  | ETrans e1 _ => S (most rho N e1)
  | EIndirect k => S (rho k)
  | EBase _ _ _ es _ => 0
  end%nat.
(** Grammars whose unbounded repetitions consume input in every round (S_Rec). *)
Definition frugal (sz : size) (eat refs : nat -> Prop) : gspec :=
  mkGS (fun _ fn => pos_leaf sz fn) (fun _ => True) (fun mn _ => 0 <= mn)
       (fun t es => t_max t < 0 -> exists e, In e es /\ eats sz eat e) refs noBase.
(** A class of rules without recursion: rule [k] refers to rules with smaller numbers only. *)
Definition tiered (sz : size) (eat : nat -> Prop) (env : nat -> pexp) : Prop :=
  (forall k, eat k -> eats sz eat (env k)) /\ forall k, peg_gram (env k) /\ gram (frugal sz eat (fun j => (j < k)%nat)) (env k).

(** Sums of numbers in parentheses, as one may write them down first: rule 0 is [term "+" sum / term], rule 1 is
    ["(" sum ")" / "1"]. *)
Definition sum_slow : pexp := EFirst [EFlatGroup [EIndirect 1; SSeq (bs "+"); EIndirect 0]; EIndirect 1].
Definition sum_term : pexp := EFirst [EFlatGroup [SSeq (bs "("); EIndirect 0; SSeq (bs ")")]; SSeq (bs "1")].
Definition slow_rules (k : nat) : pexp := match k with O => sum_slow | _ => sum_term end.
(** The same with the common part in front. *)
Definition sum_fast : pexp := EFlatGroup [EIndirect 1; EFirst [EFlatGroup [SSeq (bs "+"); EIndirect 0]; EFlatGroup []]].
Definition fast_rules (k : nat) : pexp := match k with O => sum_fast | _ => sum_term end.
(** "(((1)))" *)
Definition nested (k : nat) : bytes := repeat 40 k ++ 49 :: repeat 41 k.
(** Looking ahead over the whole rest before every letter. *)
Definition look_far : pexp := EZeroOrMore [ELookAhead [EZeroOrMore [SSeq (bs "a")]]; SSeq (bs "a")].
