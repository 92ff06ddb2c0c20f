(** The semantics with counts, for transformers that count nothing. *)
From Verif Require Export L_CountW.
Definition no_wt (tr : list trans) (c : ctx) (l : list ast) (x : nat) : Prop := x = 0%nat.
Notation pegk := (L_CountW.pegk no_wt).
Notation pegks := (L_CountW.pegks no_wt).
Notation pegkc := (L_CountW.pegkc no_wt).
Notation pegkr := (L_CountW.pegkr no_wt).
Notation pegkb := (L_CountW.pegkb no_wt).
Lemma weighs_no tr c r x : weighs no_wt tr c r x -> x = 0%nat.
Proof. destruct r; auto. Qed.
Lemma pk_trans w e tr cur r r' d : pegk w e cur r d -> through (fresh w cur) tr r r' -> pegk w (ETrans e tr) cur r' (S d).
Proof. intros H T. rewrite <- (Nat.add_0_r d). eapply pk_transw; [exact H|exact T|destruct r; reflexivity]. Qed.
(** The cost of a run that answers is the count of a derivation. *)
Lemma cost_counts env e n c o err : (forall j, peg_gram (env j)) -> peg_gram e -> c_st c = Matched -> run env n e c = Ok (o, err) ->
  exists r, pegk (mkW (c_str c) (c_slice c) (c_tag c) env) e (c_sp c) r (cost env n e c) /\ returns (c_stack c) o err r.
Proof.
  intros He Hg Hc E. set (w := mkW (c_str c) (c_slice c) (c_tag c) env). unfold cost. rewrite <- (krun_same env n e 0%nat c) in E.
  destruct (krun env n e 0%nat c) as [k' a] eqn:K. cbn [snd] in E. subst a.
  destruct (krun_counts no_wt (fun _ _ _ => eq_refl) w e n 0%nat c o err k' He Hg (conj (conj eq_refl (conj eq_refl eq_refl)) Hc) K) as (r & d & P & R & _ & ->).
  exists r. split; [exact P|exact R].
Qed.
