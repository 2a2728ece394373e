(** DefaultProps: NWGraph.get_max_clique without arguments (C80). *)
From Verif Require Import Base MUtils MGraph MApi MNW MNWEnum MNWApi MDefault Spec SpecNW SpecRound BaseFacts SearchBase NWFacts NWProps.
Local Open Scope nat_scope.

Section Def.
  Variables (rnd : Z -> Z) (u : Z) (p : pynw) (n : nat) (adj : nat -> nat -> Prop) (w : list Z).
  Hypothesis U : (0 < u)%Z.
  Hypothesis MK : nmade rnd p n adj w.
  Hypothesis HE : has_edge adj.
  Hypothesis LV : nstorage_live p.
  Hypothesis SE : sums_exact rnd w.

  Lemma default_clique q e : nhistory rnd p q -> npermutes e ->
    ends_with (nw_get_default rnd u e q) (fun '(_, r) => match r with
       | Ret c => clique n adj c /\ (NW_LB u <= weight w c)%Z
       | Raise x => x = EBounds
       end).
  Proof.
    intros H HP. eapply wp_mono; [apply (nw_clique rnd p n adj w MK HE LV q e (NW_LB u) (NW_UB u) true true H HP)|].
    intros [q' [c|x]]; auto. intros [[->|C] L]; specialize (L SE); auto. exfalso. unfold NW_LB in L. cbn in L. lia.
  Qed.

  Lemma default_light q e : nhistory rnd p q -> npermutes e -> (forall d, clique n adj d -> (weight w d < NW_LB u)%Z) ->
    ends_with (nw_get_default rnd u e q) (fun '(_, r) => r = Raise EBounds).
  Proof.
    intros H HP LT. eapply wp_mono; [apply (default_clique q e H HP)|]. intros [q' [c|x]]; [|congruence].
    intros [C L]. specialize (LT c C). lia.
  Qed.

  Hypothesis NN : nonnegative w.

  Lemma default_heaviest q e : nrested rnd n adj w p q -> npermutes e ->
    ends_with (nw_get_default rnd u e q) (fun '(_, r) => match r with
       | Ret c => all_within n adj w (weight w c) \/ (NW_UB u <= weight w c)%Z
       | Raise x => x = EBounds /\ all_within n adj w (NW_LB u)
       end).
  Proof.
    intros H HP. eapply wp_mono; [apply (nw_bounded rnd p n adj w MK HE LV SE NN q e (NW_LB u) (NW_UB u) true H HP)|].
    intros [q' [c|x]]; [tauto|]. intros [E [A|A]]; auto. exfalso. unfold NW_UB, NW_LB in *. lia.
  Qed.
End Def.
