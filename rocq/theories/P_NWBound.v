(** P_NWBound: the bounds of NWGraph.get_max_clique (C87). *)
From Verif Require Import Base MUtils MGraph MApi MNW MNWEnum MNWApi Spec SpecDec SpecNW SpecRound NWSum NWProps NWSamples NWBoundSamples.
Local Open Scope nat_scope.

(** The answer is heavier than the upper bound although there is a clique within the bounds. *)
Theorem C87_upper_refuted : exists p n adj w e lb ub c d, nmade half_even p n adj w /\ has_edge adj /\ nstorage_live p /\ sums_exact half_even w /\ nonnegative w /\ nsorts e
  /\ answer (nw_get_max_clique half_even e p lb ub true true) = Ok (Ret c) /\ (ub < weight w c)%Z
  /\ clique n adj d /\ 2 <= length d /\ (lb < weight w d <= ub)%Z.
Proof.
  exists wsample, 6, (adj_rows wrows), wwts, nw_env, 1%Z, 8%Z, [4; 5; 6], [1; 2; 3; 4]. split; [exact wsample_made|]. split; [exact wsample_edge|]. split; [exact wsample_live|].
  split; [exact wwts_exact|]. split; [exact wwts_nonneg|]. split; [exact nw_env_sorts|]. split; [vm_compute; reflexivity|]. split; [vm_compute; reflexivity|].
  split; [apply cliqueb_sound; vm_compute; reflexivity|]. split; [simpl; lia|]. vm_compute. split; [reflexivity|discriminate].
Qed.
Print Assumptions C87_upper_refuted.

(** The answer weighs as much as the lower bound, which the message of the exception excludes. *)
Theorem C87_lower_refuted : exists p n adj w e lb ub c, nmade half_even p n adj w /\ has_edge adj /\ nstorage_live p /\ sums_exact half_even w /\ nonnegative w /\ nsorts e
  /\ answer (nw_get_max_clique half_even e p lb ub true true) = Ok (Ret c) /\ weight w c = lb.
Proof.
  exists alone, 7, (adj_rows wrows), alone_w, nw_env, 100%Z, 1000%Z, [7]. split; [exact alone_made|]. split; [exact wsample_edge|]. split; [exact alone_live|].
  split; [exact alone_exact|]. split; [exact alone_nonneg|]. split; [exact nw_env_sorts|]. split; vm_compute; reflexivity.
Qed.
Print Assumptions C87_lower_refuted.

(** Fresh or reset, the depth-first search included: no clique of two or more vertices is heavier than the answer, unless the answer
    reaches the upper bound; if the call raises none is heavier than the lower bound, unless the bounds exclude each other. *)
Theorem C87_bounds_partial : forall rnd p n adj w, nmade rnd p n adj w -> has_edge adj -> nstorage_live p -> sums_exact rnd w -> nonnegative w ->
  forall q e lb ub heur, nrested rnd n adj w p q -> npermutes e ->
  ends_with (nw_get_max_clique rnd e q lb ub heur true) (fun '(q', r) => match r with
     | Ret c => (lb <= weight w c)%Z /\ (all_within n adj w (weight w c) \/ (ub <= weight w c)%Z)
     | Raise x => x = EBounds /\ (all_within n adj w lb \/ (ub <= lb)%Z)
     end).
Proof. exact nw_bounded. Qed.
Print Assumptions C87_bounds_partial.

Example C87_example : answer (nw_get_max_clique half_even nw_env wsample 11 8 true true) = Ok (Raise EBounds)
  /\ answer (nw_get_max_clique half_even nw_env wsample 11 100 true true) = Ok (Ret [4; 5; 6])
  /\ answer (nw_get_max_clique half_even nw_env wsample 1 3 false true) = Ok (Ret [4; 5; 6]).
Proof. repeat split; vm_compute; reflexivity. Qed.
