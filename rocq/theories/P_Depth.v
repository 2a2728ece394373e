(** P_Depth: the recursion of the timed search (C107). *)
From Verif Require Import Base MUtils MGraph MEnum MApi MDepth Spec SpecDec SearchProps Samples ExtSamples FirstSamples DepthFacts DepthNeed DepthSamples.
Local Open Scope nat_scope.

(** After any calls and with any arguments, a call stack with room for as many calls of search_vertex as a largest clique has vertices is enough. *)
Theorem C107_depth : forall p n adj q e lb ub heur dfs cont D, made p n adj -> has_edge adj -> storage_live p -> history p q -> permutes e ->
  (forall d, clique n adj d -> length d <= D) -> get_max_within D e q lb ub heur dfs cont = get_max_clique e q lb ub heur dfs cont.
Proof. exact depth_bound. Qed.
Print Assumptions C107_depth.

(** Without the heuristic, on a new object, less is not enough: each vertex of the answer is found one call deeper. *)
Theorem C107_needed : forall p n adj e lb ub cont q c D, made p n adj -> has_edge adj -> storage_live p -> lawful e lb -> ~ untimed e ->
  get_max_clique e p lb ub false true cont = Ok (q, Ret c) -> 2 <= length c -> D < length c -> get_max_within D e p lb ub false true cont = OutOfFuel.
Proof. exact depth_needed. Qed.
Print Assumptions C107_needed.

(** In this graph it has to be: the largest clique has four vertices, and room for three calls is not enough. *)
Example C107_example : made sample 8 (adj_rows sample_rows) /\ has_edge (adj_rows sample_rows) /\ storage_live sample /\ history sample sample3
  /\ permutes timed /\ (forall d, clique 8 (adj_rows sample_rows) d -> length d <= 4)
  /\ answer (get_max_within 4 timed sample 1 DEFAULT_UB false true false) = Ok (Ret [1; 2; 3; 4])
  /\ answer (get_max_within 3 timed sample 1 DEFAULT_UB false true false) = OutOfFuel.
Proof.
  split; [exact sample_made|]. split; [exact sample_edge|]. split; [exact sample_live|]. split; [exact sample_history|]. split; [apply timed_on|].
  split; [exact sample_four|]. split; vm_compute; reflexivity.
Qed.

Example C107_needed_example : made sample 8 (adj_rows sample_rows) /\ has_edge (adj_rows sample_rows) /\ storage_live sample /\ lawful timed 1 /\ ~ untimed timed
  /\ answer (get_max_clique timed sample 1 DEFAULT_UB false true false) = Ok (Ret [1; 2; 3; 4]).
Proof.
  split; [exact sample_made|]. split; [exact sample_edge|]. split; [exact sample_live|]. split; [split; [apply timed_on|left; apply Nat.le_refl]|].
  split; [discriminate|]. vm_compute. reflexivity.
Qed.
