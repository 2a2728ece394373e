(** P_First: which of the largest cliques get_max_clique returns (C79). *)
From Verif Require Import Base MUtils MGraph MApi Spec SpecDec SpecCont SpecOrder SpecFirst FirstFacts Samples FirstSamples.
Local Open Scope nat_scope.

(** * C79. The searches with and without a time limit may return different cliques, on the same object, even if time does not
    run out. *)
Theorem C79_same_algorithm_refuted : exists p n adj e e' q q' c c', made p n adj /\ has_edge adj /\ storage_live p /\ permutes e /\ permutes e'
  /\ never_late e /\ untimed e'
  /\ get_max_clique e p 1 DEFAULT_UB false true false = Ok (q, Ret c) /\ get_max_clique e' p 1 DEFAULT_UB false true false = Ok (q', Ret c')
  /\ c <> c'.
Proof.
  exists ring, 5, (adj_rows ring_rows), timed, (run_env None). do 2 eexists. exists [1; 2], [1; 5].
  split; [exact ring_made|]. split; [exact ring_edge|]. split; [exact ring_live|]. split; [apply timed_on|]. split; [apply run_env_sorts|].
  split; [apply timed_on|]. split; [reflexivity|]. split; [vm_compute; reflexivity|]. split; [vm_compute; reflexivity|discriminate].
Qed.
Print Assumptions C79_same_algorithm_refuted.

(** They return the same clique if there is only one of the maximum size, whatever the bounds and with or without the heuristic. *)
Theorem C79_only_largest : forall p n adj e e' lb lb' ub ub' heur heur' cont cont' q q' c c', made p n adj -> has_edge adj -> storage_live p ->
  permutes e -> permutes e' -> never_late e -> never_late e' -> (forall d, clique n adj d -> length d <= ub) -> (forall d, clique n adj d -> length d <= ub') ->
  (forall d d', maximum_clique n adj d -> maximum_clique n adj d' -> d = d') ->
  get_max_clique e p lb ub heur true cont = Ok (q, Ret c) -> get_max_clique e' p lb' ub' heur' true cont' = Ok (q', Ret c') -> c = c'.
Proof. exact only_largest. Qed.
Print Assumptions C79_only_largest.

Example C79_only_largest_example : never_late timed /\ untimed (run_env None)
  /\ answer (get_max_clique timed sample 1 DEFAULT_UB true true false) = Ok (Ret [1; 2; 3; 4])
  /\ answer (get_max_clique (run_env None) sample 3 DEFAULT_UB false true true) = Ok (Ret [1; 2; 3; 4]).
Proof. split; [apply timed_on|]. split; [reflexivity|]. split; vm_compute; reflexivity. Qed.

(** With a time limit that does not run out, and without the heuristic: the cliques met at the vertex with the most later
    neighbours come first, then those met at vertex 1, 2, ...; those met at one vertex are in lexicographic order. *)
Theorem C79_recursion_first : forall p n adj e lb ub cont q c, made p n adj -> has_edge adj -> storage_live p -> permutes e -> ~ untimed e -> never_late e ->
  (forall d, clique n adj d -> length d <= ub) -> get_max_clique e p lb ub false true cont = Ok (q, Ret c) ->
  maximum_clique n adj c /\ exists s, richest n adj s /\ forall d, clique n adj d -> length d = length c -> d <> c -> met_before adj s (fun _ => lex) c d.
Proof. exact recursion_first. Qed.
Print Assumptions C79_recursion_first.

Example C79_recursion_first_example : ~ untimed timed /\ never_late timed /\ permutes timed
  /\ answer (get_max_clique timed ring 1 DEFAULT_UB false true false) = Ok (Ret [1; 2])
  /\ answer (get_max_clique timed two 1 DEFAULT_UB false true false) = Ok (Ret [4; 5; 6])
  /\ cliqueb 5 ring_rows [1; 2] = true /\ cliqueb 5 ring_rows [1; 5] = true
  /\ cliqueb 13 two_rows [4; 5; 6] = true /\ cliqueb 13 two_rows [1; 2; 3] = true.
Proof. split; [apply timed_on|]. split; [apply timed_on|]. split; [apply timed_on|]. repeat split; vm_compute; reflexivity. Qed.

(** Without a time limit: the same order of vertices, but among the cliques met at one vertex the last vertex is the greatest
    possible. *)
Theorem C79_stack_first : forall p n adj e lb ub cont q c, made p n adj -> has_edge adj -> storage_live p -> permutes e -> untimed e ->
  (forall d, clique n adj d -> length d <= ub) -> get_max_clique e p lb ub false true cont = Ok (q, Ret c) ->
  maximum_clique n adj c /\ exists s, richest n adj s /\ forall d, clique n adj d -> length d = length c -> d <> c -> met_before adj s lex_then_last c d.
Proof. exact stack_first. Qed.
Print Assumptions C79_stack_first.

Example C79_stack_first_example : made ring 5 (adj_rows ring_rows) /\ has_edge (adj_rows ring_rows) /\ storage_live ring
  /\ answer (get_max_clique (run_env None) ring 1 DEFAULT_UB false true false) = Ok (Ret [1; 5])
  /\ made two 13 (adj_rows two_rows) /\ has_edge (adj_rows two_rows) /\ storage_live two
  /\ answer (get_max_clique (run_env None) two 1 DEFAULT_UB false true false) = Ok (Ret [4; 5; 6]).
Proof.
  split; [exact ring_made|]. split; [exact ring_edge|]. split; [exact ring_live|]. split; [vm_compute; reflexivity|].
  split; [exact two_made|]. split; [exact two_edge|]. split; [exact two_live|]. vm_compute. reflexivity.
Qed.

(** So either search returns the same clique for all objects with the same edges, whatever the order of the edges they were
    loaded from, the bounds, the sorting function and the order in which a compiler evaluates operands. *)
Theorem C79_same_answer : forall p p' n adj adj' e e' lb lb' ub ub' cont cont' q q' c c', made p n adj -> made p' n adj' -> (forall u v, adj u v <-> adj' u v) ->
  has_edge adj -> storage_live p -> storage_live p' -> permutes e -> permutes e' ->
  (untimed e /\ untimed e' \/ ~ untimed e /\ ~ untimed e' /\ never_late e /\ never_late e') ->
  (forall d, clique n adj d -> length d <= ub) -> (forall d, clique n adj d -> length d <= ub') ->
  get_max_clique e p lb ub false true cont = Ok (q, Ret c) -> get_max_clique e' p' lb' ub' false true cont' = Ok (q', Ret c') -> c = c'.
Proof. exact same_answer. Qed.
Print Assumptions C79_same_answer.

Example C79_same_answer_example : made ring' 5 (adj_rows (rev ring_rows)) /\ storage_live ring'
  /\ (forall u v, adj_rows ring_rows u v <-> adj_rows (rev ring_rows) u v)
  /\ answer (get_max_clique timed ring' 0 3 false true true) = Ok (Ret [1; 2]).
Proof. split; [exact ring'_made|]. split; [exact ring'_live|]. split; [exact ring'_same|]. vm_compute. reflexivity. Qed.
