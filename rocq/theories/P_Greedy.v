(** P_Greedy: the heuristic alone and the greedy choices (C112). *)
From Verif Require Import Base MUtils MGraph MHeur MApi Spec SpecDec SpecFirst SpecGreedy GreedyFacts GreedySamples.
Local Open Scope nat_scope.

(** The heuristic alone can return less than a greedy choice would: the triangle 7 8 9 is not found. *)
Theorem C112_greedy_refuted : exists rows n p e c v l d, sorts e /\ untimed e /\ from_edgelist rows n = Ok (Ret p) /\ storage_live p
  /\ answer (get_max_clique e p 1 DEFAULT_UB true false false) = Ok (Ret c)
  /\ by_degree (adj_rows rows) v l /\ greedily (adj_rows rows) [v] l d /\ length c < length d.
Proof. exact greedy_missed. Qed.
Print Assumptions C112_greedy_refuted.

(** It is at most one vertex short, and only where the greedy choice takes all later neighbours.
    Missing: the case in the second line of the conclusion, see above. *)
Theorem C112_greedy_partial : forall p n adj e lb ub cont q c,
  made p n adj -> has_edge adj -> storage_live p -> sorts e -> lawful e lb ->
  get_max_clique e p lb ub true false cont = Ok (q, Ret c) -> length c < ub ->
  forall v, 1 <= v <= n -> exists l d, by_degree adj v l /\ greedily adj [v] l d
    /\ (length d <= length c
        \/ length d = S (length c) /\ length d = S (length l)).
Proof. exact heuristic_greedy. Qed.
Print Assumptions C112_greedy_partial.

Example C112_example : exists p, from_edgelist greedy_rows 9 = Ok (Ret p) /\ made p 9 (adj_rows greedy_rows) /\ has_edge (adj_rows greedy_rows)
  /\ storage_live p /\ sorts (run_env None) /\ lawful (run_env None) 1
  /\ (exists q, get_max_clique (run_env None) p 1 DEFAULT_UB true false false = Ok (q, Ret [1; 4]))
  /\ by_degree (adj_rows greedy_rows) 7 [8; 9] /\ greedily (adj_rows greedy_rows) [7] [8; 9] [9; 8; 7].
Proof.
  eexists. split; [vm_compute; reflexivity|]. split; [apply made_edgelist; [unfold fits; vm_compute; reflexivity|vm_compute; reflexivity]|].
  split; [exists 1, 4; split; [lia|left; left; auto]|]. split; [eexists; split; [reflexivity|vm_compute; reflexivity]|].
  split; [apply run_env_sorts|]. split; [split; [apply run_env_sorts|right; exact I]|].
  split; [eexists; vm_compute; reflexivity|]. split; [exact triangle_by_degree|exact triangle_greedily].
Qed.
