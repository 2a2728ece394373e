(** P_State: search_done (C25, C56). The counterexamples are in P_Refute. *)
From Verif Require Import Base MUtils MGraph MEnum MApi MExt Spec SpecDec SpecKeep SpecState KeepProps Samples StateFacts.
Local Open Scope nat_scope.

(** * C25 is false (C25_repr_refuted). What repr prints is the negation of the attribute, after any calls whatever. *)
Theorem C25_negated_partial : forall p n adj q,
  made p n adj -> 1 <= n -> calls p q -> repr_search_done q = negb (p_done q).
Proof. exact repr_negated. Qed.
Print Assumptions C25_negated_partial.

Example C25_example : made sample 8 (adj_rows sample_rows) /\ 1 <= 8
  /\ exists q, calls sample q /\ p_done q = true /\ calls sample sample /\ p_done sample = false.
Proof.
  split; [exact sample_made|]. split; [repeat constructor|].
  exists (after (get_max_clique (run_env None) sample 1 DEFAULT_UB true true false)). split.
  - eapply (c_get _ sample (run_env None) 1 DEFAULT_UB true true false); [apply c_start|vm_compute; reflexivity].
  - split; [vm_compute; reflexivity|]. split; [apply c_start|reflexivity].
Qed.

(** * C56 is false (C56_rebuild_refuted): search_done and the position are those from before. But building again on any
    object gives the graph that building in a new object gives: same exports, and the same search after reset_search or
    without continue_search. *)
Theorem C56_rebuild_partial : forall b p q, builder b -> b p = Ok (Ret q) ->
  exists q0, b new_pygraph = Ok (Ret q0) /\ same_exports q q0
  /\ p_nvert q = p_nvert q0 /\ p_nedges q = p_nedges q0
  /\ (p_nvert q <> 0 -> forall e lb ub heur dfs, get_max_clique e q lb ub heur dfs false = get_max_clique e q0 lb ub heur dfs false)
  /\ (exists q1, reset_search q = Ok q1 /\ reset_search q0 = Ok q1)
  /\ p_cur q = p_cur p /\ p_done q = p_done p.
Proof. exact rebuilt. Qed.
Print Assumptions C56_rebuild_partial.

Example C56_example : let b := fun p => build_edges_condition_only p 2 3 (fun i1 i2 j1 j2 => negb (j1 =? j2)) in
  builder b /\ exists q, b (after (get_max_clique (run_env None) sample 1 DEFAULT_UB true true false)) = Ok (Ret q) /\ p_nvert q <> 0.
Proof. split; [apply b_condition|]. eexists. split; [vm_compute; reflexivity|]. vm_compute. discriminate. Qed.
