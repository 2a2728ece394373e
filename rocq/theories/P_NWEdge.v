(** P_NWEdge: NWGraphs without edges (C84), calls without a search (C85), objects that are not loaded (C86). *)
From Verif Require Import Base MUtils MGraph MApi MNW MNWEnum MNWApi MDefault Spec SpecNW SpecRound NWSamples NWEdgeFacts NWEdgeSamples.
Local Open Scope nat_scope.

(** * C84 *)
Theorem C84_search_refuted : exists p n adj w e lb ub, nmade half_even p n adj w /\ 1 <= n /\ (forall u v, ~ adj u v) /\ nsorts e
  /\ nw_get_max_clique half_even e p lb ub true true = UB OobRead.
Proof.
  exists lone, 4, (adj_rows []), lone_w, nw_env, (NW_LB 1), (NW_UB 1). split; [exact lone_made|]. split; [lia|]. split; [exact lone_none|].
  split; [exact nw_env_sorts|]. vm_compute. reflexivity.
Qed.
Print Assumptions C84_search_refuted.

(** It is false of every NWGraph without edges: a search reads past the end of the memory. *)
Theorem C84_search : forall rnd p n adj w e lb ub heur dfs,
  nmade rnd p n adj w -> 1 <= n -> (forall u v, ~ adj u v) -> heur = true \/ dfs = true -> nw_get_max_clique rnd e p lb ub heur dfs = UB OobRead.
Proof. exact nedgeless_search. Qed.
Print Assumptions C84_search.

(** A loop over the cliques reads past the end if a vertex other than the first is heavy enough, and yields nothing if none is. *)
Theorem C84_iterate : forall rnd p n adj w e lr T,
  nmade rnd p n adj w -> 1 <= n -> (forall u v, ~ adj u v) -> (forall x, In x w -> rnd x = x) ->
  exists en, nw_all_cliques e p T = Ret en
  /\ ((exists v, 2 <= v <= n /\ (T <= weight w [v])%Z) -> nw_next_clique rnd lr p en = UB OobRead)
  /\ ((forall v, 2 <= v <= n -> (weight w [v] < T)%Z) -> exists q en', nw_next_clique rnd lr p en = Ok (q, en', Raise EStopIteration)).
Proof. exact nedgeless_iterate. Qed.
Print Assumptions C84_iterate.

(** The first vertex weighs 9, the heaviest of the others 7. *)
Example C84_example : nmade half_even lone 4 (adj_rows []) lone_w /\ (forall u v, ~ adj_rows [] u v) /\ (forall x, In x lone_w -> half_even x = x)
  /\ nw_get_max_clique half_even nw_env lone 1 100 true true = UB OobRead
  /\ (exists en, nw_all_cliques nw_env lone 7 = Ret en /\ nw_next_clique half_even true lone en = UB OobRead)
  /\ (exists en, nw_all_cliques nw_env lone 8 = Ret en /\ exists q en', nw_next_clique half_even true lone en = Ok (q, en', Raise EStopIteration)).
Proof.
  split; [exact lone_made|]. split; [exact lone_none|]. split; [exact lone_round|]. split; [vm_compute; reflexivity|].
  split; eexists; (split; [vm_compute; reflexivity|]); [vm_compute; reflexivity|do 2 eexists; vm_compute; reflexivity].
Qed.

(** * C85 *)
(** With the default bounds the call returns. *)
Theorem C85_no_search_refuted : exists p n adj w e c, nmade half_even p n adj w /\ nstorage_live p /\ nsorts e
  /\ answer (nw_get_max_clique half_even e p (NW_LB 1) (NW_UB 1) false false) = Ok (Ret c).
Proof.
  exists wsample, 6, (adj_rows wrows), wwts, nw_env, [5]. split; [exact wsample_made|]. split; [exact wsample_live|]. split; [exact nw_env_sorts|]. vm_compute. reflexivity.
Qed.
Print Assumptions C85_no_search_refuted.

(** The vertex need not exist. *)
Theorem C85_sentinel_refuted : exists p n adj w e lb, nmade half_even p n adj w /\ nstorage_live p /\ nsorts e
  /\ answer (nw_get_max_clique half_even e p lb (NW_UB 1) false false) = Ok (Ret [0]).
Proof.
  exists below, 6, (adj_rows wrows), below_w, nw_env, (-5)%Z. split; [exact below_made|]. split; [exact below_live|]. split; [exact nw_env_sorts|]. vm_compute. reflexivity.
Qed.
Print Assumptions C85_sentinel_refuted.

(** What is returned is one vertex, or 0; the call raises if its weight is below the lower bound. *)
Theorem C85_single : forall rnd p n adj w e lb ub,
  nmade rnd p n adj w -> 1 <= n -> nstorage_live p -> (forall x, In x w -> rnd x = x) -> rnd 0%Z = 0%Z ->
  exists v q, v <= n /\ nw_get_max_clique rnd e p lb ub false false = Ok (q, if (weight w [v] <? lb)%Z then Raise EBounds else Ret [v]).
Proof. exact nw_no_search. Qed.
Print Assumptions C85_single.

(** Missing: lower bounds that some vertex reaches, or that are not positive. *)
Theorem C85_no_search_partial : forall rnd p n adj w e lb ub,
  nmade rnd p n adj w -> 1 <= n -> nstorage_live p -> (forall x, In x w -> rnd x = x) -> rnd 0%Z = 0%Z ->
  (0 < lb)%Z -> (forall x, In x w -> (x < lb)%Z) -> answer (nw_get_max_clique rnd e p lb ub false false) = Ok (Raise EBounds).
Proof. exact nw_no_search_raises. Qed.
Print Assumptions C85_no_search_partial.

Example C85_example : (forall x, In x wwts -> half_even x = x) /\ half_even 0 = 0%Z /\ (forall x, In x wwts -> (x < 10)%Z)
  /\ answer (nw_get_max_clique half_even nw_env wsample 10 100 false false) = Ok (Raise EBounds)
  /\ answer (nw_get_max_clique half_even nw_env wsample 1 100 true true) = Ok (Ret [4; 5; 6]).
Proof.
  split; [intros x H; cbn in H; intuition (subst; reflexivity)|]. split; [reflexivity|]. split; [intros x H; cbn in H; intuition (subst; lia)|].
  split; vm_compute; reflexivity.
Qed.

(** * C86 *)
(** Missing: reset_search and the vertex queries, which dereference null (refuted below). *)
Theorem C86_unloaded_partial : forall rnd e lb ub heur dfs T c,
  answer (nw_get_max_clique rnd e new_pynw lb ub heur dfs) = Ok (Raise ENotLoaded)
  /\ nw_to_edgelist new_pynw = Ok (Raise ENotLoaded) /\ nw_to_matrix new_pynw = Ok (Raise ENotLoaded) /\ nw_to_adjlist new_pynw = Ok (Raise ENotLoaded)
  /\ nw_all_cliques e new_pynw T = Raise ENotLoaded /\ nw_all_weights new_pynw = Ok (Raise ENotLoaded) /\ nw_get_clique_weight rnd new_pynw c = Ok (Raise ENotLoaded).
Proof. exact nw_unloaded. Qed.
Print Assumptions C86_unloaded_partial.

Theorem C86_reset_unloaded_refuted : nw_reset_search new_pynw = UB NullDeref /\ nw_vertex_data new_pynw 0 = UB NullDeref.
Proof. exact nw_unloaded_reset. Qed.
Print Assumptions C86_reset_unloaded_refuted.

(** A loaded object raises nothing of the kind. *)
Example C86_example : nw_all_weights wsample = Ok (Ret wwts) /\ nw_get_clique_weight half_even wsample [4; 5; 6] = Ok (Ret 12%Z)
  /\ exists q, nw_reset_search wsample = Ok q.
Proof. split; [vm_compute; reflexivity|]. split; [vm_compute; reflexivity|]. eexists. vm_compute. reflexivity. Qed.
