(** P_Colour: colourings and mappings of graphs (C110). *)
From Verif Require Import Base MUtils MGraph MEnum MApi MNW MNWEnum MNWApi MExt Spec SpecDec SpecNW SpecColour SpecRound NWRoundFacts NWProps LoadFacts SearchProps Samples ExtSamples FirstSamples NWSamples BesideSamples ColourFacts ColourSamples.
Local Open Scope nat_scope.

(** A graph that can be coloured with k colours: no call, with whatever arguments and after whatever calls, returns more than k vertices. *)
Theorem C110_colours : forall p n adj k col q e lb ub heur dfs cont, coloured k n adj col -> made p n adj -> has_edge adj -> storage_live p -> history p q -> lawful e lb ->
  ends_with (get_max_clique e q lb ub heur dfs cont) (fun r => match snd r with Ret c => length c <= k | Raise x => x = EBounds end).
Proof. exact coloured_search. Qed.
Print Assumptions C110_colours.

(** And all_cliques for a larger size lists nothing. *)
Theorem C110_list : forall p n adj k col lr j, coloured k n adj col -> made p n adj -> storage_live p -> 1 <= n -> k < j ->
  exists a q en, all_cliques p j = Ret a /\ forall fuel, 0 < fuel -> drain fuel lr p a = Ok (q, en, []).
Proof. exact coloured_list. Qed.
Print Assumptions C110_list.

(** A graph that can be mapped to another: no answer for the first, of the heuristic or of a search cut short either, has more vertices than
    the answer of the full search of the second. *)
Theorem C110_mapped : forall p p' n n' adj adj' s, folds n n' adj adj' s -> made p n adj -> made p' n' adj' -> storage_live p -> storage_live p' -> has_edge adj ->
  forall q e e' lb lb' ub ub' heur heur' dfs cont cont' r c q' c', history p q -> lawful e lb -> permutes e' -> never_late e' -> (forall d, clique n' adj' d -> length d <= ub') ->
  get_max_clique e q lb ub heur dfs cont = Ok (r, Ret c) -> get_max_clique e' p' lb' ub' heur' true cont' = Ok (q', Ret c') -> length c <= length c'.
Proof. exact folded_size. Qed.
Print Assumptions C110_mapped.

(** NWGraph: no answer weighs more than the heaviest vertices of all colours together. *)
Theorem C110_weight : forall rnd p n adj w k col b q e lb ub heur dfs, coloured k n adj col -> (forall v, 1 <= v <= n -> (vweight w v <= b (col v))%Z) -> (forall i, (0 <= b i)%Z) ->
  nmade rnd p n adj w -> has_edge adj -> nstorage_live p -> nhistory rnd p q -> npermutes e ->
  ends_with (nw_get_max_clique rnd e q lb ub heur dfs) (fun r => match snd r with Ret c => length c <= k /\ (weight w c <= total b k)%Z | Raise x => x = EBounds end).
Proof. exact coloured_heaviest. Qed.
Print Assumptions C110_weight.

Example C110_example : coloured 4 8 (adj_rows sample_rows) tint /\ made sample 8 (adj_rows sample_rows) /\ has_edge (adj_rows sample_rows) /\ storage_live sample
  /\ history sample sample3 /\ lawful timed 1 /\ answer (get_max_clique timed sample 1 DEFAULT_UB true true false) = Ok (Ret [1; 2; 3; 4])
  /\ exists q en, drain 9 true sample (new_enum 5) = Ok (q, en, []).
Proof.
  split; [exact sample_coloured|]. split; [exact sample_made|]. split; [exact sample_edge|]. split; [exact sample_live|]. split; [exact sample_history|].
  split; [split; [apply timed_on|left; apply Nat.le_refl]|]. split; [vm_compute; reflexivity|]. do 2 eexists. vm_compute. reflexivity.
Qed.

Example C110_mapped_example : folds 8 5 (adj_rows sample_rows) (adj_rows fold_rows) (fun v => S (tint v)) /\ made folded 5 (adj_rows fold_rows) /\ storage_live folded
  /\ answer (get_max_clique timed sample 1 DEFAULT_UB true true false) = Ok (Ret [1; 2; 3; 4])
  /\ answer (get_max_clique timed folded 1 DEFAULT_UB true true false) = Ok (Ret [1; 2; 3; 4]).
Proof.
  split; [exact sample_folds|]. split; [exact folded_made|]. split; [exact folded_live|]. split; vm_compute; reflexivity.
Qed.

Example C110_weight_example : coloured 4 6 (adj_rows wrows) tint /\ ((forall v, 1 <= v <= 6 -> (vweight wwts v <= shade (tint v))%Z) /\ forall i, (0 <= shade i)%Z)
  /\ total shade 4 = 13%Z /\ nmade half_even wsample 6 (adj_rows wrows) wwts /\ has_edge (adj_rows wrows) /\ nstorage_live wsample
  /\ answer (nw_get_max_clique half_even nw_env wsample 0 100 true true) = Ok (Ret [4; 5; 6]) /\ weight wwts [4; 5; 6] = 12%Z.
Proof.
  split; [exact wsample_coloured|]. split; [exact wsample_shade|]. split; [reflexivity|]. split; [exact wsample_made|]. split; [exact wsample_edge|].
  split; [exact wsample_live|]. split; [vm_compute; reflexivity|reflexivity].
Qed.
