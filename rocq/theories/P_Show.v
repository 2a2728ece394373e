(** P_Show: what graph::disp prints (C111). *)
From Verif Require Import Base MUtils MGraph MEnum MApi MNW MNWApi MShow MNWShow Spec SpecNW SpecRound SpecOrder SpecFirst SpecNWFirst SpecShow SpecDec SearchProps Samples ExtSamples FirstSamples NWSamples ShowFacts NWShowFacts ShowSamples NWShowSamples.
Local Open Scope nat_scope.

(** After any calls: printing leaves the graph alone; what is printed for a vertex is the vertex with its neighbours, and a clique that contains it. *)
Theorem C111_disp : forall p n adj q, made p n adj -> has_edge adj -> storage_live p -> history p q ->
  exists g row L, p_G q = Some g /\ graph_disp g = Ok (g, flat_map (fun x => lines (fst x) (row (fst x)) (snd x)) L, flat_map (fun x => row (fst x)) L)
    /\ StronglySorted lt (map fst L)
    /\ forall v c, In (v, c) L -> 1 <= v <= n /\ (exists u, adj v u) /\ StronglySorted lt (row v) /\ (forall x, In x (row v) <-> x = v \/ adj v x)
         /\ clique n adj c /\ In v c.
Proof. exact disp_history. Qed.
Print Assumptions C111_disp.

(** In a new graph the vertices printed are those with a neighbour that comes after them, each with itself as its clique. *)
Theorem C111_fresh : forall p n adj, made p n adj -> has_edge adj -> storage_live p ->
  exists g row vs, p_G p = Some g /\ graph_disp g = Ok (g, flat_map (fun v => lines v (row v) [v]) vs, flat_map row vs)
    /\ StronglySorted lt vs /\ (forall v, In v vs <-> exists u, adj v u /\ comes_after adj v u)
    /\ forall v, In v vs -> StronglySorted lt (row v) /\ (forall x, In x (row v) <-> x = v \/ adj v x).
Proof. exact disp_fresh. Qed.
Print Assumptions C111_fresh.

(** The same with weights: the weight of the vertex, the weight of the vertex with its neighbours, and a clique that contains the vertex. *)
Theorem C111_nwgraph : forall rnd p n adj w q, nmade rnd p n adj w -> has_edge adj -> nstorage_live p -> nhistory rnd p q ->
  exists W row deg (L : list (nat * Z * list nat)), q_G q = Some W
    /\ nw_disp W = Ok (W, flat_map (fun '(v, m, c) => wlines v (vweight w v) (deg v) m (row v) c) L, flat_map (fun '(v, _, _) => row v) L)
    /\ StronglySorted lt (map (fun '(v, _, _) => v) L)
    /\ forall v m c, In (v, m, c) L -> 1 <= v <= n /\ (exists u, adj v u) /\ StronglySorted lt (row v) /\ (forall x, In x (row v) <-> x = v \/ adj v x)
         /\ clique n adj c /\ In v c /\ (vweight w v < m)%Z /\ (sums_exact rnd w -> deg v = weight w (row v)).
Proof. exact nw_disp_history. Qed.
Print Assumptions C111_nwgraph.

(** In a new graph the vertices printed are those which with their later neighbours weigh more than alone; that weight is the number printed
    with the clique, which is the vertex itself. *)
Theorem C111_nwgraph_fresh : forall rnd p n adj w, nmade rnd p n adj w -> sums_exact rnd w -> has_edge adj -> nstorage_live p ->
  exists W row (L : list (nat * Z)), q_G p = Some W
    /\ nw_disp W = Ok (W, flat_map (fun '(v, m) => wlines v (vweight w v) (weight w (row v)) m (row v) [v]) L, flat_map (fun '(v, _) => row v) L)
    /\ StronglySorted lt (map fst L)
    /\ (forall v m, In (v, m) L <-> 1 <= v <= n /\ later_weight adj w v m /\ (vweight w v < m)%Z)
    /\ forall v m, In (v, m) L -> StronglySorted lt (row v) /\ forall x, In x (row v) <-> x = v \/ adj v x.
Proof. exact nw_disp_fresh. Qed.
Print Assumptions C111_nwgraph_fresh.

(** "Current Clique (weight = m)": m is not the weight of the clique that follows. *)
Theorem C111_weight_refuted : exists rnd p n adj w W l1 l2 err v x d m row c, nmade rnd p n adj w /\ sums_exact rnd w /\ q_G p = Some W
  /\ nw_disp W = Ok (W, l1 ++ wlines v x d m row c ++ l2, err) /\ m <> weight w c.
Proof. exact weight_wrong. Qed.
Print Assumptions C111_weight_refuted.

(** "Vertex v has k edges": k is not the number of neighbours. *)
Theorem C111_edges_refuted : exists p n adj g out err v k nb, made p n adj /\ p_G p = Some g /\ graph_disp g = Ok (g, out, err) /\ In (Head v k) out
  /\ NoDup nb /\ (forall x, In x nb <-> adj v x) /\ k <> length nb.
Proof. exact head_wrong. Qed.
Print Assumptions C111_edges_refuted.

(** A vertex with a neighbour may be left out. *)
Theorem C111_every_vertex_refuted : exists p n adj g out err v u, made p n adj /\ p_G p = Some g /\ graph_disp g = Ok (g, out, err) /\ adj v u
  /\ forall k, ~ In (Head v k) out.
Proof. exact four_missing. Qed.
Print Assumptions C111_every_vertex_refuted.

(** After a search the clique printed for vertex 1 is the answer. *)
Example C111_example : made sample 8 (adj_rows sample_rows) /\ has_edge (adj_rows sample_rows) /\ storage_live sample /\ history sample searched
  /\ option_map (fun x => firstn 21 (fst x)) (printed searched)
     = Some (lines 1 [1; 2; 3; 4] [1; 2; 3; 4] ++ lines 2 [1; 2; 3; 4] [2]).
Proof.
  split; [exact sample_made|]. split; [exact sample_edge|]. split; [exact sample_live|]. split; [exact searched_history|]. vm_compute. reflexivity.
Qed.

Example C111_fresh_example : made sample 8 (adj_rows sample_rows) /\ has_edge (adj_rows sample_rows) /\ storage_live sample
  /\ option_map (fun x => firstn 9 (fst x)) (printed sample) = Some (lines 1 [1; 2; 3; 4] [1]).
Proof. split; [exact sample_made|]. split; [exact sample_edge|]. split; [exact sample_live|]. vm_compute. reflexivity. Qed.

Example C111_nwgraph_example : nmade half_even wsample 6 (adj_rows wrows) wwts /\ has_edge (adj_rows wrows) /\ nstorage_live wsample
  /\ nhistory half_even wsample wsearched
  /\ option_map (fun x => firstn 11 (skipn 27 (fst x))) (wprinted wsearched) = Some (wlines 5 9 12 12 [4; 5; 6] [4; 5; 6] ++ [WHead 6 2 12 3]).
Proof.
  split; [exact wsample_made|]. split; [exact wsample_edge|]. split; [exact wsample_live|]. split; [exact wsearched_history|]. vm_compute. reflexivity.
Qed.

Example C111_nwgraph_fresh_example : nmade half_even wsample 6 (adj_rows wrows) wwts /\ sums_exact half_even wwts /\ has_edge (adj_rows wrows) /\ nstorage_live wsample
  /\ option_map (fun x => firstn 18 (fst x)) (wprinted wsample) = Some (wlines 1 5 8 8 [1; 2; 3; 4] [1] ++ wlines 2 1 8 3 [1; 2; 3; 4] [2]).
Proof.
  split; [exact wsample_made|]. split; [exact wwts_exact|]. split; [exact wsample_edge|]. split; [exact wsample_live|]. vm_compute. reflexivity.
Qed.
