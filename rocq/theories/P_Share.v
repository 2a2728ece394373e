(** P_Share: copies of iterators (C91). *)
From Verif Require Import Base MBits MUtils MGraph MHeur MStack MRec MEnum MApi MExt MNW MNWEnum MNWApi MNWCorr MGen MCorr MShare Spec SpecDec SpecNW SpecKeep SpecShare Samples SpecRound NWRoundFacts NWSamples KeepSamples ExtSamples GenSamples CorrSamples ShareFacts.
Local Open Scope nat_scope.

(** * C91. If list(it) would be [l], then the calls of next(...) on [it] and its copies, in any order, deliver [l] once, and
    StopIteration afterwards. [it] may have been advanced before, and the graph searched. *)
Theorem C91_graph : forall o n adj, made o n adj -> forall lr p en f p' en' l ops, calls o p -> drain f lr p en = Ok (p', en', l) ->
  well_named 1 ops -> exists q h, run_iters (next_clique lr) ops p (mkHs [en] [0]) = Ok (q, h, results (steps ops) l).
Proof. exact copies_share. Qed.
Print Assumptions C91_graph.

Theorem C91_correspondences : forall o n adj, made o n adj -> forall lr n2 p en f p' en' l ops, calls o p ->
  corr_drain f lr n2 p en = Ok (p', en', Ret l) -> well_named 1 ops ->
  exists q h, run_iters (next_correspondence lr n2) ops p (mkHs [en] [0]) = Ok (q, h, results (steps ops) l).
Proof. exact corr_copies_share. Qed.
Print Assumptions C91_correspondences.

Theorem C91_nwgraph : forall rnd o n adj w, nmade rnd o n adj w -> forall lr p en f p' en' l ops, ncalls rnd o p ->
  nw_drain rnd f lr p en = Ok (p', en', l) -> well_named 1 ops ->
  exists q h, run_iters (nw_next_clique rnd lr) ops p (mkHs [en] [0]) = Ok (q, h, results (steps ops) l).
Proof. exact nw_copies_share. Qed.
Print Assumptions C91_nwgraph.

Theorem C91_nw_correspondences : forall rnd o n adj w, nmade rnd o n adj w -> forall lr n2 p en f p' en' l ops, ncalls rnd o p ->
  nw_corr_drain rnd f lr n2 p en = Ok (p', en', Ret l) -> well_named 1 ops ->
  exists q h, run_iters (nw_next_correspondence rnd lr n2) ops p (mkHs [en] [0]) = Ok (q, h, results (steps ops) l).
Proof. exact nw_corr_copies_share. Qed.
Print Assumptions C91_nw_correspondences.

(** The iterators over elements (return_indices=False): iter(x) is x itself there (_gen_graph.py:15, 16). *)
Theorem C91_elements : forall o n adj, made o n adj -> forall E1 E2 lr (g : gengraph E1 E2) en f g' en' l ops, calls o (gg_graph g) ->
  gen_drain f lr g en = Ok (g', en', Ret l) -> well_named 1 ops ->
  exists q h, run_iters (gen_next_elements lr) ops g (mkHs [en] [0]) = Ok (q, h, results (steps ops) l).
Proof. exact @gen_copies_share. Qed.
Print Assumptions C91_elements.

(** next(it); a = iter(it); next(a), next(it), next(a); b = iter(a); next(b), next(it), next(b) *)
Example C91_example : made sample 8 (adj_rows sample_rows)
  /\ well_named 1 [ONext 0; OIter 0; ONext 1; ONext 0; ONext 1; OIter 1; ONext 2; ONext 0; ONext 2]
  /\ exists q en, drain 100 true sample (new_enum 3) = Ok (q, en, [[2; 3; 4]; [5; 6; 7]])
  /\ exists q1 h, run_iters (next_clique true) [ONext 0; OIter 0; ONext 1; ONext 0; ONext 1; OIter 1; ONext 2; ONext 0; ONext 2]
       sample (mkHs [new_enum 3] [0]) = Ok (q1, h, [Ret [2; 3; 4]; Ret [5; 6; 7]; Raise EStopIteration; Raise EStopIteration;
                                                   Raise EStopIteration; Raise EStopIteration; Raise EStopIteration]).
Proof.
  split; [exact sample_made|]. split; [cbn; lia|]. do 2 eexists. split; [vm_compute; reflexivity|].
  do 2 eexists. vm_compute. reflexivity.
Qed.

Example C91_nwgraph_example : nmade half_even wsample 6 (adj_rows wrows) wwts /\ well_named 1 [OIter 0; ONext 1; ONext 0; ONext 1]
  /\ exists en q h, nw_all_cliques nw_env wsample 3 = Ret en
  /\ run_iters (nw_next_clique half_even true) [OIter 0; ONext 1; ONext 0; ONext 1] wsample (mkHs [en] [0]) = Ok (q, h, [Ret [2; 3; 4]; Ret [4; 5]; Ret [5; 6]]).
Proof.
  split; [exact wsample_made|]. split; [cbn; lia|]. do 3 eexists. split; [vm_compute; reflexivity|]. vm_compute. reflexivity.
Qed.

Example C91_nw_correspondences_example : nmade half_even wmatch 6 (adj_rows wmatch_rows) wwts /\ well_named 1 [OIter 0; ONext 1; ONext 0; OIter 1; ONext 2]
  /\ exists en q en' l q' h, nw_corr_iterator nw_env wmatch 2 3 7 = Ret en /\ nw_corr_drain half_even 9 true 3 wmatch en = Ok (q, en', Ret l)
  /\ l = [([0; 1], [2; 1]); ([0; 1], [0; 1]); ([0; 1], [0; 2])]
  /\ run_iters (nw_next_correspondence half_even true 3) [OIter 0; ONext 1; ONext 0; OIter 1; ONext 2] wmatch (mkHs [en] [0]) = Ok (q', h, [Ret ([0; 1], [2; 1]); Ret ([0; 1], [0; 1]); Ret ([0; 1], [0; 2])]).
Proof.
  split; [apply wmatch_example|]. split; [cbn; lia|]. do 6 eexists. split; [vm_compute; reflexivity|]. split; [vm_compute; reflexivity|].
  split; [vm_compute; reflexivity|]. vm_compute. reflexivity.
Qed.

Example C91_elements_example : gen_build_with_condition pd_sort gline0 no1 false = Ok (Ret gcond) /\ well_named 1 [ONext 0; OIter 0; ONext 1; ONext 0]
  /\ exists q h, run_iters (gen_next_elements true) [ONext 0; OIter 0; ONext 1; ONext 0] gcond (mkHs [new_enum 2] [0])
       = Ok (q, h, [Ret ([100; 101], [9; 10]); Ret ([100; 101], [10; 9]); Raise EStopIteration]).
Proof. split; [exact gcond_eq|]. split; [cbn; lia|]. do 2 eexists. vm_compute. reflexivity. Qed.
