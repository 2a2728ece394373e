(** P_Script: whole programs using one object (C10, C82, C83). *)
From Verif Require Import Base MUtils MGraph MEnum MApi MExt MNW MNWEnum MNWApi Spec SpecDec SpecNW SpecScript SpecRound Samples NWFacts NWSamples ScriptFacts FlagFacts ScriptSamples.
Local Open Scope nat_scope.

(** * C10, continued: two objects for the same graph cannot be told apart by any program: searches, iterators, exports, in any
    order and number. (n_edges, and with it to_edgelist and to_file, may differ: C07.) *)
Theorem C10_same_later : forall p q n adj adj', made p n adj -> made q n adj' -> (forall u v, adj u v <-> adj' u v) ->
  (storage_live p <-> storage_live q) -> forall s, observe s p [] = observe s q [].
Proof. exact made_indistinct. Qed.
Print Assumptions C10_same_later.

Example C10_later_example : made sample 8 (adj_rows sample_rows) /\ made msample 8 (adj_matrix 8 (cells (rev sample_rows)))
  /\ (forall u v, adj_rows sample_rows u v <-> adj_matrix 8 (cells (rev sample_rows)) u v) /\ storage_live sample /\ storage_live msample
  /\ observe gprogram sample [] = Ok [SMade (Ret tt); SClique (Ret [1; 2; 3; 4]); SClique (Ret [2; 3; 4]); SMade (Ret tt); SClique (Ret [1; 2; 3; 4]);
       SFlag true; SFlag false; SPairs (Ret ([2; 2; 3], [0; 1; 0])); SNothing; SClique (Ret [1; 2; 3; 5]); SNothing].
Proof. split; [exact sample_made|]. destruct msample_made, msample_live. do 4 (split; [assumption|]). vm_compute. reflexivity. Qed.

(** * C82: the same for NWGraph. *)
Theorem C82_same_object : forall rnd p q n adj adj' w, nmade rnd p n adj w -> nmade rnd q n adj' w -> (forall u v, adj u v <-> adj' u v) ->
  exists W V, q_G p = Some W /\ q_G q = Some V /\ forget_live (w_g W) = forget_live (w_g V) /\ w_wt W = w_wt V /\ w_deg W = w_deg V
    /\ w_mcs W = w_mcs V /\ w_limit W = w_limit V /\ w_size W = w_size V /\ w_loc W = w_loc V
    /\ q_nvert p = q_nvert q /\ q_cur p = q_cur q /\ q_done p = q_done q.
Proof. exact nmade_same. Qed.
Print Assumptions C82_same_object.

Theorem C82_same_later : forall rnd p q n adj adj' w, nmade rnd p n adj w -> nmade rnd q n adj' w -> (forall u v, adj u v <-> adj' u v) ->
  (nstorage_live p <-> nstorage_live q) -> forall s, nobserve rnd s p [] = nobserve rnd s q [].
Proof. exact nmade_indistinct. Qed.
Print Assumptions C82_same_later.

Example C82_example : nmade half_even wsample 6 (adj_rows wrows) wwts /\ nmade half_even wmsample 6 (adj_matrix 6 (cells wrows)) wwts
  /\ (forall u v, adj_rows wrows u v <-> adj_matrix 6 (cells wrows) u v) /\ nstorage_live wsample /\ nstorage_live wmsample
  /\ nobserve half_even nprogram wsample [] = Ok [SMade (Ret tt); SClique (Ret [2; 3; 4]); SClique (Ret [4; 5; 6]); SFlag true; SClique (Ret [4; 5; 6]);
       SWeight (Ret 12%Z); SWeights (Ret wwts); SPairs (Ret ([1; 2], [1; 0]))].
Proof. split; [exact wsample_made|]. destruct wmsample_made, wmsample_live. do 4 (split; [assumption|]). vm_compute. reflexivity. Qed.

(** * C83: search_done tells which search was the last one. After any program that returns, it is True if the last search was an
    unlimited depth-first search and False if there was none since loading or reset_search, or the last one was without use_dfs
    (with continue_search such a search leaves it alone). *)
Theorem C83_graph : forall p n adj s l b, made p n adj -> 1 <= n -> gflag s (Some false) = Some b -> observe (s ++ [CDone]) p [] = Ok l ->
  exists l0, l = l0 ++ [SFlag b] /\ length l0 = length s.
Proof. exact made_flag. Qed.
Print Assumptions C83_graph.

Theorem C83_nwgraph : forall rnd p n adj w s l, nmade rnd p n adj w -> 1 <= n -> nobserve rnd (s ++ [NDone]) p [] = Ok l ->
  exists l0, l = l0 ++ [SFlag (nflag s false)] /\ length l0 = length s.
Proof. exact nmade_flag. Qed.
Print Assumptions C83_nwgraph.

(** The documentation (user.rst:78) says that search_done is True if the depth-first search has been completed. It is not: a later
    search without use_dfs makes it False again. *)
Theorem C83_completed_refuted : (exists p n adj e l0 c, made p n adj /\ observe [CGet e 1 DEFAULT_UB true true false; CDone] p [] = Ok [l0; SFlag true]
    /\ observe [CGet e 1 DEFAULT_UB true true false; CDone; CGet e 1 DEFAULT_UB true false false; CDone] p [] = Ok [l0; SFlag true; SClique (Ret c); SFlag false])
  /\ (exists rnd p n adj w e l0 c, nmade rnd p n adj w /\ nobserve rnd [NGet e 0 100 true true; NDone] p [] = Ok [l0; SFlag true]
    /\ nobserve rnd [NGet e 0 100 true true; NDone; NGet e 0 100 true false; NDone] p [] = Ok [l0; SFlag true; SClique (Ret c); SFlag false]).
Proof.
  split.
  - exists sample, 8, (adj_rows sample_rows), (run_env None), (SClique (Ret [1; 2; 3; 4])), [1; 2; 3; 4].
    split; [exact sample_made|]. split; vm_compute; reflexivity.
  - exists half_even, wsample, 6, (adj_rows wrows), wwts, nw_env, (SClique (Ret [4; 5; 6])), [4; 5; 6].
    split; [exact wsample_made|]. split; vm_compute; reflexivity.
Qed.
Print Assumptions C83_completed_refuted.

Example C83_example : made sample 8 (adj_rows sample_rows) /\ 1 <= 8 /\ gflag (firstn 5 gprogram) (Some false) = Some true
  /\ (exists l, observe (firstn 5 gprogram ++ [CDone]) sample [] = Ok l)
  /\ nmade half_even wsample 6 (adj_rows wrows) wwts /\ (exists l, nobserve half_even (nprogram ++ [NDone]) wsample [] = Ok l).
Proof.
  split; [exact sample_made|]. split; [repeat constructor|]. split; [reflexivity|]. split; [eexists; vm_compute; reflexivity|].
  split; [exact wsample_made|]. eexists. vm_compute. reflexivity.
Qed.
