(** P_Refute: properties of the search interface that fail, each with a witness computed on the model. *)
From Verif Require Import Base MBits MUtils MGraph MHeur MStack MRec MEnum MApi Spec SpecDec.
Local Open Scope nat_scope.

(** * C19 (first half): the upper bound is not respected. *)
Theorem C19_upper_bound_refuted : exists rows n p e c,
  sorts e /\ from_edgelist rows n = Ok (Ret p) /\ storage_live p
  /\ answer (get_max_clique e p 1 2 true true false) = Ok (Ret c) /\ 2 < length c.
Proof.
  exists [(1,2);(1,3);(1,4);(1,5);(2,3);(2,4);(2,5);(3,4);(3,5);(4,5)], 5. eexists.
  exists (run_env None), [1;2;3;4;5]. split; [apply run_env_sorts|]. split; [vm_compute; reflexivity|]. split.
  - eexists. split; [reflexivity|vm_compute; reflexivity].
  - split; [vm_compute; reflexivity|repeat constructor].
Qed.
Print Assumptions C19_upper_bound_refuted.

(** * C21: an upper bound used once limits every later search, even after reset_search. *)
Theorem C21_reset_refuted : exists rows n p e p1 c1 p2 p3 c3,
  sorts e /\ from_edgelist rows n = Ok (Ret p) /\ storage_live p
  /\ get_max_clique e p 1 2 true true false = Ok (p1, Ret c1)
  /\ reset_search p1 = Ok p2
  /\ get_max_clique e p2 1 DEFAULT_UB true true false = Ok (p3, Ret c3)
  /\ ~ maximum_clique n (adj_rows rows) c3.
Proof.
  exists [(1,4);(1,5);(1,6);(2,4);(2,5);(2,6);(3,4);(3,5);(3,6);(7,8);(7,9);(8,9)], 9. eexists.
  exists (run_env None). do 5 eexists. split; [apply run_env_sorts|]. split; [vm_compute; reflexivity|]. split.
  { eexists. split; [reflexivity|vm_compute; reflexivity]. }
  split; [vm_compute; reflexivity|]. split; [vm_compute; reflexivity|]. split; [vm_compute; reflexivity|].
  apply (not_maximum _ _ _ [7;8;9]); [vm_compute; reflexivity|repeat constructor].
Qed.
Print Assumptions C21_reset_refuted.

(** Also after a call that raised because its lower bound was too high. *)
Theorem C21_failed_bound_refuted : exists rows n p e p1 p2 c2,
  sorts e /\ from_edgelist rows n = Ok (Ret p) /\ storage_live p
  /\ get_max_clique e p 4 DEFAULT_UB true true false = Ok (p1, Raise EBounds)
  /\ get_max_clique e p1 1 DEFAULT_UB true true false = Ok (p2, Ret c2)
  /\ ~ maximum_clique n (adj_rows rows) c2.
Proof.
  exists [(1,4);(1,5);(1,6);(2,4);(2,5);(2,6);(3,4);(3,5);(3,6);(7,8);(7,9);(8,9)], 9. eexists.
  exists (run_env None). do 3 eexists. split; [apply run_env_sorts|]. split; [vm_compute; reflexivity|]. split.
  { eexists. split; [reflexivity|vm_compute; reflexivity]. }
  split; [vm_compute; reflexivity|]. split; [vm_compute; reflexivity|].
  apply (not_maximum _ _ _ [7;8;9]); [vm_compute; reflexivity|repeat constructor].
Qed.
Print Assumptions C21_failed_bound_refuted.

(** * C22, C23: the clock expires inside the search of vertex 7, which is then skipped; search_done is nevertheless True. *)
Theorem C22_interrupted_refuted : exists rows n p e p1 c1,
  sorts e /\ steady e /\ from_edgelist rows n = Ok (Ret p) /\ storage_live p
  /\ get_max_clique e p 1 DEFAULT_UB true true true = Ok (p1, Ret c1)
  /\ p_done p1 = true /\ ~ maximum_clique n (adj_rows rows) c1.
Proof.
  exists [(1,4);(1,5);(1,6);(2,4);(2,5);(2,6);(3,4);(3,5);(3,6);(7,1);(7,4)], 7. eexists.
  exists (run_env (Some (fun t => 15 <=? t))). do 2 eexists. split; [apply run_env_sorts|]. split; [apply run_steady|]. split; [vm_compute; reflexivity|]. split.
  { eexists. split; [reflexivity|vm_compute; reflexivity]. }
  split; [vm_compute; reflexivity|]. split; [vm_compute; reflexivity|].
  apply (not_maximum _ _ _ [1;4;7]); [vm_compute; reflexivity|repeat constructor].
Qed.
Print Assumptions C22_interrupted_refuted.

(** The search stops before vertex n (current_vertex = n), and search_done is True. *)
Theorem C23_last_vertex_refuted : exists rows n p e p1 c1,
  sorts e /\ steady e /\ from_edgelist rows n = Ok (Ret p) /\ storage_live p
  /\ get_max_clique e p 1 DEFAULT_UB true true false = Ok (p1, Ret c1)
  /\ p_cur p1 = n /\ p_done p1 = true /\ ~ maximum_clique n (adj_rows rows) c1.
Proof.
  exists [(1,4);(1,5);(1,6);(2,4);(2,5);(2,6);(3,4);(3,5);(3,6);(7,1);(7,4)], 7. eexists.
  exists (run_env (Some (fun t => 10 <=? t))). do 2 eexists. split; [apply run_env_sorts|]. split; [apply run_steady|]. split; [vm_compute; reflexivity|]. split.
  { eexists. split; [reflexivity|vm_compute; reflexivity]. }
  split; [vm_compute; reflexivity|]. split; [vm_compute; reflexivity|]. split; [vm_compute; reflexivity|].
  apply (not_maximum _ _ _ [1;4;7]); [vm_compute; reflexivity|repeat constructor].
Qed.
Print Assumptions C23_last_vertex_refuted.

(** * C25 *)
Theorem C25_repr_refuted : exists rows n p e p1 r,
  sorts e /\ from_edgelist rows n = Ok (Ret p) /\ get_max_clique e p 1 DEFAULT_UB true true false = Ok (p1, r)
  /\ repr_search_done p1 <> p_done p1.
Proof.
  exists [(1,2);(2,3);(3,4);(4,5);(5,1)], 5. eexists. exists (run_env None). do 2 eexists.
  split; [apply run_env_sorts|]. split; [vm_compute; reflexivity|]. split; [vm_compute; reflexivity|]. vm_compute. discriminate.
Qed.
Print Assumptions C25_repr_refuted.

(** * C30: cliques rooted at vertex 1 are never produced. *)
Theorem C30_complete_refuted : exists rows n p p1 en l c,
  from_edgelist rows n = Ok (Ret p) /\ storage_live p
  /\ drain 100 true p (new_enum 2) = Ok (p1, en, l)
  /\ clique n (adj_rows rows) c /\ length c = 2 /\ ~ In c l.
Proof.
  exists [(1,2);(2,3);(3,4);(4,5);(5,6);(6,4)], 6. do 4 eexists. exists [1;2]. split; [vm_compute; reflexivity|]. split.
  { eexists. split; [reflexivity|vm_compute; reflexivity]. }
  split; [vm_compute; reflexivity|]. split; [apply cliqueb_sound; vm_compute; reflexivity|]. split; [reflexivity|].
  intros H. simpl in H. repeat (destruct H as [H|H]; [discriminate|]). exact H.
Qed.
Print Assumptions C30_complete_refuted.

(** * C32: enumeration overwrites the clique remembered by get_max_clique. *)
Theorem C32_enumerate_then_search_refuted : exists rows n p e p1 c1 p2 en l p3 c3,
  sorts e /\ from_edgelist rows n = Ok (Ret p) /\ storage_live p
  /\ get_max_clique e p 1 DEFAULT_UB true true false = Ok (p1, Ret c1)
  /\ drain 100 true p1 (new_enum 2) = Ok (p2, en, l)
  /\ get_max_clique e p2 1 DEFAULT_UB true true false = Ok (p3, Ret c3)
  /\ ~ maximum_clique n (adj_rows rows) c3.
Proof.
  exists [(1,2);(2,3);(3,4);(4,5);(5,6);(6,4)], 6. eexists. exists (run_env None). do 7 eexists.
  split; [apply run_env_sorts|]. split; [vm_compute; reflexivity|]. split.
  { eexists. split; [reflexivity|vm_compute; reflexivity]. }
  split; [vm_compute; reflexivity|]. split; [vm_compute; reflexivity|]. split; [vm_compute; reflexivity|].
  apply (not_maximum _ _ _ [4;5;6]); [vm_compute; reflexivity|repeat constructor].
Qed.
Print Assumptions C32_enumerate_then_search_refuted.

(** * C33: [k] iterators are advanced once and dropped; afterwards the arena is exhausted. *)
Theorem C33_abandon_refuted : exists rows n p e k p1,
  sorts e /\ from_edgelist rows n = Ok (Ret p) /\ storage_live p
  /\ foldM (fun _ p => '(p, _, _) <- next_clique true p (new_enum 2);; Ok p) (repeat tt k) p = Ok p1
  /\ get_max_clique e p1 1 DEFAULT_UB true true false = UB OobRead.
Proof.
  exists [(1,4);(1,5);(1,6);(2,4);(2,5);(2,6);(3,4);(3,5);(3,6);(7,1);(7,4)], 7. eexists.
  exists (run_env None), 10. eexists. split; [apply run_env_sorts|]. split; [vm_compute; reflexivity|]. split.
  { eexists. split; [reflexivity|vm_compute; reflexivity]. }
  split; [vm_compute; reflexivity|]. vm_compute; reflexivity.
Qed.
Print Assumptions C33_abandon_refuted.

(** * C34: a and b are advanced alternately; both should yield [2;4], [2;5], [2;6], [3;4], [3;5], ... *)
Theorem C34_interleave_refuted : exists rows n p p1 a b la lb,
  from_edgelist rows n = Ok (Ret p) /\ storage_live p /\ alternate 5 p = Ok (p1, a, b, la, lb) /\ la <> lb.
Proof.
  exists [(1,4);(1,5);(1,6);(2,4);(2,5);(2,6);(3,4);(3,5);(3,6);(7,1);(7,4)], 7. do 6 eexists. split; [vm_compute; reflexivity|]. split.
  { eexists. split; [reflexivity|vm_compute; reflexivity]. }
  split; [vm_compute; reflexivity|]. discriminate.
Qed.
Print Assumptions C34_interleave_refuted.

(** * C56: loading again keeps search_done and current_vertex. *)
Theorem C56_rebuild_refuted : exists rows n p e p1 r p2,
  sorts e /\ from_edgelist rows n = Ok (Ret p) /\ get_max_clique e p 1 DEFAULT_UB true true false = Ok (p1, r)
  /\ load_graph p1 3 3 100 (self_loops 3 ++ both_ways 1 2 ++ both_ways 2 3 ++ both_ways 1 3) = Ok p2
  /\ p_done p2 = true /\ p_cur p2 <> 0.
Proof.
  exists [(1,2);(2,3);(3,4);(4,5);(5,1)], 5. eexists. exists (run_env None). do 3 eexists.
  split; [apply run_env_sorts|]. split; [vm_compute; reflexivity|]. split; [vm_compute; reflexivity|]. split; [vm_compute; reflexivity|].
  split; [vm_compute; reflexivity|]. vm_compute. discriminate.
Qed.
Print Assumptions C56_rebuild_refuted.
