(** ContSamples: the graph of the examples of P_Cont. *)
From Verif Require Import Base MUtils MGraph MHeur MApi Spec SpecDec SpecCont SearchProps Samples ContFacts.
Local Open Scope nat_scope.

(** The triangle 1, 4, 7 in a graph whose heuristic answer is an edge. *)
Definition csample_rows : list (nat * nat) := [(1,4);(1,5);(1,6);(2,4);(2,5);(2,6);(3,4);(3,5);(3,6);(7,1);(7,4)].
Definition csample : pygraph := match from_edgelist csample_rows 7 with Ok (Ret p) => p | _ => new_pygraph end.

Lemma csample_made : made csample 7 (adj_rows csample_rows).
Proof. apply made_edgelist; [reflexivity|vm_compute; reflexivity]. Qed.
Lemma csample_edge : has_edge (adj_rows csample_rows).
Proof. exists 1, 4. split; [discriminate|]. left. simpl. auto. Qed.
Lemma csample_live : storage_live csample.
Proof. eexists. split; [reflexivity|vm_compute; reflexivity]. Qed.

(** The time runs out at the [k]-th reading of the clock. *)
Definition until (k : nat) : env := run_env (Some (fun t => k <=? t)).
Definition csample1 (k : nat) : pygraph := after (get_max_clique (until k) csample 1 DEFAULT_UB true true true).
Definition csample2 (k : nat) : pygraph := after (get_max_clique (until k) (csample1 k) 1 DEFAULT_UB true true true).

Lemma csample_ub d : clique 7 (adj_rows csample_rows) d -> length d <= DEFAULT_UB.
Proof. intros D. apply (Nat.le_trans _ 7); [apply (clique_length _ _ _ D)|]. pose proof default_ub_z. lia. Qed.

(** Two calls, both out of time. *)
Lemma csample_twice : continued 7 (adj_rows csample_rows) csample 2 (csample2 8) [2; 4].
Proof.
  apply (c_next _ _ _ (until 8) DEFAULT_UB true (csample1 8) [2; 4] 1); [|apply run_env_sorts|apply run_steady|auto|exact csample_ub|vm_compute; reflexivity].
  apply (c_first _ _ _ (until 8) DEFAULT_UB true); [apply run_env_sorts|apply run_steady|auto|exact csample_ub|vm_compute; reflexivity].
Qed.

(** One call out of time, one with no limit. *)
Lemma csample_once : continued 7 (adj_rows csample_rows) csample 1
  (after (get_max_clique (run_env None) (csample1 8) 1 DEFAULT_UB true true true)) [1; 4; 7].
Proof.
  apply (c_next _ _ _ (run_env None) DEFAULT_UB true (csample1 8) [2; 4] 1); [|apply run_env_sorts|exact I|left; split; [exact I|auto]|exact csample_ub|vm_compute; reflexivity].
  apply (c_first _ _ _ (until 8) DEFAULT_UB true); [apply run_env_sorts|apply run_steady|auto|exact csample_ub|vm_compute; reflexivity].
Qed.

Lemma csample_zero : continued 7 (adj_rows csample_rows) csample 0
  (after (get_max_clique (run_env (Some (fun _ => false))) csample 1 DEFAULT_UB true true true)) [1; 4; 7].
Proof.
  apply (c_first _ _ _ (run_env (Some (fun _ => false))) DEFAULT_UB true); [apply run_env_sorts| |left; split; [intros k; reflexivity|reflexivity]|exact csample_ub|vm_compute; reflexivity].
  intros i j _ E. discriminate.
Qed.

Lemma stuck : exists rows n p e q c, sorts e /\ steady e /\ from_edgelist rows n = Ok (Ret p) /\ storage_live p
  /\ get_max_clique e p 1 DEFAULT_UB true true true = Ok (q, Ret c)
  /\ get_max_clique e q 1 DEFAULT_UB true true true = Ok (q, Ret c)
  /\ p_done q = false /\ ~ maximum_clique n (adj_rows rows) c.
Proof.
  exists csample_rows, 7, csample, (until 4), (csample1 4), [2; 4].
  split; [apply run_env_sorts|]. split; [apply run_steady|]. split; [vm_compute; reflexivity|]. split; [exact csample_live|].
  split; [vm_compute; reflexivity|]. split; [vm_compute; reflexivity|]. split; [vm_compute; reflexivity|].
  apply (not_maximum _ _ _ [1;4;7]); [vm_compute; reflexivity|repeat constructor].
Qed.
