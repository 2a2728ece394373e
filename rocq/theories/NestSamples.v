(** NestSamples: the programs of the examples of P_Nest. *)
From Verif Require Import Base MUtils MGraph MEnum MApi Spec SpecDec SpecNest BaseFacts SearchProps Samples NestFacts.
Local Open Scope nat_scope.

Definition step (q : pygraph) (en : enum) : pygraph * enum * list nat :=
  match next_clique true q en with Ok (q', en', Ret c) => (q', en', c) | _ => (q, en, []) end.

(** for a in all_cliques(3): get_max_clique(); for b in all_cliques(2): (two turns) *)
Definition nest1 := Eval vm_compute in step sample (new_enum 3).
Definition nest2 : pygraph := Eval vm_compute in after (get_max_clique (run_env None) (fst (fst nest1)) 1 DEFAULT_UB true true false).
Definition nest3 := Eval vm_compute in step nest2 (new_enum 2).
Definition nest4 := Eval vm_compute in step (fst (fst nest3)) (snd (fst nest3)).
Definition outer : loop := mkL 3 (snd (fst nest1)) [[2; 3; 4]].
Definition inner : loop := mkL 2 (snd (fst nest4)) [[2; 3]; [2; 4]].

Lemma sample_ub d : clique 8 (adj_rows sample_rows) d -> length d <= DEFAULT_UB.
Proof. intros D. apply (Nat.le_trans _ 8); [apply (clique_length _ _ _ D)|]. pose proof default_ub_z. lia. Qed.

Lemma roomleft_nil n adj : roomleft n adj [].
Proof. exists []. split; [split; [constructor|split; [intros v []|intros u v []]]|]. cbn. lia. Qed.

Lemma outer_loop : loops 8 (adj_rows sample_rows) true true sample [outer] (fst (fst nest1)).
Proof.
  apply (l_next _ _ _ _ _ [] sample 3 (new_enum 3) [] _ _ [2; 3; 4]); [|apply roomleft_nil|vm_compute; reflexivity].
  apply l_begin. apply l_start.
Qed.

Lemma outer_fit : roomleft 8 (adj_rows sample_rows) [outer].
Proof. eapply one_roomleft; [exact sample_made|exact sample_edge|exact sample_live|exact outer_loop]. Qed.

Lemma inner_loop : loops 8 (adj_rows sample_rows) true true sample [inner; outer] (fst (fst nest4)).
Proof.
  apply (l_next _ _ _ _ _ [outer] (fst (fst nest3)) 2 (snd (fst nest3)) [[2; 3]] _ _ [2; 4]); [|exact outer_fit|vm_compute; reflexivity].
  apply (l_next _ _ _ _ _ [outer] nest2 2 (new_enum 2) [] _ _ [2; 3]); [|exact outer_fit|vm_compute; reflexivity].
  apply l_begin. eapply (l_get _ _ _ _ _ [outer] (fst (fst nest1)) (run_env None) 1 DEFAULT_UB true true false);
    [exact outer_loop|exact outer_fit|apply (proj1 (run_env_sorts _))|reflexivity|intros _; exact sample_ub|vm_compute; reflexivity].
Qed.

Lemma inner_fit : roomleft 8 (adj_rows sample_rows) [inner; outer].
Proof. exists [1; 2; 3; 4]. split; [apply cliqueb_sound; vm_compute; reflexivity|]. cbn. repeat constructor. Qed.

Lemma break_then_timed : exists rows n p e q en, sorts e /\ never_late e /\ from_edgelist rows n = Ok (Ret p) /\ storage_live p
  /\ next_clique true p (new_enum 3) = Ok (q, en, Ret [2; 3; 4])
  /\ get_max_clique e q 1 DEFAULT_UB false true false = UB OobRead.
Proof.
  exists [(2,3);(3,4);(2,4)], 4. eexists. exists (run_env (Some (fun _ => false))). do 2 eexists.
  split; [apply run_env_sorts|]. split; [intros k; reflexivity|]. split; [vm_compute; reflexivity|]. split.
  { eexists. split; [reflexivity|vm_compute; reflexivity]. }
  split; [vm_compute; reflexivity|]. vm_compute; reflexivity.
Qed.
