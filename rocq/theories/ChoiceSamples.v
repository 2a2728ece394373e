(** ChoiceSamples: a program on the sample graph, with both orders of evaluation. *)
From Verif Require Import Base MUtils MGraph MHeur MEnum MApi Spec SpecDec Samples SpecChoice.
Local Open Scope nat_scope.

Definition choice_srt : list vdata -> list vdata := srt_fun (run_env None).
Definition choice_clk : nat -> bool := fun t => 3 <=? t.
Definition choice_lr (i : nat) : bool := Nat.even i.
Definition choice_1 : pygraph := after (get_max_clique (mkEnv true choice_srt (Some choice_clk)) sample 1 8 true true true).
Definition choice_2 : pygraph * enum * list (list nat) := match drain 20 false choice_1 (new_enum 3) with Ok r => r | _ => (new_pygraph, new_enum 0, []) end.
Definition choice_3 : pygraph := match reset_search (fst (fst choice_2)) with Ok q => q | _ => new_pygraph end.
Definition choice_4 : pygraph := after (get_correspondence (mkEnv false choice_srt None) choice_3 3 1 8 false true false).

Definition choice_calls : list gcall := [GGet (Some choice_clk) 1 8 true true true; GList 3; GReset; GCorrespondence None 3 1 8 false true false].
Definition choice_seen : list gseen := [GClique (Ret [1; 2; 3; 4]); GAll [[2; 3; 4]; [5; 6; 7]]; GNothing; GPair (Ret ([0; 0; 0; 1], [0; 1; 2; 0]))].

Lemma choice_get : get_max_clique (mkEnv true choice_srt (Some choice_clk)) sample 1 8 true true true = Ok (choice_1, Ret [1; 2; 3; 4]).
Proof. vm_compute. reflexivity. Qed.

Lemma choice_all : all_cliques choice_1 3 = Ret (new_enum 3).
Proof. vm_compute. reflexivity. Qed.

Lemma choice_list : drain 20 false choice_1 (new_enum 3) = Ok (fst (fst choice_2), snd (fst choice_2), [[2; 3; 4]; [5; 6; 7]]).
Proof. vm_compute. reflexivity. Qed.

Lemma choice_reset : reset_search (fst (fst choice_2)) = Ok choice_3.
Proof. vm_compute. reflexivity. Qed.

Lemma choice_pair : get_correspondence (mkEnv false choice_srt None) choice_3 3 1 8 false true false = Ok (choice_4, Ret ([0; 0; 0; 1], [0; 1; 2; 0])).
Proof. vm_compute. reflexivity. Qed.

Lemma choice_ran : ran choice_lr choice_srt sample choice_calls choice_4 choice_seen.
Proof.
  change choice_calls with ((([] ++ [GGet (Some choice_clk) 1 8 true true true]) ++ [GList 3]) ++ [GReset] ++ [GCorrespondence None 3 1 8 false true false]).
  change choice_seen with ((([] ++ [GClique (Ret [1; 2; 3; 4])]) ++ [GAll [[2; 3; 4]; [5; 6; 7]]]) ++ [GNothing] ++ [GPair (Ret ([0; 0; 0; 1], [0; 1; 2; 0]))]).
  rewrite !app_assoc.
  eapply ran_correspondence; [|exact choice_pair]. eapply ran_reset; [|exact choice_reset]. eapply ran_list; [|exact choice_all|exact choice_list].
  eapply ran_get; [apply ran_none|exact choice_get].
Qed.

Lemma choice_lawful : Forall call_lawful choice_calls.
Proof. unfold choice_calls. repeat apply Forall_cons; cbn [call_lawful]; auto. Qed.

Lemma choice_permutes : forall l, Permutation (choice_srt l) l.
Proof. exact (proj1 (run_env_sorts None)). Qed.

Lemma choice_get_other : get_max_clique (mkEnv true choice_srt None) sample3 0 8 true true false = get_max_clique (mkEnv false choice_srt None) sample3 0 8 true true false
  /\ exists q, get_max_clique (mkEnv true choice_srt None) sample3 0 8 true true false = Ok (q, Ret [1; 2; 3; 4]).
Proof. split; [vm_compute; reflexivity|]. eexists. vm_compute. reflexivity. Qed.

(** In the middle of an enumeration the two orders leave different objects. *)
Definition choice_mid (lr : bool) : pygraph * enum * exc (list nat) :=
  match next_clique lr sample (new_enum 3) with Ok r => r | _ => (new_pygraph, new_enum 0, Ret []) end.
Definition choice_mem (p : pygraph) : option (list BinNums.N) := match p_G p with Some g => Some (edge_bits g) | None => None end.

Lemma choice_next lr : next_clique lr sample (new_enum 3) = Ok (fst (fst (choice_mid lr)), snd (fst (choice_mid lr)), Ret [2; 3; 4]).
Proof. destruct lr; vm_compute; reflexivity. Qed.

Lemma choice_differs : choice_mem (fst (fst (choice_mid true))) <> choice_mem (fst (fst (choice_mid false))).
Proof. vm_compute. discriminate. Qed.

Lemma mem_differs q q' : choice_mem q <> choice_mem q' -> choice_mem q <> None -> choice_mem q' <> None ->
  exists g g', p_G q = Some g /\ p_G q' = Some g' /\ edge_bits g <> edge_bits g'.
Proof.
  unfold choice_mem. destruct (p_G q) as [g|], (p_G q') as [g'|]; try congruence. intros D _ _. exists g, g'. split; [reflexivity|].
  split; [reflexivity|]. congruence.
Qed.

Lemma choice_mem_some : choice_mem (fst (fst (choice_mid true))) <> None /\ choice_mem (fst (fst (choice_mid false))) <> None.
Proof. split; vm_compute; discriminate. Qed.

Lemma choice_midway : exists p n adj q q' en en' r g g', made p n adj /\ has_edge adj /\ storage_live p
  /\ next_clique true p (new_enum 3) = Ok (q, en, r) /\ next_clique false p (new_enum 3) = Ok (q', en', r)
  /\ p_G q = Some g /\ p_G q' = Some g' /\ edge_bits g <> edge_bits g'.
Proof.
  destruct (mem_differs _ _ choice_differs (proj1 choice_mem_some) (proj2 choice_mem_some)) as (g & g' & H).
  exists sample, 8, (adj_rows sample_rows), (fst (fst (choice_mid true))), (fst (fst (choice_mid false))), (snd (fst (choice_mid true))), (snd (fst (choice_mid false))), (Ret [2; 3; 4]), g, g'.
  exact (conj sample_made (conj sample_edge (conj sample_live (conj (choice_next true) (conj (choice_next false) H))))).
Qed.
