(** FirstSamples: a ring of five vertices, and two triangles of which a search meets the second first (C79). *)
From Verif Require Import Base MGraph MEnum MApi Spec SpecDec Samples.
Local Open Scope nat_scope.

Definition ring_rows : list (nat * nat) := [(1,2);(2,3);(3,4);(4,5);(1,5)].
Definition ring : pygraph := match from_edgelist ring_rows 5 with Ok (Ret p) => p | _ => new_pygraph end.

Lemma ring_made : made ring 5 (adj_rows ring_rows).
Proof. apply made_edgelist; [reflexivity|vm_compute; reflexivity]. Qed.
Lemma ring_edge : has_edge (adj_rows ring_rows).
Proof. exists 1, 2. split; [discriminate|]. left. simpl. auto. Qed.
Lemma ring_live : storage_live ring.
Proof. eexists. split; [vm_compute; reflexivity|vm_compute; reflexivity]. Qed.

(** Triangles 1,2,3 and 4,5,6; vertex 4 has three neighbours of higher degree or number. *)
Definition two_rows : list (nat * nat) := [(1,2);(1,3);(2,3);(4,5);(4,6);(4,7);(5,6);(5,8);(5,9);(6,10);(6,11);(7,12);(7,13)].
Definition two : pygraph := match from_edgelist two_rows 13 with Ok (Ret p) => p | _ => new_pygraph end.

Lemma two_made : made two 13 (adj_rows two_rows).
Proof. apply made_edgelist; [reflexivity|vm_compute; reflexivity]. Qed.
Lemma two_edge : has_edge (adj_rows two_rows).
Proof. exists 1, 2. split; [discriminate|]. left. simpl. auto. Qed.
Lemma two_live : storage_live two.
Proof. eexists. split; [vm_compute; reflexivity|vm_compute; reflexivity]. Qed.

(** The same ring, its rows in another order. *)
Definition ring' : pygraph := match from_edgelist (rev ring_rows) 5 with Ok (Ret p) => p | _ => new_pygraph end.
Lemma ring'_made : made ring' 5 (adj_rows (rev ring_rows)).
Proof. apply made_edgelist; [reflexivity|vm_compute; reflexivity]. Qed.
Lemma ring'_same u v : adj_rows ring_rows u v <-> adj_rows (rev ring_rows) u v.
Proof. unfold adj_rows. rewrite <- !in_rev. tauto. Qed.
Lemma ring'_live : storage_live ring'.
Proof. eexists. split; [vm_compute; reflexivity|vm_compute; reflexivity]. Qed.

(** A timed run whose clock never runs out. *)
Definition timed : env := run_env (Some (fun _ => false)).
Lemma timed_on : ~ untimed timed /\ never_late timed /\ permutes timed.
Proof. split; [discriminate|]. split; [intros k; reflexivity|apply run_env_sorts]. Qed.
