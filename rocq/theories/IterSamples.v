(** IterSamples: a graph of matches built twice, and iterators over it (C77). *)
From Verif Require Import Base MUtils MGraph MEnum MApi MExt MIter Spec SpecKeep SpecState SpecIter IterFacts.
Local Open Scope nat_scope.

(** All matches of n1 with n2 elements that do not use an element of set 2 twice. *)
Definition all_pairs (n1 n2 : nat) (p : pygraph) : outcome (exc pygraph) := build_edges_condition_only p n1 n2 (fun i1 i2 j1 j2 => negb (j1 =? j2)).
Definition built_world (b : pygraph -> outcome (exc pygraph)) (w : world) : world := match build_again b w with Ok (Ret w') => w' | _ => w end.
Definition world1 : world := built_world (all_pairs 2 3) (mkWorld new_pygraph 0).

Lemma world1_ok : world_ok world1.
Proof. apply (wo_build (all_pairs 2 3) (mkWorld new_pygraph 0)); [apply b_condition|vm_compute; reflexivity]. Qed.

(** After one step of an iterator. *)
Definition step1 : world * iter := match iter_next true world1 (new_iter world1 2) with Ok (w, it, _) => (w, it) | _ => (world1, new_iter world1 2) end.
Lemma step1_eq : iter_next true world1 (new_iter world1 2) = Ok (fst step1, snd step1, Ret [2; 4]).
Proof. vm_compute. reflexivity. Qed.

Definition world2 : world := built_world (all_pairs 3 4) (fst step1).
Lemma world2_later : later (fst step1) world2.
Proof. apply (l_build _ (all_pairs 3 4) (fst step1)); [apply l_start|apply b_condition|vm_compute; reflexivity]. Qed.

(** Fewer matches than before. *)
Definition world3 : world := built_world (all_pairs 1 1) (fst step1).
Lemma world3_later : later (fst step1) world3.
Proof. apply (l_build _ (all_pairs 1 1) (fst step1)); [apply l_start|apply b_condition|vm_compute; reflexivity]. Qed.

(** After a complete iteration. *)
Definition ended1 : world * iter := match iter_drain 5 true world1 (new_iter world1 2) with Ok (w, it, _) => (w, it) | _ => (world1, new_iter world1 2) end.
Lemma ended1_eq : iter_drain 5 true world1 (new_iter world1 2) = Ok (fst ended1, snd ended1, [[2; 4]; [2; 6]; [3; 4]; [3; 5]]).
Proof. vm_compute. reflexivity. Qed.

Definition world4 : world := built_world (all_pairs 3 4) (fst ended1).
Lemma world4_later : later (fst ended1) world4.
Proof. apply (l_build _ (all_pairs 3 4) (fst ended1)); [apply l_start|apply b_condition|vm_compute; reflexivity]. Qed.

Lemma world4_resumes : exists w it, iter_drain 4 true world4 (snd ended1) = Ok (w, it, [[8; 9]; [8; 10]; [8; 11]]).
Proof. do 2 eexists. vm_compute. reflexivity. Qed.
