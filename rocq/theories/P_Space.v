(** P_Space: exactly which graphs keep their bitset storage (C13). *)
From Verif Require Import Base MUtils MGraph MApi MNW MNWEnum MNWApi Spec SpecNW SpecSpace SpecRound SpaceFacts SpaceSamples.
Local Open Scope nat_scope.

Theorem C13_exact : forall p n adj cap, made_in p n adj cap -> has_edge adj ->
  (exists need, needs n adj need) /\ forall need, needs n adj need -> (storage_live p <-> need <= cap).
Proof. exact space_exact. Qed.
Print Assumptions C13_exact.

Theorem C13_exact_weighted : forall rnd p n adj w cap, nmade_in rnd p n adj w cap -> has_edge adj ->
  (exists need, needs n adj need) /\ forall need, needs n adj need -> (nstorage_live p <-> need <= cap).
Proof. exact nspace_exact. Qed.
Print Assumptions C13_exact_weighted.

(** There is always a capacity. *)
Theorem C13_capacity : forall p n adj, made p n adj -> exists cap, made_in p n adj cap.
Proof. exact made_room. Qed.
Print Assumptions C13_capacity.

Theorem C13_capacity_weighted : forall rnd p n adj w, nmade rnd p n adj w -> exists cap, nmade_in rnd p n adj w cap.
Proof. exact nmade_room. Qed.
Print Assumptions C13_capacity_weighted.

(** A ring of five vertices given as edge list: 15 of 24 words. *)
Example C13_ring_example : exists p, from_edgelist ring_rows 5 = Ok (Ret p) /\ made_in p 5 (adj_rows ring_rows) 24 /\ has_edge (adj_rows ring_rows)
  /\ needs 5 (adj_rows ring_rows) 15 /\ storage_live p.
Proof.
  assert (E : exists p, from_edgelist ring_rows 5 = Ok (Ret p)) by (eexists; vm_compute; reflexivity). destruct E as (p & E). exists p. split; auto.
  assert (M : made_in p 5 (adj_rows ring_rows) 24).
  { apply in_edgelist; auto; [unfold fits; vm_compute; reflexivity|]. exists 2. split; [reflexivity|]. split; [cbn; lia|].
    intros j H. destruct j as [|[|j]]; cbn; lia. }
  assert (HE : has_edge (adj_rows ring_rows)) by (exists 1, 2; split; [lia|left; left; auto]).
  assert (N : needs 5 (adj_rows ring_rows) 15) by exact (rows_need ring_rows 5 ring_ok ltac:(lia)).
  split; auto. split; auto. split; auto. apply (proj2 (space_exact p 5 _ 24 M HE) 15 N). lia.
Qed.

(** One edge: 10 words, of which there are 6. *)
Example C13_edge_example : exists p, from_edgelist [(1, 2)] 2 = Ok (Ret p) /\ made_in p 2 (adj_rows [(1, 2)]) 6 /\ needs 2 (adj_rows [(1, 2)]) 10.
Proof.
  assert (E : exists p, from_edgelist [(1, 2)] 2 = Ok (Ret p)) by (eexists; vm_compute; reflexivity). destruct E as (p & E). exists p. split; auto. split.
  - apply in_edgelist; auto; [unfold fits; vm_compute; reflexivity|]. exists 1. split; [reflexivity|]. split; [cbn; lia|].
    intros j H. destruct j as [|j]; cbn; lia.
  - apply (rows_need [(1, 2)] 2); [|lia]. intros u v [H|[]]. inversion H; subst. lia.
Qed.
