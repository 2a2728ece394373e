(** SpecSwap: what C96 and C97 are stated with. No proofs here. *)
From Verif Require Import Base MApi Spec.
Local Open Scope nat_scope.

(** [q'] is [q] with the two sets exchanged: match (j, i) in place of match (i, j). *)
Definition transposed (n1 n2 : nat) (q q' : pygraph) : Prop := forall i i' j j', i < n1 -> i' < n1 -> j < n2 -> j' < n2 ->
  (neighbour q (vid n2 i j) (vid n2 i' j') <-> neighbour q' (vid n1 j i) (vid n1 j' i')).

(** A copy of graph 2 in graph 1: the vertices of graph 2 are sent to different vertices of graph 1, edges to edges. *)
Definition copy_in (n1 : nat) (adj1 : nat -> nat -> Prop) (n2 : nat) (adj2 : nat -> nat -> Prop) (phi : nat -> nat) : Prop :=
  (forall x, 1 <= x <= n2 -> 1 <= phi x <= n1) /\ (forall x y, 1 <= x <= n2 -> 1 <= y <= n2 -> phi x = phi y -> x = y)
  /\ forall x y, adj2 x y -> adj1 (phi x) (phi y).
