(** SpecChange: two graphs that differ by the numbers of the vertices or by an edge. No proofs here. *)
From Verif Require Import Base Spec.
Local Open Scope nat_scope.

(** [s] gives the vertices 1..n new, different numbers from 1..n; the graph [adj] becomes [adj']. *)
Definition renumbers (n : nat) (adj adj' : nat -> nat -> Prop) (s : nat -> nat) : Prop :=
  (forall v, 1 <= v <= n -> 1 <= s v <= n) /\ (forall u v, 1 <= u <= n -> 1 <= v <= n -> s u = s v -> u = v)
  /\ (forall u v, 1 <= u <= n -> 1 <= v <= n -> (adj u v <-> adj' (s u) (s v))).

(** [d] is the set [c] under the new numbers. *)
Definition image (s : nat -> nat) (c d : list nat) : Prop := forall v, In v d <-> exists u, In u c /\ v = s u.

(** [adj'] is [adj] with an edge between [a] and [b] added. *)
Definition with_edge (adj adj' : nat -> nat -> Prop) (a b : nat) : Prop :=
  forall u v, adj' u v <-> adj u v \/ (u = a /\ v = b) \/ (u = b /\ v = a).
