(** SpecGrow: a weighted graph inside another (C103). No proofs here. *)
From Verif Require Import Base Spec SpecNW.
Local Open Scope nat_scope.

(** [s] places the vertices 1..n at different vertices of the other graph; no edge is lost and no weight is lowered. *)
Definition grows (n n' : nat) (adj adj' : nat -> nat -> Prop) (w w' : list Z) (s : nat -> nat) : Prop :=
  (forall v, 1 <= v <= n -> 1 <= s v <= n') /\ (forall u v, 1 <= u <= n -> 1 <= v <= n -> s u = s v -> u = v)
  /\ (forall u v, adj u v -> adj' (s u) (s v)) /\ (forall v, 1 <= v <= n -> (vweight w v <= vweight w' (s v))%Z).
