(** SpecLone: the same edges and more vertices (C104). No proofs here. *)
From Verif Require Import Base Spec SpecNW.
Local Open Scope nat_scope.

(** The second graph has the edges of the first, and perhaps vertices with higher numbers. *)
Definition padded (n n' : nat) (adj adj' : nat -> nat -> Prop) : Prop := n <= n' /\ forall u v, adj u v <-> adj' u v.

(** The vertices of the first graph keep their weights. *)
Definition same_weights (n : nat) (w w' : list Z) : Prop := forall v, 1 <= v <= n -> vweight w v = vweight w' v.
