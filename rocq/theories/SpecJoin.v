(** SpecJoin: two graphs with all edges between them (C109). No proofs here. *)
From Verif Require Import Base Spec.
Local Open Scope nat_scope.

(** The third graph consists of the first, on 1..m, the second, on m+1..m+n, and all edges from one to the other. *)
Definition joined (m n : nat) (adj1 adj2 adj : nat -> nat -> Prop) : Prop :=
  forall u v, adj u v <-> adj1 u v \/ (exists x y, u = m + x /\ v = m + y /\ adj2 x y)
    \/ 1 <= u <= m /\ m < v <= m + n \/ 1 <= v <= m /\ m < u <= m + n.

(** Every vertex has a neighbour. *)
Definition no_lone (n : nat) (adj : nat -> nat -> Prop) : Prop := forall v, 1 <= v <= n -> exists u, adj v u.
