(** SpecColour: colourings and mappings of graphs (C110). No proofs here. *)
From Verif Require Import Base Spec SpecNW.
Local Open Scope nat_scope.

(** Each vertex has one of the colours 0..k-1, neighbours have different ones. *)
Definition coloured (k n : nat) (adj : nat -> nat -> Prop) (col : nat -> nat) : Prop :=
  (forall v, 1 <= v <= n -> col v < k) /\ forall u v, adj u v -> col u <> col v.

(** [s] sends each vertex of a graph to one of another, neighbours to neighbours; several vertices may be sent to the same one. *)
Definition folds (n n' : nat) (adj adj' : nat -> nat -> Prop) (s : nat -> nat) : Prop :=
  (forall v, 1 <= v <= n -> 1 <= s v <= n') /\ forall u v, adj u v -> adj' (s u) (s v).

(** The sum of one number for each colour. *)
Fixpoint total (b : nat -> Z) (k : nat) : Z :=
  match k with
  | 0 => 0%Z
  | S k => (total b k + b k)%Z
  end.
