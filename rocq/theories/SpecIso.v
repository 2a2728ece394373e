(** SpecIso: what the dictionaries of isograph.py should say. *)
From Verif Require Import Base MPy.
Local Open Scope nat_scope.

(** [m] maps the k-th vertex of [a] to the k-th vertex of [b]; [G1] (resp. [G2]) has the vertices of [a] (resp. [b]) as keys
    and gives for each the vertices of [a] (resp. [b]) next to it in the first (resp. second) graph. *)
Definition describes (adj1 adj2 : nat -> nat -> Prop) (a b : list nat) (G1 G2 : list (nat * list nat)) (m : list (nat * nat)) : Prop :=
  (forall k, k < length a -> dget m (nth k a 0) = Some (nth k b 0)) /\ (forall x, ~ In x a -> dget m x = None)
  /\ (forall x, In x a -> exists l, dget G1 x = Some l /\ forall x', In x' l <-> In x' a /\ adj1 x x') /\ (forall x, ~ In x a -> dget G1 x = None)
  /\ (forall y, In y b -> exists l, dget G2 y = Some l /\ forall y', In y' l <-> In y' b /\ adj2 y y') /\ (forall y, ~ In y b -> dget G2 y = None).

(** A number naming a matched vertex of graph 1 also names a neighbour, in graph 2, of a matched vertex of graph 2, but no
    matched vertex of graph 2. *)
Definition stray (adj2 : nat -> nat -> Prop) (a b : list nat) : Prop :=
  exists y z, In y b /\ adj2 y z /\ In z a /\ ~ In z b.

(** Every neighbour [z] of a matched vertex of graph 2 is a number matched in both graphs or in neither. *)
Definition same_numbers (adj2 : nat -> nat -> Prop) (a b : list nat) : Prop :=
  forall y z, In y b -> adj2 y z -> (In z a <-> In z b).

(** Matched vertices adjacent in graph 1 are adjacent in graph 2. *)
Definition no_more_edges (adj1 adj2 : nat -> nat -> Prop) (a b : list nat) : Prop :=
  forall k t, k < length a -> t < length a -> adj1 (nth k a 0) (nth t a 0) -> adj2 (nth k b 0) (nth t b 0).
