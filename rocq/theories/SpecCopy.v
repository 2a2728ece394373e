(** SpecCopy: when one object is a copy of another. No proofs here. *)
From Verif Require Import Base MUtils MGraph MEnum MApi MExt MNW MNWEnum MNWApi Spec SpecNW SpecScript.
From Coq Require Import Sorting.Sorted.
Local Open Scope nat_scope.

(** A matrix as it comes from to_matrix, read by cell. *)
Definition cell (M : list (list bool)) (i j : nat) : bool := nth j (nth i M []) false.

(** [p'] is a newly loaded object for the same graph, with the right number of edges. *)
Definition copies (n : nat) (adj : nat -> nat -> Prop) (p' : pygraph) : Prop :=
  p_nvert p' = n /\ (forall l, edges_of adj l -> p_nedges p' = length l)
  /\ forall v, v <= n -> exists l, vertex_neighbors p' v = Ok (Ret l) /\ StronglySorted lt l /\ forall u, In u l <-> adj v u.

(** No program that starts with [p] newly loaded sees a difference, if neither or both of the two objects' bitsets dangle (C13). *)
Definition same_for_programs (p p' : pygraph) : Prop :=
  (storage_live p <-> storage_live p') -> forall s, observe s p' [] = observe s p [].

Definition ncopies (n : nat) (adj : nat -> nat -> Prop) (w : list Z) (p' : pynw) : Prop :=
  copies n adj (nw_as_pygraph p') /\ nw_all_weights p' = Ok (Ret w).

Definition nsame_for_programs (rnd : Z -> Z) (p p' : pynw) : Prop :=
  (nstorage_live p <-> nstorage_live p') -> forall s, nobserve rnd s p' [] = nobserve rnd s p [].
