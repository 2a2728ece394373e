(** SpecGreedy: cliques chosen greedily (C112). No proofs here. *)
From Verif Require Import Base Spec SpecNW SpecCont SpecOrder SpecFirst.
Local Open Scope nat_scope.

(** Going through [l], take every vertex adjacent to all those taken so far, starting with [t]; [d] is what is taken. *)
Inductive greedily (adj : nat -> nat -> Prop) : list nat -> list nat -> list nat -> Prop :=
| greedily_end t : greedily adj t [] t
| greedily_take t u l d : (forall x, In x t -> adj u x) -> greedily adj (u :: t) l d -> greedily adj t (u :: l) d
| greedily_pass t u l d : ~ (forall x, In x t -> adj u x) -> greedily adj t l d -> greedily adj t (u :: l) d.

(** [l] lists the neighbours of [v] that come after it, those with more neighbours first. *)
Definition by_degree (adj : nat -> nat -> Prop) (v : nat) (l : list nat) : Prop :=
  NoDup l /\ (forall u, In u l <-> adj v u /\ comes_after adj v u)
  /\ StronglySorted (fun x y => forall dx dy, degree adj x dx -> degree adj y dy -> dy <= dx) l.
