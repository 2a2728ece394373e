(** SpecIter: calls and rebuilds between two steps of an iterator. No proofs here. *)
From Verif Require Import Base MUtils MGraph MEnum MApi MExt MIter Spec SpecKeep SpecState.
Local Open Scope nat_scope.

(** The object was built at least once and has seen any calls since. *)
Inductive world_ok : world -> Prop :=
| wo_build b w w' : builder b -> build_again b w = Ok (Ret w') -> world_ok w'
| wo_calls w q : world_ok w -> calls (w_p w) q -> world_ok (mkWorld q (w_gen w)).

(** Between two moments: any calls, and the graph may be built again any number of times. *)
Inductive later (w : world) : world -> Prop :=
| l_start : later w w
| l_calls w' q : later w w' -> calls (w_p w') q -> later w (mkWorld q (w_gen w'))
| l_build b w' w'' : later w w' -> builder b -> build_again b w' = Ok (Ret w'') -> later w w''.
