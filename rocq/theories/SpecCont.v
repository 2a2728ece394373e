(** SpecCont: searches spread over several calls with continue_search=True. No proofs here. *)
From Verif Require Import Base MApi Spec.
Local Open Scope nat_scope.

(** [v] is the vertex of [c] at which a depth-first search meets [c]: the first in the order of degrees, and of numbers
    where the degrees are equal. *)
Definition opens (adj : nat -> nat -> Prop) (c : list nat) (v : nat) : Prop :=
  In v c /\ forall u du dv, In u c -> u <> v -> degree adj u du -> degree adj v dv -> dv < du \/ (dv = du /\ v < u).

(** [continued n adj p k q c]: on the fresh object [p], get_max_clique(time_limit=..., continue_search=True) has been called
    one or more times, with any time limits and upper bounds of at least the size of any clique; in at most [k] of the
    calls the time ran out. The object is now [q], and the last call returned [c]. *)
Inductive continued (n : nat) (adj : nat -> nat -> Prop) (p : pygraph) : nat -> pygraph -> list nat -> Prop :=
| c_first e ub heur q c k : permutes e -> steady e -> (never_late e /\ k = 0 \/ k = 1) -> (forall d, clique n adj d -> length d <= ub) ->
    get_max_clique e p 1 ub heur true true = Ok (q, Ret c) -> continued n adj p k q c
| c_next e ub heur q c k q' c' k' : continued n adj p k q c -> permutes e -> steady e ->
    (never_late e /\ k' = k \/ k' = S k) -> (forall d, clique n adj d -> length d <= ub) ->
    get_max_clique e q 1 ub heur true true = Ok (q', Ret c') -> continued n adj p k' q' c'.
