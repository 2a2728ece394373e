(** SpecSpace: how much memory a loaded graph needs, and how much it has. No proofs here. *)
From Verif Require Import Base MUtils MApi MExt MFile MNW MNWEnum MNWApi Spec SpecNW SpecFirst.
Local Open Scope nat_scope.

(** In words of 64 bits: two, for every vertex a bit for each neighbour and one for itself, and for the search two times (K + 2) sets of
    neighbours of a vertex of greatest degree D, where K is the greatest number of neighbours that come after a vertex. *)
Definition needs (n : nat) (adj : nat -> nat -> Prop) (need : nat) : Prop :=
  exists dg K D, (forall v, 1 <= v <= n -> degree adj v (dg v))
    /\ (forall v, 1 <= v <= n -> dg v <= D) /\ (exists v, 1 <= v <= n /\ dg v = D)
    /\ (forall v m, 1 <= v <= n -> later_neighbours adj v m -> m <= K) /\ (exists v, 1 <= v <= n /\ later_neighbours adj v K)
    /\ need = 2 + list_sum (map (fun v => (dg v + 64) / 64) (seq 1 n)) + 2 * (K + 2) * ((D + 64) / 64).

(** A vector of [size] elements has grown from [start] by doubling. *)
Definition doubled (start size cap : nat) : Prop :=
  exists k, cap = start * 2 ^ k /\ size <= cap /\ forall j, j < k -> start * 2 ^ j < size.

(** [made], with the capacity of the vector the edges were collected in. *)
Inductive made_in : pygraph -> nat -> (nat -> nat -> Prop) -> nat -> Prop :=
| in_edgelist rows n p cap : fits (n + 1 + 2 * length rows) -> from_edgelist rows n = Ok (Ret p) ->
    doubled (n + 1) (n + 1 + 2 * length rows) cap -> made_in p n (adj_rows rows) cap
| in_matrix n M p cap : fits (1 + 2 * (n * n)) -> from_matrix n n M = Ok (Ret p) ->
    doubled 1 (1 + 2 * length (filter (fun '(i, j) => M i j || (i =? j)) (list_prod (seq 0 n) (seq 0 n)))) cap -> made_in p n (adj_matrix n M) cap
| in_adjlist n m A p cap : fits (length A + list_sum (map (@length nat) A)) -> real_sets A -> from_adjlist n m A = Ok (Ret p) ->
    doubled 1 (length A + list_sum (map (@length nat) A)) cap -> made_in p n (adj_sets A) cap
| in_rows rows n p cap : fits (n + 1 + 2 * length rows) -> rows_ok n rows -> load_rows new_pygraph n rows = Ok p ->
    doubled (n + 1) (n + 1 + 2 * length rows) cap -> made_in p n (adj_rows rows) cap
| in_file text n rows p : allocatable (n + 1 + 2 * length rows) -> market text n rows -> no_zero n rows -> from_file (Some text) = Ok (Ret p) ->
    made_in p n (adj_lines n rows) (n + 1 + 2 * length rows).

Inductive nmade_in (rnd : Z -> Z) : pynw -> nat -> (nat -> nat -> Prop) -> list Z -> nat -> Prop :=
| nin_edgelist rows n w p cap : fits (n + 1 + 2 * length rows) -> nw_from_edgelist rnd rows n w = Ok (Ret p) ->
    doubled (n + 1) (n + 1 + 2 * length rows) cap -> nmade_in rnd p n (adj_rows rows) w cap
| nin_matrix n M w p cap : fits (1 + 2 * (n * n)) -> nw_from_matrix rnd n n M w = Ok (Ret p) ->
    doubled 1 (1 + 2 * length (filter (fun '(i, j) => M i j || (i =? j)) (list_prod (seq 0 n) (seq 0 n)))) cap -> nmade_in rnd p n (adj_matrix n M) w cap.
