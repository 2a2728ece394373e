(** SpecKeep: arbitrary sequences of calls, on any object and with any outcome. No proofs here. *)
From Verif Require Import Base MUtils MGraph MEnum MApi MExt MFile MNW MNWEnum MNWApi Spec SpecNW.
Local Open Scope nat_scope.

(** [calls p q]: the object [p] has become [q] by calls of get_max_clique and get_correspondence (any environment,
    bounds, flags and outcome), reset_search, and single steps of iterators in any state; so iterators may be
    abandoned, interleaved with each other and with searches. Nothing is assumed about [p]. *)
Inductive calls (p : pygraph) : pygraph -> Prop :=
| c_start : calls p p
| c_get q e lb ub heur dfs cont q' r : calls p q -> get_max_clique e q lb ub heur dfs cont = Ok (q', r) -> calls p q'
| c_corr q e len2 lb ub heur dfs cont q' r :
    calls p q -> get_correspondence e q len2 lb ub heur dfs cont = Ok (q', r) -> calls p q'
| c_reset q q' : calls p q -> reset_search q = Ok q' -> calls p q'
| c_next q lr en q' en' r : calls p q -> next_clique lr q en = Ok (q', en', r) -> calls p q'
| c_next_corr q lr len2 en q' en' r : calls p q -> next_correspondence lr len2 q en = Ok (q', en', r) -> calls p q'.

Inductive ncalls (rnd : Z -> Z) (p : pynw) : pynw -> Prop :=
| nc_start : ncalls rnd p p
| nc_get q e lb ub heur dfs q' r : ncalls rnd p q -> nw_get_max_clique rnd e q lb ub heur dfs = Ok (q', r) -> ncalls rnd p q'
| nc_corr q e len2 lb ub heur dfs q' r :
    ncalls rnd p q -> nw_get_correspondence rnd e q len2 lb ub heur dfs = Ok (q', r) -> ncalls rnd p q'
| nc_reset q q' : ncalls rnd p q -> nw_reset_search q = Ok q' -> ncalls rnd p q'
| nc_next q lr en q' en' r : ncalls rnd p q -> nw_next_clique rnd lr q en = Ok (q', en', r) -> ncalls rnd p q'
| nc_next_corr q lr len2 en q' en' r : ncalls rnd p q -> nw_next_correspondence rnd lr len2 q en = Ok (q', en', r) -> ncalls rnd p q'.

(** The pairs (a_k, b_k) are the members of [c], match (i, j) being vertex i * n2 + j + 1. *)
Definition decodes (n2 : nat) (c : list nat) (ab : list nat * list nat) : Prop :=
  length (fst ab) = length c /\ length (snd ab) = length c
  /\ forall k, k < length c -> nth k (snd ab) 0 < n2 /\ nth k c 0 = vid n2 (nth k (fst ab) 0) (nth k (snd ab) 0).

(** Adjacent matches use different elements of both sets. *)
Definition one_to_one (n2 : nat) (adj : nat -> nat -> Prop) : Prop :=
  forall i j i' j', j < n2 -> j' < n2 -> adj (vid n2 i j) (vid n2 i' j') -> i <> i' /\ j <> j'.

(** [ngets rnd p q]: the object [p] has become [q] by calls of get_max_clique only. *)
Inductive ngets (rnd : Z -> Z) (p : pynw) : pynw -> Prop :=
| ng_start : ngets rnd p p
| ng_get q e lb ub heur dfs q' r : ngets rnd p q -> npermutes e -> nw_get_max_clique rnd e q lb ub heur dfs = Ok (q', r) -> ngets rnd p q'.
