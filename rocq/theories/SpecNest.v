(** SpecNest: properly nested loops over all_cliques, with searches inside them. No proofs here. *)
From Verif Require Import Base MUtils MGraph MEnum MApi Spec.
Local Open Scope nat_scope.

(** An iterator in use: its size, its state, and the cliques it has returned, in order. *)
Record loop : Type := mkL { it_size : nat; it_en : enum; it_items : list (list nat) }.

(** The sizes of the iterators that have returned something, added up. *)
Fixpoint total (st : list loop) : nat :=
  match st with
  | [] => 0
  | x :: st => (match it_items x with [] => 0 | _ => it_size x end) + total st
  end.

Definition roomleft (n : nat) (adj : nat -> nat -> Prop) (st : list loop) : Prop :=
  exists d, clique n adj d /\ total st <= length d + 1.

(** [loops n adj lr full p st q]: a program has made [q] out of [p] by untimed calls of get_max_clique, reset_search and
    loops over all_cliques, and is now inside the loops [st], innermost first. Only the innermost iterator is advanced;
    a loop that was left by break stays on the list for ever, so that nothing outside it is advanced any more. Iterators
    that are left waiting (or were left by break) while something else is called are together not larger than a
    clique of the graph and 1. [full]: no upper bound is below the size of a clique. *)
Inductive loops (n : nat) (adj : nat -> nat -> Prop) (lr full : bool) (p : pygraph) : list loop -> pygraph -> Prop :=
| l_start : loops n adj lr full p [] p
| l_get st q e lb ub heur dfs cont q' r :
    loops n adj lr full p st q -> roomleft n adj st -> permutes e -> untimed e ->
    (full = true -> forall d, clique n adj d -> length d <= ub) ->
    get_max_clique e q lb ub heur dfs cont = Ok (q', r) -> loops n adj lr full p st q'
| l_reset st q q' : loops n adj lr full p st q -> reset_search q = Ok q' -> loops n adj lr full p st q'
| l_begin st q k : loops n adj lr full p st q -> loops n adj lr full p (mkL k (new_enum k) [] :: st) q
| l_next st q k en l q' en' c :
    loops n adj lr full p (mkL k en l :: st) q -> roomleft n adj st -> next_clique lr q en = Ok (q', en', Ret c) ->
    loops n adj lr full p (mkL k en' (l ++ [c]) :: st) q'
| l_end st q k en l q' en' x :
    loops n adj lr full p (mkL k en l :: st) q -> roomleft n adj st -> next_clique lr q en = Ok (q', en', Raise x) ->
    loops n adj lr full p st q'.
