(** SpecNWNest: properly nested loops over NWGraph.all_cliques, with searches inside them. No proofs here. *)
From Verif Require Import Base MUtils MGraph MNW MNWEnum MNWApi Spec SpecNW.
Local Open Scope nat_scope.

(** An iterator in use: its weight, its state, and the cliques it has returned, in order. *)
Record nwloop : Type := mkNL { nl_weight : Z; nl_en : nenum; nl_items : list (list nat) }.

(** The sizes of the cliques that the iterators returned last, added up. *)
Fixpoint waiting (st : list nwloop) : nat :=
  match st with
  | [] => 0
  | x :: st => length (last (nl_items x) []) + waiting st
  end.

Definition nw_roomleft (n : nat) (adj : nat -> nat -> Prop) (st : list nwloop) : Prop :=
  exists d, clique n adj d /\ waiting st <= length d + 1.

(** [nwloops rnd n adj w lr full p st q]: a program has made [q] out of [p] by calls of get_max_clique, reset_search and loops
    over all_cliques, and is now inside the loops [st], innermost first. Only the innermost iterator is advanced; a loop that
    was left by break stays on the list for ever, so that nothing outside it is advanced any more. While something else is
    called, the cliques that the iterators left waiting (or left by break) have returned last are together not larger than a
    clique of the graph and 1. [full]: no upper bound excludes a clique. *)
Inductive nwloops (rnd : Z -> Z) (n : nat) (adj : nat -> nat -> Prop) (w : list Z) (lr full : bool) (p : pynw) : list nwloop -> pynw -> Prop :=
| nl_start : nwloops rnd n adj w lr full p [] p
| nl_get st q e lb ub heur dfs q' r :
    nwloops rnd n adj w lr full p st q -> nw_roomleft n adj st -> npermutes e -> (full = true -> all_within n adj w ub) ->
    nw_get_max_clique rnd e q lb ub heur dfs = Ok (q', r) -> nwloops rnd n adj w lr full p st q'
| nl_reset st q q' : nwloops rnd n adj w lr full p st q -> nw_reset_search q = Ok q' -> nwloops rnd n adj w lr full p st q'
| nl_begin st q e T en :
    nwloops rnd n adj w lr full p st q -> nw_all_cliques e q T = Ret en -> nwloops rnd n adj w lr full p (mkNL T en [] :: st) q
| nl_next st q T en l q' en' c :
    nwloops rnd n adj w lr full p (mkNL T en l :: st) q -> nw_roomleft n adj st -> nw_next_clique rnd lr q en = Ok (q', en', Ret c) ->
    nwloops rnd n adj w lr full p (mkNL T en' (l ++ [c]) :: st) q'
| nl_end st q T en l q' en' x :
    nwloops rnd n adj w lr full p (mkNL T en l :: st) q -> nw_roomleft n adj st -> nw_next_clique rnd lr q en = Ok (q', en', Raise x) ->
    nwloops rnd n adj w lr full p st q'.

(** No weight is negative, one is positive, and rounding changes no sum. *)
Definition positive_weights (rnd : Z -> Z) (w : list Z) : Prop := sums_exact rnd w /\ nonnegative w /\ exists x, In x w /\ (0 < x)%Z.

(** [k] iterators of weight T are made and advanced once each; they are dropped without being finished. *)
Fixpoint nw_abandon (rnd : Z -> Z) (e : nwenv) (k : nat) (T : Z) (q : pynw) : outcome pynw :=
  match k with
  | 0 => Ok q
  | S k => match nw_all_cliques e q T with
           | Raise _ => Ok q
           | Ret en => '(q, _, _) <- nw_next_clique rnd true q en;; nw_abandon rnd e k T q
           end
  end.

(** Two iterators of the same weight are advanced in turn, [k] times each; what each of them returns. *)
Fixpoint nw_alternate (rnd : Z -> Z) (k : nat) (q : pynw) (a b : nenum) : outcome (list (exc (list nat)) * list (exc (list nat))) :=
  match k with
  | 0 => Ok ([], [])
  | S k => '(q, a, x) <- nw_next_clique rnd true q a;; '(q, b, y) <- nw_next_clique rnd true q b;;
           '(la, lb) <- nw_alternate rnd k q a b;; Ok (x :: la, y :: lb)
  end.
