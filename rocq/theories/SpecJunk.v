(** SpecJunk: programs that use one NWGraph, for the comparison of two environments (C88). No proofs here. *)
From Verif Require Import Base MUtils MGraph MApi MNW MNWEnum MNWApi.
Local Open Scope nat_scope.

Inductive wcall : Type :=
| WGet (lb ub : Z) (heur dfs : bool)                      (* get_max_clique *)
| WCorrespondence (len2 : nat) (lb ub : Z) (heur dfs : bool)
| WReset
| WList (T : Z).                                          (* list(G.all_cliques(T)) *)

Inductive wseen : Type :=
| SawClique (r : exc (list nat))
| SawPair (r : exc (list nat * list nat))
| SawNothing
| SawList (l : list (list nat)).

(** [saw rnd e p cs q os]: in the environment e, the calls cs on p show os and leave q. *)
Inductive saw (rnd : Z -> Z) (e : nwenv) (p : pynw) : list wcall -> pynw -> list wseen -> Prop :=
| saw_none : saw rnd e p [] p []
| saw_get cs q os lb ub heur dfs q' r : saw rnd e p cs q os -> nw_get_max_clique rnd e q lb ub heur dfs = Ok (q', r) ->
    saw rnd e p (cs ++ [WGet lb ub heur dfs]) q' (os ++ [SawClique r])
| saw_correspondence cs q os len2 lb ub heur dfs q' r : saw rnd e p cs q os -> nw_get_correspondence rnd e q len2 lb ub heur dfs = Ok (q', r) ->
    saw rnd e p (cs ++ [WCorrespondence len2 lb ub heur dfs]) q' (os ++ [SawPair r])
| saw_reset cs q os q' : saw rnd e p cs q os -> nw_reset_search q = Ok q' -> saw rnd e p (cs ++ [WReset]) q' (os ++ [SawNothing])
| saw_list cs q os T en fuel q' en' l : saw rnd e p cs q os -> nw_all_cliques e q T = Ret en -> nw_drain rnd fuel (nw_lr e) q en = Ok (q', en', l) ->
    saw rnd e p (cs ++ [WList T]) q' (os ++ [SawList l]).

Definition uses_heuristic (c : wcall) : bool :=
  match c with WGet _ _ heur _ | WCorrespondence _ _ _ heur _ => heur | _ => false end.
