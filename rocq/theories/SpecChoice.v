(** SpecChoice: programs that use one Graph, for the comparison of two evaluation orders (C89). No proofs here. *)
From Verif Require Import Base MUtils MGraph MHeur MEnum MApi.
Local Open Scope nat_scope.

Inductive gcall : Type :=
| GGet (clk : option (nat -> bool)) (lb ub : nat) (heur dfs cont : bool)        (* get_max_clique *)
| GCorrespondence (clk : option (nat -> bool)) (len2 lb ub : nat) (heur dfs cont : bool)
| GReset
| GList (k : nat).                                                              (* list(G.all_cliques(k)) *)

Inductive gseen : Type :=
| GClique (r : exc (list nat))
| GPair (r : exc (list nat * list nat))
| GNothing
| GAll (l : list (list nat)).

(** [ran lr srt p cs q os]: the calls cs on p show os and leave q, when call number i evaluates the two allocations of a root
    state in the order lr i and std::sort behaves as srt. *)
Inductive ran (lr : nat -> bool) (srt : list vdata -> list vdata) (p : pygraph) : list gcall -> pygraph -> list gseen -> Prop :=
| ran_none : ran lr srt p [] p []
| ran_get cs q os clk lb ub heur dfs cont q' r : ran lr srt p cs q os ->
    get_max_clique (mkEnv (lr (length cs)) srt clk) q lb ub heur dfs cont = Ok (q', r) ->
    ran lr srt p (cs ++ [GGet clk lb ub heur dfs cont]) q' (os ++ [GClique r])
| ran_correspondence cs q os clk len2 lb ub heur dfs cont q' r : ran lr srt p cs q os ->
    get_correspondence (mkEnv (lr (length cs)) srt clk) q len2 lb ub heur dfs cont = Ok (q', r) ->
    ran lr srt p (cs ++ [GCorrespondence clk len2 lb ub heur dfs cont]) q' (os ++ [GPair r])
| ran_reset cs q os q' : ran lr srt p cs q os -> reset_search q = Ok q' -> ran lr srt p (cs ++ [GReset]) q' (os ++ [GNothing])
| ran_list cs q os k en fuel q' en' l : ran lr srt p cs q os -> all_cliques q k = Ret en ->
    drain fuel (lr (length cs)) q en = Ok (q', en', l) -> ran lr srt p (cs ++ [GList k]) q' (os ++ [GAll l]).

(** The clock of the call does not run backwards, or its lower bound is positive. *)
Definition call_lawful (c : gcall) : Prop :=
  match c with
  | GGet (Some clk) lb _ _ _ _ | GCorrespondence (Some clk) _ lb _ _ _ _ =>
      1 <= lb \/ forall i j, i <= j -> clk i = true -> clk j = true
  | _ => True
  end.

Definition call_heuristic (c : gcall) : bool :=
  match c with GGet _ _ _ heur _ _ | GCorrespondence _ _ _ _ heur _ _ => heur | _ => false end.
