(** P_Change: the same graph with other numbers (C98); a graph with one more edge (C99). *)
From Verif Require Import Base MBits MUtils MGraph MHeur MStack MRec MEnum MApi Spec SpecDec SpecChange SearchProps Samples ExtSamples ChangeFacts.
Local Open Scope nat_scope.

(** * C98. Full claim: renumbering the vertices renumbers the answers: the maximum has the same size, and all_cliques(k) lists as many cliques.

    False for all_cliques: the triangle 1-2-3 is not listed, with 1 and 6 exchanged it is. *)
Theorem C98_listed_refuted : exists p p' n adj adj' s k q en l q' en' l', made p n adj /\ made p' n adj' /\ renumbers n adj adj' s
  /\ storage_live p /\ storage_live p' /\ drain 100 true p (new_enum k) = Ok (q, en, l) /\ drain 100 true p' (new_enum k) = Ok (q', en', l')
  /\ l = [] /\ l' = [[2; 3; 6]].
Proof.
  exists (graph_of [(1, 2); (2, 3); (1, 3); (3, 4); (4, 5); (5, 6)] 6), (graph_of [(6, 2); (2, 3); (6, 3); (3, 4); (4, 5); (5, 1)] 6), 6,
    (adj_rows [(1, 2); (2, 3); (1, 3); (3, 4); (4, 5); (5, 6)]), (adj_rows [(6, 2); (2, 3); (6, 3); (3, 4); (4, 5); (5, 1)]),
    (fun v => match v with 1 => 6 | 6 => 1 | v => v end), 3. do 6 eexists.
  split; [apply made_of; [reflexivity|vm_compute; reflexivity]|]. split; [apply made_of; [reflexivity|vm_compute; reflexivity]|].
  split; [apply renumbersb_sound; vm_compute; reflexivity|]. split; [apply liveb_sound; vm_compute; reflexivity|]. split; [apply liveb_sound; vm_compute; reflexivity|].
  split; [vm_compute; reflexivity|]. split; [vm_compute; reflexivity|]. split; reflexivity.
Qed.
Print Assumptions C98_listed_refuted.

(** What holds: the first half, whatever the orders of equal degrees, ... *)
Theorem C98_maximum_partial : forall p p' n adj adj' s, made p n adj -> made p' n adj' -> renumbers n adj adj' s -> has_edge adj -> storage_live p -> storage_live p' ->
  forall e e' ub ub' heur heur' cont cont', permutes e -> untimed e -> permutes e' -> untimed e' ->
  (forall d, clique n adj d -> length d <= ub) -> (forall d, clique n adj d -> length d <= ub') ->
  exists q c q' c', get_max_clique e p 1 ub heur true cont = Ok (q, Ret c) /\ get_max_clique e' p' 1 ub' heur' true cont' = Ok (q', Ret c')
    /\ length c = length c' /\ exists d, image s c d /\ clique n adj' d.
Proof. exact renumber_max. Qed.
Print Assumptions C98_maximum_partial.

(** ... and the second for cliques without the new vertex 1, and for all if vertex 1 keeps its number. *)
Theorem C98_listed_partial : forall p p' n adj adj' s, made p n adj -> made p' n adj' -> renumbers n adj adj' s -> storage_live p -> storage_live p' ->
  forall lr lr' k, 2 <= k -> exists q en l q' en' l',
    (forall fuel, length l < fuel -> drain fuel lr p (new_enum k) = Ok (q, en, l))
    /\ (forall fuel, length l' < fuel -> drain fuel lr' p' (new_enum k) = Ok (q', en', l'))
    /\ (forall c d, StronglySorted lt d -> image s c d -> In c l -> In d l' \/ In 1 d)
    /\ (s 1 = 1 -> forall c d, StronglySorted lt c -> StronglySorted lt d -> (forall v, In v c -> 1 <= v <= n) -> image s c d -> (In c l <-> In d l')).
Proof. exact renumber_listed. Qed.
Print Assumptions C98_listed_partial.

(** 1 fixed, 2 and 6 exchanged. *)
Example C98_example : exists p p' adj adj' s q c q' c', made p 6 adj /\ made p' 6 adj' /\ renumbers 6 adj adj' s /\ s 1 = 1 /\ s 2 = 6 /\ has_edge adj
  /\ storage_live p /\ storage_live p' /\ permutes (run_env None) /\ untimed (run_env None)
  /\ get_max_clique (run_env None) p 1 6 true true false = Ok (q, Ret c) /\ c = [1; 2; 3]
  /\ get_max_clique (run_env None) p' 1 6 true true false = Ok (q', Ret c') /\ c' = [1; 3; 6] /\ image s c c'
  /\ exists q en q' en', drain 100 true p (new_enum 2) = Ok (q, en, [[2; 3]; [3; 4]; [4; 5]; [5; 6]])
       /\ drain 100 true p' (new_enum 2) = Ok (q', en', [[2; 5]; [3; 4]; [4; 5]; [3; 6]]).
Proof.
  exists (graph_of [(1, 2); (2, 3); (1, 3); (3, 4); (4, 5); (5, 6)] 6), (graph_of [(1, 6); (6, 3); (1, 3); (3, 4); (4, 5); (5, 2)] 6),
    (adj_rows [(1, 2); (2, 3); (1, 3); (3, 4); (4, 5); (5, 6)]), (adj_rows [(1, 6); (6, 3); (1, 3); (3, 4); (4, 5); (5, 2)]),
    (fun v => match v with 2 => 6 | 6 => 2 | v => v end). do 4 eexists.
  split; [apply made_of; [reflexivity|vm_compute; reflexivity]|]. split; [apply made_of; [reflexivity|vm_compute; reflexivity]|].
  split; [apply renumbersb_sound; vm_compute; reflexivity|]. split; [reflexivity|]. split; [reflexivity|]. split; [exists 1, 2; split; cbn; auto|].
  split; [apply liveb_sound; vm_compute; reflexivity|]. split; [apply liveb_sound; vm_compute; reflexivity|].
  split; [apply run_env_sorts|]. split; [reflexivity|]. split; [vm_compute; reflexivity|]. split; [reflexivity|]. split; [vm_compute; reflexivity|]. split; [reflexivity|].
  split. { intros v. cbn. split; [intros [<-|[<-|[<-|[]]]]; [exists 1|exists 3|exists 2]; auto|intros (u & [<-|[<-|[<-|[]]]] & ->); auto]. }
  do 4 eexists. split; vm_compute; reflexivity.
Qed.

(** * C99. Full claim: with one more edge the maximum clique has as many vertices or one more, and all_cliques(k) lists all it listed before.

    False for all_cliques: with the edge 2-6 the vertices 1 and 2 have the same degree, and the edge 1-2 is no longer listed. *)
Theorem C99_listed_refuted : exists p p' n adj adj' a b k q en l q' en' l', made p n adj /\ made p' n adj' /\ with_edge adj adj' a b
  /\ storage_live p /\ storage_live p' /\ drain 100 true p (new_enum k) = Ok (q, en, l) /\ drain 100 true p' (new_enum k) = Ok (q', en', l')
  /\ In [1; 2] l /\ ~ In [1; 2] l'.
Proof.
  exists (graph_of [(1, 2); (1, 3); (3, 4); (4, 5); (5, 6); (3, 5)] 6), (graph_of [(1, 2); (1, 3); (3, 4); (4, 5); (5, 6); (3, 5); (2, 6)] 6), 6,
    (adj_rows [(1, 2); (1, 3); (3, 4); (4, 5); (5, 6); (3, 5)]), (adj_rows [(1, 2); (1, 3); (3, 4); (4, 5); (5, 6); (3, 5); (2, 6)]), 2, 6, 2. do 6 eexists.
  split; [apply made_of; [reflexivity|vm_compute; reflexivity]|]. split; [apply made_of; [reflexivity|vm_compute; reflexivity]|].
  split; [refine (with_edge_rows [(1, 2); (1, 3); (3, 4); (4, 5); (5, 6); (3, 5)] 2 6 _); discriminate|]. split; [apply liveb_sound; vm_compute; reflexivity|]. split; [apply liveb_sound; vm_compute; reflexivity|].
  split; [vm_compute; reflexivity|]. split; [vm_compute; reflexivity|]. split; [cbn; auto 10|].
  intros H. repeat (destruct H as [H|H]; [discriminate|]). destruct H.
Qed.
Print Assumptions C99_listed_refuted.

(** What holds: the first half (and, for any number of new edges, that the maximum does not shrink), ... *)
Theorem C99_maximum_partial : forall p p' n (adj adj' : nat -> nat -> Prop), made p n adj -> made p' n adj' -> (forall u v, adj u v -> adj' u v) ->
  has_edge adj -> storage_live p -> storage_live p' ->
  forall e e' ub ub' heur heur' cont cont', permutes e -> untimed e -> permutes e' -> untimed e' ->
  (forall d, clique n adj d -> length d <= ub) -> (forall d, clique n adj' d -> length d <= ub') ->
  exists q c q' c', get_max_clique e p 1 ub heur true cont = Ok (q, Ret c) /\ get_max_clique e' p' 1 ub' heur' true cont' = Ok (q', Ret c')
    /\ length c <= length c' /\ forall a b, with_edge adj adj' a b -> length c' <= length c + 1.
Proof. exact edges_max. Qed.
Print Assumptions C99_maximum_partial.

(** ... and the second for cliques without vertex 1, and those of which only vertex 1 may be an end of the new edge. *)
Theorem C99_listed_partial : forall p p' n adj adj' a b, made p n adj -> made p' n adj' -> with_edge adj adj' a b -> storage_live p -> storage_live p' ->
  forall lr lr' k, 2 <= k -> exists q en l q' en' l',
    (forall fuel, length l < fuel -> drain fuel lr p (new_enum k) = Ok (q, en, l))
    /\ (forall fuel, length l' < fuel -> drain fuel lr' p' (new_enum k) = Ok (q', en', l'))
    /\ forall c, In c l -> ~ In 1 c \/ (forall v, In v c -> v <> 1 -> v <> a /\ v <> b) -> In c l'.
Proof. exact edges_listed. Qed.
Print Assumptions C99_listed_partial.

(** The edge 1-4 joins two triangles to a clique of four vertices. *)
Example C99_example : exists p p' adj adj' q c q' c', made p 6 adj /\ made p' 6 adj' /\ with_edge adj adj' 1 4 /\ has_edge adj
  /\ storage_live p /\ storage_live p'
  /\ get_max_clique (run_env None) p 1 6 true true false = Ok (q, Ret c) /\ length c = 3
  /\ get_max_clique (run_env None) p' 1 6 true true false = Ok (q', Ret c') /\ c' = [1; 2; 3; 4]
  /\ exists q en q' en', drain 100 true p (new_enum 3) = Ok (q, en, [[2; 3; 4]])
       /\ drain 100 true p' (new_enum 3) = Ok (q', en', [[2; 3; 4]]).
Proof.
  exists (graph_of [(1, 2); (2, 3); (1, 3); (3, 4); (2, 4); (4, 5); (5, 6)] 6), (graph_of [(1, 2); (2, 3); (1, 3); (3, 4); (2, 4); (4, 5); (5, 6); (1, 4)] 6),
    (adj_rows [(1, 2); (2, 3); (1, 3); (3, 4); (2, 4); (4, 5); (5, 6)]), (adj_rows [(1, 2); (2, 3); (1, 3); (3, 4); (2, 4); (4, 5); (5, 6); (1, 4)]). do 4 eexists.
  split; [apply made_of; [reflexivity|vm_compute; reflexivity]|]. split; [apply made_of; [reflexivity|vm_compute; reflexivity]|].
  split; [refine (with_edge_rows [(1, 2); (2, 3); (1, 3); (3, 4); (2, 4); (4, 5); (5, 6)] 1 4 _); discriminate|]. split; [exists 1, 2; split; cbn; auto|].
  split; [apply liveb_sound; vm_compute; reflexivity|]. split; [apply liveb_sound; vm_compute; reflexivity|].
  split; [vm_compute; reflexivity|]. split; [reflexivity|]. split; [vm_compute; reflexivity|]. split; [reflexivity|].
  do 4 eexists. split; vm_compute; reflexivity.
Qed.
