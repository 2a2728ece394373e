(** MHeur: model of detail/graph/heuristic.{h,cpp} (class DegreeHeuristic).
    std::sort with a comparison on N only leaves ties in unspecified order: [srt] is the sorting function. *)
From Verif Require Import Base MBits MUtils MGraph.
Local Open Scope nat_scope.

(** heuristic.h:13-24 vdata *)
Record vdata : Type := mkD { d_id : nat; d_N : nat; d_pos : nat }.

(** heuristic.cpp:59-76: collect the neighbours; state (memory, neighbors vector, j). [strict] selects the first loop's
    test (<=) or the second's (<). *)
Definition heur_collect (strict : bool) (g : graph) (v : vertex) (cand : gbits) (lo hi : nat)
  (s : list N * list vdata * nat) : outcome (list N * list vdata * nat) :=
  for_ lo hi
    (fun i '(m, nb, j) =>
       e <- rd (edge_list g) (velo v + i);;
       nb <- wr nb j (mkD e 0 i);;
       w <- rd (vertices g) e;;
       if (if strict then vN w <=? vN v else vN w <? vN v) then Ok (m, nb, j)
       else
         nb <- wr nb j (mkD e (vN w) i);;
         m <- bits_set m cand i;;
         Ok (m, nb, S j))
    s.

(** heuristic.cpp:96-106: drop the candidates not adjacent to neighbour i; state (memory, candidates_left). *)
Definition heur_filter (g : graph) (nb : list vdata) (cand : gbits) (cand_max i : nat) (m : list N) (cl : nat)
  : outcome (list N * nat) :=
  di <- rd nb i;;
  for_ (i + 1) cand_max
    (fun j '(m, cl) =>
       dj <- rd nb j;;
       b <- bits_get m cand (d_pos dj);;
       if negb b then Ok (m, cl)
       else
         '(fnd, _) <- find_if_neighbors g (d_id dj) (d_id di);;
         if (fnd : bool) then Ok (m, cl)
         else m <- bits_reset m cand (d_pos dj);; Ok (m, cl - 1))
    (m, cl).

(** heuristic.cpp:42-131 process_vertex; returns the graph and the neighbors vector. *)
Definition heur_process_vertex (srt : list vdata -> list vdata) (g : graph) (nb : list vdata) (cur : nat)
  (res cand : gbits) : outcome (graph * list vdata) :=
  v <- rd (vertices g) cur;;
  m <- bits_clear (edge_bits g) res (vN v);;
  m <- bits_clear m cand (vN v);;
  m <- bits_set m res (vspos v);;
  s <- heur_collect true g v cand 0 (vspos v) (m, nb, 0);;
  '(m, nb, cl) <- heur_collect false g v cand (vspos v + 1) (vN v) s;;
  let g := set_mem g m in
  if cl <=? CUR_MAX_SIZE g then Ok (g, nb)
  else
    let nb := srt (firstn cl nb) ++ skipn cl nb in
    let cand_max := cl in
    g <- loopN (S cand_max)
      (fun '(g, i, csz, cl) =>
         if i <? cand_max then
           di <- rd nb i;;
           b <- bits_get (edge_bits g) cand (d_pos di);;
           if negb b then Ok (Cont (g, i + 1, csz, cl))
           else
             m <- bits_set (edge_bits g) res (d_pos di);;
             let csz := csz + 1 in
             m <- bits_reset m cand (d_pos di);;
             let cl := cl - 1 in
             '(m, cl) <- heur_filter g nb cand cand_max i m cl;;
             let g := set_mem g m in
             let pot := csz + cl in
             if pot <=? CUR_MAX_SIZE g then Ok (Done g)
             else if cl =? 0 then
               v <- rd (vertices g) cur;;
               _ <- live g;;
               m <- bits_copy_data (edge_bits g) (vbits v) res;;
               Ok (Done (set_best (set_mem g m) csz cur))
             else Ok (Cont (g, i + 1, csz, cl))
         else Ok (Done g))
      (g, 0, 1, cl);;
    Ok (g, nb).

(** heuristic.cpp:22-40 process_graph (its return value is not used). neighbors.resize zero-initialises. *)
Definition heur_process_graph (srt : list vdata -> list vdata) (g : graph) : outcome graph :=
  let nb := repeat (mkD 0 0 0) (max_degree g) in
  let req := words (max_degree g) in
  '(g, p1) <- load_memory g req;;
  '(g, p2) <- load_memory g req;;
  let res := refer_from p1 (max_degree g) in
  let cand := refer_from p2 (max_degree g) in
  '(g, nb) <- heur_process_vertex srt g nb (CUR_MAX_LOC g) res cand;;
  '(g, nb) <- loopN (S (n_vert g))
    (fun '(g, nb, i) =>
       if (i <? n_vert g) && (CUR_MAX_SIZE g <? CLIQUE_LIMIT g) then
         v <- rd (vertices g) i;;
         if vmcs v <=? CUR_MAX_SIZE g then Ok (Cont (g, nb, i + 1))
         else
           '(g, nb) <- heur_process_vertex srt g nb i res cand;;
           Ok (Cont (g, nb, i + 1))
       else Ok (Done (g, nb)))
    (g, nb, 0);;
  clear_memory g (2 * req).
