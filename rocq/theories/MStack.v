(** MStack: model of detail/graph/dfs_stack.cpp (class StackDFS).
    Data members that are always written before they are read inside one call (candidates_left, to_remove, j, k,
    vert, ans) are local values here. states.reserve has no observable effect. *)
From Verif Require Import Base MBits MUtils MGraph.
Local Open Scope nat_scope.

(** dfs_stack.cpp:118-130: which remaining candidates are not adjacent to [w]; state (k, start, to_remove, potential). *)
Definition sd_scan (g : graph) (v w : vertex) (cand : gbits) (cl csz : nat) (k0 pot0 : nat)
  : outcome (list nat * nat) :=
  loopN (S (S (vN v)))
    (fun '(k, start, rem, pot) =>
       if (k <? vN v) && (CUR_MAX_SIZE g <? pot) then
         val <- rd (edge_list g) (velo v + k);;
         '(fnd, ans) <- binary_find (edge_list g) (wrap (Z.of_nat (velo w) + start))
                          (wrap (Z.of_nat (vN w) - start)) val;;
         let rem := if (fnd : bool) then rem else rem ++ [k] in
         k' <- bits_next (edge_bits g) cand (k + 1);;
         Ok (Cont (k', wrap (start + ans), rem, (cl - length rem) + csz + 1))
       else Ok (Done (rem, pot)))
    (k0, Z.of_nat (vspos w), [], pot0).

(** dfs_stack.cpp:105-179: the candidate loop of the top state; state (graph, j, top state, candidates_left).
    Result: graph, final j, top state, and the new state if one is to be pushed. *)
Definition sd_inner (cur : nat) (v : vertex) (csz : nat) (g : graph) (j : nat) (st : sstate) (cl : nat)
  : outcome (graph * nat * sstate * option sstate) :=
  loopN (S (S (vN v)))
    (fun '(g, j, st, cl) =>
       if j <? vN v then
         m <- bits_reset (edge_bits g) (s_cand st) j;;
         let g := set_mem g m in
         nx <- bits_next (edge_bits g) (s_cand st) (j + 1);;
         let st := set_start st nx in
         let cl := cl - 1 in
         e <- rd (edge_list g) (velo v + j);;
         w <- rd (vertices g) e;;
         '(rem, pot) <- sd_scan g v w (s_cand st) cl csz nx (cl + 1 + csz);;
         if CUR_MAX_SIZE g <? pot then
           if cl =? 0 then
             m <- bits_set (edge_bits g) (s_res st) j;;
             g <- record_max (set_mem g m) cur (s_res st) pot;;
             m <- bits_reset (edge_bits g) (s_res st) j;;
             Ok (Cont (set_mem g m, nx, st, cl))
           else
             '(g, fut) <- push_state g (words (vN v)) st j rem;;
             Ok (Done (g, j, st, Some fut))
         else Ok (Cont (g, nx, st, cl))
       else Ok (Done (g, j, st, None)))
    (g, j, st, cl).

(** dfs_stack.cpp:86-194: one turn of the main loop; state (graph, stack with the top first, clique_size). *)
Definition sd_turn (cur : nat) (v : vertex) (s : graph * list sstate * nat)
  : outcome (step (graph * list sstate * nat) (graph * list sstate)) :=
  let '(g, states, csz) := s in
  match states with
  | [] => Ok (Done (g, states))
  | st :: rest =>
      if CLIQUE_LIMIT g <=? CUR_MAX_SIZE g then Ok (Done (g, states))
      else
        '(m, cl) <- bits_count (edge_bits g) (s_cand st);;
        let g := set_mem g m in
        st0 <- bits_next (edge_bits g) (s_cand st) (s_start st);;
        let st := set_start st st0 in
        '(g, j, st, fut) <- sd_inner cur v csz g st0 st cl;;
        let '(states, csz) := match fut with
                              | Some f => (f :: st :: rest, csz + 1)
                              | None => (st :: rest, csz)
                              end in
        if j =? vN v then
          g <- clear_memory g (words (vN v));;
          m <- bits_reset (edge_bits g) (s_res st) (s_id st);;
          Ok (Cont (set_mem g m, tl states, csz - 1))
        else Ok (Cont (g, states, csz))
  end.

(** dfs_stack.cpp:42-206 process_vertex *)
Definition sd_process_vertex (lr : bool) (g : graph) (cur : nat) : outcome graph :=
  v <- rd (vertices g) cur;;
  let req := words (vN v) in
  '(g, x) <- root_state lr g v;;
  '(m, pot) <- root_cands g v (s_cand x);;
  let g := set_mem g m in
  if pot <=? CUR_MAX_SIZE g then clear_memory g (2 * req)
  else
    '(g, states) <- run2 (S (S (vN v))) (sd_turn cur v) (g, [x], 1);;
    g <- (match states with
          | [] => Ok g
          | _ => clear_memory g (req * length states)
          end);;
    clear_memory g req.

(** dfs_stack.cpp:25-40 process_graph; returns the graph and G.n_vert. *)
Definition sd_process_graph (lr : bool) (g : graph) : outcome (graph * nat) :=
  g <- sd_process_vertex lr g (CUR_MAX_LOC g);;
  g <- for_ 0 (n_vert g)
    (fun i g =>
       v <- rd (vertices g) i;;
       if (vmcs v <=? CUR_MAX_SIZE g) || (CLIQUE_LIMIT g <=? CUR_MAX_SIZE g) then Ok g
       else sd_process_vertex lr g i) g;;
  Ok (g, n_vert g).
