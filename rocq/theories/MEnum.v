(** MEnum: model of detail/graph/enumerate.cpp (class CliqueEnumerator, dfs.h:58-74). *)
From Verif Require Import Base MBits MUtils MGraph.
Local Open Scope nat_scope.

(** The members that survive between calls: states (top first), clique_size, cur, request_size, REQUIRED_SIZE. *)
Record enum : Type := mkE { e_states : list sstate; e_csz : nat; e_cur : nat; e_req : nat; e_size : nat }.

(** dfs.h:71, clique.h:26 *)
Definition new_enum (size : nat) : enum := mkE [] 0 1 0 size.

(** enumerate.cpp:39-84 load_vertex *)
Definition en_load_vertex (lr : bool) (g : graph) (en : enum) : outcome (graph * enum * bool) :=
  v <- rd (vertices g) (e_cur en);;
  let req := words (vN v) in
  '(g, x) <- root_state lr g v;;
  '(m, pot) <- root_cands g v (s_cand x);;
  let g := set_mem g m in
  if pot <? e_size en then
    g <- clear_memory g (2 * req);;
    Ok (g, mkE (e_states en) (e_csz en) (e_cur en) req (e_size en), false)
  else Ok (g, mkE (x :: e_states en) 1 (e_cur en) req (e_size en), true).

(** enumerate.cpp:27-36 process_vertex: the loop starts with cur++. *)
Definition en_process_vertex (lr : bool) (g : graph) (en : enum) : outcome (graph * enum) :=
  loopN (S (S (length (vertices g) - e_cur en)))
    (fun '(g, en) =>
       if e_cur en <? length (vertices g) then
         v <- rd (vertices g) (e_cur en);;
         let next := mkE (e_states en) (e_csz en) (e_cur en + 1) (e_req en) (e_size en) in
         if vmcs v <? e_size en then Ok (Cont (g, next))
         else
           '(g, en, ok) <- en_load_vertex lr g en;;
           if (ok : bool) then Ok (Done (g, en))
           else Ok (Cont (g, mkE (e_states en) (e_csz en) (e_cur en + 1) (e_req en) (e_size en)))
       else Ok (Done (g, en)))
    (g, mkE (e_states en) (e_csz en) (e_cur en + 1) (e_req en) (e_size en)).

(** enumerate.cpp:146-159: candidates after j not adjacent to [w]; state (k, start, to_remove, potential). *)
Definition en_scan (g : graph) (v w : vertex) (cand : gbits) (required cl csz j pot0 : nat)
  : outcome (list nat * nat) :=
  loopN (S (S (vN v)))
    (fun '(k, start, rem, pot) =>
       if (k <? vN v) && (required <=? pot) then
         b <- bits_get (edge_bits g) cand k;;
         if negb b then Ok (Cont (k + 1, start, rem, pot))
         else
           val <- rd (edge_list g) (velo v + k);;
           '(fnd, ans) <- binary_find (edge_list g) (wrap (Z.of_nat (velo w) + start))
                            (wrap (Z.of_nat (vN w) - start)) val;;
           let rem := if (fnd : bool) then rem else rem ++ [k] in
           Ok (Cont (k + 1, wrap (start + ans), rem, (cl - length rem) + csz + 1))
       else Ok (Done (rem, pot)))
    (j + 1, (Z.of_nat (vspos w) + 1)%Z, [], pot0).

(** What the candidate loop decided. *)
Inductive en_result : Type :=
| EnExhausted                 (* j reached N *)
| EnFound                     (* a clique was stored at cur: return *)
| EnPush (s : sstate).        (* push a new state *)

(** enumerate.cpp:132-208: the candidate loop of the top state; state (graph, j, top, candidates_left). *)
Definition en_inner (cur : nat) (v : vertex) (required csz : nat) (g : graph) (st : sstate) (cl : nat)
  : outcome (graph * sstate * en_result) :=
  loopN (S (S (vN v)))
    (fun '(g, j, st, cl) =>
       if j <? vN v then
         b <- bits_get (edge_bits g) (s_cand st) j;;
         if negb b then Ok (Cont (g, j + 1, st, cl))
         else
           m <- bits_reset (edge_bits g) (s_cand st) j;;
           let g := set_mem g m in
           let st := set_start st (j + 1) in
           let cl := cl - 1 in
           e <- rd (edge_list g) (velo v + j);;
           w <- rd (vertices g) e;;
           '(rem, pot) <- en_scan g v w (s_cand st) required cl csz j (cl + 1 + csz);;
           if required <=? pot then
             if required <=? csz + 1 then
               m <- bits_set (edge_bits g) (s_res st) j;;
               vv <- rd (vertices g) cur;;
               _ <- live g;;
               m <- bits_copy_data m (vbits vv) (s_res st);;
               m <- bits_reset m (s_res st) j;;
               Ok (Done (set_mem g m, st, EnFound))
             else
               '(g, fut) <- push_state g (words (vN v)) st j rem;;
               Ok (Done (g, st, EnPush fut))
           else Ok (Cont (g, j + 1, st, cl))
       else Ok (Done (g, st, EnExhausted)))
    (g, s_start st, st, cl).

(** enumerate.cpp:106-223: one turn of the main loop. Done carries the return value. *)
Definition en_turn (lr : bool) (s : graph * enum) : outcome (step (graph * enum) (graph * enum * nat)) :=
  let '(g, en) := s in
  if e_cur en <? n_vert g then
    match e_states en with
    | [] =>
        g <- clear_memory g (e_req en);;
        '(g, en) <- en_process_vertex lr g en;;
        Ok (Cont (g, en))
    | st :: rest =>
        v <- rd (vertices g) (e_cur en);;
        '(m, cl) <- bits_count (edge_bits g) (s_cand st);;
        '(g, st, r) <- en_inner (e_cur en) v (e_size en) (e_csz en) (set_mem g m) st cl;;
        match r with
        | EnFound => Ok (Done (g, mkE (st :: rest) (e_csz en) (e_cur en) (e_req en) (e_size en), e_cur en))
        | EnPush f =>
            Ok (Cont (g, mkE (f :: st :: rest) (e_csz en + 1) (e_cur en) (e_req en) (e_size en)))
        | EnExhausted =>
            g <- clear_memory g (e_req en);;
            m <- bits_reset (edge_bits g) (s_res st) (s_id st);;
            Ok (Cont (set_mem g m, mkE rest (e_csz en - 1) (e_cur en) (e_req en) (e_size en)))
        end
    end
  else Ok (Done (g, en, e_cur en)).

(** enumerate.cpp:88-229 process_graph; returns graph, enumerator, return value. The fuel 2^(n_vert + max_degree + 2) is
    shown to suffice. *)
Definition en_process_graph (lr : bool) (g : graph) (en : enum) : outcome (graph * enum * nat) :=
  if e_size en =? 0 then
    Ok (g, mkE (e_states en) (e_csz en) (n_vert g) (e_req en) (e_size en), n_vert g)
  else if (e_size en =? 1) && (e_cur en <? n_vert g) then
    v <- rd (vertices g) (e_cur en);;
    _ <- live g;;
    m <- bits_clear (edge_bits g) (vbits v) 0;;
    m <- bits_set m (vbits v) (vspos v);;
    Ok (set_mem g m, mkE (e_states en) (e_csz en) (e_cur en + 1) (e_req en) (e_size en), e_cur en)
  else run2 (n_vert g + max_degree g + 2) (en_turn lr) (g, en).
