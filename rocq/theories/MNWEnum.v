(** MNWEnum: model of detail/nwgraph/nw_enumerate.cpp (class NWCliqueEnumerator, nwclique.h:71-90). *)
From Verif Require Import Base MBits MUtils MGraph MNW.
Local Open Scope nat_scope.

(** The members that survive between calls: states (top first, each with its potential), clique_weight, cur, request_size,
    REQUIRED_WEIGHT and the storage of weights. *)
Record nenum : Type := mkNE {
  ne_states : list (sstate * Z); ne_cw : Z; ne_cur : nat; ne_req : nat; ne_W : Z; ne_buf : list Z }.

(** nwclique.h:87 and nw_enumerate.cpp:80: cur starts at 1; the first call reserves room for max_neighbors doubles whose
    values are indeterminate; here the storage is given at creation. *)
Definition new_nenum (buf : list Z) (w : Z) : nenum := mkNE [] 0%Z 1 0 w buf.

Section Round.
Variable rnd : Z -> Z.   (* as in MNW *)

(** nw_enumerate.cpp:22-71 load_vertex *)
Definition ne_load_vertex (lr : bool) (W : nwgraph) (en : nenum) : outcome (nwgraph * nenum * bool) :=
  let cur := ne_cur en in
  v <- rd (vertices (w_g W)) cur;;
  let req := words (vN v) in
  '(g, x) <- root_state lr (w_g W) v;;
  '(m, buf, pot) <- nw_root_cands rnd (set_wg W g) cur v (s_cand x) (ne_buf en);;
  let g := set_mem g m in
  wc <- rd (w_wt W) cur;;
  if (rnd (pot + wc) <? ne_W en)%Z then
    g <- clear_memory g (2 * req);;
    Ok (set_wg W g, mkNE (ne_states en) (ne_cw en) cur req (ne_W en) buf, false)
  else Ok (set_wg W g, mkNE ((x, pot) :: ne_states en) wc cur req (ne_W en) buf, true).

Definition ne_advance (en : nenum) : nenum :=
  mkNE (ne_states en) (ne_cw en) (ne_cur en + 1) (ne_req en) (ne_W en) (ne_buf en).

(** nw_enumerate.cpp:7-18 process_vertex: the loop starts with cur++. *)
Definition ne_process_vertex (lr : bool) (W : nwgraph) (en : nenum) : outcome (nwgraph * nenum) :=
  loopN (S (S (length (vertices (w_g W)) - ne_cur en)))
    (fun '(W, en) =>
       if ne_cur en <? length (vertices (w_g W)) then
         b <- rd (w_mcs W) (ne_cur en);;
         if (b <? ne_W en)%Z then Ok (Cont (W, ne_advance en))
         else
           '(W, en, ok) <- ne_load_vertex lr W en;;
           if (ok : bool) then Ok (Done (W, en)) else Ok (Cont (W, ne_advance en))
       else Ok (Done (W, en)))
    (W, ne_advance en).

(** nw_enumerate.cpp:115-138: the candidates after j not adjacent to [w]; state (k, to_remove, cand_potential,
    clique_potential). The counter candidates_left is never read and left out. *)
Definition ne_scan (g : graph) (v w : vertex) (cand : gbits) (buf : list Z) (required cw wj pot : Z) (j : nat)
  : outcome (list nat * Z * Z) :=
  loopN (S (S (vN v)))
    (fun '(k, rem, pot, cpot) =>
       if (k <? vN v) && (required <=? cpot)%Z then
         b <- bits_get (edge_bits g) cand k;;
         if negb b then Ok (Cont (k + 1, rem, pot, cpot))
         else
           val <- rd (edge_list g) (velo v + k);;
           '(fnd, _) <- binary_find (edge_list g) (wrap (Z.of_nat (velo w) + Z.of_nat (vspos w)))
                          (wrap (Z.of_nat (vN w) - Z.of_nat (vspos w))) val;;
           '(rem, pot) <- (if (fnd : bool) then Ok (rem, pot)
                           else x <- rd buf k;; Ok (rem ++ [k], rnd (pot - x)%Z));;
           Ok (Cont (k + 1, rem, pot, (rnd (rnd (pot + cw) + wj)%Z)))
       else Ok (Done (rem, pot, cpot)))
    (j + 1, [], pot, (rnd (rnd (pot + cw) + wj)%Z)).

(** What the candidate loop decided. *)
Inductive ne_result : Type :=
| NeExhausted                               (* j reached N *)
| NeFound                                   (* a clique was stored at cur: return *)
| NePush (s : sstate) (pot cw : Z).         (* push a new state *)

(** nw_enumerate.cpp:108-189: the candidate loop of the top state; state (graph, j, top). [pot] is the top's potential,
    which is never decreased. *)
Definition ne_inner (cur : nat) (v : vertex) (required cw pot : Z) (buf : list Z) (W : nwgraph) (st : sstate)
  : outcome (nwgraph * sstate * ne_result) :=
  loopN (S (S (vN v)))
    (fun '(W, j, st) =>
       let g := w_g W in
       if j <? vN v then
         b <- bits_get (edge_bits g) (s_cand st) j;;
         if negb b then Ok (Cont (W, j + 1, st))
         else
           m <- bits_reset (edge_bits g) (s_cand st) j;;
           let st := set_start st (j + 1) in
           '(m, _) <- bits_count m (s_cand st);;
           let g := set_mem g m in
           let W := set_wg W g in
           wj <- rd buf j;;
           e <- rd (edge_list g) (velo v + j);;
           w <- rd (vertices g) e;;
           '(rem, cp, cpot) <- ne_scan g v w (s_cand st) buf required cw wj pot j;;
           if (required <=? cpot)%Z then
             if (required <=? rnd (cw + wj))%Z then
               m <- bits_set (edge_bits g) (s_res st) j;;
               vv <- rd (vertices g) cur;;
               _ <- live g;;
               m <- bits_copy_data m (vbits vv) (s_res st);;
               m <- bits_reset m (s_res st) j;;
               Ok (Done (set_wmem W m, st, NeFound))
             else
               '(g, fut) <- push_state g (words (vN v)) st j rem;;
               Ok (Done (set_wg W g, st, NePush fut cp (rnd (cw + wj)%Z)))
           else Ok (Cont (W, j + 1, st))
       else Ok (Done (W, st, NeExhausted)))
    (W, s_start st, st).

(** nw_enumerate.cpp:82-204: one turn of the main loop. Done carries the return value. *)
Definition ne_turn (lr : bool) (s : nwgraph * nenum) : outcome (step (nwgraph * nenum) (nwgraph * nenum * nat)) :=
  let '(W, en) := s in
  if ne_cur en <? n_vert (w_g W) then
    match ne_states en with
    | [] =>
        g <- clear_memory (w_g W) (ne_req en);;
        '(W, en) <- ne_process_vertex lr (set_wg W g) en;;
        Ok (Cont (W, en))
    | (st, pot) :: rest =>
        let cur := ne_cur en in
        v <- rd (vertices (w_g W)) cur;;
        '(m, _) <- bits_count (edge_bits (w_g W)) (s_cand st);;
        '(W, st, r) <- ne_inner cur v (ne_W en) (ne_cw en) pot (ne_buf en) (set_wmem W m) st;;
        let put states cw := mkNE states cw cur (ne_req en) (ne_W en) (ne_buf en) in
        match r with
        | NeFound => Ok (Done (W, put ((st, pot) :: rest) (ne_cw en), cur))
        | NePush f fp cw => Ok (Cont (W, put ((f, fp) :: (st, pot) :: rest) cw))
        | NeExhausted =>
            g <- clear_memory (w_g W) (ne_req en);;
            m <- bits_reset (edge_bits g) (s_res st) (s_id st);;
            x <- rd (ne_buf en) (s_id st);;
            Ok (Cont (set_wg W (set_mem g m), put rest (rnd (ne_cw en - x)%Z)))
        end
    end
  else Ok (Done (W, en, ne_cur en)).

(** nw_enumerate.cpp:75-210 process_graph; returns graph, enumerator, return value. *)
Definition ne_process_graph (lr : bool) (W : nwgraph) (en : nenum) : outcome (nwgraph * nenum * nat) :=
  run2 (n_vert (w_g W) + max_degree (w_g W) + 2) (ne_turn lr) (W, en).
End Round.
