(** MNWShow: the functions of wvertex.cpp and nwgraph.cpp that print a graph with weights (no binding calls them).
    Simplifications: as in MShow. *)
From Verif Require Import Base MBits MUtils MGraph MNW MShow.
Local Open Scope nat_scope.

Inductive nitem : Type :=
| Shown (i : item)                               (* what graphBits::show writes *)
| WHead (id : nat) (weight degree : Z) (len : nat)  (* wvertex.cpp:11-13: "Vertex id has weight = w, and degree d from len edges" *)
| WCurrent (mcs : Z).                            (* wvertex.cpp:16: "Current Clique (weight = mcs):" *)

(** wvertex.cpp:8-19 disp(id, el_base); wvertex.cpp:21-24 clique_disp is its last line alone. *)
Definition nw_vertex_disp (W : nwgraph) (id : nat) (v : vertex) : outcome (nwgraph * list nitem * list nat) :=
  x <- rd (w_wt W) id;;
  d <- rd (w_deg W) id;;
  c <- rd (w_mcs W) id;;
  if (vN v <=? 1) || (c <=? x)%Z then Ok (W, [], [])
  else
    err <- for_ 0 (vN v) (fun i l => e <- rd (edge_list (w_g W)) (velo v + i);; Ok (l ++ [e])) [];;
    _ <- live (w_g W);;
    '(m, l1) <- show_bits (edge_bits (w_g W)) (vbits v);;
    let W := set_wmem W m in
    '(m, l2) <- show_elements (edge_bits (w_g W)) (vbits v) (edge_list (w_g W)) (velo v);;
    Ok (set_wmem W m, WHead id x d (vN v) :: WCurrent c :: map Shown (l1 ++ l2), err).

(** nwgraph.cpp:142-146 disp() *)
Definition nw_disp (W : nwgraph) : outcome (nwgraph * list nitem * list nat) :=
  for_ 0 (n_vert (w_g W))
    (fun i '(W, out, err) =>
       v <- rd (vertices (w_g W)) i;;
       '(W, l, e) <- nw_vertex_disp W i v;;
       Ok (W, out ++ l, err ++ e)) (W, [], []).
