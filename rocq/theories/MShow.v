(** MShow: the functions of gbits.cpp, vertex.cpp and graph.cpp that print a graph (they are for debugging; no binding calls them).
    Simplifications: std::cout is a list of items, one for each insertion of a value, together with the text around it;
    std::cerr, to which vertex::disp writes the neighbours, is a list of numbers; how the two streams mix is not modelled. *)
From Verif Require Import Base MBits MUtils MGraph.
Local Open Scope nat_scope.

Inductive item : Type :=
| Bit (b : bool)            (* gbits.cpp:73: one bit, 0 or 1 *)
| Num (x : nat)             (* gbits.cpp:82, 92: an element and a blank *)
| Count (c len : nat)       (* gbits.cpp:74, 84, 94: " (c/len)" and the end of the line *)
| Head (id len : nat)       (* vertex.cpp:16: "Vertex id has len edges" and the end of the line *)
| Current.                  (* vertex.cpp:18: "Current Clique: " *)

(** gbits.cpp:71-75 show() *)
Definition show_bits (m : list N) (b : gbits) : outcome (list N * list item) :=
  l <- for_ 0 (glen b) (fun i l => x <- bits_get m b i;; Ok (l ++ [Bit x])) [];;
  '(m, c) <- bits_count m b;;
  Ok (m, l ++ [Count c (glen b)]).

(** gbits.cpp:87-95 show(elements, len): [base] is the offset of elements[0] in edge_list. gbits.cpp:77-85 is the same with [base] 0. *)
Definition show_elements (m : list N) (b : gbits) (elems : list nat) (base : nat) : outcome (list N * list item) :=
  l <- for_ 0 (glen b)
        (fun i l => x <- bits_get m b i;; if (x : bool) then e <- rd elems (base + i);; Ok (l ++ [Num e]) else Ok l) [];;
  '(m, c) <- bits_count m b;;
  Ok (m, l ++ [Count c (glen b)]).

(** vertex.cpp:13-21 disp(id, el_base); vertex.cpp:23-26 clique_disp is its last line alone. *)
Definition vertex_disp (g : graph) (id : nat) (v : vertex) : outcome (graph * list item * list nat) :=
  if (vN v <=? 1) || (vmcs v <=? 1) then Ok (g, [], [])
  else
    err <- for_ 0 (vN v) (fun i l => e <- rd (edge_list g) (velo v + i);; Ok (l ++ [e])) [];;
    _ <- live g;;
    '(m, l1) <- show_bits (edge_bits g) (vbits v);;
    let g := set_mem g m in
    '(m, l2) <- show_elements (edge_bits g) (vbits v) (edge_list g) (velo v);;
    Ok (set_mem g m, Head id (vN v) :: Current :: l1 ++ l2, err).

(** graph.cpp:141-145 disp() *)
Definition graph_disp (g : graph) : outcome (graph * list item * list nat) :=
  for_ 0 (n_vert g)
    (fun i '(g, out, err) =>
       v <- rd (vertices g) i;;
       '(g, l, e) <- vertex_disp g i v;;
       Ok (g, out ++ l, err ++ e)) (g, [], []).
