(** SpecShow: what graph::disp and nwgraph::disp should print (C111). No proofs here. *)
From Verif Require Import Base Spec MShow MNWShow.
Local Open Scope nat_scope.

(** Which of the vertices [row] are in [c], then [c] itself. *)
Definition clique_lines (row c : list nat) : list item :=
  map (fun x => Bit (existsb (Nat.eqb x) c)) row ++ Count (length c) (length row) :: map Num c ++ [Count (length c) (length row)].

(** The lines for vertex v, with the vertex and its neighbours in [row] and a clique [c]. *)
Definition lines (v : nat) (row c : list nat) : list item := Head v (length row) :: Current :: clique_lines row c.

(** The same with the weight [x] of the vertex, the weight [d] of the row and the number [m] printed as the weight of the clique. *)
Definition wlines (v : nat) (x d m : Z) (row c : list nat) : list nitem :=
  WHead v x d (length row) :: WCurrent m :: map Shown (clique_lines row c).
